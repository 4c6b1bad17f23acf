(** Models of emulated field arithmetic (/repo/relation/src/gadgets/emulated.rs)
    and of the curve gadgets built on it
    (/repo/relation/src/gadgets/ecc/emulated/{short_weierstrass,twisted_edwards}.rs). *)

From Coq Require Import List Arith ZArith Bool Lia.
From Verif Require Import Base Alg CircuitModel GadgetModel.
Import ListNotations.
Local Open Scope fld_scope.
Local Open Scope circ_scope.

Section Emulated.
  Context {K : fld}.
  (** The native field, as in [GadgetModel]. *)
  Variable zval : K -> Z.
  Variable modulus : Z.
  Variable nbits repr_bits : nat.
  (** The emulated field [E]: [ez] is [into::<BigUint>()], [fZ] is
      [E::from(BigUint)], [q] is [E::MODULUS]. *)
  Context {E : fld}.
  Variable ez : E -> Z.
  Variable q : Z.
  (** emulated.rs:22-30, [EmulationConfig]: [E::T], [E::B], [E::NUM_LIMBS]. *)
  Variables T B NL : nat.

  Notation C := (circ K).
  Notation in_range a n := (enforce_in_range zval modulus nbits repr_bits a n).

  (** An [EmulatedVariable] is its list of native variables. *)
  Definition evar := list nat.

  (** emulated.rs:38-49 *)
  Fixpoint biguint_to_limbs (val : Z) (b n : nat) : list K :=
    match n with
    | O => []
    | S n' => fZ (val mod 2 ^ Z.of_nat b)%Z :: biguint_to_limbs (val / 2 ^ Z.of_nat b)%Z b n'
    end.
  (** emulated.rs:51-58 *)
  Definition from_emulated_field (v : E) : list K := biguint_to_limbs (ez v) B NL.
  (** emulated.rs:60-77 *)
  Definition to_emulated_field (vals : list K) : outcome cerr E :=
    if negb (length vals =? NL)%nat then Err FieldAlgebraError
    else Ok (fZ (fold_right (fun v r => (r * 2 ^ Z.of_nat B + zval v)%Z) 0%Z vals)).

  (** emulated.rs:91-102 *)
  Definition emulated_witness (a : evar) : C E :=
    vals <- mapM get_witness a ;; lift (fun _ => to_emulated_field vals).
  (** emulated.rs:116-128 *)
  Definition create_emulated_variable_unchecked (v : E) : C evar :=
    mapM create_variable (from_emulated_field v).
  (** emulated.rs:104-114 *)
  Definition create_emulated_variable (v : E) : C evar :=
    vs <- create_emulated_variable_unchecked v ;;
    iterM (fun x => in_range x B) vs >> ret vs.
  (** emulated.rs:129-141 *)
  Definition create_constant_emulated_variable (v : E) : C evar :=
    mapM create_constant_variable (from_emulated_field v).
  (** emulated.rs:143-155: no range check. *)
  Definition create_public_emulated_variable (v : E) : C evar :=
    mapM create_public_variable (from_emulated_field v).

  (** [F::from(2u32).pow([E::B])] *)
  Definition b_pow : K := fpow (fZ 2) B.
  (** Field division; the code panics on a zero divisor, which [b_pow] is only in
      characteristic two. *)
  Definition div_b (x : K) : K := x * finv b_pow.

  (** The stack of wires and coefficients of emulated.rs:225-270, top first.
      emulated.rs:255-262: four entries are replaced by their combination while
      there are more than four; [fuel] bounds the number of rounds. *)
  Fixpoint reduce_stack (fuel : nat) (st : list (nat * K)) : C (list (nat * K)) :=
    match fuel, st with
    | S f, (v1, c1) :: (v2, c2) :: (v3, c3) :: (v4, c4) :: (x :: st') =>
        t <- lc v1 v2 v3 v4 c1 c2 c3 c4 ;; reduce_stack f ((t, 1) :: x :: st')
    | _, _ => ret st
    end.
  (** emulated.rs:263-269: the last entries, with the zero variable for missing
      ones, must combine to [o]. *)
  Definition finish_stack (st : list (nat * K)) (o : nat) : C unit :=
    let e i := nth i st (0%nat, 0) in
    lc_gate (fst (e 0%nat)) (fst (e 1%nat)) (fst (e 2%nat)) (fst (e 3%nat)) o
            (snd (e 0%nat)) (snd (e 1%nat)) (snd (e 2%nat)) (snd (e 3%nat)).
  Definition sum_stack (st : list (nat * K)) (o : nat) : C unit :=
    st' <- reduce_stack (length st) st ;; finish_stack st' o.

  (** emulated.rs:220-221: [u64::BITS - num_vals.leading_zeros()] *)
  Definition log_num_vals (i : nat) : nat := S (Nat.log2 (2 * i + 2)).

  (** [(0..=i).map(|j| k[j] * n[i-j] + a[j] * b[i-j]).sum()] *)
  Definition limb_sum (kl nl al bl : list K) (i : nat) : K :=
    fsum (map (fun j => nth j kl 0 * nth (i - j) nl 0 + nth j al 0 * nth (i - j) bl 0) (seq 0 (S i))).

  (** emulated.rs:658-692 *)
  Definition mod_to_native_field (a : evar) : C nat :=
    let x i := nth i a 0%nat in
    let b2 := b_pow * b_pow in
    let b3 := b2 * b_pow in
    r <- lc (x 0%nat) (x 1%nat) (x 2%nat) (x 3%nat) 1 b_pow b2 b3 ;;
    if (NL <=? 4)%nat then ret r else
    rp <- foldM (fun rp n =>
            let '(r, cur) := rp in
            let i := (4 + 3 * n)%nat in
            r' <- lc r (x i) (x (i + 1)%nat) (x (i + 2)%nat) 1 cur (cur * b_pow) (cur * b2) ;;
            ret (r', cur * b3)) (r, b3 * b_pow) (seq 0 ((NL - 4 + 2) / 3)) ;;
    ret (fst rp).

  (** emulated.rs:182-186; [BigUint] subtraction panics below zero. *)
  Definition neg_modulus : C (list K) :=
    if (2 ^ Z.of_nat T <? q)%Z then cpanic
    else ret (biguint_to_limbs (2 ^ Z.of_nat T - q)%Z B NL).

  (** emulated.rs:205-273, one round of the limb loop; the state is the value and
      the variable of the carry. *)
  Definition mul_round (a b c k : evar) (al bl kl nl el : list K) (st : K * nat) (i : nat) : C (K * nat) :=
    let '(val_carry, carry) := st in
    let next_val := div_b (limb_sum kl nl al bl i + val_carry - nth i el 0) in
    next <- create_variable next_val ;;
    in_range next (B + log_num_vals i) >>
    (base <- mapM (fun j => kv <- idx k j ;; n <- idx nl (i - j) ;; ret (kv, n)) (seq 0 (S i)) ;;
     prods <- mapM (fun h =>
               let j := (2 * h)%nat in
               x0 <- idx a j ;; y0 <- idx b (i - j) ;; x1 <- idx a (j + 1) ;; y1 <- idx b (i - j - 1) ;;
               t <- mul_add x0 y0 x1 y1 1 1 ;; ret (t, 1)) (seq 0 ((i + 1) / 2)) ;;
     let st := rev (base ++ [(carry, 1); (next, - b_pow)] ++ prods) in
     st <- (if (i mod 2 =? 0)%nat then
              match st with
              | (v1, c1) :: (v2, c2) :: st' =>
                  ai <- idx a i ;; b0 <- idx b 0 ;;
                  t <- gen_quad_poly ai b0 v1 v2 0 0 c1 c2 1 0 0 ;; ret ((t, 1) :: st')
              | _ => cpanic
              end
            else ret st) ;;
     ci <- idx c i ;;
     sum_stack st ci >> ret (next_val, next)).

  (** emulated.rs:174-289 with the values of [a], [b], the quotient and the
      product as arguments: everything after these values are known. *)
  Definition emulated_mul_gate_with (val_a val_b val_k val_e : Z) (a b c : evar) : C unit :=
    let al := biguint_to_limbs val_a B NL in
    let bl := biguint_to_limbs val_b B NL in
    let kl := biguint_to_limbs val_k B NL in
    let el := biguint_to_limbs val_e B NL in
    k <- mapM create_variable kl ;;
    iterM (fun x => in_range x B) k >>
    (nl <- neg_modulus ;;
     a0 <- idx al 0 ;; b0 <- idx bl 0 ;; k0 <- idx kl 0 ;; n0 <- idx nl 0 ;; e0 <- idx el 0 ;;
     let val_carry := div_b (a0 * b0 + k0 * n0 - e0) in
     carry <- create_variable val_carry ;;
     in_range carry (B + 1) >>
     (va0 <- idx a 0 ;; vb0 <- idx b 0 ;; vk0 <- idx k 0 ;; vc0 <- idx c 0 ;;
      quad_poly_gate (mk_row va0 vb0 vk0 carry vc0) 0 0 n0 (- b_pow) 1 0 1 0 >>
      foldM (mul_round a b c k al bl kl nl el) (val_carry, carry) (seq 1 (NL - 1)) >>
      (am <- mod_to_native_field a ;; bm <- mod_to_native_field b ;;
       km <- mod_to_native_field k ;; cm <- mod_to_native_field c ;;
       quad_poly_gate (mk_row am bm km 0 cm) 0 0 (- fZ q) 0 1 0 1 0))).

  (** emulated.rs:157-290 *)
  Definition emulated_mul_gate (a b c : evar) : C unit :=
    check_vars_bound a >> check_vars_bound b >> check_vars_bound c >>
    (va <- emulated_witness a ;; vb <- emulated_witness b ;;
     let val_k : E := fZ (ez va * ez vb / q)%Z in
     emulated_mul_gate_with (ez va) (ez vb) (ez val_k) (ez (va * vb)) a b c).

  (** emulated.rs:292-302 *)
  Definition emulated_mul (a b : evar) : C evar :=
    va <- emulated_witness a ;; vb <- emulated_witness b ;;
    c <- create_emulated_variable (va * vb) ;;
    emulated_mul_gate a b c >> ret c.

  (** emulated.rs:347-393, one round of the limb loop of the constant case. *)
  Definition mul_constant_round (a c k : evar) (al bl kl nl el : list K) (st : K * nat) (i : nat) : C (K * nat) :=
    let '(val_carry, carry) := st in
    let next_val := div_b (limb_sum kl nl al bl i + val_carry - nth i el 0) in
    next <- create_variable next_val ;;
    in_range next (B + log_num_vals i) >>
    (base <- mapM (fun j => kv <- idx k j ;; n <- idx nl (i - j) ;; ret (kv, n)) (seq 0 (S i)) ;;
     prods <- mapM (fun j => x <- idx a j ;; y <- idx bl (i - j) ;; ret (x, y)) (seq 0 (S i)) ;;
     ci <- idx c i ;;
     sum_stack (rev (base ++ prods ++ [(carry, 1); (next, - b_pow)])) ci >> ret (next_val, next)).

  (** emulated.rs:319-406 with the values as arguments. *)
  Definition emulated_mul_constant_gate_with (val_a val_b val_k val_e : Z) (a c : evar) : C unit :=
    let al := biguint_to_limbs val_a B NL in
    let bl := biguint_to_limbs val_b B NL in
    let kl := biguint_to_limbs val_k B NL in
    let el := biguint_to_limbs val_e B NL in
    k <- mapM create_variable kl ;;
    iterM (fun x => in_range x B) k >>
    (nl <- neg_modulus ;;
     a0 <- idx al 0 ;; b0 <- idx bl 0 ;; k0 <- idx kl 0 ;; n0 <- idx nl 0 ;; e0 <- idx el 0 ;;
     let val_carry := div_b (a0 * b0 + k0 * n0 - e0) in
     carry <- create_variable val_carry ;;
     in_range carry (B + 1) >>
     (va0 <- idx a 0 ;; vk0 <- idx k 0 ;; vc0 <- idx c 0 ;;
      lc_gate va0 vk0 carry 0 vc0 b0 n0 (- b_pow) 0 >>
      foldM (mul_constant_round a c k al bl kl nl el) (val_carry, carry) (seq 1 (NL - 1)) >>
      (am <- mod_to_native_field a ;;
       km <- mod_to_native_field k ;; cm <- mod_to_native_field c ;;
       lc_gate am km 0 0 cm (fZ val_b) (- fZ q) 0 0))).

  (** emulated.rs:304-407 *)
  Definition emulated_mul_constant_gate (a : evar) (b : E) (c : evar) : C unit :=
    check_vars_bound a >> check_vars_bound c >>
    (va <- emulated_witness a ;;
     let val_k : E := fZ (ez va * ez b / q)%Z in
     emulated_mul_constant_gate_with (ez va) (ez b) (ez val_k) (ez (va * b)) a c).
  (** emulated.rs:409-419 *)
  Definition emulated_mul_constant (a : evar) (b : E) : C evar :=
    va <- emulated_witness a ;;
    c <- create_emulated_variable (va * b) ;;
    emulated_mul_constant_gate a b c >> ret c.

  (** One row of the carry chains of emulated.rs:446-461, 463-476, 529-544 and
      546-559: the value of the next carry, two wires with their coefficients and
      the sum limb. *)
  Record crow := mk_crow { cr_hint : C K; cr_x : nat; cr_cx : K; cr_y : nat; cr_cy : K; cr_z : nat }.
  Definition carry_row (check : bool) (carry : nat) (r : crow) : C nat :=
    nv <- cr_hint r ;;
    next <- create_variable nv ;;
    enforce_bool next >>
    lc_gate (cr_x r) (cr_y r) carry next (cr_z r) (cr_cx r) (cr_cy r) 1 (- fZ (2 ^ Z.of_nat B)) >>
    (if check then in_range (cr_z r) B else ret tt) >> ret next.
  Definition carry_chain (check : bool) (rs : list crow) : C nat := foldM (carry_row check) 0%nat rs.

  (** [F::from(into(x) / b_pow)]: the carry of one limb.  The carry into the limb
      is not part of it. *)
  Definition limb_carry (x : K) : K := fZ (zval x / 2 ^ Z.of_nat B)%Z.

  (** emulated.rs:446-449 and 465-467, the rows of the two chains. *)
  Definition add_row (t : nat * nat * nat) : crow :=
    let '(a, b, c) := t in
    mk_crow (x <- get_witness a ;; y <- get_witness b ;; ret (limb_carry (x + y))) a 1 b 1 c.
  Definition reduce_row (k : bool) (var_k : nat) (t : K * nat * nat) : crow :=
    let '(m, b, c) := t in
    mk_crow (y <- get_witness b ;; ret (limb_carry (m * (if k then 1 else 0) + y))) var_k m b 1 c.
  (** [izip!] of three lists. *)
  Definition izip {A1 A2 A3} (l1 : list A1) (l2 : list A2) (l3 : list A3) : list (A1 * A2 * A3) :=
    combine (combine l1 l2) l3.

  (** emulated.rs:425-479 *)
  Definition emulated_add_gate (a b c : evar) : C unit :=
    check_vars_bound a >> check_vars_bound b >> check_vars_bound c >>
    (va <- emulated_witness a ;; vb <- emulated_witness b ;;
     let s := (ez va + ez vb)%Z in
     let k := (q <=? s)%Z in
     var_k <- create_boolean_variable k ;;
     sums <- mapM create_variable (biguint_to_limbs s B NL) ;;
     carry_chain true (map add_row (izip a b sums)) >>
     carry_chain false (map (reduce_row k var_k) (izip (biguint_to_limbs q B NL) c sums)) >> ret tt).

  (** emulated.rs:482-491 *)
  Definition emulated_add (a b : evar) : C evar :=
    va <- emulated_witness a ;; vb <- emulated_witness b ;;
    c <- create_emulated_variable (va + vb) ;;
    emulated_add_gate a b c >> ret c.
  (** emulated.rs:494-503 *)
  Definition emulated_sub (a b : evar) : C evar :=
    va <- emulated_witness a ;; vb <- emulated_witness b ;;
    c <- create_emulated_variable (va - vb) ;;
    emulated_add_gate c b a >> ret c.

  (** emulated.rs:530-540 *)
  Definition add_constant_row (t : nat * K * nat) : crow :=
    let '(a, b, c) := t in
    mk_crow (x <- get_witness a ;; ret (limb_carry (x + b))) a 1 1 b c.
  (** emulated.rs:505-562 *)
  Definition emulated_add_constant_gate (a : evar) (b : E) (c : evar) : C unit :=
    check_vars_bound a >> check_vars_bound c >>
    (va <- emulated_witness a ;;
     let s := (ez va + ez b)%Z in
     let k := (q <=? s)%Z in
     var_k <- create_boolean_variable k ;;
     sums <- mapM create_variable (biguint_to_limbs s B NL) ;;
     carry_chain true (map add_constant_row (izip a (biguint_to_limbs (ez b) B NL) sums)) >>
     carry_chain false (map (reduce_row k var_k) (izip (biguint_to_limbs q B NL) c sums)) >> ret tt).
  (** emulated.rs:564-575 *)
  Definition emulated_add_constant (a : evar) (b : E) : C evar :=
    va <- emulated_witness a ;;
    c <- create_emulated_variable (va + b) ;;
    emulated_add_constant_gate a b c >> ret c.
  (** emulated.rs:577-588 *)
  Definition emulated_sub_constant (a : evar) (b : E) : C evar :=
    va <- emulated_witness a ;;
    c <- create_emulated_variable (va - b) ;;
    emulated_add_constant_gate c b a >> ret c.

  (** emulated.rs:589-610 *)
  Definition conditional_select_emulated (b : nat) (p0 p1 : evar) : C evar :=
    check_var_bound b >> check_vars_bound p0 >> check_vars_bound p1 >>
    mapM (fun xy => conditional_select b (fst xy) (snd xy)) (combine p0 p1).
  (** emulated.rs:612-625 *)
  Definition enforce_emulated_var_equal (a b : evar) : C unit :=
    check_vars_bound a >> check_vars_bound b >>
    iterM (fun xy => enforce_equal (fst xy) (snd xy)) (combine a b).
  (** emulated.rs:627-642 *)
  Definition is_emulated_var_equal (a b : evar) : C nat :=
    check_vars_bound a >> check_vars_bound b >>
    (r <- mapM (fun xy => is_equal (fst xy) (snd xy)) (combine a b) ;; logic_and_all r).
  (** emulated.rs:644-656 *)
  Definition is_emulated_var_zero (a : evar) : C nat :=
    check_vars_bound a >> (r <- mapM is_zero a ;; logic_and_all r).

  (** ecc/emulated/short_weierstrass.rs:51-57, [SWPoint] and its variable. *)
  Record sw_point := mk_sw { sw_x : E; sw_y : E; sw_inf : bool }.
  Record sw_var := mk_swv { sv_x : evar; sv_y : evar; sv_inf : nat }.

  (** ecc/emulated/short_weierstrass.rs:60-69 *)
  Definition sw_witness (p : sw_var) : C sw_point :=
    x <- emulated_witness (sv_x p) ;; y <- emulated_witness (sv_y p) ;;
    i <- get_witness (sv_inf p) ;; ret (mk_sw x y (feqb i 1)).
  (** ecc/emulated/short_weierstrass.rs:72-80 *)
  Definition create_sw_variable (p : sw_point) : C sw_var :=
    x <- create_emulated_variable (sw_x p) ;; y <- create_emulated_variable (sw_y p) ;;
    i <- create_boolean_variable (sw_inf p) ;; ret (mk_swv x y i).
  (** ecc/emulated/short_weierstrass.rs:83-91 *)
  Definition create_constant_sw_variable (p : sw_point) : C sw_var :=
    x <- create_constant_emulated_variable (sw_x p) ;; y <- create_constant_emulated_variable (sw_y p) ;;
    ret (mk_swv x y (if sw_inf p then 1 else 0)%nat).
  (** ecc/emulated/short_weierstrass.rs:94-102 *)
  Definition create_public_sw_variable (p : sw_point) : C sw_var :=
    x <- create_public_emulated_variable (sw_x p) ;; y <- create_public_emulated_variable (sw_y p) ;;
    i <- create_public_boolean_variable (sw_inf p) ;; ret (mk_swv x y i).
  (** ecc/emulated/short_weierstrass.rs:108-124 *)
  Definition sw_select (b : nat) (p0 p1 : sw_var) : C sw_var :=
    x <- conditional_select_emulated b (sv_x p0) (sv_x p1) ;;
    y <- conditional_select_emulated b (sv_y p0) (sv_y p1) ;;
    i <- conditional_select b (sv_inf p0) (sv_inf p1) ;; ret (mk_swv x y i).
  (** ecc/emulated/short_weierstrass.rs:128-138 *)
  Definition enforce_sw_equal (p0 p1 : sw_var) : C unit :=
    enforce_emulated_var_equal (sv_x p0) (sv_x p1) >>
    enforce_emulated_var_equal (sv_y p0) (sv_y p1) >>
    enforce_equal (sv_inf p0) (sv_inf p1).
  (** ecc/emulated/short_weierstrass.rs:142-153 *)
  Definition is_sw_equal (p0 p1 : sw_var) : C nat :=
    r0 <- is_emulated_var_equal (sv_x p0) (sv_x p1) ;;
    r1 <- is_emulated_var_equal (sv_y p0) (sv_y p1) ;;
    r2 <- is_equal (sv_inf p0) (sv_inf p1) ;;
    r <- mul r0 r1 ;; mul r r2.

  (** [v\[0\] = x] in a vector of [E::NUM_LIMBS] zero variables; panics when there
      are none. *)
  Definition bool_evar (x : nat) : C evar :=
    match NL with O => cpanic | S n => ret (x :: repeat 0%nat n) end.

  (** ecc/emulated/short_weierstrass.rs:196-296 *)
  Definition emulated_sw_ecc_add_gate (p0 p1 p2 : sw_var) (a : E) : C unit :=
    eq_p1_p2 <- is_sw_equal p1 p2 ;;
    eq_p0_p2 <- is_sw_equal p0 p2 ;;
    enforce_equal (sv_inf p0) eq_p1_p2 >>
    enforce_equal (sv_inf p1) eq_p0_p2 >>
    (infinity_mark <- logic_or (sv_inf p0) (sv_inf p1) ;;
     non_infinity_mark <- logic_neg infinity_mark ;;
     non_inf_p2 <- logic_neg (sv_inf p2) ;;
     eq_x0_x1 <- is_emulated_var_equal (sv_x p0) (sv_x p1) ;;
     neq_x0_x1 <- logic_neg eq_x0_x1 ;;
     eq_y0_y1 <- is_emulated_var_equal (sv_y p0) (sv_y p1) ;;
     is_y0_zero <- is_emulated_var_zero (sv_y p0) ;;
     not_y0_zero <- logic_neg is_y0_zero ;;
     t <- logic_and eq_y0_y1 not_y0_zero ;;
     t <- logic_or neq_x0_x1 t ;;
     t <- logic_or non_inf_p2 t ;;
     logic_or_gate infinity_mark t >>
     (doubling_mark <- mul eq_x0_x1 eq_y0_y1 ;;
      dc <- mul doubling_mark non_infinity_mark ;;
      dc <- mul dc not_y0_zero ;;
      doubling_coef <- bool_evar dc ;;
      y0_times_2 <- emulated_add (sv_y p0) (sv_y p0) ;;
      x0_plus_x1 <- emulated_add (sv_x p0) (sv_x p1) ;;
      x0_plus_x1_plus_x2 <- emulated_add (sv_x p2) x0_plus_x1 ;;
      lhs <- emulated_mul x0_plus_x1_plus_x2 y0_times_2 ;;
      lhs <- emulated_mul lhs y0_times_2 ;;
      s <- emulated_mul (sv_x p0) (sv_x p0) ;;
      s <- emulated_mul_constant s (fZ 3) ;;
      s <- emulated_add_constant s a ;;
      rhs <- emulated_mul s s ;;
      lhs <- emulated_mul lhs doubling_coef ;;
      rhs <- emulated_mul rhs doubling_coef ;;
      enforce_emulated_var_equal lhs rhs >>
      (y2_plus_y0 <- emulated_add (sv_y p2) (sv_y p0) ;;
       lhs <- emulated_mul y2_plus_y0 y0_times_2 ;;
       x0_minus_x2 <- emulated_sub (sv_x p0) (sv_x p2) ;;
       rhs <- emulated_mul s x0_minus_x2 ;;
       lhs <- emulated_mul lhs doubling_coef ;;
       rhs <- emulated_mul rhs doubling_coef ;;
       enforce_emulated_var_equal lhs rhs >>
       (coef <- mul non_infinity_mark neq_x0_x1 ;;
        add_coef <- bool_evar coef ;;
        x0_minus_x1 <- emulated_sub (sv_x p0) (sv_x p1) ;;
        lhs <- emulated_mul x0_minus_x1 x0_minus_x1 ;;
        lhs <- emulated_mul lhs x0_plus_x1_plus_x2 ;;
        y0_minus_y1 <- emulated_sub (sv_y p0) (sv_y p1) ;;
        rhs <- emulated_mul y0_minus_y1 y0_minus_y1 ;;
        lhs <- emulated_mul lhs add_coef ;;
        rhs <- emulated_mul rhs add_coef ;;
        enforce_emulated_var_equal lhs rhs >>
        (lhs <- emulated_mul x0_minus_x2 y0_minus_y1 ;;
         y0_plus_y2 <- emulated_add (sv_y p0) (sv_y p2) ;;
         rhs <- emulated_mul y0_plus_y2 x0_minus_x1 ;;
         lhs <- emulated_mul lhs add_coef ;;
         rhs <- emulated_mul rhs add_coef ;;
         enforce_emulated_var_equal lhs rhs))))).

  (** Field division in [E]; panics on zero. *)
  Definition ediv (x y : E) : C E := if feqb y 0 then cpanic else ret (x * finv y).

  (** ecc/emulated/short_weierstrass.rs:302-331, the sum the code computes. *)
  Definition sw_sum (p0 p1 : sw_point) (a : E) : C sw_point :=
    let '(mk_sw x0 y0 i0) := p0 in
    let '(mk_sw x1 y1 i1) := p1 in
    if i0 then ret (mk_sw x1 y1 i1)
    else if i1 then ret (mk_sw x0 y0 i0)
    else if feqb x0 x1 && feqb y0 y1 then
      if feqb y0 0 then ret (mk_sw 0 0 true)
      else s <- ediv (x0 * x0 * fZ 3 + a) (y0 + y0) ;;
           let x2 := s * s - x0 - x1 in ret (mk_sw x2 (s * (x0 - x2) - y0) false)
    else if feqb x0 x1 then ret (mk_sw 0 0 true)
    else s <- ediv (y0 - y1) (x0 - x1) ;;
         let x2 := s * s - x0 - x1 in ret (mk_sw x2 (s * (x0 - x2) - y0) false).
  (** ecc/emulated/short_weierstrass.rs:296-335 *)
  Definition emulated_sw_ecc_add (p0 p1 : sw_var) (a : E) : C sw_var :=
    v0 <- sw_witness p0 ;; v1 <- sw_witness p1 ;;
    v2 <- sw_sum v0 v1 a ;;
    p2 <- create_sw_variable v2 ;;
    emulated_sw_ecc_add_gate p0 p1 p2 a >> ret p2.

  (** ecc/emulated/twisted_edwards.rs:18-19 *)
  Record te_var := mk_tev { tv_x : evar; tv_y : evar }.
  (** ecc/emulated/twisted_edwards.rs:33-41 *)
  Definition create_te_variable (x y : E) : C te_var :=
    vx <- create_emulated_variable x ;; vy <- create_emulated_variable y ;; ret (mk_tev vx vy).
  (** ecc/emulated/twisted_edwards.rs:103-132 *)
  Definition emulated_te_ecc_add_gate (p0 p1 p2 : te_var) (d : E) : C unit :=
    x0y1 <- emulated_mul (tv_x p0) (tv_y p1) ;;
    x1y0 <- emulated_mul (tv_x p1) (tv_y p0) ;;
    x0x1 <- emulated_mul (tv_x p0) (tv_x p1) ;;
    y0y1 <- emulated_mul (tv_y p0) (tv_y p1) ;;
    x0x1y0y1 <- emulated_mul x0x1 y0y1 ;;
    dx <- emulated_mul_constant x0x1y0y1 d ;;
    t1 <- emulated_add x0y1 x1y0 ;;
    t2 <- emulated_mul dx (tv_x p2) ;;
    emulated_add_gate (tv_x p2) t2 t1 >>
    (t1 <- emulated_add x0x1 y0y1 ;;
     t2 <- emulated_mul dx (tv_y p2) ;;
     emulated_add_gate t1 t2 (tv_y p2)).
  (** ecc/emulated/twisted_edwards.rs:135-154 *)
  Definition emulated_te_ecc_add (p0 p1 : te_var) (d : E) : C te_var :=
    x0 <- emulated_witness (tv_x p0) ;; y0 <- emulated_witness (tv_y p0) ;;
    x1 <- emulated_witness (tv_x p1) ;; y1 <- emulated_witness (tv_y p1) ;;
    let t1 := x0 * y1 in
    let t2 := x1 * y0 in
    let dd := d * t1 * t2 in
    x2 <- ediv (t1 + t2) (1 + dd) ;;
    y2 <- ediv (x0 * x1 + y0 * y1) (1 - dd) ;;
    p2 <- create_te_variable x2 y2 ;;
    emulated_te_ecc_add_gate p0 p1 p2 d >> ret p2.
End Emulated.
