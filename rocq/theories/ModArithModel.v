(** Model of non-native arithmetic on two-limb elements in UltraPlonk circuits
    (/repo/relation/src/gadgets/ultraplonk/{mod_arith,non_native_gates}.rs), and of
    truncation (/repo/relation/src/gadgets/arithmetic.rs:326-500). *)

From Coq Require Import List Arith ZArith Bool Lia.
From Verif Require Import Base Alg CircuitModel GadgetModel.
Import ListNotations.
Local Open Scope fld_scope.
Local Open Scope circ_scope.

Section ModArith.
  Context {K : fld}.
  (** The native field, as in [GadgetModel]: [zval] is [into::<BigUint>()], [fZ] is
      [F::from(BigUint)]. *)
  Variable zval : K -> Z.
  Variable modulus : Z.
  Variable nbits repr_bits : nat.
  (** The error [CircuitError::NotSupported] of non_native_gates.rs is [InternalError]
      here, the error type of [CircuitModel] having no such case. *)
  Notation C := (circ K).
  Notation range_gate a n := (range_gate_with_lookup zval modulus nbits repr_bits a n).

  (** mod_arith.rs:25-37, [FpElem]; [two_power_m] is not checked to be [2^m]. *)
  Record felem := mk_felem { e0 : K; e1 : K; em : nat; etwo : K }.
  (** mod_arith.rs:84-94, [FpElemVar] *)
  Record fvar := mk_fvar { v0 : nat; v1 : nat; vm : nat; vtwo : K }.

  (** mod_arith.rs:861-876: integer division; [BigUint] division by zero panics. *)
  Definition div_rem (a b : K) : outcome cerr (K * K) :=
    if (zval b =? 0)%Z then Panic else
    let q := fZ (zval a / zval b)%Z in Ok (q, a - b * q).

  (** [match two_power_m { Some(p) => p, None => F::from(2u8).pow([m]) }] *)
  Definition two_pow (m : nat) (t : option K) : K :=
    match t with Some p => p | None => fpow (fZ 2) m end.

  (** mod_arith.rs:43-63 *)
  Definition felem_new (p : K) (m : nat) (t : option K) : outcome cerr felem :=
    if (nbits / 2 <? m)%nat then Err ParameterError else
    let t2 := two_pow m t in
    let* qr := div_rem p t2 in Ok (mk_felem (snd qr) (fst qr) m t2).
  (** mod_arith.rs:66-68 *)
  Definition field_elem (p : felem) : K := e0 p + etwo p * e1 p.

  (** mod_arith.rs:102-122: no range check on the limbs. *)
  Definition fvar_new_unchecked (var m : nat) (t : option K) : C fvar :=
    x <- get_witness var ;;
    e <- lift (fun _ => felem_new x m t) ;;
    a <- create_variable (e0 e) ;; b <- create_variable (e1 e) ;;
    lc_gate a b 0 0 var 1 (etwo e) 0 0 >>
    ret (mk_fvar a b m (etwo e)).
  (** mod_arith.rs:126-131 *)
  Definition convert_to_var (x : fvar) : C nat := lc (v0 x) (v1 x) 0 0 1 (vtwo x) 0 0.
  (** mod_arith.rs:149-171 *)
  Definition fvar_new_from_fp_elem (e : felem) (m : nat) (t : option K) : C fvar :=
    a <- create_variable (e0 e) ;; b <- create_variable (e1 e) ;;
    range_gate a m >> range_gate b m >> ret (mk_fvar a b m (two_pow m t)).
  (** mod_arith.rs:136-144 *)
  Definition fvar_new_from_field_element (f : K) (m : nat) (t : option K) : C fvar :=
    e <- lift (fun _ => felem_new f m t) ;; fvar_new_from_fp_elem e m t.
  (** mod_arith.rs:183-185 *)
  Definition fvar_witness (x : fvar) : C K :=
    a <- get_witness (v0 x) ;; b <- get_witness (v1 x) ;; ret (a + b * vtwo x).
  (** mod_arith.rs:203-212, 215-224 *)
  Definition fvar_zero (m : nat) (t : option K) : fvar := mk_fvar 0 0 m (two_pow m t).
  Definition fvar_one (m : nat) (t : option K) : fvar := mk_fvar 1 0 m (two_pow m t).
  (** mod_arith.rs:227-239 *)
  Definition fvar_enforce_equal (x y : fvar) : C unit :=
    if negb (vm x =? vm y)%nat || negb (feqb (vtwo x) (vtwo y)) then fail ParameterError else
    enforce_equal (v0 x) (v0 y) >> enforce_equal (v1 x) (v1 y).

  (** ultraplonk/range.rs:60-62 *)
  Definition num_range_blocks : C nat :=
    rb <- lift range_bit_len ;; if (rb =? 0)%nat then cpanic else ret (nbits / rb + 1)%nat.

  (** mod_arith.rs:253-302; [range_size as u32] truncates, field elements are
      compared as integers. *)
  Definition mod_add_internal (vars : list nat) (p : K) (l_p : nat) : C nat :=
    rb <- lift range_bit_len ;;
    rs <- lift range_size ;;
    xs <- mapM get_witness vars ;;
    zy <- lift (fun _ => div_rem (fsum xs) p) ;;
    if (zval (fZ (rs mod 2 ^ 32)%Z : K) <=? zval (fst zy))%Z then fail ParameterError else
    z <- create_variable (fst zy) ;;
    range_gate z rb >>
    (y <- create_variable (snd zy) ;;
     range_gate y (rb * l_p) >>
     (padded_len <- lift (fun _ => let* n := next_multiple (length vars) 3 in Ok (n + 1)%nat) ;;
      let padded := resize (z :: vars) padded_len 0%nat in
      acc0 <- idx padded (padded_len - 1) ;;
      acc <- foldM (fun acc i =>
                a <- idx padded (padded_len - 1 - 3 * i + 2) ;; b <- idx padded (padded_len - 1 - 3 * i + 1) ;;
                c <- idx padded (padded_len - 1 - 3 * i) ;;
                lc acc a b c 1 1 1 1) acc0 (seq 1 (padded_len / 3 - 1)) ;;
      a <- idx padded 2 ;; b <- idx padded 1 ;; c <- idx padded 0 ;;
      lc_gate acc a b c y 1 1 1 (- p) >> ret y)).

  (** The checks of parameters shared by the gates below. *)
  Definition check_m (ms : list nat) (m : nat) : C unit :=
    if forallb (fun x => (x =? m)%nat) ms then ret tt else fail ParameterError.
  Definition check_two (ts : list K) (t : K) : C unit :=
    if forallb (fun x => feqb x t) ts then ret tt else fail ParameterError.
  Definition check_split (m rb : nat) : C unit :=
    if (rb =? 0)%nat then cpanic else
    if (m mod rb =? 0)%nat then ret tt else fail ParameterError.

  (** mod_arith.rs:306-346 *)
  Definition mod_add (x y : fvar) (p : felem) : C fvar :=
    rb <- lift range_bit_len ;;
    check_vars_bound [v0 x; v1 x; v0 y; v1 y] >>
    check_m [vm x; vm y] (em p) >> check_two [vtwo x; vtwo y] (etwo p) >> check_split (em p) rb >>
    (xv <- convert_to_var x ;; yv <- convert_to_var y ;;
     n <- num_range_blocks ;;
     r <- mod_add_internal [xv; yv] (field_elem p) n ;;
     fvar_new_unchecked r (vm x) (Some (etwo p))).

  (** mod_arith.rs:355-438 *)
  Definition mod_add_constant (x : fvar) (y p : felem) : C fvar :=
    rb <- lift range_bit_len ;;
    rs <- lift range_size ;;
    check_vars_bound [v0 x; v1 x] >>
    check_m [vm x; em y] (em p) >> check_two [vtwo x; etwo y] (etwo p) >> check_split (em p) rb >>
    (xv <- convert_to_var x ;;
     w <- get_witness xv ;;
     dr <- lift (fun _ => div_rem (w + field_elem y) (field_elem p)) ;;
     if (zval (fZ (rs mod 2 ^ 32)%Z : K) <=? zval (fst dr))%Z then fail ParameterError else
     dv <- create_variable (fst dr) ;;
     range_gate dv rb >>
     (rv <- create_variable (snd dr) ;;
      n <- num_range_blocks ;;
      range_gate rv (rb * n) >>
      quad_poly_gate (mk_row xv rv dv 0 0) 1 (- (1)) (- field_elem p) 0 0 0 0 (field_elem y) >>
      fvar_new_unchecked rv (vm x) (Some (etwo p)))).

  (** mod_arith.rs:442-478; the two checks are interleaved per element in the code,
      with the same error. *)
  Definition mod_add_vec (xs : list fvar) (p : felem) : C fvar :=
    rb <- lift range_bit_len ;;
    check_m (map vm xs) (em p) >> check_two (map vtwo xs) (etwo p) >> check_split (em p) rb >>
    (xvs <- mapM convert_to_var xs ;;
     n <- num_range_blocks ;;
     r <- mod_add_internal xvs (field_elem p) n ;;
     fvar_new_unchecked r (em p) (Some (etwo p))).

  (** mod_arith.rs:560-580: the carry of a difference, shifted by [base]; [BigUint]
      subtraction panics below zero. *)
  Definition carry (hi lo base t : Z) : outcome cerr Z :=
    if (lo <=? hi)%Z then Ok (base + (hi - lo) / t)%Z else
    let k := ((lo - hi) / t)%Z in if (base <? k)%Z then Panic else Ok (base - k)%Z.

  (** The integers a multiplication computes (mod_arith.rs:511-580 and
      mod_arith.rs:690-759): limbs of the quotient, limbs of the remainder, carries. *)
  Definition mul_values (x0 x1 y0 y1 : Z) (p : felem) : outcome cerr (felem * felem * (Z * Z)) :=
    let t := zval (etwo p) in
    let p0 := zval (e0 p) in let p1 := zval (e1 p) in
    let xy := ((x0 + t * x1) * (y0 + t * y1))%Z in
    let pi := (p0 + t * p1)%Z in
    if (pi =? 0)%Z then Panic else
    let wi := (xy / pi)%Z in
    let* w := felem_new (fZ wi) (em p) (Some (etwo p)) in
    let* z := felem_new (fZ (xy - wi * pi)%Z) (em p) (Some (etwo p)) in
    let w0 := zval (e0 w) in let w1 := zval (e1 w) in
    let* c0 := carry (zval (e0 z) + p0 * w0)%Z (x0 * y0)%Z t t in
    let* c1 := carry (zval (e1 z) + p0 * w1 + p1 * w0 + c0)%Z (x0 * y1 + x1 * y0 + t)%Z (t + t)%Z t in
    Ok (w, z, (c0, c1)).

  (** mod_arith.rs:592-605 and mod_arith.rs:771-784: the new variables and their
      range checks. *)
  Definition mul_vars (v : felem * felem * (Z * Z)) (m rb : nat) : C (nat * nat * nat * nat * nat * nat) :=
    let '(w, z, (c0, c1)) := v in
    vs <- mapM create_variable [fZ (zval (e0 w)); fZ (zval (e1 w)); fZ (zval (e0 z)); fZ (zval (e1 z)); fZ c0; fZ c1] ;;
    let v i := nth i vs 0%nat in
    iterM (fun an => range_gate (fst an) (snd an))
      [(v 0, m); (v 1, m); (v 2, m); (v 3, m); (v 4, m + rb); (v 5, m + rb)]%nat >>
    ret (v 0, v 1, v 2, v 3, v 4, v 5)%nat.

  (** mod_arith.rs:484-661 *)
  Definition mod_mul (x y : fvar) (p : felem) : C fvar :=
    rb <- lift range_bit_len ;;
    check_m [vm x; vm y] (em p) >> check_two [vtwo x; vtwo y] (etwo p) >> check_split (em p) rb >>
    (x0 <- get_witness (v0 x) ;; x1 <- get_witness (v1 x) ;;
     y0 <- get_witness (v0 y) ;; y1 <- get_witness (v1 y) ;;
     vals <- lift (fun _ => mul_values (zval x0) (zval x1) (zval y0) (zval y1) p) ;;
     vs <- mul_vars vals (em p) rb ;;
     let '(w0v, w1v, z0v, z1v, c0v, c1v) := vs in
     let t := etwo p in
     quad_poly_gate (mk_row (v0 x) (v0 y) w0v c0v z0v) 0 0 (- e0 p) t 1 0 1 (- (t * t)) >>
     (t1 <- mul_add (v0 x) (v1 y) (v1 x) (v0 y) 1 1 ;;
      t2 <- lc w1v w0v 0 0 (e0 p) (e1 p) 0 0 ;;
      quad_poly_gate (mk_row t1 t2 c0v c1v z1v) 1 (- (1)) (- (1)) t 0 0 1 (t - (t * t + t * t)) >>
      quad_poly_gate (mk_row (v1 x) (v1 y) w1v 0 c1v) 0 0 (- e1 p) 0 1 0 1 (t + t) >>
      ret (mk_fvar z0v z1v (em p) t))).

  (** mod_arith.rs:671-822 *)
  Definition mod_mul_constant (x : fvar) (y p : felem) : C fvar :=
    rb <- lift range_bit_len ;;
    check_m [vm x; em y] (em p) >> check_two [vtwo x; etwo y] (etwo p) >> check_split (em p) rb >>
    (x0 <- get_witness (v0 x) ;; x1 <- get_witness (v1 x) ;;
     vals <- lift (fun _ => mul_values (zval x0) (zval x1) (zval (e0 y)) (zval (e1 y)) p) ;;
     vs <- mul_vars vals (em p) rb ;;
     let '(w0v, w1v, z0v, z1v, c0v, c1v) := vs in
     let t := etwo p in
     quad_poly_gate (mk_row (v0 x) w0v c0v z0v 0) (e0 y) (- e0 p) t (- (1)) 0 0 0 (- (t * t)) >>
     (t1 <- lc (v0 x) (v1 x) w1v w0v (e1 y) (e0 y) (- e0 p) (- e1 p) ;;
      quad_poly_gate (mk_row t1 z1v c0v c1v 0) 1 (- (1)) (- (1)) t 0 0 0 (t - (t * t + t * t)) >>
      quad_poly_gate (mk_row (v1 x) w1v c1v 0 0) (e1 y) (- e1 p) (- (1)) 0 0 0 0 (t + t) >>
      ret (mk_fvar z0v z1v (em p) t))).

  (** mod_arith.rs:826-858 *)
  Definition mod_negate (x : fvar) (p : K) : C fvar :=
    rb <- lift range_bit_len ;;
    check_split (vm x) rb >>
    (x0 <- get_witness (v0 x) ;; x1 <- get_witness (v1 x) ;;
     let xi := (zval x0 + zval (vtwo x) * zval x1)%Z in
     if (zval p <=? xi)%Z then fail FieldAlgebraError else
     xv <- convert_to_var x ;;
     nv <- create_variable (fZ (zval p - xi)%Z) ;;
     lc_gate xv nv 1 0 0 1 1 (- p) 0 >>
     fvar_new_unchecked nv (vm x) (Some (vtwo x))).

  (** The target field [T] of the non-native gates: its modulus and bit size. *)
  Variable tmod : Z.
  Variable tbits : nat.
  (** non_native_gates.rs:70-80: the modulus as an element; [from_le_bytes_mod_order]
      reduces modulo the native modulus. *)
  Definition target (m : nat) (t : K) : outcome cerr felem := felem_new (fZ tmod) m (Some t).

  (** non_native_gates.rs:54-88 *)
  Definition non_native_power_11_gen (x : fvar) : C fvar :=
    p <- lift (fun _ => target (vm x) (vtwo x)) ;;
    x2 <- mod_mul x x p ;; x3 <- mod_mul x2 x p ;; x4 <- mod_mul x2 x2 p ;; x8 <- mod_mul x4 x4 p ;;
    mod_mul x3 x8 p.
  (** non_native_gates.rs:24-46 *)
  Definition non_native_power_11_gate (x y : fvar) : C unit :=
    check_vars_bound [v0 x; v1 x; v0 y; v1 y] >>
    if (nbits <=? tbits)%nat then fail InternalError else
    r <- non_native_power_11_gen x ;;
    enforce_equal (v0 y) (v0 r) >> enforce_equal (v1 y) (v1 r).
  (** non_native_gates.rs:98-124 *)
  Definition non_native_power_5_gen (x : fvar) : C fvar :=
    if (nbits <=? tbits)%nat then fail InternalError else
    p <- lift (fun _ => target (vm x) (vtwo x)) ;;
    x2 <- mod_mul x x p ;; x3 <- mod_mul x2 x p ;; mod_mul x2 x3 p.
  (** non_native_gates.rs:133-193 *)
  Definition non_native_linear_gen (xs : list fvar) (ys : list felem) (c : felem) : C fvar :=
    if (nbits <=? tbits)%nat then fail InternalError else
    if negb (length xs =? length ys)%nat then fail ParameterError else
    check_m (map vm xs) (em c) >> check_m (map em ys) (em c) >>
    (p <- lift (fun _ => target (em c) (etwo c)) ;;
     xy <- mapM (fun a => mod_mul_constant (fst a) (snd a) p) (combine xs ys) ;;
     s <- mod_add_vec xy p ;;
     mod_add_constant s c p).

  (** arithmetic.rs:354-500; the code computes with [F::from(2u8).pow], which wraps
      for exponents beyond the field.  [&a_uint - &b_uint] panics when [b] exceeds
      [a]; a zero modulus ([2^n = 0] in characteristic two only) panics in the
      division. *)
  Definition truncate_gate (a b n : nat) : C unit :=
    s <- lift (fun c => Ok (support_lookup c)) ;;
    if negb s then fail ParameterError else
    check_var_bound a >> check_var_bound b >>
    (va <- get_witness a ;; vb <- get_witness b ;;
     let md := fpow (fZ 2) n : K in
     if (zval md <=? zval vb)%Z then fail ParameterError else
     if (nbits <=? n)%nat then fail ParameterError else
     rb <- lift range_bit_len ;;
     if (rb =? 0)%nat then cpanic else
     let nlo := (n mod rb)%nat in
     let nhi := (n - nlo)%nat in
     let dl := (nbits - n)%nat in
     let dlo := (dl mod rb)%nat in
     let dhi := (dl - dlo)%nat in
     let tb := fpow (fZ 2) nhi : K in
     let td := fpow (fZ 2) dhi : K in
     let mtd := fZ (zval td * zval md)%Z : K in
     if (zval va <? zval vb)%Z then cpanic else
     let z := ((zval va - zval vb) / zval md)%Z in
     b1 <- create_variable (fZ (zval vb mod zval tb)%Z) ;; b2 <- create_variable (fZ (zval vb / zval tb)%Z) ;;
     z1 <- create_variable (fZ (z mod zval td)%Z) ;; z2 <- create_variable (fZ (z / zval td)%Z) ;;
     lc_gate b1 b2 0 0 b 1 tb 0 0 >>
     lc_gate b z1 z2 0 a 1 md mtd 0 >>
     (if (nhi =? 0)%nat then ret tt else range_gate b1 nhi) >>
     (if (nlo =? 0)%nat then ret tt else enforce_in_range zval modulus nbits repr_bits b2 nlo) >>
     (if (dhi =? 0)%nat then ret tt else range_gate z1 dhi) >>
     (if (dlo =? 0)%nat then ret tt else enforce_in_range zval modulus nbits repr_bits z2 dlo)).
  (** arithmetic.rs:329-339 *)
  Definition truncate (a n : nat) : C nat :=
    check_var_bound a >>
    (va <- get_witness a ;;
     b <- create_variable (fZ (zval va mod zval (fpow (fZ 2) n : K))%Z) ;;
     truncate_gate a b n >> ret b).
End ModArith.
