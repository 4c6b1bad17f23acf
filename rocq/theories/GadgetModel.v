(** Models of the arithmetic, logic, range and comparison gadgets
    (/repo/relation/src/gadgets/{arithmetic,logic,range,cmp,utils}.rs and
    /repo/relation/src/gadgets/ultraplonk/{range,lookup_table}.rs). *)

From Coq Require Import List Arith ZArith Bool Lia.
From Verif Require Import Base Alg CircuitModel.
Import ListNotations.
Local Open Scope fld_scope.
Local Open Scope circ_scope.

(** gadgets/utils.rs:13-24 *)
Definition next_multiple (current divisor : nat) : outcome cerr nat :=
  if (divisor =? 0)%nat || (divisor =? 1)%nat then Err InternalError
  else if (current =? divisor)%nat then Ok current
  else if (current <? divisor)%nat then Ok divisor
  else Ok ((current / divisor + 1) * divisor)%nat.

(** [Vec::resize(n, x)] *)
Definition resize {A} (l : list A) (n : nat) (x : A) : list A :=
  firstn n l ++ repeat x (n - length l).

Section Gadgets.
  Context {K : fld}.
  Notation C := (circ K).
  Notation G := (@insert_gate K).

  (** gadgets/arithmetic.rs:29-49 *)
  Definition quad_poly_gate (r : row) (l0 l1 l2 l3 m0 m1 o c : K) : C unit :=
    check_vars_bound [r0 r; r1 r; r2 r; r3 r; r4 r] >>
    G r (quad_poly_g K l0 l1 l2 l3 m0 m1 o c).

  (** gadgets/arithmetic.rs:60-90 *)
  Definition gen_quad_poly (a b x y : nat) (l0 l1 l2 l3 m0 m1 c : K) : C nat :=
    check_vars_bound [a; b; x; y] >>
    (va <- get_witness a ;; vb <- get_witness b ;; vx <- get_witness x ;; vy <- get_witness y ;;
     o <- create_variable (l0 * va + l1 * vb + l2 * vx + l3 * vy + m0 * va * vb + m1 * vx * vy + c) ;;
     G (mk_row a b x y o) (quad_poly_g K l0 l1 l2 l3 m0 m1 1 c) >> ret o).

  (** gadgets/arithmetic.rs:94-104 *)
  Definition lc_gate (a b x y o : nat) (c0 c1 c2 c3 : K) : C unit :=
    check_vars_bound [a; b; x; y; o] >> G (mk_row a b x y o) (lin_comb_gate K c0 c1 c2 c3).

  (** gadgets/arithmetic.rs:108-132 *)
  Definition lc (a b x y : nat) (c0 c1 c2 c3 : K) : C nat :=
    check_vars_bound [a; b; x; y] >>
    (va <- get_witness a ;; vb <- get_witness b ;; vx <- get_witness x ;; vy <- get_witness y ;;
     o <- create_variable (va * c0 + (vb * c1 + (vx * c2 + (vy * c3 + 0)))) ;;
     lc_gate a b x y o c0 c1 c2 c3 >> ret o).

  (** gadgets/arithmetic.rs:137-147 *)
  Definition mul_add_gate (a b x y o : nat) (m0 m1 : K) : C unit :=
    check_vars_bound [a; b; x; y; o] >> G (mk_row a b x y o) (mul_add_g K m0 m1).

  (** gadgets/arithmetic.rs:152-171 *)
  Definition mul_add (a b x y : nat) (m0 m1 : K) : C nat :=
    check_vars_bound [a; b; x; y] >>
    (va <- get_witness a ;; vb <- get_witness b ;; vx <- get_witness x ;; vy <- get_witness y ;;
     o <- create_variable (m0 * va * vb + m1 * vx * vy) ;;
     mul_add_gate a b x y o m0 m1 >> ret o).

  (** gadgets/arithmetic.rs:175-223 *)
  Definition csum (elems : list nat) : C nat :=
    match elems with
    | [] => fail ParameterError
    | _ =>
        check_vars_bound elems >>
        (vals <- mapM get_witness elems ;;
         s <- create_variable (fsum vals) ;;
         padded_len <- lift (fun _ => let* n := next_multiple (length elems - 1) 3 in Ok (n + 1)%nat) ;;
         let padded := resize elems padded_len 0%nat in
         acc0 <- idx padded 0 ;;
         acc <- foldM (fun acc i =>
                   x <- idx padded (3 * i - 2) ;; y <- idx padded (3 * i - 1) ;; z <- idx padded (3 * i) ;;
                   lc acc x y z 1 1 1 1) acc0 (seq 1 (padded_len / 3 - 1)) ;;
         x <- idx padded (padded_len - 3) ;; y <- idx padded (padded_len - 2) ;;
         z <- idx padded (padded_len - 1) ;;
         lc_gate acc x y z s 1 1 1 1 >> ret s)
    end.

  (** gadgets/arithmetic.rs:227-239 *)
  Definition add_constant_gate (x : nat) (c : K) (y : nat) : C unit :=
    check_var_bound x >> check_var_bound y >>
    G (mk_row x 1 0 0 y) (constant_addition_gate K c).
  (** gadgets/arithmetic.rs:243-257 *)
  Definition add_constant (x : nat) (c : K) : C nat :=
    check_var_bound x >>
    (v <- unwrap (get_witness x) ;; o <- unwrap (create_variable (c + v)) ;;
     add_constant_gate x c o >> ret o).
  (** gadgets/arithmetic.rs:261-273 *)
  Definition mul_constant_gate (x : nat) (c : K) (y : nat) : C unit :=
    check_var_bound x >> check_var_bound y >>
    G (mk_row x 0 0 0 y) (constant_multiplication_gate K c).
  (** gadgets/arithmetic.rs:277-291 *)
  Definition mul_constant (x : nat) (c : K) : C nat :=
    check_var_bound x >>
    (v <- unwrap (get_witness x) ;; o <- unwrap (create_variable (c * v)) ;;
     mul_constant_gate x c o >> ret o).

  (** gadgets/arithmetic.rs:295-309 *)
  Definition power_11_gen (x : nat) : C nat :=
    check_var_bound x >>
    (v <- get_witness x ;; x5 <- create_variable (pow5 v) ;;
     G (mk_row x 0 0 0 x5) (fifth_root_gate K) >>
     (x10 <- mul x5 x5 ;; mul x10 x)).
  (** gadgets/arithmetic.rs:313-327 *)
  Definition power_11_gate (x y : nat) : C unit :=
    check_var_bound x >> check_var_bound y >>
    (v <- get_witness x ;; x5 <- create_variable (pow5 v) ;;
     G (mk_row x 0 0 0 x5) (fifth_root_gate K) >>
     (x10 <- mul x5 x5 ;; mul_gate x10 x y)).

  (** gadgets/logic.rs:19-25 *)
  Definition logic_or_gate (a b : nat) : C unit :=
    check_var_bound a >> check_var_bound b >> G (mk_row a b 0 0 0) (logic_or_g K).
  (** gadgets/logic.rs:38-65; [inverse()] of a non-zero value cannot fail. *)
  Definition is_zero (a : nat) : C nat :=
    check_var_bound a >>
    (v <- get_witness a ;;
     y <- create_variable (if feqb v 0 then 1 else 0) ;;
     ai <- create_variable (if feqb v 0 then 0 else finv v) ;;
     mul_add_gate a ai 1 y 1 1 1 >>
     mul_gate y a 0 >> ret y).
  (** gadgets/logic.rs:29-34 *)
  Definition is_equal (a b : nat) : C nat :=
    check_var_bound a >> check_var_bound b >> (d <- sub a b ;; is_zero d).
  (** gadgets/logic.rs:69-74 *)
  Definition non_zero_gate (a : nat) : C unit :=
    v <- get_witness a ;;
    i <- create_variable (if feqb v 0 then 0 else finv v) ;;
    mul_gate a i 1.
  (** gadgets/logic.rs:79-81 *)
  Definition logic_neg (a : nat) : C nat := is_zero a.
  (** gadgets/logic.rs:86-91 *)
  Definition logic_and (a b : nat) : C nat :=
    va <- get_witness a ;; vb <- get_witness b ;;
    o <- create_variable (va * vb) ;; mul_gate a b o >> ret o.
  (** gadgets/logic.rs:96-107 *)
  Definition logic_and_all (vs : list nat) : C nat :=
    match vs with
    | [] => fail ParameterError
    | v :: vs' => foldM logic_and v vs'
    end.
  (** gadgets/logic.rs:112-125 *)
  Definition logic_or (a b : nat) : C nat :=
    check_var_bound a >> check_var_bound b >>
    (va <- get_witness a ;; vb <- get_witness b ;;
     o <- create_variable (va + vb - va * vb) ;;
     G (mk_row a b 0 0 o) (logic_or_output_gate K) >> ret o).
  (** gadgets/logic.rs:129-137 *)
  Definition enforce_true (a : nat) : C unit := enforce_constant a 1.
  Definition enforce_false (a : nat) : C unit := enforce_constant a 0.
  (** gadgets/logic.rs:141-164 *)
  Definition conditional_select (b x0 x1 : nat) : C nat :=
    check_var_bound b >> check_var_bound x0 >> check_var_bound x1 >>
    (vb <- get_witness b ;;
     y <- (if feqb vb 0 then v <- get_witness x0 ;; create_variable v
           else if feqb vb 1 then v <- get_witness x1 ;; create_variable v
           else fail ParameterError) ;;
     G (mk_row b x0 b x1 y) (cond_select_gate K) >> ret y).

  (** gadgets/range.rs:57-90.  An empty chunk list underflows [len - 1]. *)
  Definition decomposition_gate (chunks : list nat) (a : nat) (rs : K) : C unit :=
    match chunks with
    | [] => cpanic
    | _ =>
        padded_len <- lift (fun _ => let* n := next_multiple (length chunks - 1) 3 in Ok (n + 1)%nat) ;;
        let padded := resize chunks padded_len 0%nat in
        let sq := rs * rs in
        let cu := rs * sq in
        acc0 <- idx padded (padded_len - 1) ;;
        acc <- foldM (fun acc i =>
                  x <- idx padded (padded_len - 1 - 3 * i + 2) ;;
                  y <- idx padded (padded_len - 1 - 3 * i + 1) ;;
                  z <- idx padded (padded_len - 1 - 3 * i) ;;
                  lc acc x y z cu sq rs 1) acc0 (seq 1 (padded_len / 3 - 1)) ;;
        x <- idx padded 2 ;; y <- idx padded 1 ;; z <- idx padded 0 ;;
        lc_gate acc x y z a cu sq rs 1
    end.

  (** gadgets/range.rs:166-174 *)
  Definition binary_decomposition_gate (bits : list nat) (a : nat) : C unit :=
    decomposition_gate bits a (fZ 2).

  Section PrimeField.
    (** The prime-field data of [F]: canonical representative, [F::MODULUS],
        [F::MODULUS_BIT_SIZE] and the bit length of its big-integer type (a
        multiple of 64). *)
    Variable zval : K -> Z.
    Variable modulus : Z.
    Variable nbits : nat.
    Variable repr_bits : nat.

    (** [into_bigint().to_bits_le()] *)
    Definition bits_le (z : Z) : list bool :=
      map (fun i => Z.testbit z (Z.of_nat i)) (seq 0 repr_bits).

    (** gadgets/range.rs:140-163.  [zip] stops at the [repr_bits] bits of the
        modulus; the chained [repeat(false_var)] supplies missing bits. *)
    Definition canonical_check (bits : list nat) : C unit :=
      let n := repr_bits in
      let bs := firstn n bits ++ repeat 0%nat (n - length bits) in
      cur <- foldM (fun cur bp =>
               let '(b, pb) := bp in
               na <- logic_neg b ;;
               if (pb : bool) then logic_or cur na else logic_and cur na)
             0%nat (combine bs (bits_le modulus)) ;;
      enforce_constant cur 1.

    (** gadgets/range.rs:96-138 *)
    Definition range_gate_internal (a : nat) (bit_len : nat) : C (list nat) :=
      check_var_bound a >>
      (if (bit_len =? 0)%nat then fail ParameterError else
       v <- get_witness a ;;
       let abits := bits_le (zval v) in
       if (length abits <? bit_len)%nat then fail ParameterError else
       vars <- mapM create_boolean_variable (firstn bit_len abits) ;;
       (if (bit_len =? nbits)%nat
        then binary_decomposition_gate vars a >> canonical_check vars
        else binary_decomposition_gate vars a) >>
       ret vars).

    (** gadgets/range.rs:42-52 *)
    Definition unpack (a : nat) (bit_len : nat) : C (list nat) :=
      (if (bit_len <? nbits)%nat
       then v <- get_witness a ;;
            (if (zval (fpow (fZ 2) bit_len) <=? zval v)%Z then fail ParameterError else ret tt)
       else ret tt) >>
      range_gate_internal a bit_len.

    (** gadgets/range.rs:29-37; slicing beyond the end panics. *)
    Definition is_in_range (a : nat) (bit_len : nat) : C nat :=
      bits <- unpack a nbits ;;
      if (length bits <? bit_len)%nat then cpanic else
      s <- csum (skipn bit_len bits) ;; is_zero s.

    (** gadgets/ultraplonk/range.rs:76-98: chunks of [rb] bits of the canonical
        representative, as field elements, padded or cut to [len].  The code
        accumulates a chunk in an [i32], exact for [rb <= 30]. *)
    Definition chunk_val (l : list bool) : Z :=
      fold_right (fun (b : bool) acc => (2 * acc + (if b then 1 else 0))%Z) 0%Z l.
    Definition decompose_le (v : K) (len rb : nat) : list K :=
      resize (map (fun ch => fZ (chunk_val ch)) (chunks rb (bits_le (zval v)))) len 0.

    (** gadgets/ultraplonk/range.rs:22-56.  [bit_len % 0] panics. *)
    Definition range_gate_with_lookup (a : nat) (bit_len : nat) : C unit :=
      rb <- lift range_bit_len ;;
      rs <- lift range_size ;;
      if (bit_len =? 0)%nat then fail ParameterError else
      check_var_bound a >>
      if (rb =? 0)%nat then cpanic else
      let leftover := (bit_len mod rb)%nat in
      let lookup_len := (bit_len / rb)%nat in
      let len := (lookup_len + if (0 <? leftover)%nat then 1 else 0)%nat in
      v <- get_witness a ;;
      vars <- mapM create_variable (decompose_le v len rb) ;;
      iterM add_range_check_variable (firstn lookup_len vars) >>
      (if (0 <? leftover)%nat
       then x <- idx vars lookup_len ;; range_gate_internal x leftover >> ret tt
       else ret tt) >>
      decomposition_gate vars a (fZ rs).

    (** gadgets/range.rs:17-24 *)
    Definition enforce_in_range (a : nat) (bit_len : nat) : C unit :=
      s <- lift (fun c => Ok (support_lookup c)) ;;
      if (s : bool) then range_gate_with_lookup a bit_len
      else range_gate_internal a bit_len >> ret tt.

    (** gadgets/cmp.rs:224-253 *)
    Fixpoint skip_ones (l : list (bool * nat)) : list (bool * nat) :=
      match l with
      | (true, _) :: l' => skip_ones l'
      | _ => l
      end.
    Definition is_gt_constant_internal (a : nat) (k : K) : C nat :=
      bits <- unpack a nbits ;;
      let cb := bits_le (zval k) in
      let n := length bits in
      let cbits := firstn n cb ++ repeat false (n - length cb) in
      match skip_ones (combine cbits bits) with
      | [] => ret 0%nat
      | (_, v) :: rest =>
          foldM (fun cur bx => let '(b, x) := bx in
                   if (b : bool) then logic_and x cur else logic_or x cur) v rest
      end.

    (** [F::from(F::MODULUS_MINUS_ONE_DIV_TWO)] *)
    Definition half : K := fZ ((modulus - 1) / 2)%Z.

    (** gadgets/cmp.rs:178-195 *)
    Definition msb_check_internal (a b : nat) : C (nat * nat) :=
      ag <- is_gt_constant_internal a half ;;
      bg <- is_gt_constant_internal b half ;;
      al <- logic_neg ag ;;
      m <- logic_and al bg ;;
      e <- is_equal ag bg ;;
      ret (m, e).
    (** gadgets/cmp.rs:198-206 *)
    Definition is_lt_internal (a b : nat) : C nat :=
      me <- msb_check_internal a b ;;
      c <- sub a b ;;
      g <- is_gt_constant_internal c half ;;
      g' <- logic_and (snd me) g ;;
      logic_or (fst me) g'.
    (** gadgets/cmp.rs:210-218 *)
    Definition enforce_lt_internal (a b : nat) : C unit :=
      me <- msb_check_internal a b ;;
      c <- sub a b ;;
      g <- is_gt_constant_internal c half ;;
      g' <- logic_and (snd me) g ;;
      logic_or_gate (fst me) g'.

    (** gadgets/cmp.rs:14-21 *)
    Definition enforce_lt (a b : nat) : C unit :=
      check_var_bound a >> check_var_bound b >> enforce_lt_internal a b.
    (** gadgets/cmp.rs:50-57 *)
    Definition is_lt (a b : nat) : C nat :=
      check_var_bound a >> check_var_bound b >> is_lt_internal a b.
    (** gadgets/cmp.rs:24-30 *)
    Definition enforce_leq (a b : nat) : C unit := c <- is_lt b a ;; enforce_constant c 0.
    (** gadgets/cmp.rs:33-38 *)
    Definition enforce_gt (a b : nat) : C unit := enforce_lt b a.
    (** gadgets/cmp.rs:41-47 *)
    Definition enforce_geq (a b : nat) : C unit := c <- is_lt a b ;; enforce_constant c 0.
    (** gadgets/cmp.rs:60-65 *)
    Definition is_gt (a b : nat) : C nat := is_lt b a.
    (** gadgets/cmp.rs:68-76 *)
    Definition is_leq (a b : nat) : C nat :=
      check_var_bound a >> check_var_bound b >> (c <- is_lt_internal b a ;; logic_neg c).
    (** gadgets/cmp.rs:79-87 *)
    Definition is_geq (a b : nat) : C nat :=
      check_var_bound a >> check_var_bound b >> (c <- is_lt_internal a b ;; logic_neg c).
    (** gadgets/cmp.rs:91-98 *)
    Definition is_lt_constant (a : nat) (k : K) : C nat :=
      check_var_bound a >> (b <- create_constant_variable k ;; is_lt a b).
    (** gadgets/cmp.rs:102-109 *)
    Definition is_leq_constant (a : nat) (k : K) : C nat :=
      check_var_bound a >> (b <- create_constant_variable k ;; is_leq a b).
    (** gadgets/cmp.rs:113-119 *)
    Definition is_gt_constant (a : nat) (k : K) : C nat :=
      check_var_bound a >> is_gt_constant_internal a k.
    (** gadgets/cmp.rs:123-130 *)
    Definition is_geq_constant (a : nat) (k : K) : C nat :=
      check_var_bound a >> (b <- create_constant_variable k ;; is_geq a b).
    (** gadgets/cmp.rs:134-171 *)
    Definition enforce_lt_constant (a : nat) (k : K) : C unit :=
      check_var_bound a >> (b <- create_constant_variable k ;; enforce_lt a b).
    Definition enforce_leq_constant (a : nat) (k : K) : C unit :=
      check_var_bound a >> (b <- create_constant_variable k ;; enforce_leq a b).
    Definition enforce_gt_constant (a : nat) (k : K) : C unit :=
      check_var_bound a >> (b <- create_constant_variable k ;; enforce_gt a b).
    Definition enforce_geq_constant (a : nat) (k : K) : C unit :=
      check_var_bound a >> (b <- create_constant_variable k ;; enforce_geq a b).
  End PrimeField.

  (** gadgets/ultraplonk/lookup_table.rs:21-71.  [table_gate_ids] is updated
      before any insertion, [num_table_elems] after all of them. *)
  Definition create_table_and_lookup_variables
      (lookups : list (nat * nat * nat)) (table : list (nat * nat)) : C unit :=
    iterM (fun l => check_var_bound (fst (fst l)) >> check_var_bound (snd (fst l)) >>
                    check_var_bound (snd l)) lookups >>
    iterM (fun t => check_var_bound (fst t) >> check_var_bound (snd t)) table >>
    let n := Nat.max (length lookups) (length table) in
    s <- lift (fun c => Ok (num_gates c)) ;;
    modify (push_table s n) >>
    (ctr <- lift (fun c => Ok (length (table_ids c))) ;;
     iterM (fun i =>
       let '(ds, k, v0, v1) :=
         match nth_error lookups i with
         | Some (k, v0, v1) => (fnat ctr : K, k, v0, v1)
         | None => (0, 0%nat, 0%nat, 0%nat)
         end in
       let '(tds, tk, t0, t1) :=
         match nth_error table i with
         | Some (t0, t1) => (fnat ctr : K, fnat i : K, t0, t1)
         | None => (0, 0, 0%nat, 0%nat)
         end in
       G (mk_row k v0 v1 t0 t1) (lookup_gate K ds tds tk)) (seq 0 n) >>
     modify (add_table_elems n)).
End Gadgets.
