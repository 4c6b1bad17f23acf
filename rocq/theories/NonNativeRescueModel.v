(** Model of the Rescue gadgets over a non-native field
    (/repo/rescue/src/gadgets/non_native.rs): elements of the field [Fr] of the hash
    are held as two limbs in a circuit over [K]. *)

From Coq Require Import List Arith NArith ZArith Bool Lia.
From Verif Require Import Base Alg ConvModel RescueModel CircuitModel GadgetModel ModArithModel PlonkVerifierModel.
Import ListNotations.
Local Open Scope fld_scope.
Local Open Scope circ_scope.

(** Rust's arrays of [STATE_SIZE] = 4 entries, and the loops over them. *)
Record quad (A : Type) := Q4 { q0 : A; q1 : A; q2 : A; q3 : A }.
Arguments Q4 {A}. Arguments q0 {A}. Arguments q1 {A}. Arguments q2 {A}. Arguments q3 {A}.
Definition qlist {A} (x : quad A) : list A := [q0 x; q1 x; q2 x; q3 x].
Definition qzip {A A'} (x : quad A) (y : quad A') : quad (A * A') :=
  Q4 (q0 x, q0 y) (q1 x, q1 y) (q2 x, q2 y) (q3 x, q3 y).
Definition qvec {K : fld} (v : vec4 K) : quad K := Q4 (w0 v) (w1 v) (w2 v) (w3 v).
Definition vecq {K : fld} (x : quad K) : vec4 K := V4 (q0 x) (q1 x) (q2 x) (q3 x).
Definition qrows {K : fld} (m : mat4 K) : quad (vec4 K) := Q4 (row0 m) (row1 m) (row2 m) (row3 m).
Definition mapM4 {K : fld} {A A'} (f : A -> circ K A') (x : quad A) : circ K (quad A') :=
  a <- f (q0 x) ;; b <- f (q1 x) ;; c <- f (q2 x) ;; d <- f (q3 x) ;; ret (Q4 a b c d).

Section NonNativeRescue.
  Context {K Fr : fld}.
  (** The circuit's field, as in [GadgetModel]. *)
  Variable zval : K -> Z.
  Variable modulus : Z.
  Variable nbits repr_bits : nat.
  (** The field of the hash: its integers, modulus and size. *)
  Variable zr : Fr -> Z.
  Variable tmod : Z.
  Variable tbits : nat.
  Variable R : rescue_params Fr.
  Notation C := (circ K).
  Notation fv := (fvar (K := K)).
  Notation fe := (felem (K := K)).

  (** non_native.rs:26-30 *)
  Record nns := NNS { nst : quad fv; nmod : fe }.

  (** [FpElem::new(&field_switching::<T, F>(x), m, Some(two_power_m))] *)
  Definition fconst (m : nat) (t : option K) (x : Fr) : C fe := lift (fun _ => felem_new zval nbits (of_r zr x) m t).
  (** [FpElemVar::new_from_field_element(self, &field_switching::<T, F>(x), m, ..)] *)
  Definition fnew (m : nat) (t : option K) (x : Fr) : C fv := fvar_new_from_field_element zval modulus nbits repr_bits (of_r zr x) m t.
  (** [field_switching::<F, T>(&x.witness(self)?)] *)
  Definition fwit (x : fv) : C Fr := w <- fvar_witness x ;; ret (to_r zval w).
  (** [FpElem::new(&t_modulus, m, two_power_m)] *)
  Definition fmod (m : nat) (t : option K) : C fe := lift (fun _ => felem_new zval nbits (fZ tmod) m t).

  (** non_native.rs:340-350 *)
  Definition check_nns (s : nns) : C unit := check_vars_bound (flat_map (fun x => [v0 x; v1 x]) (qlist (nst s))).
  (** non_native.rs:352-393 *)
  Definition nn_add_constant_state (s : nns) (k : vec4 Fr) : C nns :=
    check_nns s >>
    (es <- mapM4 (fconst (vm (q0 (nst s))) (Some (vtwo (q0 (nst s))))) (qvec k) ;;
     o <- mapM4 (fun xe => mod_add_constant zval modulus nbits repr_bits (fst xe) (snd xe) (nmod s)) (qzip (nst s) es) ;;
     ret (NNS o (nmod s))).
  (** non_native.rs:564-595 *)
  Definition nn_pow_alpha_inv (x : fv) : C fv :=
    check_vars_bound [v0 x; v1 x] >>
    if (rp_a R =? 11)%N then
      v <- fwit x ;;
      o <- fnew (vm x) (Some (vtwo x)) (fpow_N v (limbs_N (rp_a_inv R))) ;;
      non_native_power_11_gate zval modulus nbits repr_bits tmod tbits o x >> ret o
    else fail ParameterError.
  (** non_native.rs:395-413 *)
  Definition nn_pow_alpha_inv_state (s : nns) : C nns :=
    check_nns s >> (o <- mapM4 nn_pow_alpha_inv (nst s) ;; ret (NNS o (nmod s))).
  (** non_native.rs:474-496, one row: the linear combination, equal to the output. *)
  Definition nn_row (s : quad fv) (m : nat) (t : option K) (row : vec4 Fr) (c : fe) (o : fv) : C unit :=
    es <- mapM4 (fconst m t) (qvec row) ;;
    r <- non_native_linear_gen zval modulus nbits repr_bits tmod tbits (qlist s) (qlist es) c ;;
    enforce_equal (v0 o) (v0 r) >> enforce_equal (v1 o) (v1 r).
  (** non_native.rs:415-501 *)
  Definition nn_affine_transform (s : nns) (mat : mat4 Fr) (k : vec4 Fr) : C nns :=
    check_nns s >>
    (let m := vm (q0 (nst s)) in let t := Some (vtwo (q0 (nst s))) in
     v <- mapM4 fwit (nst s) ;;
     cs <- mapM4 (fconst m t) (qvec k) ;;
     o <- mapM4 (fnew m t) (qvec (linear (vecq v) mat k)) ;;
     mapM4 (fun rco => nn_row (nst s) m t (fst rco) (fst (snd rco)) (snd (snd rco))) (qzip (qrows mat) (qzip cs o)) >>
     ret (NNS o (nmod s))).
  (** non_native.rs:528-548, one entry *)
  Definition nn_pow_11 (m : nat) (t : option K) (xv : fv * Fr) : C fv :=
    f <- fnew m t (fpow_N (snd xv) (rp_a R)) ;;
    non_native_power_11_gate zval modulus nbits repr_bits tmod tbits (fst xv) f >> ret f.
  (** non_native.rs:503-562 *)
  Definition nn_non_linear_transform (s : nns) (mat : mat4 Fr) (k : vec4 Fr) : C nns :=
    check_nns s >>
    (v <- mapM4 fwit (nst s) ;;
     if (rp_a R =? 11)%N then
       o <- mapM4 (nn_pow_11 (em (nmod s)) (Some (vtwo (q0 (nst s))))) (qzip (nst s) v) ;;
       nn_affine_transform (NNS o (nmod s)) mat k
     else fail ParameterError).
  (** The comparison of moduli at non_native.rs:613: [FpElem] derives [PartialEq]. *)
  Definition felem_eqb (a b : fe) : bool :=
    feqb (e0 a) (e0 b) && feqb (e1 a) (e1 b) && (em a =? em b)%nat && feqb (etwo a) (etwo b).
  (** non_native.rs:597-631 *)
  Definition nn_add_state (s t : nns) : C nns :=
    check_nns s >> check_nns t >>
    if negb (felem_eqb (nmod s) (nmod t)) then fail ParameterError else
    o <- mapM4 (fun xy => mod_add zval modulus nbits repr_bits (fst xy) (snd xy) (nmod s)) (qzip (nst s) (nst t)) ;;
    ret (NNS o (nmod s)).

  (** One round of the loops at non_native.rs:644-654, 273-288 and 315-330. *)
  Definition nn_round (r : nat) (s : nns) (k : vec4 Fr) : C nns :=
    if (r mod 2 =? 0)%nat then t <- nn_pow_alpha_inv_state s ;; nn_affine_transform t (rp_mds R) k
    else nn_non_linear_transform s (rp_mds R) k.
  Fixpoint nn_const_rounds (r : nat) (keys : list (vec4 Fr)) (s : nns) : C nns :=
    match keys with
    | [] => ret s
    | k :: keys' => s' <- nn_round r s k ;; nn_const_rounds (S r) keys' s'
    end.
  (** non_native.rs:633-656 *)
  Definition nn_permutation_keys (s : nns) (keys : list (vec4 Fr)) : C nns :=
    if negb (length keys =? 2 * ROUNDS + 1)%nat then fail ParameterError else
    k0 <- idx keys 0 ;; s' <- nn_add_constant_state s k0 ;; nn_const_rounds 0 (tl keys) s'.
  (** non_native.rs:45-59 *)
  Definition nn_permutation (s : nns) : C nns := nn_permutation_keys s (rp_keys R).

  (** non_native.rs:263-292; the off-circuit [aux] is not used. *)
  Fixpoint nn_schedule_rounds (r : nat) (inj : list (vec4 Fr)) (s : nns) : C (list nns) :=
    match inj with
    | [] => ret []
    | k :: inj' => s' <- nn_round r s k ;; rest <- nn_schedule_rounds (S r) inj' s' ;; ret (s' :: rest)
    end.
  Definition nn_key_schedule (key : nns) : C (list nns) :=
    s <- nn_add_constant_state key (rp_init R) ;;
    rest <- nn_schedule_rounds 0 (rp_inject R) s ;; ret (s :: rest).
  (** non_native.rs:300-332 *)
  Fixpoint nn_var_rounds (r : nat) (keys : list nns) (s : nns) : C nns :=
    match keys with
    | [] => ret s
    | k :: keys' => s' <- nn_round r s v4_zero ;; s'' <- nn_add_state s' k ;; nn_var_rounds (S r) keys' s''
    end.
  Definition nn_prp_with_round_keys (s : nns) (keys : list nns) : C nns :=
    if negb (length keys =? 2 * ROUNDS + 1)%nat then fail ParameterError else
    k0 <- idx keys 0 ;; s' <- nn_add_state s k0 ;; nn_var_rounds 0 (tl keys) s'.
  (** non_native.rs:61-70 *)
  Definition nn_prp (key input : nns) : C nns :=
    keys <- nn_key_schedule key ;; nn_prp_with_round_keys input keys.

  (** [block[0], block[1], block[2], zero_var] and [chunk[0], .., chunk[3]] *)
  Definition nn_block3 (z : fv) (b : list fv) : C (quad fv) :=
    x <- idx b 0 ;; y <- idx b 1 ;; u <- idx b 2 ;; ret (Q4 x y u z).
  Definition nn_block4 (b : list fv) : C (quad fv) :=
    x <- idx b 0 ;; y <- idx b 1 ;; u <- idx b 2 ;; v <- idx b 3 ;; ret (Q4 x y u v).
  (** non_native.rs:129-139 and 206-215 *)
  Definition nn_absorb (blk : list fv -> C (quad fv)) (p : fe) : nns -> list (list fv) -> C nns :=
    foldM (fun s b => t <- blk b ;; u <- nn_add_state s (NNS t p) ;; nn_permutation u).
  (** non_native.rs:141-153; [extract <= 3], so the loop ends within [num_output] steps. *)
  Fixpoint nn_squeeze (fuel remaining : nat) (s : nns) : C (list fv) :=
    match fuel with
    | O => cpanic
    | S fuel' =>
        let extract := Nat.min remaining CRHF_RATE in
        let out := firstn extract (qlist (nst s)) in
        if (remaining - extract =? 0)%nat then ret out else
        s' <- nn_permutation s ;;
        more <- nn_squeeze fuel' (remaining - extract) s' ;; ret (out ++ more)
    end.
  (** non_native.rs:99-156 *)
  Definition nn_sponge_no_padding (data : list fv) (num : nat) : C (list fv) :=
    if (length data =? 0)%nat || negb (length data mod CRHF_RATE =? 0)%nat then fail ParameterError else
    x <- idx data 0 ;;
    let t := Some (vtwo x) in let z := fvar_zero (vm x) t in
    p <- fmod (vm x) t ;;
    b <- nn_block3 z data ;;
    s <- nn_permutation (NNS b p) ;;
    s' <- nn_absorb (nn_block3 z) p s (chunks CRHF_RATE (skipn CRHF_RATE data)) ;;
    nn_squeeze (S num) num s'.
  Definition nn_next_len (len mult : nat) : C nat :=
    lift (fun _ => match compute_len_to_next_multiple len mult with Ok n => Ok n | _ => Panic end).
  (** non_native.rs:72-97 *)
  Definition nn_sponge_with_padding (data : list fv) (num : nat) : C (list fv) :=
    match data with
    | [] => fail ParameterError
    | x :: _ =>
        let t := Some (vtwo x) in
        n <- nn_next_len (length data + 1) CRHF_RATE ;;
        nn_sponge_no_padding (data ++ [fvar_one (vm x) t] ++ repeat (fvar_zero (vm x) t) (n - length data - 1)) num
    end.
  (** non_native.rs:186-219 *)
  Definition nn_keyed_no_padding (key : fv) (data : list fv) : C fv :=
    if negb (length data mod STATE_SIZE =? 0)%nat || (length data =? 0)%nat then fail ParameterError else
    x <- idx data 0 ;;
    let t := Some (vtwo x) in let z := fvar_zero (vm x) t in
    p <- fmod (vm x) t ;;
    s <- nn_absorb nn_block4 p (NNS (Q4 z z z key) p) (chunks STATE_SIZE data) ;;
    ret (q0 (nst s)).
  (** non_native.rs:157-184 *)
  Definition nn_keyed_zero_padding (key : fv) (data : list fv) : C fv :=
    match data with
    | [] => fail ParameterError
    | x :: _ =>
        n <- nn_next_len (length data) STATE_SIZE ;;
        nn_keyed_no_padding key (data ++ repeat (fvar_zero (vm x) (Some (vtwo x))) (n - length data))
    end.
  (** non_native.rs:232-261 *)
  Definition nn_create_state (v : vec4 Fr) : C nns :=
    rb <- lift range_bit_len ;;
    if (rb =? 0)%nat then cpanic else
    let m := ((tbits / 2 / rb + 1) * rb)%nat in
    p <- fmod m None ;;
    o <- mapM4 (fnew m (Some (etwo p))) (qvec v) ;;
    ret (NNS o p).
End NonNativeRescue.
Arguments nns : clear implicits.
