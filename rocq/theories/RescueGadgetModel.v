(** Model of the Rescue gadgets over the native field:
    /repo/rescue/src/gadgets/{native,prf,commitment}.rs. *)

From Coq Require Import List Arith NArith ZArith Bool Lia.
From Verif Require Import Base Alg ConvModel RescueModel CircuitModel GadgetModel.
Import ListNotations.
Local Open Scope fld_scope.
Local Open Scope circ_scope.

(** native.rs:22 [RescueStateVar], and native.rs:35-38. *)
Record svar := SV { s0 : nat; s1 : nat; s2 : nat; s3 : nat }.

Section RescueGadget.
  Context {K : fld}.
  Variable P : rescue_params K.
  Notation C := (circ K).

  (** native.rs:56-79 [RescueAffineGate] *)
  Definition rescue_affine_gate (v : vec4 K) (k : K) : gate K :=
    agate K (w0 v) (w1 v) (w2 v) (w3 v) 0 0 0 0 0 0 1 k 0.
  (** native.rs:86-108 [Power5NonLinearGate] *)
  Definition power5_gate (v : vec4 K) (k : K) : gate K :=
    agate K 0 0 0 0 0 0 (w0 v) (w1 v) (w2 v) (w3 v) 1 k 0.

  (** native.rs:324-332 *)
  Definition check_state (s : svar) : C unit := check_vars_bound [s0 s; s1 s; s2 s; s3 s].
  (** native.rs:277-286 *)
  Definition create_state (v : vec4 K) : C svar :=
    a <- create_variable (w0 v) ;; b <- create_variable (w1 v) ;; c <- create_variable (w2 v) ;; d <- create_variable (w3 v) ;;
    ret (SV a b c d).
  (** native.rs:334-350 *)
  Definition add_constant_state (s : svar) (k : vec4 K) : C svar :=
    check_state s >>
    (a <- add_constant (s0 s) (w0 k) ;; b <- add_constant (s1 s) (w1 k) ;;
     c <- add_constant (s2 s) (w2 k) ;; d <- add_constant (s3 s) (w3 k) ;; ret (SV a b c d)).
  (** native.rs:466-484 *)
  Definition pow_alpha_inv (v : nat) : C nat :=
    check_var_bound v >>
    (x <- get_witness v ;;
     o <- create_variable (fpow_N x (limbs_N (rp_a_inv P))) ;;
     if (rp_a P =? 5)%N then insert_gate (mk_row o 0 0 0 v) (fifth_root_gate K) >> ret o
     else if (rp_a P =? 11)%N then power_11_gate o v >> ret o
     else fail ParameterError).
  (** native.rs:352-366 *)
  Definition pow_alpha_inv_state (s : svar) : C svar :=
    check_state s >>
    (a <- pow_alpha_inv (s0 s) ;; b <- pow_alpha_inv (s1 s) ;;
     c <- pow_alpha_inv (s2 s) ;; d <- pow_alpha_inv (s3 s) ;; ret (SV a b c d)).
  (** [self.witness] of the four variables *)
  Definition witness_state (s : svar) : C (vec4 K) :=
    a <- get_witness (s0 s) ;; b <- get_witness (s1 s) ;; c <- get_witness (s2 s) ;; d <- get_witness (s3 s) ;;
    ret (V4 a b c d).
  (** native.rs:382-404 and native.rs:426-447: four outputs, one gate each. *)
  Definition output_rows (g : vec4 K -> K -> gate K) (s : svar) (m : mat4 K) (k v : vec4 K) : C svar :=
    let one (row : vec4 K) (k v : K) : C nat :=
      o <- create_variable v ;; insert_gate (mk_row (s0 s) (s1 s) (s2 s) (s3 s) o) (g row k) >> ret o in
    a <- one (row0 m) (w0 k) (w0 v) ;; b <- one (row1 m) (w1 k) (w1 v) ;;
    c <- one (row2 m) (w2 k) (w2 v) ;; d <- one (row3 m) (w3 k) (w3 v) ;; ret (SV a b c d).
  (** native.rs:368-406 *)
  Definition affine_transform (s : svar) (m : mat4 K) (k : vec4 K) : C svar :=
    check_state s >>
    (v <- witness_state s ;; output_rows rescue_affine_gate s m k (linear v m k)).
  (** native.rs:449-459, one entry of the loop *)
  Definition pow_11 (e : nat) : C nat :=
    x <- get_witness e ;; f <- create_variable (fpow_N x 11) ;; power_11_gate e f >> ret f.
  (** native.rs:408-464 *)
  Definition non_linear_transform (s : svar) (m : mat4 K) (k : vec4 K) : C svar :=
    check_state s >>
    (v <- witness_state s ;;
     if (rp_a P =? 5)%N then output_rows power5_gate s m k (non_linear P v m k)
     else if (rp_a P =? 11)%N then
       a <- pow_11 (s0 s) ;; b <- pow_11 (s1 s) ;; c <- pow_11 (s2 s) ;; d <- pow_11 (s3 s) ;;
       affine_transform (SV a b c d) m k
     else fail ParameterError).
  (** native.rs:486-501 *)
  Definition add_state (s t : svar) : C svar :=
    a <- add (s0 s) (s0 t) ;; b <- add (s1 s) (s1 t) ;; c <- add (s2 s) (s2 t) ;; d <- add (s3 s) (s3 t) ;;
    ret (SV a b c d).

  (** native.rs:513-521, the loop from round [r] on *)
  Fixpoint const_rounds (r : nat) (keys : list (vec4 K)) (s : svar) : C svar :=
    match keys with
    | [] => ret s
    | k :: keys' =>
        s' <- (if (r mod 2 =? 0)%nat then t <- pow_alpha_inv_state s ;; affine_transform t (rp_mds P) k
               else non_linear_transform s (rp_mds P) k) ;;
        const_rounds (S r) keys' s'
    end.
  (** native.rs:503-523; a matrix has four rows by construction. *)
  Definition permutation_with_const_round_keys (s : svar) (keys : list (vec4 K)) : C svar :=
    if negb (length keys =? 2 * ROUNDS + 1)%nat then fail ParameterError else
    k0 <- idx keys 0 ;; s' <- add_constant_state s k0 ;; const_rounds 0 (tl keys) s'.
  (** native.rs:113-126 *)
  Definition rescue_permutation (s : svar) : C svar := permutation_with_const_round_keys s (rp_keys P).

  (** native.rs:262-272; the off-circuit [aux] of lines 254 and 261 is not used. *)
  Fixpoint schedule_rounds (r : nat) (inj : list (vec4 K)) (s : svar) : C (list svar) :=
    match inj with
    | [] => ret []
    | k :: inj' =>
        s' <- (if (r mod 2 =? 0)%nat then t <- pow_alpha_inv_state s ;; affine_transform t (rp_mds P) k
               else non_linear_transform s (rp_mds P) k) ;;
        rest <- schedule_rounds (S r) inj' s' ;; ret (s' :: rest)
    end.
  (** native.rs:251-276 *)
  Definition key_schedule_g (key : svar) : C (list svar) :=
    s <- add_constant_state key (rp_init P) ;;
    rest <- schedule_rounds 0 (rp_inject P) s ;; ret (s :: rest).
  (** native.rs:306-315 *)
  Fixpoint var_rounds (r : nat) (keys : list svar) (s : svar) : C svar :=
    match keys with
    | [] => ret s
    | k :: keys' =>
        s' <- (if (r mod 2 =? 0)%nat then t <- pow_alpha_inv_state s ;; affine_transform t (rp_mds P) v4_zero
               else non_linear_transform s (rp_mds P) v4_zero) ;;
        s'' <- add_state s' k ;;
        var_rounds (S r) keys' s''
    end.
  (** native.rs:294-317 *)
  Definition prp_with_round_keys_g (s : svar) (keys : list svar) : C svar :=
    if negb (length keys =? 2 * ROUNDS + 1)%nat then fail ParameterError else
    k0 <- idx keys 0 ;; s' <- add_state s k0 ;; var_rounds 0 (tl keys) s'.
  (** native.rs:128-138 *)
  Definition prp_g (key input : svar) : C svar :=
    keys <- key_schedule_g key ;; prp_with_round_keys_g input keys.

  (** A block of variables, [block[0], ...]; [zero] fills the capacity. *)
  Definition block3 (b : list nat) : C svar :=
    x <- idx b 0 ;; y <- idx b 1 ;; z <- idx b 2 ;; ret (SV x y z 0).
  Definition block4 (b : list nat) : C svar :=
    x <- idx b 0 ;; y <- idx b 1 ;; z <- idx b 2 ;; t <- idx b 3 ;; ret (SV x y z t).
  Definition state_vars (s : svar) : list nat := [s0 s; s1 s; s2 s; s3 s].
  (** native.rs:155-161 and native.rs:217-223 *)
  Definition absorb_blocks (blk : list nat -> C svar) : svar -> list (list nat) -> C svar :=
    foldM (fun s b => t <- blk b ;; u <- add_state s t ;; rescue_permutation u).
  (** native.rs:164-176; [extract <= 3], so the loop ends within [num_output] steps. *)
  Fixpoint squeeze_loop_g (fuel remaining : nat) (s : svar) : C (list nat) :=
    match fuel with
    | O => cpanic
    | S fuel' =>
        let extract := Nat.min remaining CRHF_RATE in
        let out := firstn extract (state_vars s) in
        if (remaining - extract =? 0)%nat then ret out else
        s' <- rescue_permutation s ;;
        more <- squeeze_loop_g fuel' (remaining - extract) s' ;; ret (out ++ more)
    end.
  (** native.rs:140-179; [zero()] is the variable 0. *)
  Definition rescue_sponge_no_padding (data : list nat) (num : nat) : C (list nat) :=
    if (length data =? 0)%nat || negb (length data mod CRHF_RATE =? 0)%nat then fail ParameterError else
    b <- block3 data ;;
    s <- rescue_permutation b ;;
    s' <- absorb_blocks block3 s (chunks CRHF_RATE (skipn CRHF_RATE data)) ;;
    squeeze_loop_g (S num) num s'.
  Definition next_len (len mult : nat) : C nat :=
    lift (fun _ => match compute_len_to_next_multiple len mult with Ok n => Ok n | _ => Panic end).
  (** native.rs:181-201; [one()] is the variable 1. *)
  Definition rescue_sponge_with_padding (data : list nat) (num : nat) : C (list nat) :=
    if (length data =? 0)%nat then fail ParameterError else
    n <- next_len (length data + 1) CRHF_RATE ;;
    rescue_sponge_no_padding (data ++ [1%nat] ++ repeat 0%nat (n - length data - 1)) num.
  (** native.rs:203-226 *)
  Definition keyed_sponge_no_padding (key : nat) (data : list nat) : C nat :=
    if negb (length data mod STATE_SIZE =? 0)%nat then fail ParameterError else
    s <- absorb_blocks block4 (SV 0 0 0 key) (chunks STATE_SIZE data) ;; ret (s0 s).
  (** native.rs:228-249 *)
  Definition keyed_sponge_zero_padding (key : nat) (data : list nat) : C nat :=
    if (length data =? 0)%nat then fail ParameterError else
    n <- next_len (length data) STATE_SIZE ;;
    keyed_sponge_no_padding key (data ++ repeat 0%nat (n - length data)).
  (** prf.rs:25-29 *)
  Definition eval_prf (key : nat) (input : list nat) : C nat := keyed_sponge_zero_padding key input.
  (** commitment.rs:41-50, [pad_with] *)
  Definition pad_vars (v : list nat) (mult : nat) : list nat :=
    let n := (if (length v mod mult =? 0)%nat then length v else length v + mult - length v mod mult)%nat in
    firstn n v ++ repeat 0%nat (n - length v).
  (** commitment.rs:30-37 *)
  Definition commit_g (input : list nat) (blinding : nat) : C nat :=
    r <- rescue_sponge_no_padding (pad_vars (blinding :: input) CRHF_RATE) 1 ;; idx r 0.
End RescueGadget.
