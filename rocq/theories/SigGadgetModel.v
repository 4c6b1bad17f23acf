(** Model of the Schnorr verification gadget
    (/repo/signature/src/gadgets/schnorr.rs) and of the ElGamal encryption gadget
    (/repo/elgamal/src/gadgets.rs). *)

From Coq Require Import List Arith NArith ZArith Bool.
From Verif Require Import Base Alg ConvModel RescueModel CircuitModel GadgetModel Edwards EccModel RescueGadgetModel.
Import ListNotations.
Local Open Scope fld_scope.
Local Open Scope circ_scope.

(** utilities/src/lib.rs:38-52, [field_byte_len] and [challenge_bit_len]; the
    modulus has at least one bit, so the subtraction does not underflow. *)
Definition field_byte_len (nbits : nat) : nat := ((nbits + 7) / 8)%nat.
Definition challenge_bit_len (nbits : nat) : nat := ((field_byte_len nbits - 1) * 8)%nat.

Section SigGadget.
  Context {K : fld}.
  (** The curve: coefficients, generator (affine coordinates), order of the scalar
      field and its bit length. *)
  Variables A D : K.
  Variable gen : pt K.
  Variables (sbits : nat) (order : Z).
  (** The circuit field, as a prime field (see [GadgetModel]). *)
  Variables (zval : K -> Z) (modulus : Z) (nbits repr_bits : nat).
  Variable P : rescue_params K.
  Notation C := (circ K).

  (** ** Schnorr *)
  (** schnorr.rs:33-36 [SignatureVar]; [VerKeyVar] (28-30) is a point variable. *)
  Record sig_var := mk_sig_var { sv_s : nat; sv_R : pvar }.
  (** [F::from_be_bytes_mod_order(CS_ID_SCHNORR)] *)
  Variable cs_id : K.

  (** schnorr.rs:168-193 *)
  Definition challenge_bits (vk R : pvar) (msg : list nat) : C (list nat) :=
    i <- create_variable cs_id ;;
    enforce_constant i cs_id >>
    (r <- rescue_sponge_with_padding P ([i; fst vk; snd vk; fst R; snd R] ++ msg) 1 ;;
     ch <- idx r 0 ;;
     bits <- unpack zval modulus nbits repr_bits ch nbits ;;
     if (length bits <? challenge_bit_len nbits)%nat then cpanic
     else ret (firstn (challenge_bit_len nbits) bits)).
  (** schnorr.rs:133-149 *)
  Definition verify_sig_core (vk : pvar) (msg : list nat) (sig : sig_var) : C (pvar * pvar) :=
    bits <- challenge_bits vk (sv_R sig) msg ;;
    x <- fixed_base_scalar_mul A D zval modulus nbits repr_bits sbits (sv_s sig) gen ;;
    z <- variable_base_binary_scalar_mul A D bits vk ;;
    y <- ecc_add A D (sv_R sig) z ;;
    ret (x, y).
  (** schnorr.rs:95-105 *)
  Definition verify_signature (vk : pvar) (msg : list nat) (sig : sig_var) : C unit :=
    p <- verify_sig_core vk msg sig ;; enforce_point_equal (fst p) (snd p).
  (** schnorr.rs:107-115 *)
  Definition check_signature_validity (vk : pvar) (msg : list nat) (sig : sig_var) : C nat :=
    p <- verify_sig_core vk msg sig ;; is_point_equal (fst p) (snd p).
  (** schnorr.rs:117-126; the response is already converted by [fr_to_fq]. *)
  Definition create_signature_variable (s : K) (R : pt K) : C sig_var :=
    s' <- create_variable s ;; R' <- create_point_variable R ;; ret (mk_sig_var s' R').
  (** schnorr.rs:128-131 *)
  Definition create_signature_vk_variable (vk : pt K) : C pvar := create_point_variable vk.

  (** ** ElGamal *)
  (** elgamal/src/gadgets.rs:31-34 [ElGamalHybridCtxtVars]; [EncKeyVars] (27) is a
      point variable. *)
  Record ctxt_var := mk_ctxt_var { cv_ephemeral : pvar; cv_data : list nat }.

  (** gadgets.rs:96-118, the closure over the chunks, from the counter variable on *)
  Fixpoint stream_blocks (keys : list svar) (counter : nat) (data : list svar) : C (list svar) :=
    match data with
    | [] => ret []
    | s :: data' =>
        t <- prp_with_round_keys_g P (SV counter 0 0 0) keys ;;
        counter' <- add_constant counter 1 ;;
        o <- add_state s t ;;
        rest <- stream_blocks keys counter' data' ;;
        ret (o :: rest)
    end.
  (** gadgets.rs:75-117 *)
  Definition counter_mode_stream_no_padding (key : svar) (data : list svar) : C (list svar) :=
    keys <- key_schedule_g P key ;; stream_blocks keys 0 data.
  (** gadgets.rs:248-255, as in utilities but with no error for a zero multiple *)
  Definition len_to_next_multiple (len mult : nat) : nat :=
    if (len mod mult =? 0)%nat then len else (len + mult - len mod mult)%nat.
  (** gadgets.rs:119-158 *)
  Definition counter_mode_stream (key : svar) (data : list nat) : C (list nat) :=
    let padded := data ++ repeat 0%nat (len_to_next_multiple (length data) STATE_SIZE - length data) in
    states <- mapM (fun b => block4 b) (chunks STATE_SIZE padded) ;;
    out <- counter_mode_stream_no_padding key states ;;
    ret (firstn (length data) (flat_map state_vars out)).

  (** relation/src/gadgets/ecc/mod.rs:470-490.  [glv_mul] is the multiplication
      for Bandersnatch (glv.rs), left open here: it is used in circuits with lookups
      when the bit lengths of the two fields are 253 and 255. *)
  Variable glv_mul : nat -> pvar -> C pvar.
  Definition variable_base_scalar_mul (scalar : nat) (base : pvar) : C pvar :=
    check_var_bound scalar >> check_point_var_bound base >>
    (l <- lift (fun c => Ok (support_lookup c)) ;;
     if (l : bool) && (sbits =? 253)%nat && (nbits =? 255)%nat then glv_mul scalar base
     else msm A D zval modulus nbits repr_bits sbits order [base] [scalar]).
  (** gadgets.rs:199-222 *)
  Definition elgamal_encrypt (pk : pvar) (data : list nat) (r : nat) : C ctxt_var :=
    sh <- variable_base_scalar_mul r pk ;;
    key <- rescue_permutation P (SV (fst sh) (snd sh) 0 0) ;;
    ct <- counter_mode_stream key data ;;
    e <- fixed_base_scalar_mul A D zval modulus nbits repr_bits sbits r gen ;;
    ret (mk_ctxt_var e ct).
  (** gadgets.rs:224-228 *)
  Definition create_enc_key_variable (pk : pt K) : C pvar := create_point_variable pk.
  (** gadgets.rs:230-245 *)
  Definition create_ciphertext_variable (e : pt K) (data : list K) : C ctxt_var :=
    e' <- create_point_variable e ;; d <- mapM create_variable data ;; ret (mk_ctxt_var e' d).
End SigGadget.
