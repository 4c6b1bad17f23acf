(** The Rescue transcript in the circuit (/repo/plonk/src/circuit/transcript.rs).  The
    labels, which the code ignores, are left out.  A call that returns an error leaves the
    transcript half updated; no caller goes on with it, and the model drops it. *)

From Coq Require Import List Arith ZArith Bool.
From Verif Require Import Base ListAux Alg ConvModel RescueModel CircuitModel GadgetModel EccModel ModArithModel RescueGadgetModel.
Import ListNotations.
Local Open Scope circ_scope.

Section TranscriptGadget.
  Context {K : fld}.
  Variable P : rescue_params K.
  Variable zval : K -> Z.
  Variable modulus : Z.
  Variables nbits repr_bits : nat.
  Notation C := (circ K).
  Notation fv := (fvar (K := K)).

  (** transcript.rs:29-33 *)
  Record tvars := mk_tvars { tv_tr : list nat; tv_st : list nat }.
  (** transcript.rs:40-46; [zero()] is the variable 0. *)
  Definition tv_new : tvars := mk_tvars [] (repeat 0%nat STATE_SIZE).
  Definition tv_push (t : tvars) (l : list nat) : tvars := mk_tvars (tv_tr t ++ l) (tv_st t).
  (** transcript.rs:83-91 *)
  Definition append_variable (t : tvars) (v : nat) : tvars := tv_push t [v].
  (** transcript.rs:95-105 *)
  Definition append_message_vars (t : tvars) (l : list nat) : tvars := fold_left append_variable l t.
  (** transcript.rs:111-121 *)
  Definition append_commitment_var (t : tvars) (p : pvar) : tvars := tv_push (tv_push t [fst p]) [snd p].
  (** transcript.rs:127-138 *)
  Definition append_commitments_vars (t : tvars) (l : list pvar) : tvars := fold_left append_commitment_var l t.
  (** the loops of transcript.rs:73-76 and 146-153 *)
  Definition append_fp_elem (t : tvars) (x : fv) : C tvars := v <- convert_to_var x ;; ret (tv_push t [v]).
  (** transcript.rs:49-78 *)
  Definition append_vk_and_pub_input_vars (t : tvars) (selectors sigmas : list pvar) (pi : list fv) : C tvars :=
    foldM append_fp_elem (append_commitments_vars (append_commitments_vars t selectors) sigmas) pi.
  (** transcript.rs:141-158 *)
  Definition append_proof_evaluations_vars (t : tvars) (wires sigmas : list fv) (next : fv) : C tvars :=
    t <- foldM append_fp_elem t wires ;; t <- foldM append_fp_elem t sigmas ;; append_fp_elem t next.
  (** transcript.rs:167-209; [sbits] and [bbits] are the sizes of the scalar and the base
      field of the curve the caller names; [unwrap] makes an error a panic. *)
  Definition get_challenge_var (sbits bbits : nat) (t : tvars) : C (nat * tvars) :=
    s <- lift (fun c => Ok (support_lookup c)) ;;
    if negb s then fail ParameterError else
    if negb (sbits =? 253)%nat || negb (bbits =? 377)%nat then fail ParameterError else
    res <- unwrap (rescue_sponge_with_padding P (tv_st t ++ tv_tr t) STATE_SIZE) ;;
    out <- idx res 0 ;;
    ch <- truncate zval modulus nbits repr_bits out 248 ;;
    ret (ch, mk_tvars [] (firstn STATE_SIZE res)).

  (** ** A call to the transcript *)
  Inductive tcall :=
  | TVar (v : nat)
  | TMessage (l : list nat)
  | TCommitment (p : pvar)
  | TCommitments (l : list pvar)
  | TKey (selectors sigmas : list pvar) (pi : list fv)
  | TEvals (wires sigmas : list fv) (next : fv)
  | TChallenge.
  (** The variable the call returns, if any, and the transcript after it. *)
  Definition tcall_run (sbits bbits : nat) (t : tvars) (o : tcall) : C (list nat * tvars) :=
    match o with
    | TVar v => ret ([], append_variable t v)
    | TMessage l => ret ([], append_message_vars t l)
    | TCommitment p => ret ([], append_commitment_var t p)
    | TCommitments l => ret ([], append_commitments_vars t l)
    | TKey s s' pi => t' <- append_vk_and_pub_input_vars t s s' pi ;; ret ([], t')
    | TEvals w s n => t' <- append_proof_evaluations_vars t w s n ;; ret ([], t')
    | TChallenge => r <- get_challenge_var sbits bbits t ;; ret ([fst r], snd r)
    end.
End TranscriptGadget.
