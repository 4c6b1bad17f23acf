(** C74: the Rescue gadgets compute the off-circuit hash, PRF and commitment.

    [gadget_ok] is explained in [CircuitProps]: the call succeeds, every assignment
    accepted by the circuit (or by any later state of it) satisfies the stated
    relation, and the assignment the code computes is accepted.  [rv w s] reads the
    four variables of a state under the assignment [w]. *)

From Coq Require Import List Arith NArith ZArith Znumtheory Bool Lia.
From Verif Require Import Base ListAux Alg FiniteField ConvModel RescueModel RescueProofs RescueConst RescueProps
  CircuitModel CircuitProofs GadgetModel GadgetProofs RangeProofs SatProofs SatGadget CircuitProps IndepProofs
  RescueGadgetModel RescueGadgetProofs.
Import ListNotations.
Local Open Scope fld_scope.
Local Open Scope circ_scope.

Notation sinc c s := (sb s (num_vars c)).
Notation linc c l := (bdl l (num_vars c)).

Lemma fg_gadget {K : fld} (zval : K -> Z) {A B} (m : circ K A) c (rd : (nat -> K) -> A -> B) F bd :
  good c -> fg zval m c rd F bd -> gadget_ok zval m c (fun w o => rd w o = F w) (fun _ => True) bd.
Proof. intros G H. apply gspec_gadget; auto. intros ? ? ? ?; exact I. Qed.
Lemma gadget_weaken {K : fld} (zval : K -> Z) {A} (m : circ K A) c (S S' : (nat -> K) -> A -> Prop) C (R R' : A -> nat -> Prop) :
  (forall w o, S w o -> S' w o) -> (forall o n, R o n -> R' o n) -> gadget_ok zval m c S C R -> gadget_ok zval m c S' C R'.
Proof.
  intros H HR (a & c' & E & G & X & Ra & W & S1 & S2 & S3). exists a, c'. repeat (split; [solve [auto]|]). split; [|split; auto].
  intros c'' ws pub X' B' A'. apply H. eapply S1; eauto.
Qed.

(** The parameter sets for which the gadgets are meant. *)
Definition rescue_ok {K : fld} (P : rescue_params K) : Prop :=
  (exists q, has_card K q /\ good_exps P q) /\ (rp_a P = 5%N \/ rp_a P = 11%N) /\
  length (rp_keys P) = 25%nat /\ length (rp_inject P) = 24%nat.

Section Props.
  Context {K : fld}.
  Variable zval : K -> Z.
  Variable P : rescue_params K.
  Hypothesis HP : rescue_ok P.
  Ltac start := destruct HP as ((q & Hq & Ha) & Ha5 & Hk & Hi).

  (** The permutation. *)
  Theorem C74_permutation c s : good c -> sinc c s ->
    gadget_ok zval (rescue_permutation P s) c (fun w o => perm_eval P (rv w s) = Ok (rv w o)) (fun _ => True) sb.
  Proof.
    intros G Hs. start. eapply gadget_weaken; [| |eapply fg_gadget; [exact G|eapply (permutation_spec zval P q); eauto using gd_wf]]; auto.
    cbn beta. intros w o E. rewrite (perm_eval_ok K P Hk). now rewrite E.
  Qed.
  (** The keyed permutation, with the key schedule in the circuit. *)
  Theorem C74_keyed_permutation c key s : good c -> sinc c key -> sinc c s ->
    gadget_ok zval (prp_g P key s) c (fun w o => prp P (rv w key) (rv w s) = Ok (rv w o)) (fun _ => True) sb.
  Proof.
    intros G Hk' Hs. start. eapply gadget_weaken; [| |eapply fg_gadget; [exact G|eapply (prp_spec zval P q); eauto using gd_wf]]; auto.
  Qed.
  (** The sponge, for every number of inputs and outputs. *)
  Theorem C74_sponge c data num : good c -> linc c data -> data <> [] -> (length data mod 3 = 0)%nat ->
    gadget_ok zval (rescue_sponge_no_padding P data num) c
      (fun w o => sponge_no_padding P (map w data) num = Ok (map w o)) (fun _ => True)
      (fun o n => bdl o n /\ length o = num).
  Proof.
    intros G Hb Hne Hm. start. eapply gadget_weaken; [| |eapply fg_gadget; [exact G|eapply (sponge_no_padding_spec zval P q); eauto using gd_wf]]; auto.
  Qed.
  Theorem C74_sponge_padded c data num : good c -> linc c data -> data <> [] ->
    gadget_ok zval (rescue_sponge_with_padding P data num) c
      (fun w o => sponge_with_bit_padding P (map w data) num = Ok (map w o)) (fun _ => True)
      (fun o n => bdl o n /\ length o = num).
  Proof.
    intros G Hb Hne. start. eapply gadget_weaken; [| |eapply fg_gadget; [exact G|eapply (sponge_with_padding_spec zval P q); eauto using gd_wf]]; auto.
  Qed.
  (** The keyed sponge and the pseudorandom function. *)
  Theorem C74_keyed_sponge c key data : good c -> inc c key -> linc c data -> (length data mod 4 = 0)%nat ->
    gadget_ok zval (keyed_sponge_no_padding P key data) c
      (fun w o => prf_no_padding P (w key) (map w data) 1 = Ok [w o]) (fun _ => True) out.
  Proof.
    intros G Hk' Hb Hm. start. eapply gadget_weaken; [| |eapply fg_gadget; [exact G|eapply (keyed_no_padding_spec zval P q); eauto using gd_wf]]; auto.
  Qed.
  Theorem C74_prf c key data : good c -> inc c key -> linc c data -> data <> [] ->
    gadget_ok zval (eval_prf P key data) c
      (fun w o => prf_evaluate P 1 (w key) (map w data) = Ok [w o]) (fun _ => True) out.
  Proof.
    intros G Hk' Hb Hne. start. eapply gadget_weaken; [| |eapply fg_gadget; [exact G|eapply (keyed_zero_padding_spec zval P q); eauto using gd_wf]]; auto.
    cbn beta. intros w o E. unfold prf_evaluate. rewrite <- E. reflexivity.
  Qed.
  (** The commitment. *)
  Theorem C74_commit c data r : good c -> inc c r -> linc c data ->
    gadget_ok zval (commit_g P data r) c
      (fun w o => commit P (map w data) (Some (w r)) = Ok (w o)) (fun _ => True) out.
  Proof.
    intros G Hr Hb. start. eapply gadget_weaken; [| |eapply fg_gadget; [exact G|eapply (commit_spec zval P q); eauto using gd_wf]]; auto.
  Qed.
  (** In particular two openings accepted for one commitment give the same hash:
      a second opening is a collision of the off-circuit sponge. *)
  Theorem C74_commit_verify c data r : good c -> inc c r -> linc c data ->
    gadget_ok zval (commit_g P data r) c
      (fun w o => comm_verify P (map w data) (Some (w r)) (w o) = Ok true) (fun _ => True) out.
  Proof.
    intros G Hr Hb. eapply gadget_weaken; [| |apply C74_commit]; auto. cbn beta. intros w o E. unfold comm_verify. rewrite E. cbn [bind].
    f_equal. now apply feqb_eq.
  Qed.

  (** Calls that are refused.  The circuit is left as it was. *)
  Theorem C74_refused c data key num :
    ((data = [] \/ (length data mod 3 <> 0)%nat) -> rescue_sponge_no_padding P data num c = (Err ParameterError, c)) /\
    (data = [] -> rescue_sponge_with_padding P data num c = (Err ParameterError, c)) /\
    ((length data mod 4 <> 0)%nat -> keyed_sponge_no_padding P key data c = (Err ParameterError, c)) /\
    (data = [] -> eval_prf P key data c = (Err ParameterError, c)).
  Proof.
    split; [|split; [|split]].
    - intros [-> |H]; [reflexivity|]. unfold rescue_sponge_no_padding. change CRHF_RATE with 3%nat.
      destruct (Nat.eqb_spec (length data mod 3) 0); [contradiction|]. rewrite orb_true_r. reflexivity.
    - intros ->. reflexivity.
    - intros H. unfold keyed_sponge_no_padding. change STATE_SIZE with 4%nat.
      destruct (Nat.eqb_spec (length data mod 4) 0); [contradiction|]. reflexivity.
    - intros ->. reflexivity.
  Qed.
  (** The off-circuit functions accept the empty input, so the gadgets do not cover
      every input the hash and the PRF are defined on. *)
  Theorem C74_empty_input_refuted (key : K) num :
    (exists h, sponge_with_bit_padding P [] num = Ok h /\ length h = num) /\
    (exists h, prf_evaluate P 1 key [] = Ok h) /\
    (forall c0 k, rescue_sponge_with_padding P [] num c0 = (Err ParameterError, c0) /\ eval_prf P k [] c0 = (Err ParameterError, c0)).
  Proof.
    start. split; [|split].
    - change (sponge_with_bit_padding P [] num) with (expect (sponge_no_padding P [1; 0; 0] num)). unfold sponge_no_padding. cbn [length Nat.modulo Nat.divmod fst snd Nat.eqb negb CRHF_RATE].
      rewrite (absorb_ok K P Hk) by (unfold CRHF_RATE; lia). cbn [bind].
      edestruct (squeeze_ok K P Hk CRHF_RATE num) as (o & s' & E & L); [unfold CRHF_RATE; lia|]. rewrite E. cbn [bind expect]. exists o. auto.
    - eexists. reflexivity.
    - intros c0 k. split; reflexivity.
  Qed.
End Props.
Print Assumptions C74_permutation.
Print Assumptions C74_keyed_permutation.
Print Assumptions C74_sponge.
Print Assumptions C74_sponge_padded.
Print Assumptions C74_keyed_sponge.
Print Assumptions C74_prf.
Print Assumptions C74_commit.
Print Assumptions C74_commit_verify.
Print Assumptions C74_refused.
Print Assumptions C74_empty_input_refuted.

(** Every shipped parameter set qualifies, given only that its modulus is prime. *)
Theorem C74_shipped c (Hp : prime (rc_p c)) : In c shipped -> rescue_ok (rescue_of c Hp).
Proof.
  intros H. assert (Hc : const_ok c Hp = true).
  { clear -H. repeat (destruct H as [<-|H]; [vm_cast_no_check (eq_refl true)|]). destruct H. }
  assert (Ha : ((rp_a (rescue_of c Hp) =? 5) || (rp_a (rescue_of c Hp) =? 11) = true)%N).
  { clear -H. repeat (destruct H as [<-|H]; [reflexivity|]). destruct H. }
  unfold const_ok in Hc. rewrite !andb_true_iff, N.eqb_eq, !Nat.eqb_eq in Hc. destruct Hc as [[[He _] Hi] Hk].
  split; [|split; [|split]]; auto.
  - exists (Z.to_nat (rc_p c)). split; [apply zp_card|]. unfold good_exps. rewrite prime_pred_N by exact Hp. exact He.
  - apply orb_true_iff in Ha. rewrite !N.eqb_eq in Ha. exact Ha.
Qed.
Print Assumptions C74_shipped.

(** Two small parameter sets, one for each exponent. *)
Definition R97b : rescue_params F97 :=
  mk_rescue 11 [35%N] (M4 (v97 2 3 1 1) (v97 1 2 3 1) (v97 1 1 2 3) (v97 3 1 1 2)) (v97 1 2 3 4)
    (repeat (v97 5 6 7 8) 24) (repeat (v97 9 10 11 12) 25).
Theorem C74_case_parameters : rescue_ok R97 /\ rescue_ok R97b.
Proof.
  split; (split; [exists 97%nat; split; [exact (zp_card 97 prime_97)|vm_compute; reflexivity]|split; [auto|split; reflexivity]]).
Qed.
(** A commitment to two values, made public and checked; a wrong public value is rejected. *)
Definition commit_run (R : rescue_params F97) : outcome cerr nat * circuit F97 :=
  (o <- commit_g R [2; 3]%nat 1%nat ;; set_variable_public o >> ret o) (ex_circuit Turbo).
Theorem C74_case_runs :
  (exists o, fst (commit_run R97) = Ok o /\
    Ok (zv 97 (nth o (witness (snd (commit_run R97))) (e97 0))) = match commit R97 [e97 5; e97 90] (Some (e97 1)) with Ok h => Ok (zv 97 h) | Err e => Err e | Panic => Panic end) /\
  (exists h, commit R97 [e97 5; e97 90] (Some (e97 1)) = Ok h /\
    check_circuit_satisfiability z97 (snd (commit_run R97)) [e97 5; h] = Ok tt /\
    check_circuit_satisfiability z97 (snd (commit_run R97)) [e97 5; h + e97 1] <> Ok tt) /\
  (exists h, commit R97b [e97 5; e97 90] (Some (e97 1)) = Ok h /\
    check_circuit_satisfiability z97 (snd (commit_run R97b)) [e97 5; h] = Ok tt /\
    check_circuit_satisfiability z97 (snd (commit_run R97b)) [e97 5; h + e97 1] <> Ok tt).
Proof.
  split; [|split].
  - exists (okv 0%nat (fst (commit_run R97))). split; vm_compute; reflexivity.
  - exists (match commit R97 [e97 5; e97 90] (Some (e97 1)) with Ok h => h | _ => e97 0 end).
    split; [vm_compute; reflexivity|]. split; [vm_compute; reflexivity|]. vm_compute. discriminate.
  - exists (match commit R97b [e97 5; e97 90] (Some (e97 1)) with Ok h => h | _ => e97 0 end).
    split; [vm_compute; reflexivity|]. split; [vm_compute; reflexivity|]. vm_compute. discriminate.
Qed.
Lemma get_wit_ok {K : fld} (c : circuit K) v : wf c -> (v < num_vars c)%nat -> get_witness v c = (Ok (hon c v), c).
Proof.
  intros Hw Hv. unfold get_witness, check_var_bound, lift, cbind. destruct (Nat.leb_spec (num_vars c) v); [lia|].
  unfold index. rewrite (nth_error_nth' _ 0) by (rewrite (wf_wit _ Hw); auto). reflexivity.
Qed.
(** With any other exponent the gadget refuses to build the round. *)
Theorem C74_other_exponent {K : fld} (P : rescue_params K) c s : good c -> sinc c s ->
  rp_a P <> 5%N -> rp_a P <> 11%N -> fst (non_linear_transform P s (rp_mds P) v4_zero c) = Err ParameterError.
Proof.
  intros G (B0 & B1 & B2 & B3) H5 H11. unfold non_linear_transform, check_state, check_vars_bound.
  assert (Hc : iterM check_var_bound [s0 s; s1 s; s2 s; s3 s] c = (Ok tt, c)).
  { cbn [iterM]. unfold cbind, check_var_bound, lift.
    repeat match goal with |- context [(num_vars c <=? ?v)%nat] => destruct (Nat.leb_spec (num_vars c) v); [lia|] end. reflexivity. }
  unfold cbind at 1. rewrite Hc. unfold cbind at 1.
  assert (Hw : exists v, witness_state s c = (Ok v, c)).
  { unfold witness_state, cbind. rewrite !get_wit_ok by (auto using gd_wf). eexists; reflexivity. }
  destruct Hw as (v & ->). apply N.eqb_neq in H5, H11. now rewrite H5, H11.
Qed.

(** *** C72 for the Rescue gadgets: the constraints do not depend on the values *)
Section Independence.
  Context {K : fld}.
  Variable P : rescue_params K.
  Lemma pow_alpha_inv_ind v : indep (pow_alpha_inv P v).
  Proof. unfold pow_alpha_inv. pose proof (@power_11_gate_ind K). rauto. Qed.
  Lemma check_state_ind s : indep (@check_state K s).
  Proof. unfold check_state. rauto. Qed.
  Lemma pow_alpha_inv_state_ind s : indep (pow_alpha_inv_state P s).
  Proof. unfold pow_alpha_inv_state. pose proof pow_alpha_inv_ind. pose proof check_state_ind. rauto. Qed.
  Lemma add_constant_state_ind s k : indep (@add_constant_state K s k).
  Proof. unfold add_constant_state. pose proof (@add_constant_ind K). pose proof check_state_ind. rauto. Qed.
  Lemma add_state_ind s t : indep (@add_state K s t).
  Proof. unfold add_state. pose proof (@add_ind K). rauto. Qed.
  Lemma witness_state_pure s : pure (@witness_state K s).
  Proof. unfold witness_state. repeat pstep. Qed.
  Lemma output_rows_ind g s m k v v' : rel (@output_rows K g s m k v) (output_rows g s m k v') eq.
  Proof. unfold output_rows. rauto. Qed.
  Lemma affine_ind s m k : indep (@affine_transform K s m k).
  Proof.
    unfold affine_transform. pose proof check_state_ind. unfold indep in *. apply rel_bind_eq; [auto|]. intros _.
    apply rel_bind_any; [apply rel_pure; apply witness_state_pure|]. intros. apply output_rows_ind.
  Qed.
  Lemma pow_11_ind v : indep (@pow_11 K v).
  Proof. unfold pow_11. pose proof (@power_11_gate_ind K). rauto. Qed.
  Lemma non_linear_ind s m k : indep (non_linear_transform P s m k).
  Proof.
    unfold non_linear_transform. pose proof check_state_ind. pose proof pow_11_ind. pose proof affine_ind. unfold indep in *.
    apply rel_bind_eq; [auto|]. intros _. apply rel_bind_any; [apply rel_pure; apply witness_state_pure|]. intros.
    destruct (rp_a P =? 5)%N; [apply output_rows_ind|]. rauto.
  Qed.
  Lemma const_rounds_ind keys : forall r s, indep (const_rounds P r keys s).
  Proof.
    pose proof pow_alpha_inv_state_ind as H1. pose proof affine_ind as H2. pose proof non_linear_ind as H3.
    induction keys as [|k keys IH]; intros r s; cbn [const_rounds]; rauto.
  Qed.
  Lemma permutation_ind s : indep (rescue_permutation P s).
  Proof. unfold rescue_permutation, permutation_with_const_round_keys. pose proof add_constant_state_ind as H1. pose proof const_rounds_ind as H2. rauto. Qed.
  Lemma schedule_rounds_ind inj : forall r s, indep (schedule_rounds P r inj s).
  Proof.
    pose proof pow_alpha_inv_state_ind as H1. pose proof affine_ind as H2. pose proof non_linear_ind as H3.
    induction inj as [|k inj IH]; intros r s; cbn [schedule_rounds]; rauto.
  Qed.
  Lemma var_rounds_ind keys : forall r s, indep (var_rounds P r keys s).
  Proof.
    pose proof pow_alpha_inv_state_ind as H1. pose proof affine_ind as H2. pose proof non_linear_ind as H3. pose proof add_state_ind as H4.
    induction keys as [|k keys IH]; intros r s; cbn [var_rounds]; rauto.
  Qed.
  Lemma prp_ind key s : indep (prp_g P key s).
  Proof.
    unfold prp_g, key_schedule_g, prp_with_round_keys_g. pose proof add_constant_state_ind as H1. pose proof schedule_rounds_ind as H2.
    pose proof add_state_ind as H3. pose proof var_rounds_ind as H4. rauto.
  Qed.
  Lemma block3_ind b : indep (@block3 K b). Proof. unfold block3. rauto. Qed.
  Lemma block4_ind b : indep (@block4 K b). Proof. unfold block4. rauto. Qed.
  Lemma absorb_ind blk s bs : (forall b, indep (blk b)) -> indep (absorb_blocks P blk s bs).
  Proof. intros H. unfold absorb_blocks. pose proof add_state_ind as H1. pose proof permutation_ind as H2. rauto. Qed.
  Lemma squeeze_ind fuel : forall n s, indep (squeeze_loop_g P fuel n s).
  Proof. pose proof permutation_ind as H2. induction fuel as [|f IH]; intros n s; cbn [squeeze_loop_g]; rauto. Qed.
  Lemma sponge_ind data n : indep (rescue_sponge_no_padding P data n).
  Proof.
    unfold rescue_sponge_no_padding. pose proof block3_ind as H1. pose proof permutation_ind as H2. pose proof squeeze_ind as H3.
    pose proof (fun s bs => absorb_ind block3 s bs H1) as H4. rauto.
  Qed.
  Lemma keyed_ind key data : indep (keyed_sponge_no_padding P key data).
  Proof. unfold keyed_sponge_no_padding. pose proof (fun s bs => absorb_ind block4 s bs block4_ind) as H4. rauto. Qed.
  Theorem C72_rescue key s data n r :
    indep (rescue_permutation P s) /\ indep (prp_g P key s) /\ indep (rescue_sponge_no_padding P data n) /\
    indep (rescue_sponge_with_padding P data n) /\ indep (keyed_sponge_no_padding P r data) /\
    indep (eval_prf P r data) /\ indep (commit_g P data r).
  Proof.
    split; [apply permutation_ind|]. split; [apply prp_ind|]. split; [apply sponge_ind|].
    split. { unfold rescue_sponge_with_padding, next_len. pose proof sponge_ind as H1. rauto. }
    split; [apply keyed_ind|].
    split. { unfold eval_prf, keyed_sponge_zero_padding, next_len. pose proof keyed_ind as H1. rauto. }
    unfold commit_g. pose proof sponge_ind as H1. rauto.
  Qed.
End Independence.
Print Assumptions C72_rescue.
