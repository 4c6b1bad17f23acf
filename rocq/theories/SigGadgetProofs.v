(** Specifications of the Schnorr and ElGamal gadgets. *)

From Coq Require Import List Arith NArith ZArith Znumtheory Bool Lia.
From Verif Require Import Base ListAux Alg FiniteField ConvModel RescueModel RescueProofs CircuitModel CircuitProofs GadgetModel
  GadgetProofs RangeProofs BitProofs CmpProofs Group Edwards EccModel EccProofs RescueGadgetModel RescueGadgetProofs
  MerkleGadgetProofs SigGadgetModel.
Import ListNotations.
Local Open Scope fld_scope.
Local Open Scope circ_scope.

Section Specs.
  Context {K : fld}.
  Variable zval : K -> Z.
  Variables A D : K.
  Hypothesis HC : law K A D.
  Notation E := (curve K A D HC).
  Notation cval := (cval K A D HC).
  Notation on := (ins K A D HC).
  Variables (p : Z) (nb L : nat).
  Hypothesis HF : BitProofs.pfield K zval p nb L.
  Variable P : rescue_params K.
  Variable q : nat.
  Hypothesis Hq : has_card K q.
  Hypothesis Ha : ((rp_a P * limbs_N (rp_a_inv P)) mod N.of_nat (q - 1) = 1)%N.
  Hypothesis Ha5 : rp_a P = 5%N \/ rp_a P = 11%N.
  Hypothesis Hkeys : length (rp_keys P) = 25%nat.
  Hypothesis Hinj : length (rp_inject P) = 24%nat.
  Notation gspec := (gspec zval).
  Notation T := (fun _ => True).

  Lemma base_of (c c' : circuit K) : later c c' -> wf c -> base (hon c) -> base (hon c').
  Proof. clear. intros H Hw. apply hon_base; auto. apply (wf_two _ Hw). Qed.
  Lemma pout_later (c c' : circuit K) v : later c c' -> pout v (num_vars c) -> pout v (num_vars c').
  Proof. clear. intros (_ & H & _) [H1 H2]. split; lia. Qed.
  Lemma pv_later (c c' : circuit K) v : later c c' -> pout v (num_vars c) -> pv (hon c') v = pv (hon c) v.
  Proof. clear. intros (_ & _ & _ & H) [H1 H2]. unfold pv. now rewrite !H. Qed.
  Lemma bdl_later (c c' : circuit K) l : later c c' -> bdl l (num_vars c) -> bdl l (num_vars c').
  Proof. clear. intros (_ & H & _) Hl. eapply bdl_le; eauto. Qed.

  Lemma gspec_ext {X} (m m' : circ K X) c S C R : (forall c0, m c0 = m' c0) -> gspec m c S C R -> gspec m' c S C R.
  Proof. intros H. unfold CircuitProofs.gspec, wpc. now rewrite H. Qed.

  Lemma gspec_const {X} x (f : nat -> circ K X) c S C R : gspec (cbind (create_constant_variable x) f) c S C R ->
    gspec (v <- create_variable x ;; enforce_constant v x >> f v) c S C R.
  Proof.
    apply gspec_ext. intros c0. unfold create_constant_variable, cbind. destruct (create_variable x c0) as [[i| |] c1]; try reflexivity.
    destruct (enforce_constant i x c1) as [[| |] c2]; reflexivity.
  Qed.
  (** ** Schnorr *)
  Variable cs_id : K.
  (** The challenge of the values, as an integer. *)
  Definition chal_input (w : nat -> K) (vk R : pvar) (msg : list nat) : list K :=
    [cs_id; w (fst vk); w (snd vk); w (fst R); w (snd R)] ++ map w msg.
  Definition is_chal (w : nat -> K) (vk R : pvar) (msg : list nat) (e : Z) : Prop :=
    exists h, sponge_with_bit_padding P (chal_input w vk R msg) 1 = Ok [h] /\ e = (zval h mod 2 ^ Z.of_nat (challenge_bit_len nb))%Z.

  Lemma challenge_len : (1 <= nb)%nat -> (challenge_bit_len nb <= nb)%nat.
  Proof.
    clear. intros H. unfold challenge_bit_len, field_byte_len. pose proof (Nat.div_mod (nb + 7) 8 ltac:(lia)).
    pose proof (Nat.mod_upper_bound (nb + 7) 8 ltac:(lia)). lia.
  Qed.
  Lemma challenge_bits_spec c vk R msg : wf c -> base (hon c) -> pout vk (num_vars c) -> pout R (num_vars c) -> bdl msg (num_vars c) ->
    gspec (challenge_bits zval p nb L P cs_id vk R msg) c
      (fun w bits => Forall isb (map w bits) /\ is_chal w vk R msg (chunk_val (map k2b (map w bits)))) T bdl.
  Proof.
    intros Hw Hb Hv HR Hm. unfold challenge_bits.
    apply gspec_const.
    eapply gspec_seq with (1 := Hw) (2 := create_constant_variable_spec zval c cs_id Hw); [auto|].
    intros i c1 L1 O1 _. assert (W1 : wf c1) by apply L1. assert (B1 : base (hon c1)) by eauto using base_of.
    eapply gspec_seq with (1 := W1); [apply (sponge_with_padding_spec zval P q Hq Ha Ha5 Hkeys Hinj); [exact W1| |]|now intros|].
    { apply (bdl_later c c1) in Hm; auto. destruct (pout_later c c1 vk L1 Hv), (pout_later c c1 R L1 HR). repeat (constructor; [assumption|]). exact Hm. }
    { discriminate. }
    cbn beta. intros r c2 L2 [O2 Er] _. destruct r as [|ch [|? ?]]; try discriminate.
    apply gspec_lift with ch; [reflexivity|]. inversion_clear O2 as [|? ? Oc _].
    assert (W2 : wf c2) by apply L2. assert (Hn : (1 <= nb)%nat) by (pose proof (pf_nb zval p nb L HF); lia).
    eapply gspec_seq with (1 := W2); [apply (unpack_spec zval p nb L HF c2 ch nb); auto|now intros|].
    { pose proof (pf_range _ _ _ _ _ HF (hon c2 ch)). pose proof (pf_hi _ _ _ _ _ HF). lia. }
    intros bits c3 L3 [Ol Ob] _. rewrite Ol. pose proof (challenge_len Hn).
    destruct (Nat.ltb_spec nb (challenge_bit_len nb)); [lia|]. apply gspec_ret.
    - apply Forall_firstn. exact Ob.
    - intros w Bw [F1 F2] Fs Fi. rewrite <- !firstn_map. split; [now apply Forall_firstn|].
      exists (w ch). rewrite chunk_val_firstn, F2. split; [|reflexivity].
      unfold rok in Fs. cbn [map] in Fs. rewrite Fs. cbn [app map]. rewrite Fi. reflexivity.
  Qed.

  Variables (sbits : nat) (B0 : E).
  Hypothesis Hs1 : (1 <= sbits)%nat.
  Hypothesis Hs2 : (fb_bits sbits <= nb)%nat.
  Lemma verify_sig_core_spec c vk msg sig : wf c -> base (hon c) ->
    pout vk (num_vars c) -> pout (sv_R sig) (num_vars c) -> (sv_s sig < num_vars c)%nat -> bdl msg (num_vars c) ->
    on (pv (hon c) vk) -> on (pv (hon c) (sv_R sig)) -> (zval (hon c (sv_s sig)) < 2 ^ Z.of_nat (fb_bits sbits))%Z ->
    gspec (verify_sig_core A D (cval B0) sbits zval p nb L P cs_id vk msg sig) c
      (fun w o => pv w (fst o) = cval (gmul (zval (w (sv_s sig))) B0) /\
        exists e, is_chal w vk (sv_R sig) msg e /\
          forall V R : E, pv w vk = cval V -> pv w (sv_R sig) = cval R -> pv w (snd o) = cval (gadd R (gmul e V)))
      T (fun o n => pout (fst o) n /\ pout (snd o) n).
  Proof.
    intros Hw Hb Hv HR Hs Hm Ov OR Hlt. unfold verify_sig_core.
    eapply gspec_seq with (1 := Hw); [apply challenge_bits_spec; auto|now intros|].
    intros bits c1 L1 O1 F1. assert (W1 : wf c1) by apply L1. assert (B1 : base (hon c1)) by eauto using base_of.
    destruct (F1 B1 I) as [Ib _].
    eapply gspec_seq with (1 := W1); [apply (fixed_base_spec zval A D HC p nb L HF sbits c1 (sv_s sig) B0); auto|now intros|].
    { lt. } { destruct L1 as (_ & _ & _ & ->); auto. }
    intros x c2 L2 O2 _. assert (W2 : wf c2) by apply L2. assert (B2 : base (hon c2)) by eauto using base_of.
    assert (L02 : later c c2) by eauto using later_trans.
    eapply gspec_seq with (1 := W2); [apply (variable_base_binary_spec zval A D HC c2 bits vk); auto|now intros|].
    { eapply pout_later; eauto. } { apply (bdl_later c1 c2); auto. }
    { erewrite map_ext_in; [exact Ib|]. intros b Hin. apply L2. unfold bdl in O1. rewrite Forall_forall in O1. auto. }
    { rewrite (pv_later c c2); auto. }
    intros z c3 L3 O3 F3. assert (W3 : wf c3) by apply L3. assert (B3 : base (hon c3)) by eauto using base_of.
    assert (L03 : later c c3) by eauto using later_trans. assert (L13 : later c1 c3) by eauto using later_trans.
    assert (Ov3 : on (pv (hon c3) vk)) by (rewrite (pv_later c c3); auto).
    assert (Oz : on (pv (hon c3) z)).
    { apply on_cval with (HC := HC) in Ov3 as [V EV]. apply on_cval with (HC := HC). eexists. apply F3; auto; [|exact EV].
      erewrite map_ext_in; [exact Ib|]. intros b Hin. apply L13. unfold bdl in O1. rewrite Forall_forall in O1. auto. }
    eapply gspec_seq with (1 := W3); [apply (ecc_add_group zval A D HC c3 (sv_R sig) z); auto|now intros|].
    { apply (pout_later c c3); auto. } { rewrite (pv_later c c3); auto. }
    intros y c4 L4 O4 _. apply gspec_ret; cbn [fst snd].
    - split; [|exact O4]. apply (pout_later c2 c4); auto. eauto using later_trans.
    - intros w Bw F4 F5 F6 [F7 F8]. split; [exact F6|]. exists (chunk_val (map k2b (map w bits))). split; [exact F8|].
      intros V R HV HR'. apply F4; auto.
  Qed.

  (** The verification equation, for the values of an assignment. *)
  Definition sig_eq (w : nat -> K) (vk : pvar) (msg : list nat) (sig : sig_var) (V R : E) : Prop :=
    exists e, is_chal w vk (sv_R sig) msg e /\ gmul (zval (w (sv_s sig))) B0 = gadd R (gmul e V).
  Lemma chal_unique w vk R msg e e' : is_chal w vk R msg e -> is_chal w vk R msg e' -> e = e'.
  Proof. intros (h & E1 & ->) (h' & E2 & ->). congruence. Qed.
  Lemma verify_signature_spec c vk msg sig : wf c -> base (hon c) ->
    pout vk (num_vars c) -> pout (sv_R sig) (num_vars c) -> (sv_s sig < num_vars c)%nat -> bdl msg (num_vars c) ->
    on (pv (hon c) vk) -> on (pv (hon c) (sv_R sig)) -> (zval (hon c (sv_s sig)) < 2 ^ Z.of_nat (fb_bits sbits))%Z ->
    gspec (verify_signature A D (cval B0) sbits zval p nb L P cs_id vk msg sig) c
      (fun w _ => forall V R : E, pv w vk = cval V -> pv w (sv_R sig) = cval R -> sig_eq w vk msg sig V R)
      (fun w => exists V R : E, pv w vk = cval V /\ pv w (sv_R sig) = cval R /\ sig_eq w vk msg sig V R) noout.
  Proof.
    intros Hw Hb Hv HR Hs Hm Ov OR Hlt. unfold verify_signature.
    eapply gspec_seq with (1 := Hw); [apply verify_sig_core_spec; auto|now intros|].
    intros [x y] c1 L1 [O1 O2] _. cbn [fst snd] in *. assert (W1 : wf c1) by apply L1.
    eapply MerkleGadgetProofs.gspec_weaken; [| | |apply (enforce_point_equal_spec zval c1 x y); auto]; cbn beta; auto.
    - intros w _ _ Exy [F1 (e & F2 & F3)] V R HV HR'. exists e. split; [exact F2|].
      apply (cpt_ext K A D HC). rewrite <- F1, Exy. auto.
    - intros w _ ((V & R & HV & HR' & (e & F2 & F3)) & F4 & (e' & F5 & F6)). rewrite F4, (F6 V R HV HR'). f_equal.
      rewrite <- (chal_unique _ _ _ _ _ _ F2 F5). exact F3.
  Qed.
  Lemma check_signature_spec c vk msg sig : wf c -> base (hon c) ->
    pout vk (num_vars c) -> pout (sv_R sig) (num_vars c) -> (sv_s sig < num_vars c)%nat -> bdl msg (num_vars c) ->
    on (pv (hon c) vk) -> on (pv (hon c) (sv_R sig)) -> (zval (hon c (sv_s sig)) < 2 ^ Z.of_nat (fb_bits sbits))%Z ->
    gspec (check_signature_validity A D (cval B0) sbits zval p nb L P cs_id vk msg sig) c
      (fun w b => forall V R : E, pv w vk = cval V -> pv w (sv_R sig) = cval R -> isb (w b) /\ (w b = 1 <-> sig_eq w vk msg sig V R)) T out.
  Proof.
    intros Hw Hb Hv HR Hs Hm Ov OR Hlt. unfold check_signature_validity.
    eapply gspec_seq with (1 := Hw); [apply verify_sig_core_spec; auto|now intros|].
    intros [x y] c1 L1 [O1 O2] _. cbn [fst snd] in *. assert (W1 : wf c1) by apply L1.
    eapply MerkleGadgetProofs.gspec_weaken; [| | |apply (is_point_equal_spec zval c1 x y); auto]; cbn beta; auto.
    intros w b _ Eb [F1 (e & F2 & F3)] V R HV HR'. rewrite Eb. specialize (F3 V R HV HR').
    destruct (peqb K (pv w x) (pv w y)) eqn:E; cbn [b2k].
    - split; [now right|]. split; [|auto]. intros _. exists e. split; [exact F2|]. apply peqb_eq in E.
      apply (cpt_ext K A D HC). rewrite <- F1, E. auto.
    - split; [now left|]. split; intros H.
      + exfalso. apply (f1_neq_0 K). congruence.
      + destruct H as (e' & F4 & F5). rewrite <- (chal_unique _ _ _ _ _ _ F2 F4) in F5. rewrite F5, <- F3 in F1.
        apply peqb_eq in F1. congruence.
  Qed.
End Specs.
