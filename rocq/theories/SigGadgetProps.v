(** C76: the Schnorr verification gadget.  C77: the ElGamal encryption gadget.

    The circuit field is the base field [Zp q] of the curve; [E] is the group of
    points of the twisted Edwards curve with coefficients [A], [D] and [cval P] the
    coordinates of a point.  The off-circuit scheme is that of [SigModel] (C42, C44)
    for this group.  [gadget_ok] is explained in [CircuitProps]. *)

From Coq Require Import List Arith NArith ZArith Znumtheory Bool Lia Ring Field.
From Verif Require Import Base ListAux Alg FiniteField ConvModel RescueModel RescueConst RescueProps CircuitModel CircuitProofs
  GadgetModel GadgetProofs RangeProofs SatProofs SatGadget CircuitProps Group Edwards EccModel EccProofs EccProps RescueGadgetModel
  RescueGadgetProofs RescueGadgetProps MerkleGadgetProofs SigModel SigGadgetModel SigGadgetProofs ElGamalGadgetProofs.
From Verif Require ConvProofs UtilProps SigProps BitProofs MerkleGadgetProps.
Import ListNotations.
Local Open Scope fld_scope.
Local Open Scope circ_scope.

(** The checker accepts the empty circuit. *)
Section New.
Context {K : fld}.
Add Field Knew : (fth K).
Lemma new_accepts (zval : K -> Z) t : accepts zval (new_circuit K t) (witness (new_circuit K t)) [].
Proof.
  apply accepts_csat; [apply (good_new t)|reflexivity|]. split.
  - reflexivity.
  - intros [|i] id H; discriminate H.
  - intros j g r Hg Hr _.
    change (nth_error [constant_gate K 0; constant_gate K 1] j = Some g) in Hg.
    change (nth_error [mk_row 0 0 0 0 0; mk_row 0 0 0 0 1] j = Some r) in Hr.
    destruct j as [|[|[|j]]]; try discriminate; injection Hg as <-; injection Hr as <-.
    + change ((0 : K) + 0 * 0 + 0 * 0 + 0 * 0 + 0 * 0 + 0 * 0 * 0 + 0 * 0 * 0 + 0 * 0 * 0 * 0 * 0 * 0
        + 0 * pow5 0 + 0 * pow5 0 + 0 * pow5 0 + 0 * pow5 0 + 0 = 1 * 0). unfold pow5. ring.
    + change ((0 : K) + 0 * 0 + 0 * 0 + 0 * 0 + 0 * 0 + 0 * 0 * 0 + 0 * 0 * 0 + 0 * 0 * 0 * 0 * 0 * 1
        + 0 * pow5 0 + 0 * pow5 0 + 0 * pow5 0 + 0 * pow5 0 + 1 = 1 * 1). unfold pow5. ring.
  - intros v [].
  - intros _ j g r Hg Hr Hl.
    change (nth_error [constant_gate K 0; constant_gate K 1] j = Some g) in Hg.
    destruct j as [|[|[|j]]]; try discriminate; injection Hg as <-; exfalso; now apply Hl.
Qed.
Lemma new_base t : base (honest (new_circuit K t)).
Proof. split; reflexivity. Qed.
End New.

(** Input variables carry the values they are created with. *)
Section Inputs.
  Context {K : fld}.
  Variable zval : K -> Z.
  Lemma point_hspec (c : circuit K) P : wf c ->
    hspec zval (create_point_variable P) c (fun _ _ => True) (fun _ => True) (fun w v => pv w v = P) pout.
  Proof.
    intros Hw. unfold create_point_variable.
    eapply hspec_seq with (1 := Hw) (2 := var_hspec zval c (fst P) Hw); [auto|]. intros x c1 L1 O1 _.
    eapply hspec_seq with (2 := var_hspec zval c1 (snd P) ltac:(lt)); [lt|auto|]. intros y c2 L2 O2 _.
    apply hspec_ret; cbn beta.
    - split; cbn [fst snd]; lt.
    - auto.
    - intros w _ Ey Ex. unfold pv. cbn [fst snd]. rewrite Ex, Ey. now destruct P.
  Qed.
  Lemma vars_hspec xs : forall c : circuit K, wf c ->
    hspec zval (mapM create_variable xs) c (fun _ _ => True) (fun _ => True) (fun w vs => map w vs = xs) bdl.
  Proof.
    induction xs as [|x xs IH]; intros c Hw; cbn [mapM].
    - apply hspec_ret; auto. constructor.
    - eapply hspec_seq with (1 := Hw) (2 := var_hspec zval c x Hw); [auto|]. intros v c1 L1 O1 _.
      eapply hspec_seq with (2 := IH c1 ltac:(lt)); [lt|auto|]. intros vs c2 L2 O2 _.
      apply hspec_ret; cbn beta.
      + constructor; [lt|exact O2].
      + auto.
      + intros w _ E1 E2. cbn [map]. now rewrite E1, E2.
  Qed.
End Inputs.

(** The masked conversion, for every target: the low [8 * floor(bits / 8)] bits,
    reduced modulo the target. *)
Lemma mask_value (F T : pfield) (x : Z) : (0 <= x)%Z -> (1 < modulus F)%Z -> (1 < modulus T)%Z -> (bit_size T < bit_size F)%Z ->
  fq_to_fr_with_mask F T x = Ok ((x mod 2 ^ (8 * (bit_size T / 8))) mod modulus T)%Z.
Proof.
  intros H0 H1 H2 Hlt. unfold fq_to_fr_with_mask. destruct (Z.ltb_spec (bit_size T) (bit_size F)) as [_|]; [|lia].
  cbn [negb]. rewrite Z.shiftr_div_pow2 by lia. change (2 ^ 3)%Z with 8%Z.
  pose proof (ConvProofs.bit_size_pos T H2). pose proof (ConvProofs.limbs_bounds F H1).
  pose proof (Z.mul_div_le (bit_size T) 8 ltac:(lia)).
  assert (0 <= bit_size T / 8)%Z by (apply Z.div_pos; lia).
  unfold bigint_bytes. rewrite ConvProofs.length_le_bytes.
  destruct (Nat.ltb_spec (Z.to_nat (8 * limbs F)) (Z.to_nat (bit_size T / 8))); [lia|].
  rewrite ConvProofs.firstn_le_bytes by lia. unfold from_le_bytes_mod_order. rewrite ConvProofs.le_val_bytes by lia.
  rewrite Z2Nat.id, ConvProofs.pow256 by lia. reflexivity.
Qed.

Section Curve.
  Variables (l q : Z) (Hl : prime l) (Hq : prime q).
  Notation K := (Zp q Hq).
  Notation Fr := (Zp l Hl).
  Notation zval := (zv q : K -> Z).
  Notation gadget_ok := (@SatGadget.gadget_ok K zval _).
  Add Field Ksgp : (fth K).
  Variable RP : rescue_params K.
  Hypothesis HP : rescue_ok RP.
  Variables A D : K.
  Hypothesis HC : law K A D.
  Notation E := (curve K A D HC).
  Notation cval := (cval K A D HC : E -> pt K).
  Notation holds := (holds A D HC).
  Notation in_law := (in_law A D HC).
  Variable B0 : E.
  (** The generator has order [l]; [nb] and [sbits] are the bit lengths of the two
      fields, and the number of challenge bits kept by the circuit is the number kept
      by the off-circuit code (248 for all shipped curves). *)
  Hypothesis Hgen : gmul l B0 = g0.
  Variables (nb L sbits : nat).
  Hypothesis HF : BitProofs.pfield K zval q nb L.
  Hypothesis Hsb : Z.of_nat sbits = bit_size {| modulus := l |}.
  Hypothesis Hsn : (sbits < nb)%nat.
  Hypothesis Hch : challenge_bit_len nb = (8 * (sbits / 8))%nat.
  Variable cofactor : Z.
  Notation verify := (SigModel.verify l q Hl Hq RP E cval B0 cofactor).
  Notation challenge := (SigModel.challenge l q Hl Hq RP E cval).
  Notation mk_sig := (SigModel.mk_sig l Hl E).
  Notation to_fq := (SigModel.to_fq l q Hl Hq).
  Notation smul := (SigModel.smul l Hl E).
  Notation cs_of := (from_be_bytes_mod_order q Hq).
  Notation gadget csid vk msg sig := (verify_signature A D (cval B0) sbits zval q nb L RP (cs_of csid) vk msg sig).
  Notation check_gadget csid vk msg sig := (check_signature_validity A D (cval B0) sbits zval q nb L RP (cs_of csid) vk msg sig).
  Ltac start := destruct HP as ((qn & Hqn & Ha) & Ha5 & Hk & Hi).

  Lemma l_gt1 : (1 < l)%Z. Proof. clear -Hl. pose proof (prime_ge_2 _ Hl). lia. Qed.
  Lemma q_gt1 : (1 < q)%Z. Proof. clear -Hq. pose proof (prime_ge_2 _ Hq). lia. Qed.
  Lemma nb_pos : (1 <= nb)%nat. Proof. clear -Hsn. lia. Qed.
  Lemma nb_size : Z.of_nat nb = bit_size {| modulus := q |}.
  Proof.
    clear -HF Hsn Hq. pose proof (BitProofs.pf_lo _ _ _ _ _ HF). pose proof (BitProofs.pf_hi _ _ _ _ _ HF).
    unfold bit_size. cbn [modulus]. pose proof nb_pos. rewrite (Z.log2_unique q (Z.of_nat nb - 1)); [lia|lia|].
    replace (Z.succ (Z.of_nat nb - 1)) with (Z.of_nat nb) by lia. lia.
  Qed.
  Lemma sb_pos : (1 <= sbits)%nat.
  Proof. clear -Hsb Hl. pose proof (ConvProofs.bit_size_pos {| modulus := l |} l_gt1). lia. Qed.
  Lemma fb_le : (fb_bits sbits <= nb)%nat.
  Proof. clear -Hsn. unfold fb_bits. destruct (Nat.odd sbits); lia. Qed.
  Lemma chal_len : Z.of_nat (challenge_bit_len nb) = (8 * (bit_size {| modulus := l |} / 8))%Z.
  Proof. clear -Hch Hsb. rewrite Hch, <- Hsb. rewrite Nat2Z.inj_mul, Nat2Z.inj_div. reflexivity. Qed.
  Lemma l_lt : (l < 2 ^ Z.of_nat sbits)%Z.
  Proof. clear -Hsb Hl. rewrite Hsb. apply (ConvProofs.modulus_bounds {| modulus := l |} l_gt1). Qed.
  Lemma l_lt_q : (l < q)%Z.
  Proof.
    clear -Hsb Hl HF Hsn. pose proof l_lt. pose proof (BitProofs.pf_lo _ _ _ _ _ HF).
    assert (2 ^ Z.of_nat sbits <= 2 ^ (Z.of_nat nb - 1))%Z by (apply Z.pow_le_mono_r; lia). lia.
  Qed.

  (** ** The link with the off-circuit scheme *)
  Lemma hash1_sponge input h : sponge_with_bit_padding RP input 1 = Ok [h] -> hash1 q Hq RP input = Ok h.
  Proof. intros Hs. unfold hash1, variable_crhf. rewrite Hs. reflexivity. Qed.
  Lemma is_chal_challenge csid (w : nat -> K) vk R msg (V Rp : E) e : is_chal zval nb RP (cs_of csid) w vk R msg e ->
    holds w vk V -> holds w R Rp -> challenge V Rp (map w msg) csid = Ok (zmk l e).
  Proof.
    intros (h & Eh & ->) HV HR. unfold SigModel.challenge.
    rewrite (hash1_sponge _ h).
    - cbn [bind]. unfold to_fr_with_mask. rewrite mask_value by (try apply l_gt1; try apply q_gt1; try (pose proof (BitProofs.pf_range _ _ _ _ _ HF h); lia); rewrite <- nb_size, <- Hsb; clear -Hsn; lia).
      cbn [bind modulus]. f_equal. apply zp_ext. cbn [zv zmk]. rewrite Z.mod_mod by (pose proof l_gt1; lia). now rewrite chal_len.
    - rewrite <- Eh. f_equal. unfold challenge_input, chal_input. unfold EccProps.holds in HV, HR.
      rewrite <- HV, <- HR. reflexivity.
  Qed.
  Lemma smul_zmk e (V : E) : gmul l V = g0 -> smul (zmk l e) V = gmul e V.
  Proof. intros H. unfold SigModel.smul. cbn [zv zmk]. now apply gmul_mod. Qed.
  Lemma smul_small e (V : E) : (0 <= e < l)%Z -> smul (zmk l e) V = gmul e V.
  Proof. intros H. unfold SigModel.smul. cbn [zv zmk]. now rewrite Z.mod_small. Qed.
  (** Keys for which the two sides agree: keys in the subgroup of order [l], and all
      keys when no challenge reaches the order (all shipped curves). *)
  Definition key_ok (V : E) : Prop := gmul l V = g0 \/ (2 ^ (8 * (bit_size {| modulus := l |} / 8)) <= l)%Z.
  Lemma smul_key e (V : E) : key_ok V -> (0 <= e < 2 ^ Z.of_nat (challenge_bit_len nb))%Z -> smul (zmk l e) V = gmul e V.
  Proof. intros [H|H] He; [now apply smul_zmk|]. apply smul_small. rewrite chal_len in He. clear -H He. lia. Qed.
  Lemma chal_range csid (w : nat -> K) vk R msg e : is_chal zval nb RP csid w vk R msg e -> (0 <= e < 2 ^ Z.of_nat (challenge_bit_len nb))%Z.
  Proof. intros (h & _ & ->). apply Z.mod_pos_bound. apply Z.pow_pos_nonneg; lia. Qed.
  Lemma chal_exists csid (w : nat -> K) vk R msg : exists e, is_chal zval nb RP csid w vk R msg e.
  Proof.
    start. destruct (proj1 (C38_output_length K RP Hk (chal_input csid w vk R msg) 1)) as (res & Er & El).
    unfold variable_crhf in Er. destruct (sponge_with_bit_padding RP (chal_input csid w vk R msg) 1) as [o| |] eqn:Es; try discriminate.
    cbn [bind] in Er. destruct o as [|h [|? ?]]; cbn in Er; try discriminate. exists (zval h mod 2 ^ Z.of_nat (challenge_bit_len nb))%Z, h. auto.
  Qed.

  (** The equation that the circuit checks, in the terms of the off-circuit code. *)
  Definition sig_equation (V : E) (msg : list K) (s : Z) (R : E) (csid : list Z) : Prop :=
    exists c : Fr, challenge V R msg csid = Ok c /\ gmul s B0 = gadd R (smul c V).
  Lemma sig_eq_equation csid (w : nat -> K) vk msg sig (V R : E) : key_ok V -> holds w vk V -> holds w (sv_R sig) R ->
    (sig_eq zval A D HC nb RP (cs_of csid) B0 w vk msg sig V R <-> sig_equation V (map w msg) (zval (w (sv_s sig))) R csid).
  Proof.
    intros HK HV HR. split.
    - intros (e & He & Eq). exists (zmk l e). split; [eapply is_chal_challenge; eauto|].
      rewrite smul_key; auto. eapply chal_range; eauto.
    - intros (c & Hc & Eq). destruct (chal_exists (cs_of csid) w vk (sv_R sig) msg) as (e & He). exists e. split; [exact He|].
      rewrite (is_chal_challenge csid w vk (sv_R sig) msg V R e He HV HR) in Hc. injection Hc as <-.
      rewrite smul_key in Eq; auto. eapply chal_range; eauto.
  Qed.
  (** The off-circuit verifier is that equation together with the order check of the key. *)
  Lemma verify_equation V msg s R csid :
    verify V msg (mk_sig (zmk l s) R) csid = Ok tt <-> gmul (cofactor mod l) V <> g0 /\ sig_equation V msg s R csid.
  Proof.
    unfold SigModel.verify. cbn [SigModel.sig_R SigModel.sig_s]. unfold sig_equation.
    replace (gmul (cofactor mod l) V) with (smul (zmk l cofactor) V) by reflexivity.
    rewrite (smul_zmk s B0) by exact Hgen.
    destruct (geqb (smul (zmk l cofactor) V) g0) eqn:E0.
    - apply geqb_eq in E0. split; [discriminate|]. intros [H _]. contradiction.
    - assert (Hne : smul (zmk l cofactor) V <> g0) by (intro H; apply geqb_eq in H; congruence).
      destruct (challenge V R msg csid) as [c| |]; cbn [bind].
      + destruct (geqb _ (gmul s B0)) eqn:E1.
        * apply geqb_eq in E1. split; auto. intros _. split; [exact Hne|]. exists c. split; [reflexivity|congruence].
        * split; [discriminate|]. intros (_ & c' & Hc & Eq). injection Hc as <-. symmetry in Eq. apply geqb_eq in Eq. congruence.
      + split; [discriminate|]. intros (_ & c' & Hc & _). discriminate.
      + split; [discriminate|]. intros (_ & c' & Hc & _). discriminate.
  Qed.

  (** ** C76 *)
  Section Gadget.
    Variables (c : circuit K) (vk : pvar) (msg : list nat) (sig : sig_var) (csid : list Z).
    Hypothesis G : good c.
    Hypothesis B : base (honest c).
    Hypotheses (Hvk : pinc c vk) (HR : pinc c (sv_R sig)) (Hs : inc c (sv_s sig)) (Hm : linc c msg).
    (** What the caller supplies: points of the curve and a response that fits. *)
    Hypotheses (Ov : in_law (honest c) vk) (OR : in_law (honest c) (sv_R sig))
      (Os : (zval (honest c (sv_s sig)) < 2 ^ Z.of_nat sbits)%Z).
    Lemma Os' : (zval (honest c (sv_s sig)) < 2 ^ Z.of_nat (fb_bits sbits))%Z.
    Proof. eapply Z.lt_le_trans; [exact Os|]. clear. apply Z.pow_le_mono_r; [lia|]. pose proof (sbits_le sbits). lia. Qed.

    (** Any accepted assignment satisfies the verification equation: the verifier of
        the library accepts the values, unless the key is of small order.  And the
        values of a valid signature are accepted. *)
    Theorem C76_verify :
      gadget_ok (gadget csid vk msg sig) c
        (fun w _ => forall V R, holds w vk V -> holds w (sv_R sig) R -> key_ok V ->
           gmul (cofactor mod l) V = g0 \/ verify V (map w msg) (mk_sig (zmk l (zval (w (sv_s sig)))) R) csid = Ok tt)
        (fun w => exists V R, holds w vk V /\ holds w (sv_R sig) R /\ key_ok V /\
           verify V (map w msg) (mk_sig (zmk l (zval (w (sv_s sig)))) R) csid = Ok tt) noout.
    Proof.
      start. pose proof (gd_wf _ G) as W. apply gspec_gadget; [exact G| |].
      { destruct Hvk as [P1 P2], HR as [P3 P4]. intros w w' Ew (V & R & H1 & H2 & H3 & H4). exists V, R. unfold EccProps.holds in *.
        rewrite <- !Ew by auto. repeat (split; auto). rewrite <- H4. f_equal. apply map_ext_in. intros v Hv. symmetry. apply Ew.
        clear -Hm Hv. unfold bdl in Hm. rewrite Forall_forall in Hm. auto. }
      eapply EccProps.gspec_weaken2; [apply (verify_signature_spec zval A D HC q nb L HF RP qn Hqn Ha Ha5 Hk Hi (cs_of csid) sbits B0 sb_pos fb_le c vk msg sig); auto|..].
      - apply Os'.
      - cbn beta. intros w _ S V R H1 H2 HK. specialize (S V R H1 H2). apply sig_eq_equation in S; auto.
        destruct (geqb (gmul (cofactor mod l) V) g0) eqn:E0; [left; now apply geqb_eq|right].
        apply verify_equation. split; [|exact S]. intro H. apply geqb_eq in H. congruence.
      - cbn beta. intros w (V & R & H1 & H2 & HK & Hv). exists V, R. repeat (split; [assumption|]).
        apply sig_eq_equation; auto. now apply verify_equation in Hv.
    Qed.
    (** The Boolean version answers the same question and is satisfiable for all
        values. *)
    Theorem C76_check :
      gadget_ok (check_gadget csid vk msg sig) c
        (fun w b => forall V R, holds w vk V -> holds w (sv_R sig) R -> key_ok V -> gmul (cofactor mod l) V <> g0 ->
           isb (w b) /\ (w b = 1 <-> verify V (map w msg) (mk_sig (zmk l (zval (w (sv_s sig)))) R) csid = Ok tt))
        (fun _ => True) out.
    Proof.
      start. pose proof (gd_wf _ G) as W. apply gspec_gadget; [exact G|loc|].
      eapply EccProps.gspec_weaken; [apply (check_signature_spec zval A D HC q nb L HF RP qn Hqn Ha Ha5 Hk Hi (cs_of csid) sbits B0 sb_pos fb_le c vk msg sig); auto|..].
      - apply Os'.
      - cbn beta. intros w b S V R H1 H2 HK H0. destruct (S V R H1 H2) as [S1 S2]. split; [exact S1|].
        rewrite S2, sig_eq_equation, verify_equation by auto. tauto.
    Qed.
  End Gadget.

  (** The whole circuit of a caller: variables for key, message and signature, and the
      check. *)
  Definition prove_signature (csid : list Z) (V : pt K) (msg : list K) (s : K) (R : pt K) : circ K (pvar * list nat * sig_var) :=
    vk <- create_signature_vk_variable V ;;
    m <- mapM create_variable msg ;;
    sig <- create_signature_variable s R ;;
    gadget csid vk m sig >> ret (vk, m, sig).
  Definition sig_accepted (w : nat -> K) (csid : list Z) (o : pvar * list nat * sig_var) : Prop :=
    forall V R, holds w (fst (fst o)) V -> holds w (sv_R (snd o)) R -> key_ok V ->
      gmul (cofactor mod l) V = g0 \/ verify V (map w (snd (fst o))) (mk_sig (zmk l (zval (w (sv_s (snd o))))) R) csid = Ok tt.
  Definition sig_values (w : nat -> K) (o : pvar * list nat * sig_var) (V : E) (msg : list K) (s : K) (R : E) : Prop :=
    holds w (fst (fst o)) V /\ map w (snd (fst o)) = msg /\ w (sv_s (snd o)) = s /\ holds w (sv_R (snd o)) R.
  Definition sig_inc (o : pvar * list nat * sig_var) (n : nat) : Prop :=
    pout (fst (fst o)) n /\ bdl (snd (fst o)) n /\ (sv_s (snd o) < n)%nat /\ pout (sv_R (snd o)) n.
  Lemma prove_signature_hspec csid (c : circuit K) V msg s R : good c -> base (honest c) -> (zval s < 2 ^ Z.of_nat sbits)%Z -> key_ok V ->
    hspec zval (prove_signature csid (cval V) msg s (cval R)) c
      (fun w o => sig_accepted w csid o) (fun _ => sig_equation V msg (zval s) R csid) (fun w o => sig_values w o V msg s R) sig_inc.
  Proof.
    intros G B Hs HK. start. pose proof (gd_wf _ G) as W. unfold prove_signature, create_signature_vk_variable, create_signature_variable.
    eapply hspec_seq with (1 := W) (2 := point_hspec zval c (cval V) W); [auto|]. intros vk c1 L1 O1 V1.
    assert (W1 : wf c1) by apply L1. assert (B1 : base (hon c1)) by eauto using base_of. specialize (V1 B1).
    eapply hspec_seq with (2 := vars_hspec zval msg c1 W1); [lt|auto|]. intros m c2 L2 O2 V2.
    assert (W2 : wf c2) by apply L2. assert (B2 : base (hon c2)) by eauto using base_of. specialize (V2 B2).
    eapply hspec_seq with (1 := W2) (S1 := fun _ _ => True) (C1 := fun _ => True)
      (V1 := fun w sig => w (sv_s sig) = s /\ pv w (sv_R sig) = cval R) (R1 := fun sig n => (sv_s sig < n)%nat /\ pout (sv_R sig) n); [|auto|].
    { eapply hspec_seq with (1 := W2) (2 := var_hspec zval c2 s W2); [auto|]. intros sv c3 L3 O3 _.
      eapply hspec_seq with (2 := point_hspec zval c3 (cval R) ltac:(lt)); [lt|auto|]. intros rv' c4 L4 O4 _.
      apply hspec_ret; cbn beta; cbn [sv_s sv_R]; auto. split; [lt|exact O4]. }
    intros sig c3 L3 [O3 O3'] V3. assert (W3 : wf c3) by apply L3. assert (B3 : base (hon c3)) by eauto using base_of. destruct (V3 B3) as [V3a V3b].
    assert (L13 : later c1 c3) by eauto using later_trans.
    assert (Hvk : pv (hon c3) vk = cval V) by (rewrite (pv_later c1 c3); auto).
    eapply hspec_seq with (1 := W3) (2 := gspec_hspec zval _ _ _ _ _ (verify_signature_spec zval A D HC q nb L HF RP qn Hqn Ha Ha5 Hk Hi (cs_of csid) sbits B0 sb_pos fb_le c3 vk m sig
      W3 B3 (pout_later c1 c3 vk L13 O1) O3' O3 (bdl_later c2 c3 m L3 O2) ltac:(rewrite Hvk; apply cval_on) ltac:(rewrite V3b; apply cval_on)
      ltac:(rewrite V3a; eapply Z.lt_le_trans; [exact Hs|]; apply Z.pow_le_mono_r; [clear; lia|]; pose proof (sbits_le sbits) as X; clear -X; lia))).
    - cbn beta. intros w Bw (((Eq & _ & E1) & _ & E2) & _ & E3 & E4). exists V, R. split; [exact E1|]. split; [exact E4|].
      apply sig_eq_equation; auto. now rewrite E2, E3.
    - intros [] c4 L4 _ _. apply hspec_ret; unfold sig_inc, sig_values; cbn beta; cbn [fst snd].
      + split; [apply (pout_later c1 c4); eauto using later_trans|]. split; [apply (bdl_later c2 c4); eauto using later_trans|].
        split; [destruct L4 as (_ & L4 & _); clear -L4 O3; lia|apply (pout_later c3 c4); auto].
      + intros w _ S _ _ _ V' R' H1 H2 HK'. cbn [fst snd] in *. specialize (S V' R' H1 H2). apply sig_eq_equation in S; auto.
        destruct (geqb (gmul (cofactor mod l) V') g0) eqn:E0; [left; now apply geqb_eq|right].
        apply verify_equation. split; [|exact S]. intro H. apply geqb_eq in H. congruence.
      + intros w _ _ [E3 E4] E2 E1. repeat split; auto.
  Qed.
  (** End to end, in an empty circuit: the circuit is built; every assignment it
      accepts carries a signature that the library's verifier accepts (for keys not of
      small order); the assignment computed by the code carries the values given, and
      is accepted when they satisfy the equation. *)
  Theorem C76_circuit t csid V msg s R : (zval s < 2 ^ Z.of_nat sbits)%Z -> key_ok V ->
    exists o c', prove_signature csid (cval V) msg s (cval R) (new_circuit K t) = (Ok o, c') /\ good c' /\
      (forall c'' ws pub, extends c' c'' -> bounded c'' -> accepts zval c'' ws pub -> sig_accepted (asg ws) csid o) /\
      sig_values (honest c') o V msg s R /\
      (sig_equation V msg (zval s) R csid -> accepts zval c' (witness c') []).
  Proof.
    intros Hs HK. pose proof (prove_signature_hspec csid (new_circuit K t) V msg s R (good_new t) (new_base t) Hs HK) as H.
    destruct (gspec_gadget zval _ _ _ (fun _ => sig_equation V msg (zval s) R csid) _ (good_new t) ltac:(now intros ? ? ? ?) (MerkleGadgetProps.hspec_gspec' zval _ _ _ _ _ _ H))
      as (o & c' & E & G' & X & _ & _ & S & _ & C).
    exists o, c'. split; [exact E|]. split; [exact G'|]. split; [exact S|]. split.
    - exact (MerkleGadgetProps.hspec_value zval _ _ _ _ _ _ _ _ (gd_wf _ (good_new t)) (new_base t) H E).
    - intros Eq. apply C; auto using new_accepts.
  Qed.
  Lemma to_fq_value (s : Fr) : zval (to_fq s) = zv l s.
  Proof.
    unfold SigModel.to_fq, ConvModel.fr_to_fq. pose proof (SigProps.zv_range l l_gt1 s) as Hs. pose proof l_lt_q.
    unfold from_le_bytes_mod_order. rewrite ConvProofs.bigint_val by (cbn [modulus]; try apply l_gt1; lia). cbn [zv zmk modulus].
    rewrite !Z.mod_small; auto; rewrite ?Z.mod_small; lia.
  Qed.
  (** Every signature that [sign] makes for a nonzero key is accepted in the circuit. *)
  Theorem C76_signed t csid (sk : Fr) msg : B0 <> g0 -> ~ (l | cofactor)%Z -> sk <> 0 ->
    let kp := generate_with_sign_key l Hl E B0 sk in
    exists sg o c', sign l q Hl Hq RP E cval B0 kp msg csid = Ok sg /\
      prove_signature csid (cval (kp_vk l Hl E kp)) msg (to_fq (sig_s l Hl E sg)) (cval (sig_R l Hl E sg)) (new_circuit K t) = (Ok o, c') /\
      sig_values (honest c') o (kp_vk l Hl E kp) msg (to_fq (sig_s l Hl E sg)) (sig_R l Hl E sg) /\ accepts zval c' (witness c') [].
  Proof.
    intros HB0 Hcof Hsk kp. start.
    assert (Hbits : (bit_size {| modulus := l |} < bit_size {| modulus := q |})%Z) by (rewrite <- nb_size, <- Hsb; clear -Hsn; lia).
    destruct (SigProps.C42_sign_verify l q Hl Hq RP Hk E cval B0 cofactor Hgen HB0 Hcof Hbits sk msg csid Hsk) as (sg & Hsg & Hv).
    fold kp in Hsg, Hv. exists sg.
    destruct (C76_circuit t csid (kp_vk l Hl E kp) msg (to_fq (sig_s l Hl E sg)) (sig_R l Hl E sg)) as (o & c' & Eo & _ & _ & Vs & Acc).
    - rewrite to_fq_value. pose proof (SigProps.zv_range l l_gt1 (sig_s l Hl E sg)). pose proof l_lt. lia.
    - left. unfold kp. cbn [kp_vk generate_with_sign_key]. unfold ver_key_of. apply (SigProps.smul_sub l Hl E). exact Hgen.
    - exists o, c'. split; [exact Hsg|]. split; [exact Eo|]. split; [exact Vs|]. apply Acc. rewrite to_fq_value.
      apply verify_equation. rewrite <- Hv. f_equal. destruct sg as [s R]. cbn [sig_s sig_R]. f_equal. apply zmk_zv.
  Qed.
  (** *** Findings *)
  (** The circuit does not repeat the order check of the verifier.  For the neutral key
      it accepts a signature of any message made without any secret; the verifier of the
      library rejects it. *)
  Theorem C76_small_order_key_refuted t csid msg (r : Fr) :
    verify g0 msg (mk_sig r (smul r B0)) csid = Err tt /\
    exists o c', prove_signature csid (cval g0) msg (to_fq r) (cval (smul r B0)) (new_circuit K t) = (Ok o, c') /\
      sig_values (honest c') o g0 msg (to_fq r) (smul r B0) /\ accepts zval c' (witness c') [].
  Proof.
    start. split.
    - unfold SigModel.verify, SigModel.smul at 1. rewrite gmul_0_r. destruct (geqb g0 g0) eqn:E0; [reflexivity|].
      exfalso. assert (X : (g0 : E) = g0) by reflexivity. apply geqb_eq in X. congruence.
    - destruct (C76_circuit t csid g0 msg (to_fq r) (smul r B0)) as (o & c' & Eo & _ & _ & Vs & Acc).
      + rewrite to_fq_value. pose proof (SigProps.zv_range l l_gt1 r). pose proof l_lt. lia.
      + left. apply gmul_0_r.
      + exists o, c'. split; [exact Eo|]. split; [exact Vs|]. apply Acc. rewrite to_fq_value.
        assert (Hbits : (bit_size {| modulus := l |} < bit_size {| modulus := q |})%Z) by (rewrite <- nb_size, <- Hsb; clear -Hsn; lia).
        destruct (SigProps.challenge_ok l q Hl Hq RP Hk E cval Hbits g0 (smul r B0) msg csid) as (ch & Hc). exists ch. split; [exact Hc|].
        unfold SigModel.smul. rewrite gmul_0_r, gadd_0_r. reflexivity.
  Qed.
  (** The response is not reduced modulo the order: with [s] also [s + l] is accepted,
      if it fits into the bits of the order. *)
  Theorem C76_response_not_unique_refuted t csid V msg (s : Fr) R : key_ok V -> (zv l s + l < 2 ^ Z.of_nat sbits)%Z ->
    verify V msg (mk_sig s R) csid = Ok tt ->
    exists o c', prove_signature csid (cval V) msg (zmk q (zv l s + l)) (cval R) (new_circuit K t) = (Ok o, c') /\
      sig_values (honest c') o V msg (zmk q (zv l s + l)) R /\ zmk q (zv l s + l) <> to_fq s /\ accepts zval c' (witness c') [].
  Proof.
    intros HK Hlt Hv. pose proof (SigProps.zv_range l l_gt1 s) as Hs.
    assert (Es : zval (zmk q (zv l s + l)) = (zv l s + l)%Z).
    { cbn [zv zmk]. apply Z.mod_small. pose proof (BitProofs.pf_lo _ _ _ _ _ HF).
      assert (2 ^ Z.of_nat sbits <= 2 ^ (Z.of_nat nb - 1))%Z by (apply Z.pow_le_mono_r; clear -Hsn; lia). lia. }
    destruct (C76_circuit t csid V msg (zmk q (zv l s + l)) R) as (o & c' & Eo & _ & _ & Vs & Acc); [rewrite Es; exact Hlt|exact HK|].
    exists o, c'. split; [exact Eo|]. split; [exact Vs|]. split.
    - intros X. apply (f_equal zval) in X. rewrite to_fq_value, Es in X. pose proof l_gt1. lia.
    - apply Acc. rewrite Es. rewrite <- (zmk_zv l s) in Hv. apply verify_equation in Hv as [_ (ch & Hc & Eq)].
      exists ch. split; [exact Hc|]. rewrite gmul_add, Hgen, gadd_0_r. exact Eq.
  Qed.

  (** ** C77 *)
  Section Encryption.
    Variable order : Z.
    Variable glv : nat -> pvar -> circ K pvar.
    Notation enc_gadget pk data r := (elgamal_encrypt A D (cval B0) sbits order zval q nb L RP glv pk data r).
    Notation encrypt := (deterministic_encrypt l q Hl Hq RP E cval B0).
    Notation decrypt := (SigModel.decrypt l q Hl Hq RP E cval).
    Notation mk_ct := (SigModel.mk_ct q Hq E).
    (** The counter mode of the circuit is that of the library. *)
    Theorem C77_stream (c : circuit K) key data : good c -> sinc c key -> linc c data ->
      gadget_ok (counter_mode_stream RP key data) c
        (fun w o => apply_counter_mode_stream q Hq RP (rv w key) (map w data) 0 Encrypt = Ok (map w o))
        (fun _ => True) (fun o n => bdl o n /\ length o = length data).
    Proof.
      intros G Hkey Hd. start. apply gspec_gadget; [exact G|loc|]. apply (stream_spec q Hq RP qn Hqn Ha Ha5 Hk Hi); auto using gd_wf.
    Qed.
    Section Gadget.
      Variables (c : circuit K) (pk : pvar) (data : list nat) (r : nat).
      Hypothesis G : good c.
      Hypothesis B : base (honest c).
      (** A circuit without lookups. *)
      Hypothesis Hno : support_lookup c = false.
      Hypotheses (Hpk : pinc c pk) (Hd : linc c data) (Hr : inc c r).
      Hypotheses (Opk : in_law (honest c) pk) (Or : (zval (honest c r) < 2 ^ Z.of_nat sbits)%Z).
      (** Every accepted assignment carries the ciphertext that the library computes for
          the values of key, plaintext and randomness.  Missing from the full claim: circuits with
          lookups (where it is false, see below) and keys outside the subgroup. *)
      Theorem C77_encrypt_partial :
        gadget_ok (enc_gadget pk data r) c
          (fun w o => forall V, holds w pk V -> gmul l V = g0 -> exists C, holds w (cv_ephemeral o) C /\
      encrypt V (zmk l (zval (w r))) (map w data) = Ok (mk_ct C (map w (cv_data o))))
          (fun _ => True) (fun o n => pout (cv_ephemeral o) n /\ bdl (cv_data o) n /\ length (cv_data o) = length data).
      Proof.
        start. apply gspec_gadget; [exact G|loc|].
        eapply EccProps.gspec_weaken; [apply (elgamal_encrypt_spec q Hq RP qn Hqn Ha Ha5 Hk Hi A D HC nb L HF sbits order B0 glv sb_pos fb_le c pk data r); auto using gd_wf|].
        cbn beta. intros w o [Ee Ed] V HV HlV. exists (gmul (zval (w r)) B0). split; [exact Ee|]. specialize (Ed V HV).
        unfold deterministic_encrypt, symmetric_key, enc_key_of. rewrite (smul_zmk _ V HlV), (smul_zmk _ B0 Hgen).
        destruct (perm_eval _ _) as [key| |]; try discriminate Ed. cbn [bind] in *. rewrite Ed. reflexivity.
      Qed.
      (** So the holder of the decryption key recovers the plaintext: the circuit is a
          verifiable encryption. *)
      Theorem C77_decrypts_partial :
        gadget_ok (enc_gadget pk data r) c
          (fun w o => forall sk, holds w pk (enc_key_of l Hl E B0 sk) -> exists C, holds w (cv_ephemeral o) C /\
      decrypt sk (mk_ct C (map w (cv_data o))) = Ok (map w data))
          (fun _ => True) (fun o n => pout (cv_ephemeral o) n /\ bdl (cv_data o) n /\ length (cv_data o) = length data).
      Proof.
        eapply gadget_weaken; [| |exact C77_encrypt_partial]; [|auto]. cbn beta. start. intros w o S sk Hsk.
        destruct (S _ Hsk) as (C & HCe & Henc); [unfold enc_key_of; apply (SigProps.smul_sub l Hl E); exact Hgen|]. exists C. split; [exact HCe|].
        destruct (SigProps.C44_decrypt_encrypt l q Hl Hq RP Hk E cval B0 Hgen Hi sk (zmk l (zval (w r))) (map w data)) as (ct & H1 & _ & H2).
        rewrite H1 in Henc. injection Henc as ->. exact H2.
      Qed.
    End Gadget.
  End Encryption.
End Curve.

(** *** Concrete curves *)
Lemma Zp_all q (Hq : prime q) (P : Zp q Hq -> bool) : forallb (fun n => P (zmk q (Z.of_nat n))) (seq 0 (Z.to_nat q)) = true -> forall x, P x = true.
Proof.
  intros H x. rewrite forallb_forall in H. pose proof (prime_ge_2 q Hq). pose proof (SigProps.zv_range q ltac:(lia) x) as Hx.
  replace x with (zmk q (Z.of_nat (Z.to_nat (zv q x)))).
  - apply H, in_seq. lia.
  - rewrite Z2Nat.id by lia. apply (zmk_zv q).
Qed.
Lemma Zp_nonsquare q (Hq : prime q) (d : Zp q Hq) :
  forallb (fun n => negb (feqb ((zmk q (Z.of_nat n) : Zp q Hq) * zmk q (Z.of_nat n)) d)) (seq 0 (Z.to_nat q)) = true -> forall s : Zp q Hq, s * s <> d.
Proof.
  intros H s E. pose proof (Zp_all q Hq (fun s => negb (feqb (s * s) d)) H s) as X. cbn beta in X.
  apply feqb_eq in E. now rewrite E in X.
Qed.

(** [- x^2 + y^2 = 1 + 22 x^2 y^2] over 1013 elements: 8 * 131 points. *)
Lemma prime_1013 : prime 1013. Proof. apply primeb_prime. vm_compute. reflexivity. Qed.
Lemma prime_131' : prime 131. Proof. apply primeb_prime. vm_compute. reflexivity. Qed.
Notation F1013 := (Zp 1013 prime_1013).
Definition e1013 (z : Z) : F1013 := zmk 1013 z.
Notation z1013 := (zv 1013 : F1013 -> Z).
Definition v1013 a b c d : vec4 F1013 := V4 (e1013 a) (e1013 b) (e1013 c) (e1013 d).
Definition R1013 : rescue_params F1013 :=
  mk_rescue 5 [405%N] (M4 (v1013 2 3 1 1) (v1013 1 2 3 1) (v1013 1 1 2 3) (v1013 3 1 1 2)) (v1013 1 2 3 4)
    (repeat (v1013 5 6 7 8) 24) (repeat (v1013 9 10 11 12) 25).
Lemma R1013_ok : rescue_ok R1013.
Proof. split; [exists 1013%nat; split; [exact (zp_card 1013 prime_1013)|vm_compute; reflexivity]|split; [auto|split; reflexivity]]. Qed.
Notation A1013 := (e1013 1012).
Notation D1013 := (e1013 22).
Lemma complete1013 : complete F1013 A1013 D1013.
Proof.
  split.
  - intros E. apply (f_equal z1013) in E. vm_compute in E. discriminate.
  - exists (e1013 45). apply feqb_eq. vm_compute. reflexivity.
  - apply Zp_nonsquare. vm_compute. reflexivity.
Qed.
Definition law1013 : law F1013 A1013 D1013 := complete_law F1013 A1013 D1013 complete1013.
Lemma on1013 x y : feqb (A1013 * e1013 x * e1013 x + e1013 y * e1013 y) (1 + D1013 * e1013 x * e1013 x * e1013 y * e1013 y) = true ->
  ins F1013 A1013 D1013 law1013 (e1013 x, e1013 y).
Proof. intros H. exact H. Qed.
Notation E1013 := (curve F1013 A1013 D1013 law1013).
Definition g1013 : E1013 := mkpt F1013 _ _ _ _ (on1013 3 925 eq_refl).
Lemma pf1013 : BitProofs.pfield F1013 z1013 1013 10 64.
Proof. apply BitProofs.Zp_pfield; [vm_compute; reflexivity|vm_compute; reflexivity|lia]. Qed.
(** The hypotheses of C76 and C77 hold of this curve. *)
Theorem C76_case_parameters :
  rescue_ok R1013 /\ gmul 131 g1013 = g0 /\ g1013 <> g0 /\ BitProofs.pfield F1013 z1013 1013 10 64 /\
  Z.of_nat 8 = bit_size {| modulus := 131 |} /\ (8 < 10)%nat /\ challenge_bit_len 10 = (8 * (8 / 8))%nat /\ ~ (131 | 8)%Z.
Proof.
  split; [exact R1013_ok|]. split; [apply geqb_eq; vm_compute; reflexivity|].
  split; [intros E; apply geqb_eq in E; vm_compute in E; discriminate|].
  split; [exact pf1013|]. split; [reflexivity|]. split; [lia|]. split; [reflexivity|]. intros [k Hk]. lia.
Qed.
Definition SCHNORR_ID : list Z := [83; 67; 72; 78; 79; 82; 82; 95; 87; 73; 84; 72; 95; 82; 69; 83; 67; 85; 69; 95; 72; 65; 83; 72; 95; 118; 48; 49]%Z.
Notation prove1013 := (prove_signature 1013 prime_1013 R1013 A1013 D1013 law1013 g1013 10 64 8 SCHNORR_ID).
(** Sign the message (10, 20), then prove knowledge of the signature for (10, 20 +
    tamper). *)
Definition sig_run (t : plonk_type) (sk : Z) (tamper : Z) : outcome unit (outcome cerr unit) :=
  let kp := generate_with_sign_key 131 prime_131' E1013 g1013 (zmk 131 sk) in
  let msg := [e1013 10; e1013 20] in
  let* sg := sign 131 1013 prime_131' prime_1013 R1013 E1013 (cval F1013 A1013 D1013 law1013) g1013 kp msg SCHNORR_ID in
  let r := prove1013 (cval F1013 A1013 D1013 law1013 (kp_vk 131 prime_131' E1013 kp)) [e1013 10; e1013 (20 + tamper)]
    (to_fq 131 1013 prime_131' prime_1013 (sig_s 131 prime_131' E1013 sg)) (cval F1013 A1013 D1013 law1013 (sig_R 131 prime_131' E1013 sg)) (new_circuit F1013 t) in
  Ok (if is_okb (fst r) then check_circuit_satisfiability z1013 (snd r) [] else Err ParameterError).
Theorem C76_case_runs :
  sig_run Turbo 7 0 = Ok (Ok tt) /\ sig_run (Ultra 2) 7 0 = Ok (Ok tt) /\ sig_run Turbo 7 1 <> Ok (Ok tt) /\ sig_run Turbo 130 0 = Ok (Ok tt).
Proof. split; [vm_compute; reflexivity|]. split; [vm_compute; reflexivity|]. split; [vm_compute; discriminate|vm_compute; reflexivity]. Qed.

(** The circuit does not check that the signature's point lies on the curve: an
    accepted assignment for an honest key whose [R] is not a point.  The off-circuit
    verifier cannot even be given such a value. *)
Theorem C76_off_curve_refuted :
  exists o c', prove1013 (cval F1013 A1013 D1013 law1013 (gmul 7 g1013)) [e1013 10; e1013 20] (e1013 59) (e1013 920, e1013 311) (new_circuit F1013 Turbo) = (Ok o, c') /\
    accepts z1013 c' (witness c') [] /\ gmul 8 (gmul 7 g1013) <> g0 /\
    holds A1013 D1013 law1013 (asg (witness c')) (fst (fst o)) (gmul 7 g1013) /\
    ~ on_curve A1013 D1013 (asg (witness c')) (sv_R (snd o)).
Proof.
  set (r := prove1013 (cval F1013 A1013 D1013 law1013 (gmul 7 g1013)) [e1013 10; e1013 20] (e1013 59) (e1013 920, e1013 311) (new_circuit F1013 Turbo)).
  exists (okv ((0, 0)%nat, [], mk_sig_var 0 (0, 0)%nat) (fst r)), (snd r).
  split; [apply okv_eq; vm_compute; reflexivity|]. split; [split; vm_compute; reflexivity|].
  split; [intros E; apply geqb_eq in E; vm_compute in E; discriminate|].
  split; [unfold holds; apply peqb_eq; vm_compute; reflexivity|].
  unfold on_curve. intros E. apply feqb_eq in E. vm_compute in E. discriminate.
Qed.

(** [x^2 + y^2 = 1 + 39 x^2 y^2] over 257 elements: 4 * 71 points. *)
Lemma prime_71 : prime 71. Proof. apply primeb_prime. vm_compute. reflexivity. Qed.
Notation F257 := (Zp 257 SigProps.prime_257).
Definition e257 (z : Z) : F257 := zmk 257 z.
Notation z257 := (zv 257 : F257 -> Z).
Definition v257 a b c d : vec4 F257 := V4 (e257 a) (e257 b) (e257 c) (e257 d).
Definition R257 : rescue_params F257 :=
  mk_rescue 5 [205%N] (M4 (v257 2 3 1 1) (v257 1 2 3 1) (v257 1 1 2 3) (v257 3 1 1 2)) (v257 1 2 3 4)
    (repeat (v257 5 6 7 8) 24) (repeat (v257 9 10 11 12) 25).
Lemma R257_ok : rescue_ok R257.
Proof. split; [exists 257%nat; split; [exact (zp_card 257 SigProps.prime_257)|vm_compute; reflexivity]|split; [auto|split; reflexivity]]. Qed.
Notation A257 := (e257 1).
Notation D257 := (e257 39).
Lemma complete257 : complete F257 A257 D257.
Proof.
  split.
  - intros E. apply (f_equal z257) in E. vm_compute in E. discriminate.
  - exists (e257 1). apply feqb_eq. vm_compute. reflexivity.
  - apply Zp_nonsquare. vm_compute. reflexivity.
Qed.
Definition law257 : law F257 A257 D257 := complete_law F257 A257 D257 complete257.
Lemma on257 x y : feqb (A257 * e257 x * e257 x + e257 y * e257 y) (1 + D257 * e257 x * e257 x * e257 y * e257 y) = true ->
  ins F257 A257 D257 law257 (e257 x, e257 y).
Proof. intros H. exact H. Qed.
Notation E257 := (curve F257 A257 D257 law257).
Notation c257 := (cval F257 A257 D257 law257 : E257 -> pt F257).
Definition g257 : E257 := mkpt F257 _ _ _ _ (on257 6 164 eq_refl).
Lemma pf257 : BitProofs.pfield F257 z257 257 9 64.
Proof. apply BitProofs.Zp_pfield; [vm_compute; reflexivity|vm_compute; reflexivity|lia]. Qed.
(** A circuit with the encryption key of 5, the plaintext (1, 2, 3, 4, 5) and the randomness 6. *)
Notation key257 := (enc_key_of 71 prime_71 E257 g257 (zmk 71 5)).
Definition data257 : list F257 := map e257 [1; 2; 3; 4; 5]%Z.
Definition enc_inputs {K : fld} (P : pt K) (d0 d1 d2 d3 d4 r : K) (t : plonk_type) : circuit K :=
  snd ((create_enc_key_variable P >> mapM create_variable [d0; d1; d2; d3; d4] >> create_variable r) (new_circuit K t)).
Lemma enc_inputs_good {K : fld} P (d0 d1 d2 d3 d4 r : K) t : good (enc_inputs P d0 d1 d2 d3 d4 r t).
Proof. split; try reflexivity; split; try reflexivity; cbn; try lia; repeat constructor; cbn; lia. Qed.
Lemma enc_inputs_vars {K : fld} P (d0 d1 d2 d3 d4 r : K) t : let c := enc_inputs P d0 d1 d2 d3 d4 r t in
  base (honest c) /\ num_vars c = 10%nat /\ support_lookup c = support_lookup (new_circuit K t) /\
  (asg (witness c) 2, asg (witness c) 3) = P /\ asg (witness c) 9 = r.
Proof. destruct P. repeat split. Qed.
Definition enc_circuit (t : plonk_type) (r : Z) : circuit F257 :=
  enc_inputs (c257 key257) (e257 1) (e257 2) (e257 3) (e257 4) (e257 5) (e257 r) t.
Lemma enc_circuit_good t r : good (enc_circuit t r).
Proof. exact (enc_inputs_good (c257 key257) (e257 1) (e257 2) (e257 3) (e257 4) (e257 5) (e257 r) t). Qed.
Lemma enc_circuit_vars t r :
  base (honest (enc_circuit t r)) /\ num_vars (enc_circuit t r) = 10%nat /\ support_lookup (enc_circuit t r) = support_lookup (new_circuit F257 t) /\
  (asg (witness (enc_circuit t r)) 2, asg (witness (enc_circuit t r)) 3) = c257 key257 /\ asg (witness (enc_circuit t r)) 9 = e257 r.
Proof. exact (enc_inputs_vars (c257 key257) (e257 1) (e257 2) (e257 3) (e257 4) (e257 5) (e257 r) t). Qed.
(** The bit lengths are not those of Bandersnatch, so the special multiplication is not called. *)
Definition enc257 (t : plonk_type) (r : Z) : outcome cerr ctxt_var * circuit F257 :=
  elgamal_encrypt A257 D257 (c257 g257) 7 71 z257 257 9 64 R257 (fun _ _ => cpanic) (2, 3)%nat [4; 5; 6; 7; 8]%nat 9%nat (enc_circuit t r).
Theorem C77_case_parameters r : (0 <= r < 128)%Z ->
  rescue_ok R257 /\ gmul 71 g257 = g0 /\ g257 <> g0 /\ BitProofs.pfield F257 z257 257 9 64 /\ Z.of_nat 7 = bit_size {| modulus := 71 |} /\ (7 < 9)%nat /\
  let c := enc_circuit Turbo r in
  good c /\ base (honest c) /\ support_lookup c = false /\ pinc c (2, 3)%nat /\ linc c [4; 5; 6; 7; 8]%nat /\ inc c 9 /\
  holds A257 D257 law257 (honest c) (2, 3)%nat key257 /\ (z257 (honest c 9%nat) < 2 ^ Z.of_nat 7)%Z.
Proof.
  intros Hr. split; [exact R257_ok|]. split; [apply geqb_eq; vm_compute; reflexivity|].
  split; [intros E; apply geqb_eq in E; vm_compute in E; discriminate|].
  split; [exact pf257|]. split; [reflexivity|]. split; [lia|]. intros c. split; [apply enc_circuit_good|].
  destruct (enc_circuit_vars Turbo r) as (B & N & S & V1 & V2).
  split; [exact B|]. split; [exact S|]. unfold c. unfold pout, bdl. rewrite N. split; [cbn [fst snd]; lia|]. split; [repeat (constructor; [lia|]); constructor|].
  split; [lia|]. split; [exact V1|]. rewrite V2. change (2 ^ Z.of_nat 7)%Z with 128%Z. unfold e257. cbn [zv zmk]. rewrite Z.mod_small; lia.
Qed.
Definition enc_result (t : plonk_type) (r : Z) : outcome cerr unit * ((Z * Z) * list Z) :=
  let x := enc257 t r in let w := asg (witness (snd x)) in let o := okv (mk_ctxt_var (0, 0)%nat []) (fst x) in
  (check_circuit_satisfiability z257 (snd x) [], ((z257 (w (fst (cv_ephemeral o))), z257 (w (snd (cv_ephemeral o)))), map (fun v => z257 (w v)) (cv_data o))).
Definition enc_expected (r : Z) : outcome unit ((Z * Z) * list Z) :=
  let* ct := deterministic_encrypt 71 257 prime_71 SigProps.prime_257 R257 E257 c257 g257 key257 (zmk 71 r) data257 in
  let P := c257 (ct_ephemeral 257 SigProps.prime_257 E257 ct) in
  Ok ((z257 (fst P), z257 (snd P)), map z257 (ct_data 257 SigProps.prime_257 E257 ct)).
Theorem C77_case_runs :
  (exists ct, enc_result Turbo 6 = (Ok tt, ct) /\ enc_expected 6 = Ok ct) /\
  (exists ct, enc_result (Ultra 3) 6 = (Ok tt, ct) /\ enc_expected 6 = Ok ct) /\
  (exists ct, enc_result Turbo 77 = (Ok tt, ct) /\ enc_expected 6 = Ok ct).
Proof. split; [|split]; eexists; split; vm_compute; reflexivity. Qed.

(** In circuits with lookups the shared key is computed by the windowed algorithm,
    whose windows reach beyond the modulus (C36).  A prover can use [r + 257] there
    and [r] for the ephemeral key: the circuit accepts a ciphertext that the holder
    of the decryption key cannot decrypt to the plaintext. *)
Lemma is_ok_match {X} (r : outcome unit (list X)) : match r with Ok _ => true | _ => false end = true -> r = Ok (match r with Ok m => m | _ => [] end).
Proof. destruct r; try discriminate; reflexivity. Qed.
Definition zwrap257 (x : F257) : Z := if (z257 x =? 6)%Z then 263%Z else z257 x.
Definition cheat257 : circ F257 ctxt_var :=
  sh <- variable_base_scalar_mul A257 D257 7 71 zwrap257 257 9 64 (fun _ _ => cpanic) 9%nat (2, 3)%nat ;;
  key <- rescue_permutation R257 (SV (fst sh) (snd sh) 0 0) ;;
  ct <- counter_mode_stream R257 key [4; 5; 6; 7; 8]%nat ;;
  e <- fixed_base_scalar_mul A257 D257 z257 257 9 64 7 9%nat (c257 g257) ;;
  ret (mk_ctxt_var e ct).
Theorem C77_lookup_not_decryptable_refuted :
  exists (c c' : circuit F257) o ws C, good c /\ ptype c = Ultra 3 /\
    elgamal_encrypt A257 D257 (c257 g257) 7 71 z257 257 9 64 R257 (fun _ _ => cpanic) (2, 3)%nat [4; 5; 6; 7; 8]%nat 9%nat c = (Ok o, c') /\
    accepts z257 c' ws [] /\
    holds A257 D257 law257 (asg ws) (2, 3)%nat key257 /\
    holds A257 D257 law257 (asg ws) (cv_ephemeral o) C /\ C = gmul (z257 (asg ws 9%nat)) g257 /\
    map z257 (map (asg ws) [4; 5; 6; 7; 8]%nat) = [1; 2; 3; 4; 5]%Z /\
    exists m, decrypt 71 257 prime_71 SigProps.prime_257 R257 E257 c257 (zmk 71 5) (mk_ct 257 SigProps.prime_257 E257 C (map (asg ws) (cv_data o))) = Ok m /\
      map z257 m <> [1; 2; 3; 4; 5]%Z.
Proof.
  exists (enc_circuit (Ultra 3) 6), (snd (enc257 (Ultra 3) 6)), (okv (mk_ctxt_var (0, 0)%nat []) (fst (enc257 (Ultra 3) 6))),
    (witness (snd (cheat257 (enc_circuit (Ultra 3) 6)))), (gmul 6 g257).
  split; [apply enc_circuit_good|]. split; [reflexivity|]. split; [unfold enc257; apply okv_eq; vm_compute; reflexivity|].
  split; [split; vm_compute; reflexivity|]. split; [apply peqb_eq; vm_compute; reflexivity|].
  split; [apply peqb_eq; vm_compute; reflexivity|]. split; [apply geqb_eq; vm_compute; reflexivity|]. split; [vm_compute; reflexivity|].
  exists (match decrypt 71 257 prime_71 SigProps.prime_257 R257 E257 c257 (zmk 71 5) (mk_ct 257 SigProps.prime_257 E257 (gmul 6 g257)
    (map (asg (witness (snd (cheat257 (enc_circuit (Ultra 3) 6))))) (cv_data (okv (mk_ctxt_var (0, 0)%nat []) (fst (enc257 (Ultra 3) 6)))))) with Ok m => m | _ => [] end).
  split; [apply is_ok_match; vm_compute; reflexivity|]. vm_compute. discriminate.
Qed.

Print Assumptions C76_verify.
Print Assumptions C76_check.
Print Assumptions C76_circuit.
Print Assumptions C76_signed.
Print Assumptions C76_small_order_key_refuted.
Print Assumptions C76_response_not_unique_refuted.
Print Assumptions C76_off_curve_refuted.
Print Assumptions C77_stream.
Print Assumptions C77_encrypt_partial.
Print Assumptions C77_decrypts_partial.
Print Assumptions C77_lookup_not_decryptable_refuted.
