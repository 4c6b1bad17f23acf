(** The whole of the verifier circuit (C83): [partial_verify_circuit] against the verifier outside. *)
From Coq Require Import String List Arith ZArith Lia Bool Znumtheory Ring Field.
From Coq Require Zpow_facts.
From Verif Require Import Base ListAux Alg Poly VRing FiniteField ConvModel Group Edwards RescueModel RescueProofs KzgModel KzgFft PlonkModel PlonkLin PlonkPoly PlonkCheck LagrangeProofs TranscriptModel TranscriptProofs TranscriptProps CircuitModel CircuitProofs GadgetModel GadgetProofs RangeProofs
  BitProofs CmpProofs SatProofs SatGadget BuiltProofs FinalProps IndepProofs EccModel EccProofs EccProps TableSpec EccMsm MsmProps ModArithModel ModArithProofs CircuitProps ModArithProps RescueGadgetModel RescueGadgetProofs RescueGadgetProps
  TranscriptGadgetModel TranscriptGadgetProofs TranscriptGadgetProps SigGadgetProps PlonkVerifierModel PlonkVerifierOps PlonkVerifierEval PlonkVerifierTranscript PlonkVerifierProps PlonkVerifierWhole PlonkVerifierFinal PlonkVerifierPoints Pocklington Proth PcsProps.
Import ListNotations.
Local Open Scope fld_scope.
Local Open Scope circ_scope.

Section Circuit.
  Variables (r q : Z) (Hr : prime r) (Hq : prime q).
  Notation Fr := (Zp r Hr).
  Notation Fq := (Zp q Hq).
  Notation zval := (zv q : Fq -> Z).
  Notation zr := (zv r : Fr -> Z).
  Variables L tL m rb : nat.
  Notation nb := 377%nat.
  Hypothesis HN : nn_params Fq zval q nb L m rb.
  Notation M := (2 ^ Z.of_nat m)%Z.
  (** The split parameter of [partial_verify_circuit]. *)
  Hypothesis Hm : m = (((253 + 1) / 2 - 1) / rb * rb + rb)%nat.
  Hypothesis HM : (r < M * M)%Z.
  Hypothesis HFr : BitProofs.pfield Fr zr r 253 tL.
  Hypothesis Hodd : Z.odd q = true.
  Variable P : rescue_params Fq.
  Hypothesis HP : rescue_ok P.
  Variables V1 V2 VT : vsp Fr.
  Variable e : pairing Fr V1 V2 VT.
  (** The commitments: their affine coordinates, and their form on an Edwards curve. *)
  Variable xy : V1 -> option (Fq * Fq).
  Variables te_s te_nalpha te_beta : Fq.
  Notation T := (rescue r q Hr Hq V1 V2 xy P te_s te_nalpha te_beta).
  Notation accepts := (@SatProofs.accepts Fq zval).
  Variables A D : Fq.
  Hypothesis HC : law Fq A D.
  Notation E := (curve Fq A D HC).
  Notation cval := (cval Fq A D HC).
  (** The points that stand for commitments. *)
  Variable sub : E -> Prop.
  Hypothesis Hsub : subgroup A D HC sub.
  Variable dec : Fq -> Fq -> V1.
  Notation decp := (decp V1 dec).
  Hypothesis Hdec : forall x y, dec (- x) y = Alg.vopp (dec x y).
  (** The Edwards form of a commitment is a point of the group, and adding points is
      adding commitments. *)
  Hypothesis Hte : forall v x y, sw_to_te q Hq te_s te_nalpha te_beta (xy v) = Ok (x, y) -> exists Q : E, (x, y) = cval Q /\ sub Q.
  Hypothesis Hadd : forall X Y : E, sub X -> sub Y -> decp (cval (gadd X Y)) = Alg.vadd (decp (cval X)) (decp (cval Y)).
  Variable okey : vparam Fr V1 V2.
  Variable two_adicity : nat.
  Variable two_adic_root : Fr.
  Notation radix2 := (radix2_new Fr two_adicity two_adic_root).
  Variable d : dom Fr.
  Variable k : nat.
  Notation n := (dsize d).
  Hypothesis Hd : dom_ok Fr d.
  Hypothesis Hn : n = (2 ^ k)%nat.
  Hypothesis Hn2 : (2 <= n)%nat.
  Hypothesis HnP : (Z.of_nat n < r)%Z.
  Hypothesis Hr2 : radix2 n = Some d.
  Notation in_range := (ModArithProps.in_range zval m).
  Notation key_of := (key_of (K := Fq) (Fr := Fr) V1 V2 dec okey).
  Notation proof_of := (proof_of zval m V1 dec).
  Notation sv := (sv (Fr := Fr) zval m).
  Notation pt := (pt V1 dec).
  Notation inputs_ok := (inputs_ok zval m rb r d).
  Notation proper := (proper r q Hr Hq m V1 xy te_s te_nalpha te_beta dec).
  Notation off_challenges := (off_challenges r q Hr Hq m P V1 V2 xy te_s te_nalpha te_beta dec okey).
  Notation off_claim := (off_claim r q Hr Hq m P V1 V2 xy te_s te_nalpha te_beta dec okey d).
  Notation circuit_of := (partial_verify_circuit zval q nb L zr r 253 radix2 A D P).

  (** The verifier outside, on the values of an assignment: every instance has the
      public inputs twice. *)
  Definition off_verify (ws : list Fq) (vks : list (vkvar (Fr := Fr))) (pi : list fvar) (b : bproofvar (K := Fq)) : outcome perr unit :=
    verify_batch_proof Fr V1 V2 VT e T two_adicity two_adic_root (map (key_of ws) vks) (repeat (map (sv ws) (pi ++ pi)) (length vks)) (proof_of ws b).
  (** The pairing check that the caller makes with the two points. *)
  Definition pairs (ws : list Fq) (o : pvar * pvar) : Prop := e (pt ws (fst o)) (vbeta_h okey) = e (pt ws (snd o)) (vh okey).

  Lemma off_verify_claim ws vks pi b info c x : inputs_ok c (length vks) vks (pi ++ pi) b x -> off_claim ws (length vks) vks (pi ++ pi) b = Ok info ->
    (check_openings Fr V1 V2 VT e okey 1 [info] = true <-> off_verify ws vks pi b = Ok tt).
  Proof.
    intros Hi Hc. unfold off_verify, verify_batch_proof. destruct vks as [|vk0 vks]; [pose proof (io_n _ _ _ _ _ _ _ _ _ _ _ Hi) as X; cbn in X; lia|].
    pose proof (io_keys _ _ _ _ _ _ _ _ _ _ _ Hi) as X. inversion_clear X as [|? ? (_ & Hk & _) _]. cbn [map]. cbn [map PlonkVerifierWhole.off_claim] in Hc.
    unfold verifier_new at 1. cbn [PlonkVerifierProps.key_of vk_n]. rewrite Hk, Hr2. cbn [bind]. unfold PlonkVerifierWhole.off_claim in Hc. cbn [map] in Hc. rewrite Hc. cbn [bind].
    unfold batch_verify_opening_proofs, batch_r. cbn [length Nat.eqb bind vk_open]. destruct (check_openings _ _ _ _ _ _ _ _); split; auto; discriminate.
  Qed.
  Lemma in_group_neg : forall x y, (exists Q : E, (x, y) = cval Q /\ sub Q) -> exists Q : E, (- x, y) = cval Q /\ sub Q.
  Proof. intros x y (Q & H1 & H2). exists (gopp Q). split; [|now apply Hsub]. rewrite <- te_inverse_cval, <- H1. reflexivity. Qed.
  Lemma proper_group ws vks pi b : proper ws vks pi b ->
    Forall (in_group A D HC sub ws) (base_points vks b) /\ in_group A D HC sub ws (bv_open b) /\ in_group A D HC sub ws (bv_shifted b).
  Proof.
    intros [Hp _]. assert (X : Forall (in_group A D HC sub ws) (all_points r q Hr Hq vks b)).
    { eapply Forall_impl; [|exact Hp]. intros p Ho. exact (Hte _ _ _ Ho). }
    unfold all_points in X. rewrite !Forall_app in X. destruct X as (X1 & X2 & X3 & X4 & X5). inversion_clear X5 as [|? ? X6 X7]. inversion_clear X7. split; [|auto].
    unfold base_points. rewrite !Forall_app. auto.
  Qed.

  Lemma proper_agree c ws ws' vks pi b x : inputs_ok c (length vks) vks pi b x -> point_in c (bv_open b) -> point_in c (bv_shifted b) ->
    (forall v, (v < num_vars c)%nat -> asg ws' v = asg ws v) -> proper ws vks pi b -> proper ws' vks pi b.
  Proof.
    intros Hi Ho Hs Ag [Hp Hl]. assert (Pin : Forall (point_in c) (all_points r q Hr Hq vks b)).
    { unfold all_points. pose proof (io_pts _ _ _ _ _ _ _ _ _ _ _ Hi) as X. rewrite !Forall_app in X. rewrite !Forall_app. destruct X as (X1 & X2 & X3). split; [apply (io_kpts _ _ _ _ _ _ _ _ _ _ _ Hi)|]. do 3 (split; [assumption|]). constructor; [exact Ho|]. constructor; [exact Hs|constructor]. }
    split.
    - rewrite Forall_forall in *. intros p Hpp. destruct (Pin p Hpp). rewrite !Ag by assumption. auto.
    - assert (Cl : Forall (canonical zval m r c) (pi ++ all_evals b)).
      { apply Forall_app. split; [apply (io_cpi _ _ _ _ _ _ _ _ _ _ _ Hi)|apply (io_cev _ _ _ _ _ _ _ _ _ _ _ Hi)]. }
      rewrite Forall_forall in *. intros y Hy. destruct (Cl y Hy) as ((Y1 & Y2 & _) & _). unfold ModArithProps.in_range, ModArithProps.value. rewrite !Ag by assumption. exact (Hl y Hy).
  Qed.
  Lemma matches_agree c ws ws' i info : Forall (canonical zval m r c) (scalars_out q Hq i) -> Forall (point_in c) (points_of i) ->
    (forall v, (v < num_vars c)%nat -> asg ws' v = asg ws v) -> matches zval m V1 dec ws i info -> matches zval m V1 dec ws' i info.
  Proof.
    intros Hc Hp Ag (M1 & M2 & M3 & M4 & M5 & M6 & M7).
    assert (Sv : forall y, canonical zval m r c y -> sv ws' y = sv ws y).
    { intros y ((Y1 & Y2 & _) & _). unfold PlonkVerifierProps.sv, ModArithProps.value. now rewrite !Ag by assumption. }
    assert (Pv : forall p, point_in c p -> pt ws' p = pt ws p). { intros p [Y1 Y2]. unfold PlonkVerifierProps.pt. now rewrite !Ag by assumption. }
    inversion_clear Hc as [|? ? C1 Hc1]. inversion_clear Hc1 as [|? ? C2 Hc2]. inversion_clear Hc2 as [|? ? C3 Hc3]. inversion_clear Hc3 as [|? ? C4 C5].
    inversion_clear Hp as [|? ? D1 Hp1]. inversion_clear Hp1 as [|? ? D2 D3].
    unfold matches. rewrite !Sv, !Pv by assumption. repeat (split; [assumption|]). split; [|auto]. rewrite M5. unfold combined. f_equal.
    clear -C5 D3 Sv Pv. induction (pc_comm i) as [|[s p] l IH]; [reflexivity|]. cbn [map fst snd] in *. inversion_clear C5. inversion_clear D3. rewrite Sv, Pv by assumption. f_equal. auto.
  Qed.

  Theorem C83_partial_verify_partial c T0 pub0 vks pi b bl (G BG : E) : reached c T0 -> ptype c = Ultra rb -> accepts c (witness c) pub0 ->
    inputs_ok c (length vks) vks (pi ++ pi) b no_challenges -> point_in c (bv_open b) -> point_in c (bv_shifted b) -> proper (witness c) vks (pi ++ pi) b ->
    (forall ch, off_challenges (witness c) (length vks) vks (pi ++ pi) b = Ok ch -> fpow (ch_zeta Fr ch) n <> 1) ->
    (bl < num_vars c)%nat -> (zval (asg (witness c) bl) < 2 ^ 253)%Z -> sub G -> sub BG ->
    vg okey = decp (cval G) -> e (decp (cval G)) (vbeta_h okey) = e (decp (cval BG)) (vh okey) ->
    exists o c' Tn us x, circuit_of (cval BG) (cval G) vks pi b bl c = (Ok o, c') /\ reached c' (T0 ++ Tn) /\ extends c c' /\ (exists l, witness c' = witness c ++ l) /\
      point_in c' (fst o) /\ point_in c' (snd o) /\ Forall (elem_of m c') us /\ Forall (in_range (witness c')) us /\
      (forall pub, (Z.of_nat (length (T0 ++ Tn)) < q)%Z -> accepts c (witness c) pub -> accepts c' (witness c') pub) /\
      (pairs (witness c') o <-> off_verify (witness c') vks pi b = Ok tt) /\
      (both_checked nb rb -> forall c'' T'' ws pub, reached c'' (T0 ++ Tn ++ T'') -> extends c' c'' -> (Z.of_nat (length (T0 ++ Tn ++ T'')) < q)%Z -> accepts c'' ws pub ->
        Forall (in_range ws) us -> proper ws vks (pi ++ pi) b ->
        exists ch, off_challenges ws (length vks) vks (pi ++ pi) b = Ok ch /\ holds_or r q Hr Hq (asg ws) x ch /\
          (holds r q Hr Hq (asg ws) x ch -> fpow (ch_zeta Fr ch) n <> 1 -> (pairs ws o <-> off_verify ws vks pi b = Ok tt))).
  Proof.
    intros Rc Ht Ac Hi Ho Hs Hpr Hz Hbl Hblv SG SBG Hg He. pose proof (np_field _ _ _ _ _ _ _ HN) as HFq. pose proof (reached_good _ _ Rc) as Gc.
    assert (HP' : (0 < r < M * M)%Z) by (pose proof (prime_gt_1 r Hr); lia).
    destruct (C81_prepare_partial r q Hr Hq L tL m rb HN HM HFr Hodd P HP V1 V2 xy te_s te_nalpha te_beta dec Hdec okey radix2 d k Hd Hn Hn2 HnP Hr2 (Some (fZ M)) eq_refl
      c (length vks) vks (pi ++ pi) b pub0 Gc Ht Ac Hi Ho Hs Hpr Hz) as (i & c1 & us & x & E1 & G1 & X1 & R1 & (l1 & W1) & U1 & U2 & (O1 & O2 & O3 & O4) & C1 & Tr & (info & Ei & Em) & Sn).
    pose proof (R1 _ Rc) as Rc1. pose proof (C1 _ Ac) as Ac1.
    assert (N1 : (num_vars c <= num_vars c1)%nat) by now destruct X1.
    assert (Ag : forall v, (v < num_vars c)%nat -> asg (witness c1) v = asg (witness c) v).
    { intros v Hv. rewrite W1. unfold asg. apply app_nth1. now rewrite (wf_wit _ (gd_wf _ Gc)). }
    assert (Gp : forall ws, tracked r q Hr Hq ws vks b i -> proper ws vks (pi ++ pi) b -> Forall (in_group A D HC sub ws) (points_of i)).
    { intros ws Tw Pw. destruct (proper_group ws vks (pi ++ pi) b Pw) as (B1 & B2 & B3). unfold points_of. rewrite O3, O4. constructor; [exact B2|]. constructor; [exact B3|].
      exact (Tw (fun x y => exists Q : E, (x, y) = cval Q /\ sub Q) in_group_neg B1). }
    assert (Pr1 : proper (witness c1) vks (pi ++ pi) b).
    { exact (proper_agree c _ _ vks (pi ++ pi) b _ Hi Ho Hs Ag Hpr). }
    assert (Hpt : Forall (fun p => point_in c1 p /\ in_group A D HC sub (witness c1) p) (points_of i)).
    { pose proof (Gp _ Tr Pr1) as X. assert (Y : Forall (point_in c1) (points_of i)).
      { unfold points_of. rewrite O3, O4. destruct Ho, Hs. constructor; [split; lia|]. constructor; [split; lia|exact O2]. }
      rewrite Forall_forall in *. auto. }
    assert (Hsp : (2 ^ Z.of_nat (span 253) <= q)%Z).
    { pose proof (pf_lo _ _ _ _ _ HFq) as X. eapply Z.le_trans; [|apply Z.lt_le_incl; exact X]. apply Z.pow_le_mono_r; [lia|]. apply Z.leb_le. vm_compute. reflexivity. }
    assert (Hwn : (2 ^ Z.of_nat (pip_c 253) <= r)%Z).
    { pose proof (pf_lo _ _ _ _ _ HFr) as X. eapply Z.le_trans; [|apply Z.lt_le_incl; exact X]. apply Z.pow_le_mono_r; [lia|]. apply Z.leb_le. vm_compute. reflexivity. }
    destruct (C83_points zval q nb L m rb HN r HP' 253 tL zr HFr A D HC ltac:(lia) Hsp Hwn V1 V2 dec sub Hsub Hadd okey c1 T0 pub0 (vinfo m r (Some (fZ M))) i G BG bl Rc1
      ltac:(destruct X1; congruence) Ac1 eq_refl O1 Hpt ltac:(lia)) as (o & c' & Tn & E2 & _ & R2 & X2 & (l2 & W2) & P1 & P2 & C2 & H2 & S2); auto.
    { rewrite Ag by exact Hbl. exact Hblv. }
    assert (N2 : (num_vars c1 <= num_vars c')%nat) by now destruct X2.
    assert (Ag2 : forall v, (v < num_vars c1)%nat -> asg (witness c') v = asg (witness c1) v).
    { intros v Hv. rewrite W2. unfold asg. apply app_nth1. now rewrite (wf_wit _ (gd_wf _ G1)). }
    exists o, c', Tn, us, x.
    split. { rewrite (partial_split zval q nb L r 253 A D). destruct vks as [|vk0 vks'] eqn:Ev; [pose proof (io_n _ _ _ _ _ _ _ _ _ _ _ Hi) as Y; cbn in Y; lia|]. 
      assert (EL : (length vks =? bv_len b)%nat = true) by (apply Nat.eqb_eq; unfold bv_len; symmetry; rewrite Ev; apply (io_perms _ _ _ _ _ _ _ _ _ _ _ Hi)). rewrite Ev in EL. rewrite EL. cbn [negb].
      pose proof (io_keys _ _ _ _ _ _ _ _ _ _ _ Hi) as Hk. assert (Ek : kv_n vk0 = n) by (inversion_clear Hk as [|? ? (_ & Y & _) _]; exact Y).
      replace (forallb (fun vk => (kv_n vk =? kv_n vk0)%nat) (vk0 :: vks')) with true.
      2:{ symmetry. apply forallb_forall. intros vk Hin. rewrite Forall_forall in Hk. destruct (Hk vk Hin) as (_ & Y & _). apply Nat.eqb_eq. congruence. }
      cbn [negb]. unfold cbind at 1. rewrite (C82_parameters zval q nb L m rb HN r HP' 253 ltac:(lia) c Ht Hm). rewrite Ek, Hr2. unfold cbind at 1, ret at 1. unfold cbind at 1. rewrite E1. exact E2. }
    split; [exact R2|]. split; [eapply extends_trans; eauto|]. split; [exists (l1 ++ l2); now rewrite W2, W1, app_assoc|]. do 2 (split; [assumption|]).
    split. { eapply Forall_impl; [|exact U1]. intros y (Y1 & Y2 & Y3). split; [lia|]. split; [lia|exact Y3]. }
    split. { rewrite Forall_forall in *. intros y Hy. destruct (U1 y Hy) as (Y1 & Y2 & _). specialize (U2 y Hy). unfold ModArithProps.in_range in *. now rewrite !Ag2 by assumption. }
    split; [intros pub Hl Hp; auto|]. split.
    - destruct (off_agree r q Hr Hq m rb V1 V2 dec okey d c (witness c') (witness c1) (length vks) vks (pi ++ pi) b _ Hi Ho Hs) as (K1 & K2 & K3); [intros v Hv; apply Ag2; lia|].
      unfold off_verify. rewrite K1, K2, K3. change (pairs (witness c') o <-> off_verify (witness c1) vks pi b = Ok tt). rewrite <- (off_verify_claim (witness c1) vks pi b info c _ Hi Ei). unfold pairs.
      eapply (C83_pairing zval A D HC V1 V2 VT e dec okey (witness c') G BG bl info o); [|exact He]. apply H2. apply (matches_agree c1 (witness c1)); auto.
      eapply Forall_impl; [|exact Hpt]. intros p [Y _]. exact Y.
    - intros Hck c'' T'' ws pub R' X' Hl Ac' Hus Hpw. destruct (Sn Hck c'' ws pub (extends_trans _ _ _ X2 X') (gd_bd _ (reached_good _ _ R')) Ac' Hus Hpw) as (ch & Ec & Hor & Hh).
      exists ch. split; [exact Ec|]. split; [exact Hor|]. intros Hho Hzz. destruct (Hh Hho Hzz) as (Hrg & Htw & info' & Ei' & Em').
      rewrite <- (off_verify_claim ws vks pi b info' c _ Hi Ei'). unfold pairs.
      eapply (C83_pairing zval A D HC V1 V2 VT e dec okey ws G BG bl info' o); [|exact He]. exact (S2 c'' T'' ws pub R' X' Hl Ac' Hrg (Gp ws Htw Hpw) info' Em').
  Qed.
End Circuit.

(** ** What is refused *)
Section Refused.
  Context {K Fr : fld}.
  Variable zval : K -> Z.
  Variable q : Z.
  Variables nb L : nat.
  Variable zr : Fr -> Z.
  Variable P : Z.
  Variable tb : nat.
  Variable radix2 : nat -> option (dom Fr).
  Variable RP : rescue_params K.
  Variables A D : K.

  Lemma ok_bind {X Y} (mm : circ K X) (k : X -> circ K Y) c o c' : cbind mm k c = (Ok o, c') -> exists x c1, mm c = (Ok x, c1) /\ k x c1 = (Ok o, c').
  Proof. unfold cbind. destruct (mm c) as [[x| |] c1]; intros H; try discriminate. eauto. Qed.
  Lemma fvars_eqb_eq (l : list (fvar (K := K))) : forall l', fvars_eqb l l' = true -> l = l'.
  Proof.
    induction l as [|x l IH]; intros [|y l'] H; try discriminate; [reflexivity|]. cbn [fvars_eqb] in H. apply andb_true_iff in H as [H1 H2]. f_equal; [|auto].
    unfold fvar_eqb in H1. rewrite !andb_true_iff, !Nat.eqb_eq, feqb_eq in H1. destruct x, y. cbn in H1. destruct H1 as (((-> & ->) & ->) & ->). reflexivity.
  Qed.
  Lemma check_instances_ok d vks : forall pis c c', check_instances (K := K) (Fr := Fr) d vks pis c = (Ok tt, c') -> length vks = length pis ->
    Forall2 (fun pi vk => length pi = kv_inputs vk /\ kv_n vk = dsize d) pis vks.
  Proof.
    induction vks as [|vk vks IH]; intros [|pi pis] c c' H Hl; try discriminate; [constructor|].
    unfold check_instances in H. cbn [combine iterM] in H. apply ok_bind in H as (x & c1 & H1 & H2). cbn [fst snd] in H1.
    destruct (Nat.eqb_spec (length pi) (kv_inputs vk)); cbn [negb] in H1; [|discriminate]. destruct (Nat.eqb_spec (kv_n vk) (dsize d)); cbn [negb] in H1; [|discriminate].
    constructor; [auto|]. apply (IH pis c1 c'); [exact H2|]. now injection Hl.
  Qed.
  (** A run that succeeds had as many keys as instances and lists of inputs, inputs and
      domains of the sizes the keys say, and the same inputs for every instance. *)
  Theorem C80_accepted_inputs ni d vks pis b c o c' : prepare_pcs_info_var zval q nb L zr P tb radix2 ni RP d vks pis b c = (Ok o, c') ->
    length vks = bv_len b /\ Forall2 (fun pi vk => length pi = kv_inputs vk /\ kv_n vk = dsize d) pis vks /\ (forall x y, In x pis -> In y pis -> x = y).
  Proof.
    unfold prepare_pcs_info_var. destruct (Nat.eqb_spec (length vks) (bv_len b)) as [E1|]; cbn [negb orb]; [|discriminate].
    destruct (Nat.eqb_spec (length vks) (length pis)) as [E2|]; cbn [negb]; [|discriminate]. intros H.
    apply ok_bind in H as ([] & c1 & H1 & H2). apply ok_bind in H2 as (ch & c2 & _ & H2). split; [exact E1|]. split; [eapply check_instances_ok; eauto|].
    unfold pcs_info_from_challenges in H2. apply ok_bind in H2 as (bases & c3 & _ & H2). apply ok_bind in H2 as ([[zn zm] l1] & c4 & _ & H2). apply ok_bind in H2 as (const & c5 & H2 & _).
    unfold compute_lin_poly_constant_term_circuit in H2. rewrite E1, Nat.eqb_refl in H2. rewrite <- E1, E2, Nat.eqb_refl in H2. cbn [negb orb] in H2.
    apply ok_bind in H2 as (pi & c6 & Hp & H2). destruct pis as [|p0 pis]; [intros x y []|].
    assert (Ep : pi = p0) by (unfold idx, lift, index in Hp; cbn [nth_error] in Hp; congruence). subst pi.
    destruct (forallb (fvars_eqb p0) (skipn 1 (p0 :: pis))) eqn:Ef; cbn [negb] in H2; [|discriminate].
    cbn [skipn] in Ef. rewrite forallb_forall in Ef. assert (Hall : forall x, In x (p0 :: pis) -> x = p0).
    { intros x [<-|Hx]; [reflexivity|]. symmetry. apply fvars_eqb_eq, Ef, Hx. }
    intros x y Hx Hy. now rewrite (Hall x Hx), (Hall y Hy).
  Qed.
  (** The same for [partial_verify_circuit], which gives every instance the inputs twice. *)
  Theorem C83_accepted_keys bg g vks pi b bl c o c' : partial_verify_circuit zval q nb L zr P tb radix2 A D RP bg g vks pi b bl c = (Ok o, c') ->
    vks <> [] /\ length vks = bv_len b /\ (exists rb, ptype c = Ultra rb /\ rb <> 0%nat) /\
    exists d, Forall (fun vk => kv_inputs vk = (2 * length pi)%nat /\ kv_n vk = dsize d /\ radix2 (kv_n vk) = Some d) vks.
  Proof.
    unfold partial_verify_circuit. destruct vks as [|vk0 vks]; [discriminate|].
    destruct (Nat.eqb_spec (length (vk0 :: vks)) (bv_len b)) as [E1|]; cbn [negb]; [|discriminate].
    destruct (forallb _ (vk0 :: vks)) eqn:Ek; cbn [negb]; [|discriminate]. intros H.
    apply ok_bind in H as (ni & c1 & H1 & H). apply ok_bind in H as (d & c2 & H2 & H). apply ok_bind in H as (info & c3 & H3 & _).
    split; [discriminate|]. split; [exact E1|]. split.
    - unfold info_new in H1. apply ok_bind in H1 as (rb & c4 & H1 & H4). unfold lift, range_bit_len in H1. destruct (ptype c) as [|rb']; [discriminate|].
      exists rb'. split; [reflexivity|]. assert (rb' = rb) by congruence. subst rb'. intros ->. discriminate H4.
    - exists d. destruct (radix2 (kv_n vk0)) as [d'|] eqn:Er; [|discriminate]. assert (d' = d) by (unfold ret in H2; congruence). subst d'.
      apply C80_accepted_inputs in H3 as (_ & H3 & _). rewrite forallb_forall in Ek. apply Forall_forall. intros vk Hin.
      assert (En : kv_n vk = kv_n vk0) by (apply Nat.eqb_eq, Ek, Hin). rewrite En.
      assert (X : length (pi ++ pi) = kv_inputs vk /\ kv_n vk = dsize d).
      { clear -H3 Hin. revert H3 Hin. generalize (vk0 :: vks). intros l. induction l as [|v l IH]; intros H3 []; cbn [length repeat] in H3; inversion_clear H3; subst; auto. }
      rewrite app_length in X. split; [lia|]. split; [destruct X; congruence|exact Er].
  Qed.
  (** Keys of different domains, a list of keys of the wrong length and circuits with no
      range table are refused before anything is added. *)
  Theorem C83_refuses bg g vks pi b bl c : vks = [] \/ length vks <> bv_len b \/ (exists vk vk', In vk vks /\ In vk' vks /\ kv_n vk <> kv_n vk') \/ ptype c = Turbo ->
    partial_verify_circuit zval q nb L zr P tb radix2 A D RP bg g vks pi b bl c = (Err ParameterError, c).
  Proof.
    intros H. unfold partial_verify_circuit. destruct vks as [|vk0 vks]; [reflexivity|].
    destruct (Nat.eqb_spec (length (vk0 :: vks)) (bv_len b)) as [E1|]; cbn [negb]; [|reflexivity].
    destruct (forallb _ (vk0 :: vks)) eqn:Ek; cbn [negb]; [|reflexivity]. destruct H as [H|[H|[(vk & vk' & H1 & H2 & H3)|H]]]; [discriminate|contradiction| |].
    - exfalso. apply H3. rewrite forallb_forall in Ek. transitivity (kv_n vk0); [|symmetry]; apply Nat.eqb_eq, Ek; assumption.
    - unfold cbind at 1. unfold info_new. unfold cbind at 1. unfold lift, range_bit_len. rewrite H. reflexivity.
  Qed.
End Refused.

(** ** An instance in the fields of BLS12-377
    The parameters of [C81_instance], a complete Edwards curve over the base field, and
    commitments that are all the neutral point: points of a larger group are in
    [C83_instance], over a field small enough to compute in. *)
Definition D377 : K377 := fZ 5.
Lemma D377_nonsquare : forall s : K377, s * s <> D377.
Proof.
  intros s H. set (a := zv q377 s). assert (Ha : (a ^ 2 mod q377 = 5)%Z).
  { apply (f_equal (zv q377)) in H. assert (E5 : zv q377 D377 = 5%Z) by (vm_compute; reflexivity). rewrite E5 in H. rewrite Z.pow_2_r. exact H. }
  assert (Q2 : (2 < q377)%Z) by (apply Z.ltb_lt; vm_compute; reflexivity).
  assert (Hn : (a mod q377 <> 0)%Z).
  { intros E. rewrite Z.pow_2_r, Zmult_mod, E, Z.mul_0_l, Z.mod_0_l in Ha by lia. lia. }
  pose proof (Pocklington.one_fermat q377 a Hq377 Hn) as F. unfold Pocklington.one_at in F.
  assert (Eh : (q377 - 1 = 2 * Z.pos (Z.to_pos ((q377 - 1) / 2)))%Z) by (vm_compute; reflexivity).
  rewrite Eh, Z.pow_mul_r in F by lia. rewrite Zpow_facts.Zpower_mod, Ha in F by lia.
  rewrite <- Proth.powm_pos_spec in F by lia.
  assert (N : (Proth.powm_pos q377 5 (Z.to_pos ((q377 - 1) / 2)) =? 1)%Z = false) by (vm_compute; reflexivity).
  rewrite F in N. discriminate.
Qed.
Lemma complete377 : complete K377 f1 D377.
Proof.
  split; [apply neq_zv; vm_compute; reflexivity| |exact D377_nonsquare]. exists f1. apply (mul_1_r K377).
Qed.
Definition law377 : law K377 f1 D377 := complete_law K377 f1 D377 complete377.
Notation E377 := (curve K377 f1 D377 law377).
Definition none377 (v : S377) : option (K377 * K377) := None.
Definition zero377 (x y : K377) : S377 := (f0 : R377).
Definition sub377 (Q : E377) : Prop := Q = g0.
Lemma sub377_group : subgroup f1 D377 law377 sub377.
Proof.
  split; [reflexivity|]. split; unfold sub377.
  - intros X Y -> ->. apply gadd_0_l.
  - intros X ->. apply gopp_0.
Qed.
Definition key1 : vkvar (Fr := R377) := mk_kv (repeat o377 5) (repeat o377 13) true 2 2 (map (fun z => fZ z : R377) [1; 2; 3; 4; 5]%Z).
Definition in1 : list (fvar (K := K377)) := [fv377 1 0].
Definition proof1 : bproofvar (K := K377) := mk_bpv [repeat o377 5] [o377]
  [mk_pev [fv377 1 0; fv377 0 1; fv377 0 0; fv377 1 1; fv377 0 0] [fv377 1 0; fv377 0 1; fv377 1 0; fv377 0 0] (fv377 1 1)] (repeat o377 3) o377 o377.
Definition okey1 : vparam R377 S377 S377 := mk_vparam R377 S377 S377 (f0 : R377) (f1 : R377) (f1 : R377) [] [].
Notation new377 := (new_circuit K377 (Ultra 16)).
Theorem C83_instance_whole :
  reached new377 [] /\ accepts (zv q377 : K377 -> Z) new377 (witness new377) [] /\ both_checked 377 16 /\
  inputs_ok (zv q377 : K377 -> Z) 128 16 r377 d377 new377 1 [key1] (in1 ++ in1) proof1 no_challenges /\
  proper r377 q377 Hr377 Hq377 128 S377 none377 f1 f0 f1 zero377 (witness new377) [key1] (in1 ++ in1) proof1 /\
  ((forall ch, off_challenges r377 q377 Hr377 Hq377 128 P377 S377 S377 none377 f1 f0 f1 zero377 okey1 (witness new377) 1 [key1] (in1 ++ in1) proof1 = Ok ch -> fpow (ch_zeta R377 ch) 2 <> 1) ->
   exists o c' T, partial_verify_circuit (zv q377 : K377 -> Z) q377 377 384 (zv r377 : R377 -> Z) r377 253 (radix2_new R377 1 (- f1)) f1 D377 P377 (f0, f1) (f0, f1) [key1] in1 proof1 1 new377 = (Ok o, c') /\
     reached c' T /\ ((Z.of_nat (length T) < q377)%Z -> accepts (zv q377 : K377 -> Z) c' (witness c') []) /\
     (pairs r377 q377 Hr377 Hq377 S377 S377 S377 (self_pairing R377) zero377 okey1 (witness c') o <->
      off_verify r377 q377 Hr377 Hq377 128 P377 S377 S377 S377 (self_pairing R377) none377 f1 f0 f1 zero377 okey1 1 (- f1) (witness c') [key1] in1 proof1 = Ok tt)).
Proof.
  destruct C78_instance_parameters as (HF & Ho & Hr & HP & Hck & _).
  assert (A0 : accepts (zv q377 : K377 -> Z) new377 (witness new377) []) by exact (SigGadgetProps.new_accepts (zv q377 : K377 -> Z) (Ultra 16)).
  assert (W : witness new377 = [f0 : K377; f1 : K377]) by reflexivity. assert (Nv : num_vars new377 = 2%nat) by reflexivity. assert (Tc : ptype new377 = Ultra 16) by reflexivity.
  assert (R0 : reached new377 []) by apply r_new.
  remember new377 as c eqn:Ec. clear Ec.
  assert (HN : nn_params K377 (zv q377 : K377 -> Z) q377 377 384 128 16).
  { split; [exact HF| | | | |].
    - split; apply Nat.leb_le; reflexivity.
    - split; apply Nat.leb_le; reflexivity.
    - apply Nat.ltb_lt; reflexivity.
    - reflexivity.
    - apply Z.leb_le. vm_compute. reflexivity. }
  assert (HR : BitProofs.pfield R377 (zv r377 : R377 -> Z) r377 253 256).
  { apply Zp_pfield; [vm_compute; reflexivity|vm_compute; reflexivity|apply Nat.leb_le; reflexivity]. }
  assert (Va : forall a, (a <= 1)%nat -> (0 <= zv q377 (asg (witness c) a) <= 1)%Z).
  { intros a Ha. rewrite W. destruct a as [|[|a]]; [| |lia]; cbn [asg nth]; split; apply Z.leb_le; vm_compute; reflexivity. }
  assert (Vc : forall a b, (a <= 1)%nat -> (b <= 1)%nat -> canonical (zv q377 : K377 -> Z) 128 r377 c (fv377 a b)).
  { intros a b Ha Hb. pose proof (Va a Ha) as A. pose proof (Va b Hb) as B. unfold canonical, elem_of, ModArithProps.in_range, ModArithProps.value. cbn [fv377 v0 v1 vm vtwo]. rewrite Nv.
    assert (M3 : (1 < 2 ^ Z.of_nat 128)%Z) by (apply Z.ltb_lt; vm_compute; reflexivity). assert (M4 : (1 + 2 ^ Z.of_nat 128 * 1 < r377)%Z) by (apply Z.ltb_lt; vm_compute; reflexivity).
    split; [split; [lia|split; [lia|split; reflexivity]]|]. split; [split; [exact (Z.le_lt_trans _ _ _ (proj2 A) M3)|exact (Z.le_lt_trans _ _ _ (proj2 B) M3)]|].
    eapply Z.le_lt_trans; [|exact M4]. apply Z.add_le_mono; [apply A|]. apply Z.mul_le_mono_nonneg_l; [apply Z.pow_nonneg; lia|apply B]. }
  assert (Po : point_in c o377) by (split; rewrite Nv; cbn; lia).
  assert (Cpi : Forall (canonical (zv q377 : K377 -> Z) 128 r377 c) (in1 ++ in1)) by (cbn [in1 app]; do 2 (constructor; [apply Vc; lia|]); constructor).
  assert (Cev : Forall (canonical (zv q377 : K377 -> Z) 128 r377 c) (all_evals proof1)).
  { unfold all_evals. cbn [proof1 bv_evals map concat app ev_wires ev_sigmas ev_next]. do 10 (constructor; [apply Vc; lia|]). constructor. }
  assert (Hi : inputs_ok (zv q377 : K377 -> Z) 128 16 r377 d377 c 1 [key1] (in1 ++ in1) proof1 no_challenges).
  { split; cbn [length bv_perms bv_evals bv_wires proof1 bv_quots ev_wires d377 dsize in1 app repeat]; try reflexivity; try (cbn; lia); try discriminate.
    - constructor; [|constructor]. cbn [ev_wires length]. lia.
    - intros [|[|i]] vk pe wcs; cbn [nth_error]; try discriminate. intros E1 E2 E3. injection E1 as <-. injection E2 as <-. injection E3 as <-. split; reflexivity.
    - constructor; [|constructor]. do 3 (split; [reflexivity|]). discriminate.
    - exact Cpi.
    - exact Cev.
    - cbn [app concat repeat]. repeat (constructor; [assumption|]). constructor.
    - cbn [map concat app key1 kv_sigmas kv_sels repeat]. repeat (constructor; [assumption|]). constructor.
    - cbn [no_challenges rc_alpha rc_beta rc_gamma rc_zeta rc_u rc_v]. rewrite Nv. assert (Z0 : (zv q377 (asg (witness c) 0) < r377)%Z).
      { pose proof (Va 0%nat ltac:(lia)). assert (1 < r377)%Z by (apply Z.ltb_lt; vm_compute; reflexivity). lia. }
      do 6 (constructor; [split; [lia|exact Z0]|]). constructor. }
  assert (Hp : proper r377 q377 Hr377 Hq377 128 S377 none377 f1 f0 f1 zero377 (witness c) [key1] (in1 ++ in1) proof1).
  { assert (Oo : on_curve r377 q377 Hr377 Hq377 S377 none377 f1 f0 f1 zero377 (asg (witness c) (fst o377)) (asg (witness c) (snd o377))) by (rewrite W; reflexivity).
    split.
    - unfold all_points. cbn [map concat app key1 proof1 kv_sigmas kv_sels repeat bv_perms bv_quots bv_wires bv_open bv_shifted]. repeat (constructor; [assumption|]). constructor.
    - apply Forall_app. split; [eapply Forall_impl; [|exact Cpi]|eapply Forall_impl; [|exact Cev]]; intros y (_ & A & B); auto. }
  do 5 (split; [assumption|]). intros Hz.
  assert (Hd2 : radix2_new R377 1 (- f1) 2 = Some d377).
  { unfold radix2_new, d377. change (Nat.log2_up 2) with 1%nat. cbn [Nat.leb Nat.sub Nat.pow Nat.mul Nat.add]. f_equal. f_equal. cbn [fpow]. apply (mul_1_r R377). }
  destruct (C83_partial_verify_partial r377 q377 Hr377 Hq377 384 256 128 16 HN eq_refl ltac:(apply Z.ltb_lt; vm_compute; reflexivity) HR Ho P377 HP S377 S377 S377 (self_pairing R377) none377 f1 f0 f1
    f1 D377 law377 sub377 sub377_group zero377 ltac:(intros x y; symmetry; apply (opp_0 R377))
    ltac:(intros v x y H; exists g0; split; [injection H as <- <-; reflexivity|reflexivity]) ltac:(intros X Y _ _; symmetry; apply (Radd_0_l (F_R (fth R377)))) okey1 1 (- f1)
    d377 1 d377_ok eq_refl ltac:(cbn; lia) ltac:(apply Z.ltb_lt; vm_compute; reflexivity) Hd2
    c [] [] [key1] in1 proof1 1 g0 g0 R0 Tc A0 Hi Po Po Hp Hz) as (o & c' & Tn & us & x & E & R1 & _ & _ & _ & _ & _ & _ & Hc & Hh & _).
  - lia.
  - pose proof (Va 1%nat ltac:(lia)). assert (1 < 2 ^ 253)%Z by (apply Z.ltb_lt; vm_compute; reflexivity). lia.
  - reflexivity.
  - reflexivity.
  - reflexivity.
  - cbn. reflexivity.
  - exists o, c', ([] ++ Tn). split; [exact E|]. split; [exact R1|]. split; [intros Hl; apply Hc; assumption|exact Hh].
Qed.

Print Assumptions C80_accepted_inputs.
Print Assumptions C83_partial_verify_partial.
Print Assumptions C83_instance_whole.
