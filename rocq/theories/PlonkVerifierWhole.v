(** The whole of the opening claim of the verifier circuit (C81): the transcript followed
    by the gates of C80. *)
From Coq Require Import String List Arith ZArith Lia Bool Znumtheory Ring Field.
From Verif Require Import Base ListAux Alg Poly FiniteField ConvModel RescueModel RescueProofs KzgModel KzgFft PlonkModel PlonkLin PlonkPoly LagrangeProofs TranscriptModel TranscriptProofs TranscriptProps CircuitModel CircuitProofs GadgetModel GadgetProofs
  BitProofs SatProofs SatGadget BuiltProofs FinalProps IndepProofs EccModel ModArithModel ModArithProofs CircuitProps ModArithProps RescueGadgetModel RescueGadgetProofs RescueGadgetProps
  TranscriptGadgetModel TranscriptGadgetProofs TranscriptGadgetProps SigGadgetProps PlonkVerifierModel PlonkVerifierOps PlonkVerifierEval PlonkVerifierTranscript PlonkVerifierProps.
Import ListNotations.
Local Open Scope fld_scope.
Local Open Scope circ_scope.

Section Whole.
  Variables (r q : Z) (Hr : prime r) (Hq : prime q).
  Notation Fr := (Zp r Hr).
  Notation Fq := (Zp q Hq).
  Notation zval := (zv q : Fq -> Z).
  Notation zr := (zv r : Fr -> Z).
  Variables L tL m rb : nat.
  Notation nb := 377%nat.
  Hypothesis HN : nn_params Fq zval q nb L m rb.
  Notation M := (2 ^ Z.of_nat m)%Z.
  Hypothesis HM : (r < M * M)%Z.
  Hypothesis HFr : BitProofs.pfield Fr zr r 253 tL.
  Hypothesis Hodd : Z.odd q = true.
  Variable P : rescue_params Fq.
  Hypothesis HP : rescue_ok P.
  Variables V1 V2 : vsp Fr.
  Variable xy : V1 -> option (Fq * Fq).
  Variables te_s te_nalpha te_beta : Fq.
  Notation T := (rescue r q Hr Hq V1 V2 xy P te_s te_nalpha te_beta).
  Notation accepts := (@SatProofs.accepts Fq zval).
  (** The element with two given Edwards coordinates, when there is one. *)
  Variable dec : Fq -> Fq -> V1.
  Hypothesis Hdec : forall x y, dec (- x) y = Alg.vopp (dec x y).
  Definition on_curve (x y : Fq) : Prop := sw_to_te q Hq te_s te_nalpha te_beta (xy (dec x y)) = Ok (x, y).
  Variable okey : vparam Fr V1 V2.
  Variable radix2 : nat -> option (dom Fr).
  Variable d : dom Fr.
  Variable k : nat.
  Notation n := (dsize d).
  Hypothesis Hd : dom_ok Fr d.
  Hypothesis Hn : n = (2 ^ k)%nat.
  Hypothesis Hn2 : (2 <= n)%nat.
  Hypothesis HnP : (Z.of_nat n < r)%Z.
  Hypothesis Hr2 : radix2 n = Some d.
  Variable two : option Fq.
  Hypothesis Htwo : two_pow m two = fZ M.
  Notation vinfo := (vinfo m r two).
  Notation value := (ModArithProps.value zval m).
  Notation in_range := (ModArithProps.in_range zval m).
  Notation key_of := (key_of (K := Fq) (Fr := Fr) V1 V2 dec okey).
  Notation proof_of := (proof_of zval m V1 dec).
  Notation sv := (sv (Fr := Fr) zval m).
  Notation inputs_ok := (inputs_ok zval m rb r d).
  Notation all_evals := (@all_evals Fq).
  Notation prepare := (prepare_pcs_info_var zval q nb L zr r 253 radix2 vinfo P d).

  (** All points of the keys and of the proof. *)
  Definition all_points (vks : list (vkvar (Fr := Fr))) (b : bproofvar (K := Fq)) : list pvar :=
    concat (map (fun vk => kv_sigmas vk ++ kv_sels vk) vks) ++ bv_perms b ++ bv_quots b ++ concat (bv_wires b) ++ [bv_open b; bv_shifted b].
  (** The values an assignment gives the inputs are points of the curve and reduced scalars. *)
  Definition proper (ws : list Fq) (vks : list (vkvar (Fr := Fr))) (pi : list fvar) (b : bproofvar (K := Fq)) : Prop :=
    Forall (fun p => on_curve (asg ws (fst p)) (asg ws (snd p))) (all_points vks b) /\
    Forall (fun x => in_range ws x /\ (value ws x < r)%Z) (pi ++ all_evals b).
  (** The verifier outside, on the values of an assignment. *)
  Definition off_challenges (ws : list Fq) N vks pi b := compute_challenges Fr V1 V2 T (map (key_of ws) vks) (repeat (map (sv ws) pi) N) (proof_of ws b) None.
  Definition off_claim (ws : list Fq) N vks pi b := prepare_pcs_info Fr V1 V2 T d (map (key_of ws) vks) (repeat (map (sv ws) pi) N) (proof_of ws b) None.

  Lemma Hr1 : (1 < r)%Z. Proof. pose proof (prime_gt_1 r Hr). lia. Qed.
  Lemma limbs_say ws x : vtwo x = fZ M -> (value ws x < r)%Z -> says_limbs r q Hr Hq (asg ws) x (sv ws x).
  Proof.
    intros Ht Hv. unfold says_limbs, PlonkVerifierProps.sv. pose proof (np_field _ _ _ _ _ _ _ HN) as HFq.
    assert (E : zv r (fZ (value ws x) : Fr) = value ws x).
    { rewrite (pf_zval _ _ _ _ _ HFr). apply Z.mod_small. split; [|exact Hv]. unfold ModArithProps.value.
      pose proof (zv_bound q (asg ws (v0 x)) Hq). pose proof (zv_bound q (asg ws (v1 x)) Hq). pose proof (Z.pow_nonneg 2 (Z.of_nat m)). nia. }
    rewrite E. transitivity (fZ (value ws x) : Fq).
    - unfold ModArithProps.value. rewrite fZ_add, fZ_mul, Ht. f_equal; [symmetry; apply (pf_fZ _ _ _ _ _ HFq)|]. f_equal. symmetry; apply (pf_fZ _ _ _ _ _ HFq).
    - apply zp_ext. rewrite (pf_zval _ _ _ _ _ HFq). reflexivity.
  Qed.
  Lemma points_say ws l : Forall (fun p => on_curve (asg ws (fst p)) (asg ws (snd p))) l ->
    Forall2 (says_point r q Hr Hq V1 xy te_s te_nalpha te_beta (asg ws)) l (map (pt V1 dec ws) l).
  Proof. induction 1 as [|p l H _ IH]; cbn [map]; constructor; [exact H|exact IH]. Qed.
  Lemma limbs_say_all ws l : Forall (fun x => vtwo x = fZ M) l -> Forall (fun x => in_range ws x /\ (value ws x < r)%Z) l ->
    Forall2 (says_limbs r q Hr Hq (asg ws)) l (map (sv ws) l).
  Proof. induction 1 as [|x l H _ IH]; intros H2; cbn [map]; inversion_clear H2 as [|? ? [_ A] B]; constructor; [apply limbs_say; auto|auto]. Qed.
  Lemma incl_concat {X Y} (f : X -> list Y) l x : In x l -> incl (f x) (concat (map f l)).
  Proof. intros H y Hy. apply in_concat. exists (f x). split; [apply in_map; exact H|exact Hy]. Qed.
  Lemma say_all c ws N vks pi b x : inputs_ok c N vks pi b x -> proper ws vks pi b ->
    Forall2 (reads_key r q Hr Hq V1 V2 xy te_s te_nalpha te_beta (asg ws)) vks (map (key_of ws) vks) /\
    Forall2 (Forall2 (says_limbs r q Hr Hq (asg ws))) (repeat pi N) (repeat (map (sv ws) pi) N) /\
    reads_proof r q Hr Hq V1 xy te_s te_nalpha te_beta (asg ws) b (proof_of ws b).
  Proof.
    intros Hi [Hp Hl]. pose proof (io_cpi _ _ _ _ _ _ _ _ _ _ _ Hi) as C1. pose proof (io_cev _ _ _ _ _ _ _ _ _ _ _ Hi) as C2.
    assert (Tw : forall l, Forall (canonical zval m r c) l -> Forall (fun x => vtwo x = fZ M) l).
    { intros l H. eapply Forall_impl; [|exact H]. intros y ((_ & _ & _ & A) & _). exact A. }
    pose proof (Tw _ C1) as T1. pose proof (Tw _ C2) as T2. apply Forall_app in Hl as [L1 L2]. unfold all_points in Hp. apply Forall_app in Hp as [P1 P2].
    apply Forall_app in P2 as [P2 P3]. apply Forall_app in P3 as [P3 P4]. apply Forall_app in P4 as [P4 P5]. inversion_clear P5 as [|? ? P6 P7]. inversion_clear P7 as [|? ? P8 _].
    split; [|split].
    - clear -P1. revert P1. induction vks as [|vk vks IH]; intros P1; cbn [map]; [constructor|]. cbn [map concat] in P1. apply Forall_app in P1 as [P1 P1']. apply Forall_app in P1 as [A B].
      constructor; [|auto]. split; [apply points_say; exact B|]. split; [apply points_say; exact A|reflexivity].
    - assert (A : Forall2 (says_limbs r q Hr Hq (asg ws)) pi (map (sv ws) pi)) by (apply limbs_say_all; auto). clear -A. induction N; cbn [repeat]; constructor; auto.
    - split; cbn [PlonkVerifierProps.proof_of bp_wires bp_perms bp_evals bp_plookups bp_quots bp_open bp_shifted].
      + clear -P4. induction (bv_wires b) as [|w l IH]; cbn [map]; [constructor|]. cbn [concat] in P4. apply Forall_app in P4 as [A B]. constructor; [apply points_say; exact A|auto].
      + apply points_say. exact P2.
      + clear P1 P2 P3 P4 P6 P8 C2 Hi. revert T2 L2. unfold PlonkVerifierProps.all_evals. induction (bv_evals b) as [|e l IH]; intros T2 L2; cbn [map]; [constructor|]. cbn [map concat] in T2, L2.
        apply Forall_app in T2 as [A B]. apply Forall_app in L2 as [A' B']. constructor; [|auto]. apply Forall_app in A as [A1 A2]. apply Forall_app in A2 as [A2 A3]. apply Forall_app in A' as [A1' A2']. apply Forall_app in A2' as [A2' A3'].
        split; [apply limbs_say_all; auto|]. split; [apply limbs_say_all; auto|]. inversion_clear A3. inversion_clear A3' as [|? ? [_ ?] _]. cbn [evals_of perm_next_eval]. apply limbs_say; auto.
      + clear. induction (length (bv_evals b)); cbn [repeat]; constructor; auto.
      + apply points_say. exact P3.
      + exact P6.
      + exact P8.
  Qed.

  Lemma holds_challenges ws x ch : holds r q Hr Hq (asg ws) x ch -> ch = challenges_of (Fr := Fr) zval ws x.
  Proof.
    intros [E Et]. destruct ch as [ta al be ga ze v u]. cbn in E, Et. subst ta. unfold challenges_of, chal. injection E as E1 E2 E3 E4 E5 E6.
    assert (A : forall (y : Fr) (z : Z), z = zv r y -> y = fZ z).
    { intros y z ->. symmetry. apply (pf_fZ _ _ _ _ _ HFr). }
    f_equal; apply A; assumption.
  Qed.

  Lemma map_pt ws ws' (c : circuit Fq) l : (forall v, (v < num_vars c)%nat -> asg ws v = asg ws' v) -> Forall (point_in c) l -> map (pt V1 dec ws) l = map (pt V1 dec ws') l.
  Proof. intros Ag. induction 1 as [|p l [A B] _ IH]; cbn [map]; [reflexivity|]. rewrite IH. unfold pt at 1 3. now rewrite !Ag by assumption. Qed.
  Lemma val_agree ws ws' (c : circuit Fq) x : (forall v, (v < num_vars c)%nat -> asg ws v = asg ws' v) -> canonical zval m r c x -> value ws x = value ws' x /\ (in_range ws x -> in_range ws' x).
  Proof. intros Ag ((A1 & A2 & _) & _). unfold ModArithProps.value, ModArithProps.in_range. rewrite !Ag by assumption. auto. Qed.
  Lemma map_sv ws ws' (c : circuit Fq) l : (forall v, (v < num_vars c)%nat -> asg ws v = asg ws' v) -> Forall (canonical zval m r c) l -> map (sv ws) l = map (sv ws') l.
  Proof. intros Ag. induction 1 as [|x l A _ IH]; cbn [map]; [reflexivity|]. rewrite IH. unfold PlonkVerifierProps.sv at 1 3. now rewrite (proj1 (val_agree ws ws' c x Ag A)). Qed.
  Lemma off_agree (c : circuit Fq) ws ws' N vks pi b x : inputs_ok c N vks pi b x -> point_in c (bv_open b) -> point_in c (bv_shifted b) ->
    (forall v, (v < num_vars c)%nat -> asg ws v = asg ws' v) ->
    map (key_of ws) vks = map (key_of ws') vks /\ map (sv ws) pi = map (sv ws') pi /\ proof_of ws b = proof_of ws' b.
  Proof.
    intros Hi [O1 O2] [S1 S2] Ag. split; [|split].
    - pose proof (io_kpts _ _ _ _ _ _ _ _ _ _ _ Hi) as A. clear -A Ag. induction vks as [|vk l IH]; [reflexivity|]. cbn [map concat] in A. apply Forall_app in A as [A B]. apply Forall_app in A as [A1 A2].
      cbn [map]. rewrite IH by exact B. f_equal. unfold PlonkVerifierProps.key_of. f_equal; eapply map_pt; eauto.
    - eapply map_sv; [exact Ag|]. apply (io_cpi _ _ _ _ _ _ _ _ _ _ _ Hi).
    - unfold PlonkVerifierProps.proof_of. pose proof (io_pts _ _ _ _ _ _ _ _ _ _ _ Hi) as A. apply Forall_app in A as [A1 A]. apply Forall_app in A as [A2 A3].
      rewrite (map_pt ws ws' c _ Ag A1), (map_pt ws ws' c _ Ag A2). f_equal.
      + clear -A3 Ag. induction (bv_wires b) as [|w l IH]; [reflexivity|]. cbn [concat] in A3. apply Forall_app in A3 as [B C]. cbn [map]. rewrite IH by exact C. f_equal. eapply map_pt; eauto.
      + pose proof (io_cev _ _ _ _ _ _ _ _ _ _ _ Hi) as B. unfold PlonkVerifierProps.all_evals in B. clear -B Ag. induction (bv_evals b) as [|e l IH]; [reflexivity|].
        cbn [map concat] in B. apply Forall_app in B as [B C]. apply Forall_app in B as [B1 B2]. apply Forall_app in B2 as [B2 B3]. cbn [map]. rewrite IH by exact C. f_equal.
        unfold evals_of. rewrite (map_sv ws ws' c _ Ag B1), (map_sv ws ws' c _ Ag B2). f_equal. pose proof (map_sv ws ws' c _ Ag B3) as E. cbn [map] in E. congruence.
      + unfold pt. now rewrite !Ag by assumption.
      + unfold pt. now rewrite !Ag by assumption.
  Qed.
  Lemma canonical_mono (c c' : circuit Fq) x : (num_vars c <= num_vars c')%nat -> (forall v, (v < num_vars c)%nat -> asg (witness c') v = asg (witness c) v) ->
    canonical zval m r c x -> canonical zval m r c' x.
  Proof.
    intros Hl Ag Hx. destruct (val_agree (witness c) (witness c') c x) as [E Hr']; [intros; symmetry; auto|exact Hx|]. destruct Hx as ((A1 & A2 & A3 & A4) & R & V).
    split; [split; [lia|split; [lia|auto]]|]. split; [auto|]. rewrite <- E. exact V.
  Qed.

  (** The variables of the inputs, with no challenges yet. *)
  Definition no_challenges : rawch := mk_raw 0 0 0 0 0 0.
  (** *** C81.  The whole of [prepare_pcs_info_var], transcript included. *)
  Definition scalars_out (o : pcsvar (K := Fq)) : list fvar := pc_u o :: pc_point o :: pc_next o :: pc_eval o :: map fst (pc_comm o).
  (** The bases of the combined commitment are points of the keys and the proof, up to sign. *)
  Definition tracked (ws : list Fq) (vks : list (vkvar (Fr := Fr))) (b : bproofvar (K := Fq)) (o : pcsvar (K := Fq)) : Prop :=
    forall on : Fq -> Fq -> Prop, (forall x y, on x y -> on (- x) y) -> Forall (point_on on ws) (base_points vks b) -> Forall (point_on on ws) (map snd (pc_comm o)).
  Theorem C81_prepare_partial c N vks pi b pub0 : good c -> ptype c = Ultra rb -> accepts c (witness c) pub0 ->
    inputs_ok c N vks pi b no_challenges -> point_in c (bv_open b) -> point_in c (bv_shifted b) ->
    proper (witness c) vks pi b ->
    (forall ch, off_challenges (witness c) N vks pi b = Ok ch -> fpow (ch_zeta Fr ch) n <> 1) ->
    exists o c' us x, prepare vks (repeat pi N) b c = (Ok o, c') /\ good c' /\ extends c c' /\ (forall Tb, reached c Tb -> reached c' Tb) /\
      (exists l, witness c' = witness c ++ l) /\ Forall (elem_of m c') us /\ Forall (in_range (witness c')) us /\
      (Forall (canonical zval m r c') (scalars_out o) /\ Forall (point_in c') (map snd (pc_comm o)) /\ pc_open o = bv_open b /\ pc_shifted o = bv_shifted b) /\
      (forall pub, accepts c (witness c) pub -> accepts c' (witness c') pub) /\
      tracked (witness c') vks b o /\
      (exists info, off_claim (witness c') N vks pi b = Ok info /\ matches zval m V1 dec (witness c') o info) /\
      (both_checked nb rb -> forall c'' ws pub, extends c' c'' -> bounded c'' -> accepts c'' ws pub -> Forall (in_range ws) us -> proper ws vks pi b ->
        exists ch, off_challenges ws N vks pi b = Ok ch /\ holds_or r q Hr Hq (asg ws) x ch /\
          (holds r q Hr Hq (asg ws) x ch -> fpow (ch_zeta Fr ch) n <> 1 -> Forall (in_range ws) (scalars_out o) /\ tracked ws vks b o /\
            exists info, off_claim ws N vks pi b = Ok info /\ matches zval m V1 dec ws o info)).
  Proof.
    intros G Ht Ac Hi Ho Hs Hpr Hz. pose proof (np_field _ _ _ _ _ _ _ HN) as HFq.
    assert (Hrb : (1 <= rb <= 31)%nat) by (pose proof (np_rb _ _ _ _ _ _ _ HN); lia).
    assert (H253 : (2 ^ 252 <= r < 2 ^ 253)%Z). { pose proof (pf_lo _ _ _ _ _ HFr) as A. pose proof (pf_hi _ _ _ _ _ HFr) as B. split; [apply Z.lt_le_incl; exact A|exact B]. }
    assert (Kin : keys_in r Hr (num_vars c) vks).
    { pose proof (io_kpts _ _ _ _ _ _ _ _ _ _ _ Hi) as A. clear -A. induction vks as [|vk l IH]; [constructor|]. cbn [map concat] in A. apply Forall_app in A as [A B]. apply Forall_app in A as [A1 A2].
      constructor; [split; [exact A2|exact A1]|apply IH; exact B]. }
    assert (Lin : forall l, Forall (canonical zval m r c) l -> Forall (limbs_in q Hq (num_vars c)) l).
    { intros l H. eapply Forall_impl; [|exact H]. intros y ((A1 & A2 & A3 & A4) & _). split; [exact A1|]. split; [exact A2|]. rewrite A3. exact A4. }
    assert (Pin : proof_in q Hq (num_vars c) b).
    { pose proof (io_pts _ _ _ _ _ _ _ _ _ _ _ Hi) as A. apply Forall_app in A as [A1 A]. apply Forall_app in A as [A2 A3]. split; auto.
      - clear -A3. induction (bv_wires b) as [|w l IH]; [constructor|]. cbn [concat] in A3. apply Forall_app in A3 as [B C]. constructor; auto.
      - pose proof (io_cev _ _ _ _ _ _ _ _ _ _ _ Hi) as B. unfold PlonkVerifierProps.all_evals in B. clear -B Lin. induction (bv_evals b) as [|e l IH]; [constructor|].
        cbn [map concat] in B. apply Forall_app in B as [B C]. apply Forall_app in B as [B1 B2]. apply Forall_app in B2 as [B2 B3]. constructor; [|auto].
        split; [auto|]. split; [auto|]. apply Lin in B3. now inversion_clear B3. }
    destruct (C81_challenges_partial r q Hr Hq L rb HFq Hrb Hodd H253 P HP V1 V2 xy te_s te_nalpha te_beta c vks (repeat pi N) b G Ht) as (x & c1 & Er & G1 & X1 & (l1 & W1) & Xb & Hh & Hsd).
    { rewrite (io_vks _ _ _ _ _ _ _ _ _ _ _ Hi). unfold bv_len. now rewrite (io_perms _ _ _ _ _ _ _ _ _ _ _ Hi). }
    { now rewrite repeat_length, (io_vks _ _ _ _ _ _ _ _ _ _ _ Hi). }
    { exact Kin. }
    { pose proof (Lin _ (io_cpi _ _ _ _ _ _ _ _ _ _ _ Hi)) as A. clear -A. induction N; cbn [repeat]; constructor; auto. }
    { exact Pin. }
    destruct (Hh pub0 Ac) as [Ac1 Hv]. destruct (say_all c (witness c) N vks pi b _ Hi Hpr) as (S1 & S2 & S3).
    destruct (Hv _ _ _ S1 S2 S3) as (ch0 & Ec0 & Hc0). pose proof (Hz ch0 Ec0) as Hz0.
    assert (N1 : (num_vars c <= num_vars c1)%nat) by now destruct X1.
    assert (Ag : forall v, (v < num_vars c)%nat -> asg (witness c1) v = asg (witness c) v).
    { intros v Hv'. rewrite W1. unfold asg. rewrite app_nth1; [reflexivity|]. rewrite (wf_wit _ (gd_wf _ G)). exact Hv'. }
    pose proof (holds_challenges _ _ _ Hc0) as E0.
    assert (Hi1 : inputs_ok c1 N vks pi b x).
    { assert (Cm : forall l, Forall (canonical zval m r c) l -> Forall (canonical zval m r c1) l).
      { intros l H. eapply Forall_impl; [|exact H]. intros y. apply canonical_mono; auto. }
      assert (Pm : forall l, Forall (point_in c) l -> Forall (point_in c1) l).
      { intros l H. eapply Forall_impl; [|exact H]. intros y [A B]. split; lia. }
      destruct Hi as [I1 I2 I3 I4 I5 I6 I7 I8 I9 I10 I11 I12 I13 I14 I15 I16 _]. split; auto.
      assert (Ch : map (fun v => zv q (asg (witness c1) v)) [rc_alpha x; rc_beta x; rc_gamma x; rc_zeta x; rc_v x; rc_u x] =
        map (zv r) [ch_alpha Fr ch0; ch_beta Fr ch0; ch_gamma Fr ch0; ch_zeta Fr ch0; ch_v Fr ch0; ch_u Fr ch0]) by exact (proj1 Hc0).
      cbn [map] in Ch. injection Ch as Q1 Q2 Q3 Q4 Q5 Q6. pose proof (fun y => zv_bound r y Hr) as Bd.
      destruct Xb as (X1b & X2b & X3b & X4b & X5b & X6b). do 6 (constructor; [split; [assumption|]; first [rewrite Q1|rewrite Q2|rewrite Q3|rewrite Q4|rewrite Q5|rewrite Q6]; apply Bd|]). constructor. }
    assert (HP' : (0 < r < M * M)%Z) by (pose proof Hr1; lia).
    assert (Hz1 : fpow (chal (Fr := Fr) zval (witness c1) (rc_zeta x)) n <> 1) by (rewrite E0 in Hz0; exact Hz0).
    pose proof (csat_base zval c1 _ pub0 G1 (proj1 (accepts_csat zval c1 (witness c1) pub0 (gd_bd _ G1) (proj1 Ac1)) Ac1)) as Hb1.
    destruct (C80_opening_claim_partial (Fr := Fr) zval q nb L m rb HN r HP' zr 253 tL HFr ltac:(apply Nat.ltb_lt; reflexivity) two Htwo V1 V2 dec Hdec okey radix2 d k Hd Hn Hn2 HnP Hr2
      c1 N vks pi b x G1 ltac:(destruct X1; congruence) Hb1 Hi1 Hz1) as (o & c' & us & E & G' & X & Rch & (l & W) & U1 & U2 & Out & Hc & Hsn).
    exists o, c', us, x. split. { rewrite <- E. apply (C80_prepare zval q nb L m rb r zr 253 two radix2 d c N vks pi b x c1 P Hi1). exact Er. }
    split; [exact G'|]. split; [eapply extends_trans; eauto|]. split.
    { intros Tb Rc. apply Rch. refine (C81_challenges_reached r q Hr Hq L rb HFq Hrb Hodd H253 P HP V1 V2 xy te_s te_nalpha te_beta c vks (repeat pi N) b x c1 Tb G Ht _ _ Kin _ Pin Rc Er).
      - rewrite (io_vks _ _ _ _ _ _ _ _ _ _ _ Hi). unfold bv_len. now rewrite (io_perms _ _ _ _ _ _ _ _ _ _ _ Hi).
      - now rewrite repeat_length, (io_vks _ _ _ _ _ _ _ _ _ _ _ Hi).
      - pose proof (Lin _ (io_cpi _ _ _ _ _ _ _ _ _ _ _ Hi)) as A. clear -A. induction N; cbn [repeat]; constructor; auto. }
    split. { exists (l1 ++ l). now rewrite W, W1, app_assoc. }
    do 2 (split; [assumption|]). split; [exact Out|]. split. { intros pub Hp. apply Hc. apply (Hh pub Hp). }
    assert (Pr : forall ws, proper ws vks pi b -> Forall (in_range ws) (pi ++ all_evals b)).
    { intros ws [_ H]. eapply Forall_impl; [|exact H]. intros y [A _]. exact A. }
    assert (N2 : (num_vars c1 <= num_vars c')%nat) by now destruct X.
    assert (Ag2 : forall v, (v < num_vars c1)%nat -> asg (witness c') v = asg (witness c1) v).
    { intros v Hv'. rewrite W. unfold asg. rewrite app_nth1; [reflexivity|]. rewrite (wf_wit _ (gd_wf _ G1)). exact Hv'. }
    rewrite <- and_assoc. split.
    - destruct (Hsn c' (witness c') pub0 (extends_refl _) (gd_bd _ G') (Hc _ Ac1)) as (_ & Htr & Hf).
      { apply Forall_app. split; [exact U2|]. apply Pr in Hpr. assert (Cl : Forall (canonical zval m r c) (pi ++ all_evals b)).
        { apply Forall_app. split; [apply (io_cpi _ _ _ _ _ _ _ _ _ _ _ Hi)|apply (io_cev _ _ _ _ _ _ _ _ _ _ _ Hi)]. }
        rewrite Forall_forall in Hpr, Cl |- *. intros y Hy. apply (val_agree (witness c) (witness c') c y); auto. intros v Hv'. symmetry. rewrite Ag2 by lia. auto. }
      { unfold chal in *. rewrite Ag2 by apply Xb. exact Hz1. }
      split; [exact Htr|]. apply Hf. destruct (off_agree c (witness c') (witness c) N vks pi b _ Hi Ho Hs) as (K1 & K2 & K3); [intros v Hv'; rewrite Ag2 by lia; auto|].
      rewrite K1, K2, K3. etransitivity; [exact Ec0|]. rewrite E0. unfold challenges_of, chal. destruct Xb as (X1b & X2b & X3b & X4b & X5b & X6b). now rewrite !Ag2 by assumption.
    - intros Hck c'' ws pub X' Bd Ac' Hus Hpr'. destruct (say_all c ws N vks pi b _ Hi Hpr') as (R1 & R2 & R3).
      destruct (Hsd Hck c'' ws pub (extends_trans _ _ _ X X') Bd Ac' _ _ _ R1 R2 R3) as (ch & Ec & Hor). exists ch. split; [exact Ec|]. split; [exact Hor|].
      intros Hho Hzz. pose proof (holds_challenges _ _ _ Hho) as Ech. rewrite Ech in Ec, Hzz.
      destruct (Hsn c'' ws pub X' Bd Ac') as (Hrg & Htr & Hf); [apply Forall_app; split; [exact Hus|apply Pr; exact Hpr']|exact Hzz|].
      split; [exact Hrg|]. split; [exact Htr|]. apply Hf. exact Ec.
  Qed.
End Whole.

(** *** A concrete case
    BLS12-377 with range tables of 16 bits and limbs of 128 bits; a group with one point of
    coordinates 2 and 1/3 and its inverse, the domain of two elements, and one key. *)
Notation K377 := (Zp q377 Hq377).
Notation R377 := (Zp r377 Hr377).
Definition x377 : K377 := f1 + f1.
Definition y377 : K377 := (x377 - f1) * finv (x377 + f1).
Definition xy377 (v : S377) : option (K377 * K377) := if feqb (v : R377) f1 then Some (x377, f1) else if feqb (v : R377) (- f1) then Some (x377, - f1) else None.
Definition dec377 (x y : K377) : S377 :=
  if feqb y y377 then (if feqb x x377 then f1 : R377 else if feqb x (- x377) then (- f1 : R377)%F else f0 : R377) else (f0 : R377).
Notation on377 := (on_curve r377 q377 Hr377 Hq377 S377 xy377 f1 f0 f1 dec377).
Section Odd.
  Variable K : fld.
  Add Field Kw : (fth K).
  Lemma opp_eq_swap (x y : K) : - x = y <-> x = - y.
  Proof. split; [intros <-|intros ->]; ring. Qed.
  Lemma opp_0 : - 0 = (0 : K). Proof. ring. Qed.
  Lemma opp_opp (x : K) : - - x = x. Proof. ring. Qed.
  Lemma mul_1_r (x : K) : x * 1 = x. Proof. ring. Qed.
  Lemma sw1 (x : K) : 1 * (1 * (x + 0)) * finv (1 * 1) = x.
  Proof. field. apply f1_neq_0. Qed.
  Lemma sw2 (x : K) : (1 * (x + 0) - 1) * finv (1 * (x + 0) + 1) = (x - 1) * finv (x + 1).
  Proof. replace (1 * (x + 0)) with x by ring. reflexivity. Qed.
  Lemma opp_1_sq : - (1) * (- (1) * 1) = (1 : K). Proof. ring. Qed.
  Lemma mul_div (x y : K) : y <> 0 -> y * (x * finv y) = x. Proof. intros H. field. exact H. Qed.
End Odd.
Lemma neq_zv p Hp (x y : Zp p Hp) : (zv p x =? zv p y)%Z = false -> x <> y.
Proof. intros H E. subst. rewrite Z.eqb_refl in H. discriminate. Qed.
Lemma feqb_f {K : fld} (x y : K) : x <> y -> feqb x y = false.
Proof. intros H. destruct (feqb x y) eqn:E; [apply feqb_eq in E; contradiction|reflexivity]. Qed.
Lemma dec377_opp x y : dec377 (- x) y = Alg.vopp (dec377 x y).
Proof.
  assert (X0 : x377 <> - x377) by (apply neq_zv; vm_compute; reflexivity).
  unfold dec377. destruct (feqb y y377); [|symmetry; apply (opp_0 R377)].
  destruct (feqb_eq K377 x x377) as [A1 A2]. destruct (feqb_eq K377 x (- x377)) as [B1 B2].
  destruct (feqb x x377) eqn:E1.
  - rewrite (A1 eq_refl). rewrite (feqb_f (- x377) x377) by congruence. rewrite (feqb_refl K377). reflexivity.
  - destruct (feqb x (- x377)) eqn:E2.
    + rewrite (B1 eq_refl), (opp_opp K377), (feqb_refl K377). symmetry. apply (opp_opp R377).
    + rewrite !feqb_f; [symmetry; apply (opp_0 R377)| |].
      * intros H. apply (opp_eq_swap K377) in H. rewrite (opp_opp K377) in H. discriminate (A2 H).
      * intros H. apply (opp_eq_swap K377) in H. discriminate (B2 H).
Qed.
Lemma on377_x : on377 x377 y377.
Proof.
  assert (X3 : x377 + f1 <> 0) by (apply neq_zv; vm_compute; reflexivity).
  unfold on_curve, dec377. rewrite !feqb_refl. unfold xy377. rewrite feqb_refl. unfold sw_to_te, fdivp.
  rewrite (feqb_f (f1 * f1) f0) by (apply neq_zv; vm_compute; reflexivity). cbn [bind].
  rewrite (feqb_f (f1 * (x377 + f0) + f1) f0) by (apply neq_zv; vm_compute; reflexivity). cbn [bind]. rewrite (sw1 K377), (sw2 K377). reflexivity.
Qed.
Lemma on377_inf : on377 f0 f1.
Proof.
  assert (Hy : (f1 : K377) <> y377).
  { intros H. apply (f_equal (fun z => (x377 + f1) * z)) in H. unfold y377 in H.
    assert (X3 : x377 + f1 <> 0) by (apply neq_zv; vm_compute; reflexivity).
    rewrite (mul_div K377 _ _ X3), (mul_1_r K377) in H. revert H. apply neq_zv; vm_compute; reflexivity. }
  unfold on_curve, dec377. rewrite (feqb_f _ _ Hy). unfold xy377. rewrite (feqb_f (f0 : R377) f1), (feqb_f (f0 : R377) (- f1)).
  - reflexivity.
  - apply neq_zv; vm_compute; reflexivity.
  - apply neq_zv; vm_compute; reflexivity.
Qed.
Definition d377 : dom R377 := mk_dom R377 2 (- f1).
Lemma d377_ok : dom_ok R377 d377.
Proof.
  split.
  - cbn; lia.
  - cbn [d377 dsize dgen fpow]. apply (opp_1_sq R377).
  - cbn [d377 dsize dgen]. intros [|[|i]] Hi; try lia. cbn [fpow]. apply neq_zv; vm_compute; reflexivity.
  - cbn [d377 dsize]. apply neq_zv; vm_compute; reflexivity.
Qed.
Lemma var_step {K : fld} (zval : K -> Z) (x : K) c : good c -> exists c', create_variable x c = (Ok (num_vars c), c') /\ good c' /\ ptype c' = ptype c /\
  witness c' = witness c ++ [x] /\ num_vars c' = S (num_vars c) /\ forall pub, accepts zval c (witness c) pub -> accepts zval c' (witness c') pub.
Proof.
  intros G. pose proof (gd_wf _ G) as W.
  assert (Hg : gspec zval (create_variable x) c (fun _ _ => True) (fun _ => True) (fun v n => v = num_vars c /\ n = S (num_vars c))).
  { apply wpc_var; auto. split; [auto|]. split; [intros; split; constructor|]. split; [reflexivity|]. cbn. lia. }
  destruct (gspec_gadget zval _ c _ _ _ G (fun _ _ _ _ => I) Hg) as (v & c' & E & G' & X & [Ev En] & (l & Wl) & _ & _ & Hc).
  exists c'. rewrite Ev in E. split; [exact E|]. split; [exact G'|]. split; [destruct X; congruence|].
  split; [|split; [exact En|auto]].
  destruct (wpc_var x c (fun _ d => d = dval x) W eq_refl) as (v' & d & E2 & _ & ->). rewrite E2 in E. injection E as _ <-. cbn [capp witness dval d_vals]. reflexivity.
Qed.
Definition fv377 (a b : nat) : fvar (K := K377) := mk_fvar a b 128 (fZ (2 ^ Z.of_nat 128)).
Definition p377 : pvar := (2, 3)%nat.
Definition o377 : pvar := (0, 1)%nat.
Definition vk377 : vkvar (Fr := R377) := mk_kv [p377; o377; p377; p377; o377] (repeat p377 6 ++ repeat o377 7) true 2 2 (map (fun z => fZ z : R377) [1; 2; 3; 4; 5]%Z).
Definition pi377 : list (fvar (K := K377)) := [fv377 1 0; fv377 0 1].
Definition bp377 : bproofvar (K := K377) := mk_bpv [[p377; o377; p377; p377; o377]] [p377]
  [mk_pev [fv377 1 0; fv377 2 1; fv377 0 0; fv377 1 1; fv377 2 2] [fv377 1 0; fv377 0 1; fv377 2 0; fv377 0 0] (fv377 1 2)] [p377; o377; p377] p377 p377.
Definition radix377 (n : nat) : option (dom R377) := if (n =? 2)%nat then Some d377 else None.
Definition ok377 : vparam R377 S377 S377 := mk_vparam R377 S377 S377 (f1 : R377) (f1 : R377) (f1 : R377) [] [].
Notation claim377 ws := (off_claim r377 q377 Hr377 Hq377 128 P377 S377 S377 xy377 f1 f0 f1 dec377 ok377 d377 ws 1 [vk377] pi377 bp377).
Notation challenges377 ws := (off_challenges r377 q377 Hr377 Hq377 128 P377 S377 S377 xy377 f1 f0 f1 dec377 ok377 ws 1 [vk377] pi377 bp377).
(** The hypotheses of [C81_prepare_partial] hold.  What remains is that the challenge
    [zeta] is not in the domain, which depends on the hash. *)
Theorem C81_instance : exists c,
  nn_params K377 (zv q377 : K377 -> Z) q377 377 384 128 16 /\ BitProofs.pfield R377 (zv r377 : R377 -> Z) r377 253 256 /\ both_checked 377 16 /\
  good c /\ ptype c = Ultra 16 /\ accepts (zv q377 : K377 -> Z) c (witness c) [] /\
  inputs_ok (zv q377 : K377 -> Z) 128 16 r377 d377 c 1 [vk377] pi377 bp377 no_challenges /\
  proper r377 q377 Hr377 Hq377 128 S377 xy377 f1 f0 f1 dec377 (witness c) [vk377] pi377 bp377 /\
  ((forall ch, challenges377 (witness c) = Ok ch -> fpow (ch_zeta R377 ch) 2 <> 1) ->
   exists o c' info, prepare_pcs_info_var (zv q377 : K377 -> Z) q377 377 384 (zv r377 : R377 -> Z) r377 253 radix377 (vinfo 128 r377 None) P377 d377 [vk377] [pi377] bp377 c = (Ok o, c') /\
     accepts (zv q377 : K377 -> Z) c' (witness c') [] /\ claim377 (witness c') = Ok info /\
     matches (zv q377 : K377 -> Z) 128 S377 dec377 (witness c') o info).
Proof.
  destruct C78_instance_parameters as (HF & Ho & Hr & HP & Hck & _).
  pose proof (good_new (K := K377) (Ultra 16)) as G0. assert (A0 : accepts (zv q377 : K377 -> Z) (new_circuit K377 (Ultra 16)) (witness (new_circuit K377 (Ultra 16))) []) by exact (SigGadgetProps.new_accepts (zv q377 : K377 -> Z) (Ultra 16)).
  destruct (var_step (zv q377 : K377 -> Z) x377 _ G0) as (c1 & _ & G1 & T1 & W1 & N1 & H1).
  destruct (var_step (zv q377 : K377 -> Z) y377 _ G1) as (c & _ & G & T & W & Nv & H2).
  pose proof (H2 [] (H1 [] A0)) as Ac. rewrite T1 in T. rewrite W1 in W. rewrite N1 in Nv. clear H1 H2 W1 N1 T1 G1 c1.
  change (num_vars (new_circuit K377 (Ultra 16))) with 2%nat in Nv. change (ptype (new_circuit K377 (Ultra 16))) with (Ultra 16) in T.
  change (witness (new_circuit K377 (Ultra 16))) with [f0 : K377; f1 : K377] in W. cbn [app] in W.
  exists c.
  assert (HN : nn_params K377 (zv q377 : K377 -> Z) q377 377 384 128 16).
  { split; [exact HF| | | | |].
    - split; apply Nat.leb_le; reflexivity.
    - split; apply Nat.leb_le; reflexivity.
    - apply Nat.ltb_lt; reflexivity.
    - reflexivity.
    - apply Z.leb_le. vm_compute. reflexivity. }
  assert (HR : BitProofs.pfield R377 (zv r377 : R377 -> Z) r377 253 256).
  { apply Zp_pfield; [vm_compute; reflexivity|vm_compute; reflexivity|apply Nat.leb_le; reflexivity]. }
  assert (Va : forall a, (a <= 2)%nat -> (0 <= zv q377 (asg (witness c) a) <= 2)%Z).
  { intros a Ha. rewrite W. destruct a as [|[|[|a]]]; [| | |lia]; cbn [asg nth]; split; apply Z.leb_le; vm_compute; reflexivity. }
  assert (Vc : forall a b, (a <= 2)%nat -> (b <= 2)%nat -> canonical (zv q377 : K377 -> Z) 128 r377 c (fv377 a b)).
  { intros a b Ha Hb. pose proof (Va a Ha) as A. pose proof (Va b Hb) as B. unfold canonical, elem_of, in_range, value. cbn [fv377 v0 v1 vm vtwo]. rewrite Nv.
    assert (M3 : (2 < 2 ^ Z.of_nat 128)%Z) by (apply Z.ltb_lt; vm_compute; reflexivity). assert (M4 : (2 + 2 ^ Z.of_nat 128 * 2 < r377)%Z) by (apply Z.ltb_lt; vm_compute; reflexivity).
    split; [split; [lia|split; [lia|split; reflexivity]]|]. split; [split; [exact (Z.le_lt_trans _ _ _ (proj2 A) M3)|exact (Z.le_lt_trans _ _ _ (proj2 B) M3)]|].
    eapply Z.le_lt_trans; [|exact M4]. apply Z.add_le_mono; [apply A|]. apply Z.mul_le_mono_nonneg_l; [apply Z.pow_nonneg; lia|apply B]. }
  assert (Px : point_in c p377) by (split; rewrite Nv; cbn; lia). assert (Po : point_in c o377) by (split; rewrite Nv; cbn; lia).
  assert (Cpi : Forall (canonical (zv q377 : K377 -> Z) 128 r377 c) pi377) by (do 2 (constructor; [apply Vc; lia|]); constructor).
  assert (Cev : Forall (canonical (zv q377 : K377 -> Z) 128 r377 c) (all_evals bp377)).
  { unfold all_evals. cbn [bp377 bv_evals map concat app ev_wires ev_sigmas ev_next]. do 10 (constructor; [apply Vc; lia|]). constructor. }
  assert (Hi : inputs_ok (zv q377 : K377 -> Z) 128 16 r377 d377 c 1 [vk377] pi377 bp377 no_challenges).
  { split; cbn [length bv_perms bv_evals bv_wires bp377 bv_quots ev_wires d377 dsize pi377]; try reflexivity; try (cbn; lia); try discriminate.
    - constructor; [|constructor]. cbn [ev_wires length]. lia.
    - intros [|[|i]] vk pe wcs; cbn [nth_error]; try discriminate. intros E1 E2 E3. injection E1 as <-. injection E2 as <-. injection E3 as <-. split; reflexivity.
    - constructor; [|constructor]. do 3 (split; [reflexivity|]). discriminate.
    - exact Cpi.
    - exact Cev.
    - cbn [app concat]. repeat (constructor; [assumption|]). constructor.
    - cbn [map concat app vk377 kv_sigmas kv_sels repeat]. repeat (constructor; [assumption|]). constructor.
    - cbn [no_challenges rc_alpha rc_beta rc_gamma rc_zeta rc_u rc_v]. rewrite Nv. assert (Z0 : (zv q377 (asg (witness c) 0) < r377)%Z).
      { pose proof (Va 0%nat ltac:(lia)). assert (2 < r377)%Z by (apply Z.ltb_lt; vm_compute; reflexivity). lia. }
      do 6 (constructor; [split; [lia|exact Z0]|]). constructor. }
  assert (Hp : proper r377 q377 Hr377 Hq377 128 S377 xy377 f1 f0 f1 dec377 (witness c) [vk377] pi377 bp377).
  { assert (Ox : on377 (asg (witness c) (fst p377)) (asg (witness c) (snd p377))) by (rewrite W; exact on377_x).
    assert (Oo : on377 (asg (witness c) (fst o377)) (asg (witness c) (snd o377))) by (rewrite W; exact on377_inf).
    split.
    - unfold all_points. cbn [map concat app vk377 bp377 kv_sigmas kv_sels repeat bv_perms bv_quots bv_wires bv_open bv_shifted]. repeat (constructor; [assumption|]). constructor.
    - apply Forall_app. split; [eapply Forall_impl; [|exact Cpi]|eapply Forall_impl; [|exact Cev]]; intros y (_ & A & B); auto. }
  do 8 (split; [assumption|]). intros Hz.
  destruct (C81_prepare_partial r377 q377 Hr377 Hq377 384 256 128 16 HN ltac:(apply Z.ltb_lt; vm_compute; reflexivity) HR Ho P377 HP S377 S377 xy377 f1 f0 f1 dec377 dec377_opp ok377
    radix377 d377 1 d377_ok eq_refl ltac:(cbn; lia) ltac:(apply Z.ltb_lt; vm_compute; reflexivity) eq_refl None ltac:(apply zp_ext; vm_compute; reflexivity)
    c 1 [vk377] pi377 bp377 [] G T Ac Hi Px Px Hp Hz) as (o & c' & us & x & E & _ & _ & _ & _ & _ & _ & _ & Hc & _ & (info & Ei & Em) & _).
  exists o, c', info. split; [exact E|]. split; [exact (Hc [] Ac)|]. split; [exact Ei|exact Em].
Qed.

Print Assumptions C81_prepare_partial.
Print Assumptions C81_instance.
