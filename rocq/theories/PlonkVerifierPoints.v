(** What the two points of the verifier circuit are worth (C83), and what merged keys
    hold (C82). *)
From Coq Require Import String List Arith ZArith Lia Bool Znumtheory Ring Field.
From Verif Require Import Base ListAux Alg Poly VRing Group Edwards KzgModel PlonkModel PlonkPoly PlonkCheck PlonkLin CircuitModel CircuitProofs GadgetModel GadgetProofs RangeProofs
  BitProofs CmpProofs SatProofs SatGadget BuiltProofs FinalProps EccModel EccProofs EccProps TableSpec EccMsm MsmProps ModArithModel ModArithProofs CircuitProps ModArithProps
  RescueModel PlonkVerifierModel PlonkVerifierOps PlonkVerifierEval PlonkVerifierProps PlonkVerifierFinal.
Import ListNotations.
Local Open Scope fld_scope.
Local Open Scope circ_scope.

Section Points.
  Context {K Fr : fld}.
  Add Field Kpvp : (fth K).
  Add Field Rpvp : (fth Fr).
  Variable zval : K -> Z.
  Variable q : Z.
  Variables nb L m rb : nat.
  Hypothesis HN : nn_params K zval q nb L m rb.
  Notation M := (2 ^ Z.of_nat m)%Z.
  Variable P : Z.
  Hypothesis HP : (0 < P < M * M)%Z.
  Variables tb tL : nat.
  Variable zr : Fr -> Z.
  Hypothesis HFr : BitProofs.pfield Fr zr P tb tL.
  Variables A D : K.
  Hypothesis HC : law K A D.
  Notation E := (curve K A D HC).
  Notation cval := (cval K A D HC).
  Notation multi := (multi A D HC).
  Notation accepts := (@SatProofs.accepts K zval).
  Notation in_range := (ModArithProps.in_range zval m).
  Hypothesis Htb : (1 <= tb)%nat.
  Hypothesis Hspan : (2 ^ Z.of_nat (span tb) <= q)%Z.
  Hypothesis Hwin : (2 ^ Z.of_nat (pip_c tb) <= P)%Z.
  Variables V1 V2 VT : vsp Fr.
  Variable e : pairing Fr V1 V2 VT.
  (** The element with two given coordinates. *)
  Variable dec : K -> K -> V1.
  Definition decp (Q : Edwards.pt K) : V1 := dec (fst Q) (snd Q).
  (** The points that stand for elements, a subgroup of the curve. *)
  Variable sub : E -> Prop.
  Definition subgroup : Prop := sub g0 /\ (forall X Y, sub X -> sub Y -> sub (gadd X Y)) /\ (forall X, sub X -> sub (gopp X)).
  Hypothesis Hsub : subgroup.
  Hypothesis Hadd : forall X Y : E, sub X -> sub Y -> decp (cval (gadd X Y)) = Alg.vadd (decp (cval X)) (decp (cval Y)).
  Variable okey : vparam Fr V1 V2.
  Notation pt := (PlonkVerifierProps.pt V1 dec).
  Notation matches := (matches zval m V1 dec).

  Lemma sub_0 : sub g0. Proof. apply Hsub. Qed.
  Lemma sub_add X Y : sub X -> sub Y -> sub (gadd X Y). Proof. apply Hsub. Qed.
  Lemma sub_opp X : sub X -> sub (gopp X). Proof. apply Hsub. Qed.
  Lemma sub_mul z X : sub X -> sub (gmul z X).
  Proof.
    intros HX. assert (N : forall n, sub (gmul (Z.of_nat n) X)).
    { induction n as [|n IH]; [rewrite gmul_0; apply sub_0|]. rewrite Nat2Z.inj_succ, <- Z.add_1_r, gmul_succ. now apply sub_add. }
    destruct (Z.le_gt_cases 0 z) as [Hz|Hz]; [rewrite <- (Z2Nat.id z Hz); apply N|].
    replace z with (- Z.of_nat (Z.to_nat (- z)))%Z by lia. rewrite gmul_opp. apply sub_opp, N.
  Qed.
  Lemma dec_0 : decp (cval (g0 : E)) = Alg.v0.
  Proof.
    pose proof (Hadd g0 g0 sub_0 sub_0) as H. rewrite gadd_0_l in H.
    assert (X : Alg.vadd (decp (cval (g0 : E))) (Alg.vopp (decp (cval (g0 : E)))) = decp (cval (g0 : E))) by (rewrite H at 1; vring). rewrite <- X. vring.
  Qed.
  Lemma dec_opp X : sub X -> decp (cval (gopp X)) = Alg.vopp (decp (cval X)).
  Proof.
    intros HX. pose proof (Hadd X (gopp X) HX (sub_opp X HX)) as H. rewrite gadd_opp, dec_0 in H.
    replace (decp (cval (gopp X))) with (Alg.vadd (Alg.vadd (decp (cval X)) (decp (cval (gopp X)))) (Alg.vopp (decp (cval X)))) by vring. rewrite <- H. vring.
  Qed.
  Lemma dec_nat n X : sub X -> decp (cval (gmul (Z.of_nat n) X)) = Alg.vmul (fZ (Z.of_nat n) : Fr) (decp (cval X)).
  Proof.
    intros HX. induction n as [|n IH]; [change (Z.of_nat 0) with 0%Z; rewrite gmul_0, dec_0; change (fZ 0 : Fr) with (0 : Fr); vring|].
    rewrite Nat2Z.inj_succ, <- Z.add_1_r, gmul_succ, Hadd, IH, fZ_add by (auto; apply sub_mul; auto). change (fZ 1 : Fr) with (1 : Fr). vring.
  Qed.
  Lemma dec_mul z X : (0 <= z)%Z -> sub X -> decp (cval (gmul z X)) = Alg.vmul (fZ z : Fr) (decp (cval X)).
  Proof. intros Hz HX. rewrite <- (Z2Nat.id z Hz). apply dec_nat, HX. Qed.
  Lemma dec_multi zs : forall Qs : list E, Forall (fun z => 0 <= z)%Z zs -> Forall sub Qs -> length zs = length Qs ->
    sub (multi zs Qs) /\ decp (cval (multi zs Qs)) = Alg.vsum (map (fun zq => Alg.vmul (fZ (fst zq) : Fr) (decp (cval (snd zq)))) (combine zs Qs)).
  Proof.
    induction zs as [|z zs IH]; intros [|Q Qs] Hz HQ Hl; try discriminate; [split; [apply sub_0|apply dec_0]|].
    inversion_clear Hz. inversion_clear HQ. destruct (IH Qs) as [S1 S2]; auto. cbn [MsmProps.multi combine map fst snd]. split; [apply sub_add; [apply sub_mul|]; auto|].
    rewrite Hadd, dec_mul, S2, vsum_cons by (auto; apply sub_mul; auto). reflexivity.
  Qed.
  Lemma fZ_mod (a b : Z) : (a mod P = b mod P)%Z -> (fZ a : Fr) = fZ b.
  Proof. intros H. rewrite <- (pf_fZ _ _ _ _ _ HFr (fZ a)), <- (pf_fZ _ _ _ _ _ HFr (fZ b)), !(pf_zval _ _ _ _ _ HFr). now rewrite H. Qed.

  (** The coordinates a point has under an assignment are those of a point of the group. *)
  Definition in_group (ws : list K) (p : pvar) : Prop := exists Q : E, (asg ws (fst p), asg ws (snd p)) = cval Q /\ sub Q.

  (** The two values: the left side and the right side of the opening claim, each
      displaced by the same multiple of a pair of points. *)
  Definition two_points (ws : list K) (G BG : E) (bl : nat) (x : pcs_info Fr V1) (o : pvar * pvar) : Prop :=
    pt ws (fst o) = Alg.vadd (info_A Fr V1 x) (Alg.vmul (fZ (zval (asg ws bl)) : Fr) (decp (cval G))) /\
    pt ws (snd o) = Alg.vadd (info_B Fr V1 V2 okey x) (Alg.vmul (fZ (zval (asg ws bl)) : Fr) (decp (cval BG))).

  Lemma value_fval ws x : ModArithProps.value zval m ws x = ModArithProofs.fval zval m (asg ws) x.
  Proof. reflexivity. Qed.
  Lemma in_group_list ws l : Forall (in_group ws) l -> exists Qs : list E, Forall2 (fun b Q => pv (asg ws) b = cval Q) l Qs /\ Forall sub Qs.
  Proof.
    induction 1 as [|p l (Q & H1 & H2) _ (Qs & H3 & H4)]; [exists []; split; constructor|]. exists (Q :: Qs). split; constructor; auto.
  Qed.
  Lemma end_two ws (G BG : E) bl info o x : end_ok zval m P A D HC G BG bl info (asg ws) o -> sub G -> sub BG -> vg okey = decp (cval G) ->
    Forall (in_range ws) (scalars_of info) -> Forall (in_group ws) (points_of info) -> matches ws info x -> two_points ws G BG bl x o.
  Proof.
    intros He SG SBG Hg Hr Hp (X1 & X2 & X3 & X4 & X5 & X6 & X7).
    inversion_clear Hp as [|? ? (Po & Eo & So) Hp1]. inversion_clear Hp1 as [|? ? (Ps & Es & Ss) Hp2].
    destruct (in_group_list ws _ Hp2) as (Pc & Ec & Sc). pose proof Hr as Hr0.
    destruct (He Pc Po Ps Ec Eo Es Hr) as (H1 & t & Ht0 & Ht & H2).
    pose proof (np_field _ _ _ _ _ _ _ HN) as HF.
    assert (NN : forall y, (0 <= ModArithProofs.fval zval m (asg ws) y)%Z).
    { intros y. unfold ModArithProofs.fval. pose proof (pf_range _ _ _ _ _ HF (asg ws (v0 y))). pose proof (pf_range _ _ _ _ _ HF (asg ws (v1 y))). pose proof (Z.pow_nonneg 2 (Z.of_nat m)). nia. }
    assert (Bl : (0 <= zval (asg ws bl))%Z) by apply (pf_range _ _ _ _ _ HF).
    assert (Dp : forall p Q, pv (asg ws) p = cval Q -> pt ws p = decp (cval Q)).
    { intros p Q H. rewrite <- H. reflexivity. }
    assert (Lc : length (map (fun sb : fvar * pvar => ModArithProofs.fval zval m (asg ws) (fst sb)) (pc_comm info)) = length Pc).
    { apply Forall2_len in Ec. rewrite map_length in *. exact Ec. }
    destruct (dec_multi (map (fun sb : fvar * pvar => ModArithProofs.fval zval m (asg ws) (fst sb)) (pc_comm info)) Pc) as [M1 M2]; [|exact Sc|exact Lc|].
    { apply Forall_forall. intros z Hz. apply in_map_iff in Hz as (y & <- & _). apply NN. }
    split.
    - rewrite (Dp _ _ H1). rewrite !Hadd, !dec_mul by (repeat first [apply sub_add|apply sub_mul|assumption|apply NN|exact Bl]).
      unfold info_A. rewrite X1, X6, X7, (Dp _ _ Eo), (Dp _ _ Es). unfold PlonkVerifierProps.sv. rewrite value_fval. vring.
    - rewrite (Dp _ _ H2). rewrite !Hadd, !dec_mul, dec_opp, M2 by (repeat first [apply sub_add|apply sub_mul|apply sub_opp|assumption|apply NN|exact Bl]).
      unfold info_B. rewrite X1, X2, X3, X4, X5, X6, X7, (Dp _ _ Eo), (Dp _ _ Es), Hg. rewrite (fZ_mod t _ Ht), fZ_mul. unfold PlonkVerifierProps.sv. rewrite !value_fval.
      replace (combined zval m V1 dec ws (pc_comm info)) with (Alg.vsum (map (fun zq => Alg.vmul (fZ (fst zq) : Fr) (decp (cval (snd zq))))
        (combine (map (fun sb : fvar * pvar => ModArithProofs.fval zval m (asg ws) (fst sb)) (pc_comm info)) Pc))).
      + vring.
      + unfold combined, PlonkVerifierProps.sv. f_equal. clear -Ec Dp. revert Pc Ec. induction (pc_comm info) as [|[s p] l IH]; intros Pc Ec; inversion Ec; subst; [reflexivity|].
        cbn [map combine fst snd]. f_equal; [|apply IH; assumption]. cbn [fst snd] in *. erewrite Dp; eauto.
  Qed.

  (** If the pair has the ratio the opening key has, the pairing of the two points decides the claim. *)
  Theorem C83_pairing ws (G BG : E) bl x o : two_points ws G BG bl x o -> e (decp (cval G)) (vbeta_h okey) = e (decp (cval BG)) (vh okey) ->
    (e (pt ws (fst o)) (vbeta_h okey) = e (pt ws (snd o)) (vh okey) <-> check_openings Fr V1 V2 VT e okey 1 [x] = true).
  Proof.
    intros [H1 H2] He. rewrite H1, H2, check_openings_err, veqb_eq. cbn [map vpeval]. unfold info_err. rewrite !pe_add_l, !pe_mul_l, pe_opp_l, He.
    set (a := e (info_A Fr V1 x) (vbeta_h okey)). set (b := e (info_B Fr V1 V2 okey x) (vh okey)). set (s := Alg.vmul _ _). split; intros H.
    - assert (X : a = b). { replace a with (Alg.vadd (Alg.vadd a s) (Alg.vopp s)) by vring. rewrite H. vring. } rewrite X. vring.
    - assert (X : a = b). { replace a with (Alg.vadd (Alg.vadd (Alg.vadd a (Alg.vopp b)) (Alg.vmul 1 Alg.v0)) b) by vring. rewrite H. vring. } now rewrite X.
  Qed.

  Lemma HPb' : (P <= 2 ^ Z.of_nat tb)%Z. Proof. pose proof (pf_hi _ _ _ _ _ HFr). lia. Qed.

  (** For every circuit a builder can hold, every opening claim whose scalars are reduced
      and whose points lie on the curve, the gates after the claim succeed, an honest
      assignment stays accepted, and every assignment accepted by the circuit or a later
      one gives the two points the values of the two sides of the claim. *)
  Theorem C83_points c T pub0 ni info (G BG : E) bl : reached c T -> ptype c = Ultra rb -> accepts c (witness c) pub0 -> ni_elem ni = pelem m P ->
    Forall (canonical zval m P c) (scalars_of info) -> Forall (fun p => point_in c p /\ in_group (witness c) p) (points_of info) ->
    (bl < num_vars c)%nat -> (zval (asg (witness c) bl) < 2 ^ Z.of_nat tb)%Z -> sub G -> sub BG -> vg okey = decp (cval G) ->
    exists o c' Tn, verifier_end zval q nb L P tb A D ni info (cval BG) (cval G) bl c = (Ok o, c') /\ length Tn = (7 + length (pc_comm info))%nat /\
      reached c' (T ++ Tn) /\ extends c c' /\ (exists l, witness c' = witness c ++ l) /\ point_in c' (fst o) /\ point_in c' (snd o) /\
      (forall pub, (Z.of_nat (length (T ++ Tn)) < q)%Z -> accepts c (witness c) pub -> accepts c' (witness c') pub) /\
      (forall x, matches (witness c') info x -> two_points (witness c') G BG bl x o) /\
      (forall c'' T'' ws pub, reached c'' (T ++ Tn ++ T'') -> extends c' c'' -> (Z.of_nat (length (T ++ Tn ++ T'')) < q)%Z -> accepts c'' ws pub ->
        Forall (in_range ws) (scalars_of info) -> Forall (in_group ws) (points_of info) ->
        forall x, matches ws info x -> two_points ws G BG bl x o).
  Proof.
    intros Rc Ht Ac Hni Hsc Hpt Hbl Hblv SG SBG Hg. pose proof (reached_good _ _ Rc) as Gc.
    assert (Hb : base (hon c)) by exact (csat_base zval c _ pub0 Gc (proj1 (accepts_csat zval c (witness c) pub0 (gd_bd _ Gc) (proj1 Ac)) Ac)).
    assert (EQ : forall v, hon c v = asg (witness c) v) by reflexivity.
    assert (Hsc' : Forall (can zval m (P mod M) (P / M) c) (scalars_of info)) by (eapply Forall_impl; [|exact Hsc]; intros y; apply (canonical_can zval q nb L m rb HN P HP)).
    assert (Hpt' : Forall (fun p => pout p (num_vars c) /\ ins K A D HC (pv (hon c) p)) (points_of info)).
    { eapply Forall_impl; [|exact Hpt]. intros p [X1 (Q & X2 & _)]. split; [exact X1|]. unfold pv. rewrite !EQ, X2. apply cval_on. }
    destruct (tok_end zval q nb L m rb HN P HP tb A D HC Htb Hspan Hwin HPb' c T ni info G BG bl Rc Ht Hb Hni Hsc' Hpt' Hbl Hblv) as
      (o & c' & Tn & E1 & E2 & E3 & E4 & E5 & E6 & E7 & E8 & E9).
    assert (Hn' : (num_vars c <= num_vars c')%nat) by now destruct E4.
    destruct E6 as (l & W).
    assert (Ag : forall v, (v < num_vars c)%nat -> asg (witness c') v = asg (witness c) v).
    { intros v Hv. rewrite W. unfold asg. apply app_nth1. now rewrite (wf_wit _ (gd_wf _ Gc)). }
    exists o, c', Tn. split; [exact E1|]. split; [lia|]. split; [exact E3|]. split; [exact E4|]. split; [eauto|]. destruct E5 as [R1 R2]. split; [exact R1|]. split; [exact R2|].
    split. { intros pub Hl. apply E9. rewrite app_length, E2 in Hl. exact Hl. }
    split.
    - intros x Hm. destruct (E7 (hon c')) as [E7' _]; [destruct Hb as [B0 B1]; pose proof (wf_two _ (gd_wf _ Gc)); split; unfold hon in *; rewrite W, app_nth1 by (rewrite (wf_wit _ (gd_wf _ Gc)); lia); auto|apply hext_hon|].
      apply (end_two (witness c') G BG bl info o x); auto.
      + eapply Forall_impl; [|exact Hsc]. intros y ((A1 & A2 & _) & A3 & _). unfold ModArithProps.in_range in *. now rewrite !Ag by assumption.
      + eapply Forall_impl; [|exact Hpt]. intros p [[A1 A2] (Q & A3 & A4)]. exists Q. now rewrite !Ag by assumption.
    - intros c'' T'' ws pub R' X' Hl Ac' Hr Hpg x Hm. apply (end_two ws G BG bl info o x); auto. eapply E8; eauto.
  Qed.
  (** ** Merging keys *)
  Notation tok := (tok zval q).
  Notation True2 := (fun _ _ => True).
  Notation vkv := (vkvar (Fr := Fr)).
  Notation key_of := (key_of (K := K) V1 V2 dec okey).
  Definition key_points (x : vkv) : list pvar := kv_sigmas x ++ kv_sels x.
  Definition adds (w : nat -> K) (ab : pvar * pvar) (o : pvar) : Prop :=
    forall X Y : E, pv w (fst ab) = cval X -> pv w (snd ab) = cval Y -> pv w o = cval (gadd X Y).
  Definition merged (x y : vkv) (w : nat -> K) (o : vkv) : Prop :=
    kv_n o = kv_n x /\ kv_inputs o = (kv_inputs x + kv_inputs y)%nat /\ kv_k o = kv_k x /\ kv_merged o = true /\
    Forall2 (adds w) (combine (kv_sigmas x) (kv_sigmas y)) (kv_sigmas o) /\ Forall2 (adds w) (combine (kv_sels x) (kv_sels y)) (kv_sels o).
  Definition mergeable (x y : vkv) : Prop := kv_merged x = false /\ kv_merged y = false /\ kv_n x = kv_n y /\ kv_inputs x = kv_inputs y.
  Definition ready (c : circuit K) (p : pvar) : Prop := point_in c p /\ ins K A D HC (asg (witness c) (fst p), asg (witness c) (snd p)).

  Lemma ready_later c c1 T1 p : later c c1 T1 -> ready c p -> ready c1 p.
  Proof.
    intros LT [[H1 H2] H3]. pose proof (lt_vars _ _ _ LT). split; [split; lia|].
    assert (EQ : forall v, (v < num_vars c)%nat -> asg (witness c1) v = asg (witness c) v) by exact (lt_hon _ _ _ LT).
    now rewrite !EQ.
  Qed.
  Lemma tok_adds c T l : reached c T -> base (hon c) -> Forall (fun ab => ready c (fst ab) /\ ready c (snd ab)) l ->
    tok (mapM (fun p => ecc_add A D (fst p) (snd p)) l) c T (fun w o => Forall2 (adds w) l o) True2 (fun o n => Forall (fun p => pout p n) o) 0.
  Proof.
    intros R B Hl. eapply tok_weaken; [apply (tok_mapM zval q (fun p => ecc_add A D (fst p) (snd p)) (fun ab w o => adds w ab o) (fun _ => True2) pout l); [intros ? ? ? H1 H2; eapply pout_le; eauto|exact R|exact B|]|auto..].
    intros ab c1 T1 Hin LT. rewrite Forall_forall in Hl. destruct (Hl ab Hin) as [H1 H2]. apply (ready_later _ _ _ _ LT) in H1, H2. destruct H1 as [H1 H1'], H2 as [H2 H2'].
    apply (tok_add zval A D HC q); auto. apply LT.
  Qed.
  Lemma ready_pairs c l1 : forall l2, Forall (ready c) l1 -> Forall (ready c) l2 -> Forall (fun ab => ready c (fst ab) /\ ready c (snd ab)) (combine l1 l2).
  Proof. induction l1 as [|a l1 IH]; intros [|b l2] H1 H2; constructor; inversion_clear H1; inversion_clear H2; auto. Qed.
  Lemma tok_merge c T x y : reached c T -> base (hon c) -> mergeable x y -> Forall (ready c) (key_points x ++ key_points y) ->
    tok (vkvar_merge A D x y) c T (merged x y) True2 (fun o n => Forall (fun p => pout p n) (key_points o)) 0.
  Proof.
    intros R B (M1 & M2 & M3 & M4) Hr. unfold key_points in Hr. rewrite !Forall_app in Hr. destruct Hr as [[X1 X2] [Y1 Y2]].
    unfold vkvar_merge. rewrite M1, M2, M3, M4, !Nat.eqb_refl. cbn [orb negb].
    eapply tok_bind; [exact R|exact B|apply tok_adds; auto using ready_pairs| |reflexivity]. intros sg c1 T1 L1 R1 _. cbv beta in R1.
    eapply tok_bind; [apply L1|apply L1|apply tok_adds; [apply L1|apply L1|]| |reflexivity].
    { apply ready_pairs; (eapply Forall_impl; [|eassumption]; intros p; apply (ready_later _ _ _ _ L1)). }
    intros sl c2 T2 L2 R2 _. cbv beta in R2. apply tok_ret; [apply L2| |auto|].
    - intros w _ H2 H1. unfold merged. cbn [kv_n kv_inputs kv_k kv_merged kv_sigmas kv_sels]. rewrite M4. repeat split; auto.
    - unfold key_points. cbn [kv_sigmas kv_sels]. apply Forall_app. split; [|exact R2]. eapply Forall_impl; [|exact R1]. intros p Hp. eapply pout_le; [exact Hp|]. apply (lt_vars _ _ _ L2).
  Qed.

  Lemma adds_pt ws l1 : forall l2 o, Forall2 (adds (asg ws)) (combine l1 l2) o -> Forall (in_group ws) l1 -> Forall (in_group ws) l2 ->
    map (fun xy => Alg.vadd (fst xy) (snd xy)) (combine (map (pt ws) l1) (map (pt ws) l2)) = map (pt ws) o /\ Forall (in_group ws) o.
  Proof.
    induction l1 as [|a l1 IH]; intros [|b l2] o H H1 H2; cbn [combine map] in H |- *; inversion H; subst; try (split; [reflexivity|constructor]).
    inversion_clear H1 as [|? ? (X & EX & SX) H1']. inversion_clear H2 as [|? ? (Y & EY & SY) H2']. destruct (IH l2 l') as [I1 I2]; auto.
    cbn [fst snd map]. assert (Eo : (asg ws (fst y), asg ws (snd y)) = cval (gadd X Y)) by (apply H4; assumption). split.
    - rewrite I1. f_equal. unfold PlonkVerifierProps.pt. change (dec (asg ws (fst y)) (asg ws (snd y))) with (decp (asg ws (fst y), asg ws (snd y))).
      change (dec (asg ws (fst a)) (asg ws (snd a))) with (decp (asg ws (fst a), asg ws (snd a))). change (dec (asg ws (fst b)) (asg ws (snd b))) with (decp (asg ws (fst b), asg ws (snd b))).
      rewrite Eo, EX, EY. symmetry. now apply Hadd.
    - constructor; [|exact I2]. exists (gadd X Y). split; [exact Eo|]. now apply sub_add.
  Qed.
  Lemma merged_keys ws x y o : mergeable x y -> merged x y (asg ws) o -> Forall (in_group ws) (key_points x ++ key_points y) ->
    vk_merge Fr V1 V2 (key_of ws x) (key_of ws y) = Ok (key_of ws o) /\ Forall (in_group ws) (key_points o).
  Proof.
    intros (M1 & M2 & M3 & M4) (O1 & O2 & O3 & O4 & O5 & O6) Hg. unfold key_points in *. rewrite !Forall_app in Hg. destruct Hg as [[X1 X2] [Y1 Y2]].
    destruct (adds_pt ws _ _ _ O5 X1 Y1) as [S1 S2]. destruct (adds_pt ws _ _ _ O6 X2 Y2) as [S3 S4]. split; [|now apply Forall_app].
    unfold vk_merge, PlonkVerifierProps.key_of. cbn [vk_merged vk_n vk_inputs vk_plookup is_some vk_sigmas vk_selectors vk_k vk_open orb].
    rewrite M1, M2, M3, M4, !Nat.eqb_refl. cbn [orb negb]. rewrite S1, S3, O1, O2, O3, O4, M3, M4. reflexivity.
  Qed.

  (** Merging two keys in the circuit is merging the keys they stand for. *)
  Theorem C82_merge c T pub0 x y : reached c T -> accepts c (witness c) pub0 -> mergeable x y -> Forall (ready c) (key_points x ++ key_points y) ->
    exists o c', vkvar_merge A D x y c = (Ok o, c') /\ reached c' T /\ extends c c' /\ (exists l, witness c' = witness c ++ l) /\ Forall (point_in c') (key_points o) /\
      (forall pub, (Z.of_nat (length T) < q)%Z -> accepts c (witness c) pub -> accepts c' (witness c') pub) /\
      (forall c'' T'' ws pub, reached c'' (T ++ T'') -> extends c' c'' -> (Z.of_nat (length (T ++ T'')) < q)%Z -> accepts c'' ws pub ->
        Forall (in_group ws) (key_points x ++ key_points y) ->
        vk_merge Fr V1 V2 (key_of ws x) (key_of ws y) = Ok (key_of ws o) /\ Forall (in_group ws) (key_points o)).
  Proof.
    intros Rc Ac Hm Hr. pose proof (reached_good _ _ Rc) as Gc.
    assert (Hb : base (hon c)) by exact (csat_base zval c _ pub0 Gc (proj1 (accepts_csat zval c (witness c) pub0 (gd_bd _ Gc) (proj1 Ac)) Ac)).
    destruct (tok_merge c T x y Rc Hb Hm Hr) as (o & c' & [|? ?] & E1 & E2 & E3 & E4 & E5 & E6 & _ & E8 & E9); [|discriminate].
    rewrite app_nil_r in E3. exists o, c'. do 5 (split; [assumption|]). split. { intros pub Hl. apply E9. rewrite Nat.add_0_r. exact Hl. }
    intros c'' T'' ws pub R' X' Hl Ac' Hg. apply merged_keys; auto. exact (E8 c'' T'' ws pub R' X' Hl Ac').
  Qed.
  (** It refuses what merging outside refuses, leaving the circuit as it was. *)
  Theorem C82_merge_refuses ws c x y : vk_merge Fr V1 V2 (key_of ws x) (key_of ws y) = Err ParamError <-> vkvar_merge A D x y c = (Err ParameterError, c) /\ ~ mergeable x y.
  Proof.
    unfold vk_merge, vkvar_merge, mergeable, PlonkVerifierProps.key_of. cbn [vk_merged vk_n vk_inputs vk_plookup is_some orb].
    destruct (kv_merged x); cbn [orb]; [split; [intros _; split; [reflexivity|intros (A1 & _); discriminate]|reflexivity]|].
    destruct (kv_merged y); cbn [orb]; [split; [intros _; split; [reflexivity|intros (_ & A1 & _); discriminate]|reflexivity]|].
    destruct (Nat.eqb_spec (kv_n x) (kv_n y)) as [->|N1]; cbn [negb]; [|split; [intros _; split; [reflexivity|intros (_ & _ & A1 & _); contradiction]|reflexivity]].
    destruct (Nat.eqb_spec (kv_inputs x) (kv_inputs y)) as [->|N2]; cbn [negb]; [|split; [intros _; split; [reflexivity|intros (_ & _ & _ & A1); contradiction]|reflexivity]].
    split; [discriminate|]. intros [_ H]. exfalso. apply H. auto.
  Qed.
  (** Pairwise merging. *)
  Theorem C82_aggregate c T pub0 xs ys : reached c T -> accepts c (witness c) pub0 -> Forall2 mergeable xs ys ->
    Forall (ready c) (concat (map key_points xs) ++ concat (map key_points ys)) ->
    exists os c', aggregate_verify_keys A D xs ys c = (Ok os, c') /\ reached c' T /\ extends c c' /\ (exists l, witness c' = witness c ++ l) /\
      Forall (point_in c') (concat (map key_points os)) /\
      (forall pub, (Z.of_nat (length T) < q)%Z -> accepts c (witness c) pub -> accepts c' (witness c') pub) /\
      (forall c'' T'' ws pub, reached c'' (T ++ T'') -> extends c' c'' -> (Z.of_nat (length (T ++ T'')) < q)%Z -> accepts c'' ws pub ->
        Forall (in_group ws) (concat (map key_points xs) ++ concat (map key_points ys)) ->
        Forall2 (fun xy o => vk_merge Fr V1 V2 (key_of ws (fst xy)) (key_of ws (snd xy)) = Ok (key_of ws o)) (combine xs ys) os).
  Proof.
    intros Rc Ac Hm Hr. pose proof (reached_good _ _ Rc) as Gc.
    assert (Hb : base (hon c)) by exact (csat_base zval c _ pub0 Gc (proj1 (accepts_csat zval c (witness c) pub0 (gd_bd _ Gc) (proj1 Ac)) Ac)).
    assert (Hp : forall (Q : pvar -> Prop) xy, Forall Q (concat (map key_points xs) ++ concat (map key_points ys)) -> In xy (combine xs ys) ->
      mergeable (fst xy) (snd xy) /\ Forall Q (key_points (fst xy) ++ key_points (snd xy))).
    { intros Q xy HQ Hin. split.
      - clear -Hm Hin. induction Hm as [|x y xs ys H _ IH]; [destruct Hin|]. destruct Hin as [<-|Hin]; [exact H|auto].
      - rewrite Forall_app in HQ |- *. destruct xy as [x y]. pose proof (in_combine_l _ _ _ _ Hin). pose proof (in_combine_r _ _ _ _ Hin). rewrite !Forall_forall in *. destruct HQ as [Q1 Q2]. cbn [fst snd].
        split; intros p Hpp; [apply Q1|apply Q2]; apply in_concat; eexists; (split; [apply in_map; eassumption|exact Hpp]). }
    assert (Tk : tok (mapM (fun p => vkvar_merge A D (fst p) (snd p)) (combine xs ys)) c T (fun w os => Forall2 (fun xy o => merged (fst xy) (snd xy) w o) (combine xs ys) os)
      (fun w os => Forall2 (fun xy o => True) (combine xs ys) os) (fun os n => Forall (fun o => Forall (fun p => pout p n) (key_points o)) os) 0).
    { apply (tok_mapM zval q (fun p => vkvar_merge A D (fst p) (snd p)) (fun xy w o => merged (fst xy) (snd xy) w o) (fun _ => True2) (fun o n => Forall (fun p => pout p n) (key_points o))); [|exact Rc|exact Hb|].
      - intros o n n' H Hn. eapply Forall_impl; [|exact H]. intros p Hpp. eapply pout_le; [exact Hpp|exact Hn].
      - intros xy c1 T1 Hin LT. destruct (Hp _ xy Hr Hin) as [H1 H2]. apply tok_merge; [apply LT|apply LT|exact H1|]. eapply Forall_impl; [|exact H2]. intros p. apply (ready_later _ _ _ _ LT). }
    destruct Tk as (os & c' & [|? ?] & E1 & E2 & E3 & E4 & E5 & E6 & _ & E8 & E9); [|discriminate]. rewrite app_nil_r in E3.
    exists os, c'. split. { unfold aggregate_verify_keys. rewrite (Forall2_len _ _ _ Hm), Nat.eqb_refl. exact E1. }
    do 3 (split; [assumption|]). split. { apply Forall_concat. rewrite Forall_map. exact E5. }
    split. { intros pub Hl. apply E9. rewrite Nat.add_0_r. exact Hl. }
    intros c'' T'' ws pub R' X' Hl Ac' Hg. pose proof (E8 c'' T'' ws pub R' X' Hl Ac') as H.
    assert (Hp' := fun xy => Hp _ xy Hg). clear -H Hp' HN HP HFr HC Htb Hspan Hwin Hadd Hsub. induction H as [|xy o l l' H _ IH]; constructor.
    - destruct (Hp' xy (or_introl eq_refl)). now apply merged_keys.
    - apply IH. intros z Hz. apply Hp'. now right.
  Qed.
  Theorem C82_aggregate_length c (xs ys : list vkv) : length xs <> length ys -> aggregate_verify_keys A D xs ys c = (Err ParameterError, c).
  Proof. intros H. unfold aggregate_verify_keys. destruct (Nat.eqb_spec (length xs) (length ys)); [contradiction|reflexivity]. Qed.

  (** ** The parameters the circuit computes with *)
  (** The split parameter: the least multiple of the width of the range table with room
      for half of the bits of the scalar field. *)
  Theorem C82_parameters c : ptype c = Ultra rb -> m = (((tb + 1) / 2 - 1) / rb * rb + rb)%nat ->
    info_new zval nb P tb c = (Ok (vinfo m P (Some (fZ M))), c).
  Proof.
    intros Ht Em. destruct (np_hyps zval q nb L m rb HN P HP) as (H1 & H2 & H3 & H4 & H5 & H6 & H7 & H8). pose proof (np_field _ _ _ _ _ _ _ HN) as HF.
    assert (Hp : (fpow (fZ 2) m : K) = fZ M).
    { clear. induction m as [|n IH]; [reflexivity|]. cbn [fpow]. rewrite IH, <- fZ_mul. f_equal. rewrite Nat2Z.inj_succ, Z.pow_succ_r by lia. reflexivity. }
    unfold info_new, lift. cbn [cbind]. unfold cbind, range_bit_len. rewrite Ht. cbn [fst snd]. destruct (Nat.eqb_spec rb 0); [lia|].
    destruct (Nat.eqb_spec ((tb + 1) / 2) 0) as [Z0|Z0]. { exfalso. assert (1 <= (tb + 1) / 2)%nat by (apply Nat.div_le_lower_bound; lia). lia. }
    rewrite <- Em, Hp. rewrite (felem_new_eq zval q nb L HF m rb H1 H2 H3 H4 H5 H6) by lia. reflexivity.
  Qed.
End Points.

(** ** A curve over 131 elements with a group of order 11 *)
Lemma prime_11 : prime 11. Proof. apply primeb_prime. vm_compute. reflexivity. Qed.
Definition F11 : fld := Zp 11 prime_11.
Definition z11 : F11 -> Z := zv 11.
Definition e11 (z : Z) : F11 := zmk 11 z.
Lemma F11_pfield : BitProofs.pfield F11 z11 11 4 64.
Proof. apply Zp_pfield; cbn; lia. Qed.
Lemma F131_all (Q : F131 -> bool) : forallb (fun n => Q (e131 (Z.of_nat n))) (seq 0 131) = true -> forall x, Q x = true.
Proof.
  intros H x. rewrite forallb_forall in H. pose proof (pf_range _ _ _ _ _ F131_pfield x) as Hx.
  replace x with (e131 (Z.of_nat (Z.to_nat (z131 x)))).
  - apply H, in_seq. lia.
  - rewrite Z2Nat.id by lia. apply (zmk_zv 131).
Qed.
Lemma complete131 : complete F131 (e131 1) (e131 2).
Proof.
  split.
  - intros E. apply (f_equal z131) in E. vm_compute in E. discriminate.
  - exists (e131 1). apply feqb_eq. vm_compute. reflexivity.
  - assert (H : forall s : F131, negb (feqb (s * s) (e131 2)) = true) by (apply F131_all; vm_compute; reflexivity).
    intros s E. specialize (H s). apply feqb_eq in E. rewrite E in H. discriminate.
Qed.
Definition law131 : law F131 (e131 1) (e131 2) := complete_law F131 (e131 1) (e131 2) complete131.
Notation E131 := (curve F131 (e131 1) (e131 2) law131).
Lemma on131 x y : feqb (e131 1 * e131 x * e131 x + e131 y * e131 y) (1 + e131 2 * e131 x * e131 x * e131 y * e131 y) = true ->
  ins F131 (e131 1) (e131 2) law131 (e131 x, e131 y).
Proof. intros H. exact H. Qed.
Definition b131 : E131 := mkpt F131 _ _ _ _ (on131 15 2 eq_refl).
(** The multiples of the point (15, 2), and the number of a multiple. *)
Definition multiples : list (Z * Z) := [(0, 1); (15, 2); (22, 91); (49, 47); (103, 61); (83, 71); (48, 71); (28, 61); (82, 47); (109, 91); (116, 2)]%Z.
Definition dec11 (x y : F131) : self_vsp F11 :=
  e11 (Z.of_nat (length (fst (fold_left (fun st p => if snd st || ((fst p =? z131 x) && (snd p =? z131 y))%Z then (fst st, true) else (p :: fst st, false)) multiples ([], false))))).
Definition sub131 (Q : E131) : Prop := exists k : Z, Q = gmul k b131.
Lemma b131_order : gmul 11 b131 = (g0 : E131).
Proof. apply cpt_ext. assert (H : forall x y x' y' : F131, feqb x x' && feqb y y' = true -> (x, y) = (x', y')). { intros x y x' y' H. apply andb_true_iff in H as [H1 H2]. apply feqb_eq in H1, H2. congruence. }
  rewrite (surjective_pairing (cval _ _ _ _ (gmul 11 b131))), (surjective_pairing (cval _ _ _ _ (g0 : E131))). apply H. vm_compute. reflexivity. Qed.
Lemma sub131_group : subgroup (e131 1) (e131 2) law131 sub131.
Proof.
  split; [exists 0%Z; now rewrite gmul_0|]. split.
  - intros X Y [a ->] [b ->]. exists (a + b)%Z. now rewrite gmul_add.
  - intros X [a ->]. exists (- a)%Z. now rewrite gmul_opp.
Qed.
Lemma dec11_mul k : decp (K := F131) (self_vsp F11) dec11 (cval _ _ _ _ (gmul k b131)) = (fZ k : F11).
Proof.
  rewrite <- (gmul_mod _ _ k b131 b131_order). replace (fZ k : F11) with (fZ (k mod 11) : F11).
  2:{ rewrite <- (pf_fZ _ _ _ _ _ F11_pfield (fZ k)), (pf_zval _ _ _ _ _ F11_pfield). reflexivity. }
  pose proof (Z.mod_pos_bound k 11 ltac:(lia)) as Hk.
  assert (H : forallb (fun n => feqb (decp (K := F131) (self_vsp F11) dec11 (cval _ _ _ _ (gmul (Z.of_nat n) b131)) : F11) (fZ (Z.of_nat n))) (seq 0 11) = true) by (vm_compute; reflexivity).
  rewrite forallb_forall in H. specialize (H (Z.to_nat (k mod 11))). rewrite Z2Nat.id in H by lia. apply feqb_eq. apply H, in_seq. lia.
Qed.
Lemma dec11_add X Y : sub131 X -> sub131 Y ->
  decp (K := F131) (self_vsp F11) dec11 (cval _ _ _ _ (gadd X Y)) = Alg.vadd (decp (K := F131) (self_vsp F11) dec11 (cval _ _ _ _ X)) (decp (K := F131) (self_vsp F11) dec11 (cval _ _ _ _ Y)).
Proof. intros [a ->] [b ->]. rewrite <- gmul_add, !dec11_mul, fZ_add. reflexivity. Qed.

(** Variables 2 to 6: the points (15, 2) and (22, 91), and the number 3. *)
Definition pts_circuit : circuit F131 :=
  snd ((create_point_variable (e131 15, e131 2) >> create_point_variable (e131 22, e131 91) >> create_variable (e131 3)) (new_circuit F131 (Ultra 2))).
Lemma pts_reached : reached pts_circuit [].
Proof.
  assert (B0 : base (hon (new_circuit F131 (Ultra 2)))) by (split; reflexivity).
  assert (T : tok z131 131 (create_point_variable (e131 15, e131 2) >> create_point_variable (e131 22, e131 91) >> create_variable (e131 3))
    (new_circuit F131 (Ultra 2)) [] (fun _ _ => True) (fun _ _ => True) (fun _ _ => True) 0).
  { eapply tok_bind with (n2 := 0%nat); [apply r_new|exact B0|apply tok_point; [apply r_new|exact B0]| |reflexivity]. intros a c1 T1 L1 _ _.
    eapply tok_bind with (n2 := 0%nat); [apply L1|apply L1|apply tok_point; apply L1| |reflexivity]. intros b c2 T2 L2 _ _.
    eapply tok_weaken; [apply tok_var, L2|auto..]. }
  destruct T as (a & c' & Tn & E & Ln & R & _). destruct Tn; [|discriminate]. unfold pts_circuit. rewrite E. exact R.
Qed.
Definition fel (a b : nat) : fvar (K := F131) := mk_fvar a b 2 (e131 4).
(** [u] is 5, the point 1, the next point 5, the value 4, and two commitments. *)
Definition info131 : pcsvar (K := F131) := mk_pcsv (fel 1 1) (fel 1 0) (fel 1 1) (fel 0 1) [(fel 1 1, (2, 3)%nat); (fel 1 0, (4, 5)%nat)] (2, 3)%nat (4, 5)%nat.
Definition okey11 : vparam F11 (self_vsp F11) (self_vsp F11) := mk_vparam F11 (self_vsp F11) (self_vsp F11) (e11 1) (e11 1) (e11 7) [] [].
Definition claim131 : pcs_info F11 (self_vsp F11) := mk_info F11 (self_vsp F11) (e11 5) (e11 1) (e11 5) (e11 4) [((e11 1 : self_vsp F11), e11 5); ((e11 2 : self_vsp F11), e11 1)] (e11 1) (e11 2).
Notation group131 := (in_group (e131 1) (e131 2) law131 sub131).
(** The hypotheses of [C83_points] hold for this claim, and the gates give the two points. *)
Theorem C83_instance :
  nn_params F131 z131 131 8 64 2 2 /\ BitProofs.pfield F11 z11 11 4 64 /\ (2 ^ Z.of_nat (span 4) <= 131)%Z /\ (2 ^ Z.of_nat (pip_c 4) <= 11)%Z /\
  subgroup (e131 1) (e131 2) law131 sub131 /\ accepts z131 pts_circuit (witness pts_circuit) [] /\
  Forall (canonical z131 2 11 pts_circuit) (scalars_of info131) /\ Forall (fun p => point_in pts_circuit p /\ group131 (witness pts_circuit) p) (points_of info131) /\
  exists o c' Tn, verifier_end z131 131 8 64 11 4 (e131 1) (e131 2) (vinfo 2 11 (Some (fZ 4))) info131 (cval _ _ _ _ (gmul 7 b131)) (cval _ _ _ _ b131) 6 pts_circuit = (Ok o, c') /\
    length Tn = 9%nat /\ reached c' Tn /\ accepts z131 c' (witness c') [] /\ matches z131 2 (self_vsp F11) dec11 (witness c') info131 claim131 /\
    two_points z131 (e131 1) (e131 2) law131 (self_vsp F11) (self_vsp F11) dec11 okey11 (witness c') b131 (gmul 7 b131) 6 claim131 o.
Proof.
  assert (EF : forall x y : F131, feqb x y = true -> x = y) by (intros x y; apply feqb_eq).
  assert (EG : forall x y : F11, feqb x y = true -> x = y) by (intros x y; apply feqb_eq).
  destruct C34_instance_params as [HN _].
  assert (Hsp : (2 ^ Z.of_nat (span 4) <= 131)%Z) by (vm_compute; discriminate). assert (Hwn : (2 ^ Z.of_nat (pip_c 4) <= 11)%Z) by (vm_compute; discriminate).
  assert (Ac : accepts z131 pts_circuit (witness pts_circuit) []) by (split; vm_compute; reflexivity).
  assert (Hsc : Forall (canonical z131 2 11 pts_circuit) (scalars_of info131)).
  { unfold scalars_of. cbn [info131 pc_u pc_point pc_next pc_eval pc_comm map fst].
    assert (C : forall a b, In (a, b) [(1, 1); (1, 0); (0, 1)]%nat -> canonical z131 2 11 pts_circuit (fel a b)).
    { intros a b Hin. cbn [In] in Hin. unfold canonical, elem_of, in_range, value. cbn [fel v0 v1 vm vtwo].
      repeat (destruct Hin as [X|Hin]; [injection X as <- <-; split; [split; [cbn; lia|split; [cbn; lia|split; [reflexivity|apply EF; vm_compute; reflexivity]]]|split; [split; vm_compute; reflexivity|vm_compute; reflexivity]]|]). destruct Hin. }
    do 6 (constructor; [apply C; cbn [In]; tauto|]). constructor. }
  assert (Hpt : Forall (fun p => point_in pts_circuit p /\ group131 (witness pts_circuit) p) (points_of info131)).
  { assert (X2 : point_in pts_circuit (2, 3)%nat /\ group131 (witness pts_circuit) (2, 3)%nat).
    { split; [split; cbn; lia|]. exists b131. split; [reflexivity|]. exists 1%Z. now rewrite gmul_1. }
    assert (X4 : point_in pts_circuit (4, 5)%nat /\ group131 (witness pts_circuit) (4, 5)%nat).
    { split; [split; cbn; lia|]. exists (gmul 2 b131). split; [|now exists 2%Z].
      rewrite (surjective_pairing (cval _ _ _ _ (gmul 2 b131))). f_equal; apply EF; vm_compute; reflexivity. }
    unfold points_of. cbn [info131 pc_open pc_shifted pc_comm map snd]. do 4 (constructor; [assumption|]). constructor. }
  do 4 (split; [first [assumption|apply F11_pfield]|]). split; [apply sub131_group|]. do 3 (split; [assumption|]).
  destruct (C83_points z131 131 8 64 2 2 HN 11 ltac:(cbn; lia) 4 64 z11 F11_pfield (e131 1) (e131 2) law131 ltac:(lia) Hsp Hwn (self_vsp F11) (self_vsp F11) dec11 sub131 sub131_group dec11_add okey11
    pts_circuit [] [] (vinfo 2 11 (Some (fZ 4))) info131 b131 (gmul 7 b131) 6 pts_reached eq_refl Ac eq_refl Hsc Hpt) as (o & c' & Tn & E1 & E2 & E3 & E4 & (l & W) & _ & _ & E8 & E9 & _).
  - cbn. lia.
  - vm_compute. reflexivity.
  - exists 1%Z. now rewrite gmul_1.
  - now exists 7%Z.
  - apply EG. vm_compute. reflexivity.
  - exists o, c', Tn. split; [exact E1|]. split; [exact E2|]. split; [exact E3|]. split; [apply E8; [cbn [app]; rewrite E2; cbn; lia|exact Ac]|].
    assert (Mt : matches z131 2 (self_vsp F11) dec11 (witness c') info131 claim131).
    { assert (Ag : forall v, (v < 7)%nat -> asg (witness c') v = asg (witness pts_circuit) v) by (intros v Hv; rewrite W; unfold asg; apply app_nth1; exact Hv).
      unfold matches, combined, sv, pt, value. cbn [info131 pc_u pc_point pc_next pc_eval pc_comm pc_open pc_shifted claim131 in_u in_point in_next in_eval in_comm in_open in_shifted map fst snd fel v0 v1].
      rewrite !Ag by lia. repeat split; apply EG; vm_compute; reflexivity. }
    split; [exact Mt|]. apply E9, Mt.
Qed.

(** Two keys, merged. *)
Definition key_a : vkvar (Fr := F11) := mk_kv [(2, 3); (4, 5)]%nat [(2, 3)]%nat false 4 1 [e11 1; e11 2].
Definition key_b : vkvar (Fr := F11) := mk_kv [(4, 5); (4, 5)]%nat [(0, 1)]%nat false 4 1 [e11 1; e11 2].
Theorem C82_instance : accepts z131 pts_circuit (witness pts_circuit) [] /\ mergeable key_a key_b /\
  Forall (ready (e131 1) (e131 2) law131 pts_circuit) (key_points key_a ++ key_points key_b) /\
  exists o c', vkvar_merge (e131 1) (e131 2) key_a key_b pts_circuit = (Ok o, c') /\ accepts z131 c' (witness c') [] /\
    kv_inputs o = 2%nat /\ map (fun p => z11 (pt (K := F131) (self_vsp F11) dec11 (witness c') p)) (kv_sigmas o) = [3; 4]%Z /\ map (fun p => z11 (pt (K := F131) (self_vsp F11) dec11 (witness c') p)) (kv_sels o) = [1]%Z.
Proof.
  assert (EF : forall x y : F131, feqb x y = true -> x = y) by (intros x y; apply feqb_eq).
  split; [split; vm_compute; reflexivity|]. split; [repeat split|]. split.
  { unfold key_points. cbn [key_a key_b kv_sigmas kv_sels app].
    assert (R : forall a b, In (a, b) [(2, 3); (4, 5); (0, 1)]%nat -> ready (e131 1) (e131 2) law131 pts_circuit (a, b)).
    { intros a b Hin. cbn [In] in Hin. repeat (destruct Hin as [X|Hin]; [injection X as <- <-; split; [split; cbn; lia|vm_compute; reflexivity]|]). destruct Hin. }
    do 6 (constructor; [apply R; cbn [In]; tauto|]). constructor. }
  exists (okv key_a (fst (vkvar_merge (e131 1) (e131 2) key_a key_b pts_circuit))), (snd (vkvar_merge (e131 1) (e131 2) key_a key_b pts_circuit)).
  split; [apply okv_eq; vm_compute; reflexivity|]. split; [split; vm_compute; reflexivity|]. split; [vm_compute; reflexivity|]. split; vm_compute; reflexivity.
Qed.
Print Assumptions C83_points.
Print Assumptions C82_aggregate.
