(** C46-C51: the univariate KZG commitment scheme.

    Parameters come from [gen_srs] with an arbitrary trapdoor [b] and arbitrary
    generators, trimmed as a user does.  A polynomial is a coefficient list with no
    high-order zeros ([pnorm p = p]), as [from_coefficients_vec] builds it. *)
From Coq Require Import List ListDec Arith ZArith Lia Bool Ring Field.
From Verif Require Import Base ListAux Alg Poly VRing KzgModel KzgProofs KzgMulti KzgFft KzgFk.
Import ListNotations.

Section PcsProps.
  Variable K : fld.
  Local Open Scope fld_scope.
  Add Field Kpcs : (fth K).
  Variables (tad : nat) (root : K).
  Variables V1 V2 VT : vsp K.
  Variable e : pairing K V1 V2 VT.

  Notation gen := (gen_srs K V1 V2).
  Notation trim_vd := (trim_with_verifier_degree K V1 V2).
  Notation commit := (commit K V1).
  Notation open := (open K V1).
  Notation verify := (verify K V1 V2 VT e).
  Notation batch_verify := (batch_verify K V1 V2 VT e).
  Notation multi_point_open := (multi_point_open K V1).
  Notation multi_point_verify := (multi_point_verify K V1 V2 VT e).

  (** ** C46 *)

  (** Trimming succeeds exactly within the sizes of the reference string, and
      returns the powers of the trapdoor. *)
  Theorem C46_trim b g h pd vd d v :
    ((exists pk vk, trim_vd (gen b g h pd vd) d v = Ok (pk, vk)) <-> (d <= max pd vd /\ 1 <= v <= vd)%nat) /\
    (forall pk vk, trim_vd (gen b g h pd vd) d v = Ok (pk, vk) ->
       pk = map (fun i => vmul (fpow b i) g) (seq 0 (S d)) /\
       vg vk = g /\ vh vk = h /\ vbeta_h vk = vmul b h /\
       vpowers_of_g vk = map (fun i => vmul (fpow b i) g) (seq 0 (S v)) /\
       vpowers_of_h vk = map (fun i => vmul (fpow b i) h) (seq 0 (S v))).
  Proof.
    split.
    - split.
      + intros (pk & vk & E). apply trim_vd_inv in E. tauto.
      + intros [Hd Hv]. destruct (trim_vd_gen K V1 V2 b g h pd vd d v Hd Hv) as (vk & E & _). eauto.
    - intros pk vk E. apply trim_vd_inv in E as (_ & _ & -> & []). auto 10.
  Qed.

  (** Honest openings verify and open the value of the polynomial. *)
  Theorem C46_open_verify b g h pd vd d v pk vk (p : list K) z :
    trim_vd (gen b g h pd vd) d v = Ok (pk, vk) -> pnorm K p = p -> (length p <= S d)%nat ->
    exists c w, commit pk p = Ok c /\ open pk p z = Ok (w, peval p z) /\ verify vk c z (peval p z) w = true.
  Proof.
    intros E Hp Hl. apply trim_vd_inv in E as (_ & _ & -> & Hvk).
    rewrite commit_tpowers by (auto; lia). rewrite open_tpowers by lia. rewrite firstn_all2 by auto.
    eexists _, _. split; [reflexivity|]. split; [reflexivity|].
    apply (verify_iff _ _ _ _ e _ _ _ _ _ _ _ _ _ Hvk). rewrite verr_scal.
    rewrite (pdiv_spec _ p z b). replace (peval p z - _ + _) with (0 : K) by ring. apply vmul_0_l.
  Qed.
  (** The batched calls are the single ones, item by item. *)
  Theorem C46_batch_open b g h pd vd d v pk vk (ps : list (list K)) zs :
    trim_vd (gen b g h pd vd) d v = Ok (pk, vk) -> (forall p, In p ps -> pnorm K p = p /\ (length p <= S d)%nat) ->
    length ps = length zs ->
    exists cs ws vs, batch_commit K V1 pk ps = Ok cs /\ batch_open K V1 pk ps zs = Ok (ws, vs) /\
      length cs = length ps /\ length ws = length ps /\ length vs = length ps /\
      forall i, (i < length ps)%nat ->
        nth i vs 0 = peval (nth i ps []) (nth i zs 0) /\
        verify vk (nth i cs v0) (nth i zs 0) (nth i vs 0) (nth i ws v0) = true.
  Proof.
    intros E Hps L. pose proof E as E0. apply trim_vd_inv in E0 as (_ & _ & -> & _).
    unfold batch_commit, batch_open. rewrite L, Nat.eqb_refl. cbn [negb].
    rewrite (map_res_ok _ (fun p => vmul (peval p b) g)).
    2: { intros p Hp. destruct (Hps p Hp). rewrite commit_tpowers, firstn_all2 by (auto; lia). reflexivity. }
    rewrite (map_res_ok _ (fun pz => (vmul (peval (pdiv (fst pz) (snd pz)) b) g, peval (fst pz) (snd pz)))).
    2: { intros [p z] Hpz. apply in_combine_l in Hpz. destruct (Hps p Hpz). cbn [fst snd]. apply open_tpowers. lia. }
    cbn [bind]. eexists _, _, _. split; [reflexivity|]. split; [reflexivity|].
    rewrite !map_length, combine_length. split; [auto|]. split; [lia|]. split; [lia|].
    intros i Hi. rewrite !map_map. cbn [fst snd].
    assert (Nc : nth i (map (fun p => vmul (peval p b) g) ps) v0 = vmul (peval (nth i ps []) b) g).
    { rewrite (nth_indep _ v0 (vmul (peval [] b) g)) by (rewrite map_length; lia).
      apply (map_nth (fun p : list K => vmul (peval p b) g)). }
    assert (Nw : nth i (map (fun x : list K * K => vmul (peval (pdiv (fst x) (snd x)) b) g) (combine ps zs)) v0
       = vmul (peval (pdiv (nth i ps []) (nth i zs 0)) b) g).
    { rewrite (nth_indep _ v0 (vmul (peval (pdiv (fst (@nil K, 0 : K)) (snd (@nil K, 0 : K))) b) g)) by (rewrite map_length, combine_length; lia).
      rewrite (map_nth (fun x : list K * K => vmul (peval (pdiv (fst x) (snd x)) b) g)). rewrite combine_nth by auto. reflexivity. }
    assert (Nv : nth i (map (fun x : list K * K => peval (fst x) (snd x)) (combine ps zs)) 0
       = peval (nth i ps []) (nth i zs 0)).
    { rewrite (nth_indep _ 0 (peval (fst (@nil K, 0 : K)) (snd (@nil K, 0 : K)))) by (rewrite map_length, combine_length; lia).
      rewrite (map_nth (fun x : list K * K => peval (fst x) (snd x))). rewrite combine_nth by auto. reflexivity. }
    rewrite Nc, Nw, Nv. split; [reflexivity|].
    assert (Hin : In (nth i ps []) ps) by (apply nth_In; lia). destruct (Hps _ Hin) as [Hp Hl].
    destruct (C46_open_verify b g h pd vd d v _ vk (nth i ps []) (nth i zs 0) E Hp Hl) as (c & w & Ec & Eo & Hv).
    rewrite commit_tpowers, firstn_all2 in Ec by (auto; lia). rewrite open_tpowers in Eo by lia.
    injection Ec as <-. injection Eo as <-. exact Hv.
  Qed.

  (** ** C47 *)

  (** With a non-degenerate pairing the verification equation is exact. *)
  Theorem C47_verify_exact b g h pd vd d v pk vk c z y w :
    trim_vd (gen b g h pd vd) d v = Ok (pk, vk) -> (forall x, e x h = v0 -> x = v0) ->
    verify vk c z y w = true <-> vmul (b - z) w = vadd c (vopp (vmul y g)).
  Proof.
    intros E Hnd. apply trim_vd_inv in E as (_ & _ & _ & Hvk).
    rewrite (verify_iff _ _ _ _ e _ _ _ _ _ _ _ _ _ Hvk). unfold verr. split; intro H.
    - apply Hnd in H. apply (vsub_eq K V1). rewrite <- H. vring.
    - rewrite H. rewrite <- (pe_0_l K V1 V2 VT e h). f_equal. vring.
  Qed.
  (** A prover that answers with a fixed combination [q] of the public powers gets a
      wrong value accepted for fewer trapdoors than the degree of the equation. *)
  Theorem C47_wrong_value g h pd vd d v (p q : list K) z y (bs : list K) :
    NoDup bs -> e g h <> v0 -> pnorm K p = p -> (length p <= S d)%nat -> (length q <= S d)%nat -> y <> peval p z ->
    (forall b, In b bs -> exists pk vk c, trim_vd (gen b g h pd vd) d v = Ok (pk, vk) /\
        commit pk p = Ok c /\ verify vk c z y (msm pk q) = true) ->
    (length bs < max (length p) (S (length q)))%nat.
  Proof.
    intros Nd Hgh Hp Hlp Hlq Hy H. apply Nat.nle_gt. intro Hl.
    set (P := padd (psub [y] p) (pmul q [- z; 1])).
    assert (EP : forall x, peval P x = y - peval p x + (x - z) * peval q x).
    { intro x. unfold P. rewrite peval_padd, peval_psub, peval_pmul. cbn [peval]. ring. }
    assert (Z : pzero P).
    { apply (root_bound K bs P Nd).
      - intros b Hb. destruct (H b Hb) as (pk & vk & c & E & Ec & Hv). apply trim_vd_inv in E as (_ & _ & -> & Hvk).
        rewrite commit_tpowers, firstn_all2 in Ec by (auto; lia). injection Ec as <-.
        rewrite msm_tpowers in Hv by lia.
        apply (verify_iff _ _ _ _ e _ _ _ _ _ _ _ _ _ Hvk) in Hv. rewrite verr_scal in Hv.
        apply vmul_eq_0 in Hv as [Hv|Hv]; [|congruence]. now rewrite EP.
      - unfold P. rewrite length_padd, length_psub. cbn [length].
        assert (length (pmul q [- z; 1%F]) <= S (length q))%nat.
        { destruct q as [|a q]; [cbn; lia|]. rewrite length_pmul_pred; cbn; lia. }
        lia. }
    apply (peval_pzero K P z) in Z. rewrite EP in Z. apply Hy. apply fsub_0_eq.
    rewrite <- Z. ring.
  Qed.
  (** Two accepted values for one commitment and point give the solution
      [1/(b - z) g] of the strong Diffie-Hellman problem. *)
  Theorem C47_two_values b g h pd vd d v pk vk c z y y' w w' :
    trim_vd (gen b g h pd vd) d v = Ok (pk, vk) -> (forall x, e x h = v0 -> x = v0) -> y <> y' ->
    verify vk c z y w = true -> verify vk c z y' w' = true ->
    vmul (b - z) (vmul (finv (y - y')) (vadd w' (vopp w))) = g.
  Proof.
    intros E Hnd Hy H1 H2. apply (C47_verify_exact _ _ _ _ _ _ _ _ _ _ _ _ _ E Hnd) in H1.
    apply (C47_verify_exact _ _ _ _ _ _ _ _ _ _ _ _ _ E Hnd) in H2.
    assert (Hd : y - y' <> 0) by (intro Z; apply Hy; now apply fsub_0_eq).
    transitivity (vmul (finv (y - y')) (vadd (vmul (b - z) w') (vopp (vmul (b - z) w)))); [vring|].
    rewrite H1, H2. transitivity (vmul (finv (y - y') * (y - y')) g); [vring|].
    rewrite finv_l by auto. apply vmul_1.
  Qed.

  (** ** C48 *)

  Theorem C48_refuses b g h pd vd d v pk vk (p : list K) :
    trim_vd (gen b g h pd vd) d v = Ok (pk, vk) -> pnorm K p = p -> (S (S d) < length p)%nat ->
    commit pk p = Err InvalidParameters.
  Proof.
    intros E Hp Hl. apply trim_vd_inv in E as (_ & _ & -> & _). unfold KzgModel.commit.
    rewrite degree_norm by auto. cbn [bind]. rewrite length_tpowers.
    destruct (Nat.ltb_spec (S d) (length p - 1)); [reflexivity|lia].
  Qed.
  (** Up to the supported degree every coefficient matters: changing one changes the
      commitment, and two polynomials share a commitment for few trapdoors only. *)
  Theorem C48_every_coefficient b g h pd vd d v pk vk (p q : list K) i c c' :
    trim_vd (gen b g h pd vd) d v = Ok (pk, vk) -> pnorm K p = p -> pnorm K q = q ->
    (length p <= S d)%nat -> (length q <= S d)%nat -> b <> 0 -> g <> v0 ->
    coef p i <> coef q i -> (forall j, j <> i -> coef p j = coef q j) ->
    commit pk p = Ok c -> commit pk q = Ok c' -> c <> c'.
  Proof.
    intros E Hp Hq Hlp Hlq Hb Hg Hi Hj Ec Ec' Eq. apply trim_vd_inv in E as (_ & _ & -> & _).
    rewrite commit_tpowers, firstn_all2 in Ec, Ec' by (auto; lia). injection Ec as <-. injection Ec' as <-.
    assert (Z : vmul (peval p b - peval q b) g = v0).
    { transitivity (vadd (vmul (peval p b) g) (vopp (vmul (peval q b) g))); [vring|]. now apply vsub_eq. }
    apply vmul_eq_0 in Z as [Z|Z]; [|congruence].
    assert (Hlt : (i < S d)%nat).
    { apply Nat.nle_gt. intro. apply Hi. unfold coef. rewrite !nth_overflow by lia. reflexivity. }
    rewrite <- peval_psub in Z. rewrite (peval_fsum K _ b (S d)) in Z by (rewrite length_psub; lia).
    change (@fsum K) with (@vsum K (self_vsp K)) in Z.
    assert (Z' : (coef p i - coef q i) * fpow b i = 0).
    { rewrite <- Z. symmetry. etransitivity; [apply (vsum_pick K (self_vsp K) _ _ i Hlt)|].
      - intros j _ Nj. cbn beta. rewrite coef_psub, (Hj j Nj). cbn. ring.
      - cbn beta. now rewrite coef_psub. }
    apply fmul_eq_0 in Z' as [Z'|Z']; [apply Hi; now apply fsub_0_eq|]. now apply fpow_neq_0 in Z'.
  Qed.
  Theorem C48_binding g h pd vd d v (p q : list K) bs :
    NoDup bs -> g <> v0 -> pnorm K p = p -> pnorm K q = q -> (length p <= S d)%nat -> (length q <= S d)%nat -> p <> q ->
    (forall b, In b bs -> exists pk vk c, trim_vd (gen b g h pd vd) d v = Ok (pk, vk) /\
       commit pk p = Ok c /\ commit pk q = Ok c) ->
    (length bs < max (length p) (length q))%nat.
  Proof.
    intros Nd Hg Hp Hq Hlp Hlq Hpq H. apply Nat.nle_gt. intro Hl. apply Hpq. apply peq_pnorm_eq; auto.
    apply peq_psub. apply (root_bound K bs _ Nd); [|rewrite length_psub; lia].
    intros b Hb. destruct (H b Hb) as (pk & vk & c & E & Ec & Ec'). apply trim_vd_inv in E as (_ & _ & -> & _).
    rewrite commit_tpowers, firstn_all2 in Ec, Ec' by (auto; lia). injection Ec as <-. injection Ec' as Ec'.
    assert (Z : vmul (peval p b - peval q b) g = v0).
    { transitivity (vadd (vmul (peval p b) g) (vopp (vmul (peval q b) g))); [vring|]. apply vsub_eq. congruence. }
    apply vmul_eq_0 in Z as [Z|Z]; [|congruence]. now rewrite peval_psub.
  Qed.
  (** A polynomial of degree one above the supported one is committed to without its
      leading coefficient, and its honest opening is then rejected. *)
  Theorem C48_top_degree_refuted b g h pd vd d v pk vk (p : list K) z :
    trim_vd (gen b g h pd vd) d v = Ok (pk, vk) -> pnorm K p = p -> length p = S (S d) ->
    exists c w, commit pk p = Ok c /\ commit pk (pnorm K (removelast p)) = Ok c /\
      open pk p z = Ok (w, peval p z) /\
      (b <> 0 -> e g h <> v0 -> verify vk c z (peval p z) w = false).
  Proof.
    intros E Hp Hl. apply trim_vd_inv in E as (_ & _ & -> & Hvk).
    rewrite (commit_tpowers K V1 b g (S d) p) by (auto; lia). rewrite open_tpowers by lia.
    assert (R : removelast p = firstn (S d) p) by (rewrite removelast_firstn_len, Hl; reflexivity).
    assert (Lr : length (firstn (S d) p) = S d) by (rewrite firstn_length; lia).
    rewrite (commit_tpowers K V1 b g (S d) (pnorm K (removelast p))).
    2: apply pnorm_idem. 2: { rewrite R. pose proof (length_pnorm K (firstn (S d) p)). lia. }
    rewrite (firstn_all2 (pnorm K (removelast p))) by (rewrite R; pose proof (length_pnorm K (firstn (S d) p)); lia).
    rewrite peval_pnorm, R. eexists _, _. split; [reflexivity|]. split; [reflexivity|]. split; [reflexivity|].
    intros Hb Hgh. destruct (verify _ _ _ _ _) eqn:Ev; [|reflexivity]. exfalso.
    apply (verify_iff _ _ _ _ e _ _ _ _ _ _ _ _ _ Hvk) in Ev. rewrite verr_scal in Ev.
    apply vmul_eq_0 in Ev as [Ev|Ev]; [|congruence].
    pose proof (pdiv_spec _ p z b) as D. rewrite <- (firstn_skipn (S d) p) in D at 1. rewrite peval_app, Lr in D.
    assert (Z : fpow b (S d) * peval (skipn (S d) p) b = 0).
    { transitivity (peval (firstn (S d) p) b + fpow b (S d) * peval (skipn (S d) p) b - peval (firstn (S d) p) b
        + (peval p z - peval (firstn (S d) p) b + (b - z) * peval (pdiv p z) b) - (peval p z - peval (firstn (S d) p) b + (b - z) * peval (pdiv p z) b)); [ring|].
      rewrite Ev, D. transitivity (peval p z - peval (firstn (S d) p) b + (b - z) * peval (pdiv p z) b); [ring|]. exact Ev. }
    apply fmul_eq_0 in Z as [Z|Z]; [now apply fpow_neq_0 in Z|].
    destruct (skipn (S d) p) as [|a [|a' l]] eqn:Es.
    - apply (f_equal (@length K)) in Es. rewrite skipn_length in Es. cbn in Es. lia.
    - cbn in Z. assert (La : last p 0 = a).
      { rewrite <- (firstn_skipn (S d) p), Es. apply last_last. }
      assert (p <> []) by (intro; subst; discriminate).
      apply (pnorm_last K p); rewrite Hp; auto. rewrite La, <- Z. ring.
    - apply (f_equal (@length K)) in Es. rewrite skipn_length in Es. cbn in Es. lia.
  Qed.

  (** ** C49 *)

  (** Claim [i] of the lists, checked on its own. *)
  Definition valid (vk : vparam K V1 V2) (cs : list V1) (zs vs : list K) (ws : list V1) (i : nat) : Prop :=
    verify vk (nth i cs v0) (nth i zs 0) (nth i vs 0) (nth i ws v0) = true.

  Lemma zip4_nth cs zs vs ws i : length zs = length cs -> length vs = length cs -> length ws = length cs ->
    nth i (zip4 K V1 cs zs vs ws) (v0, 0, 0, v0) = (nth i cs v0, nth i zs 0, nth i vs 0, nth i ws v0).
  Proof. intros. unfold zip4. rewrite !combine_nth; rewrite ?combine_length; auto; lia. Qed.
  Lemma bv_index b g h n vk rs cs zs vs ws : vk_for K V1 V2 b g h n vk ->
    length zs = length cs -> length vs = length cs -> length ws = length cs ->
    batch_verify vk rs cs zs vs ws = true <->
    vsum (map (fun i => vmul (rnd K rs i) (verr K V1 V2 VT e b g h (nth i cs v0) (nth i zs 0) (nth i vs 0) (nth i ws v0)))
           (seq 0 (length cs))) = v0.
  Proof.
    intros Hvk L1 L2 L3. rewrite (batch_verify_sum _ _ _ _ e _ _ _ _ _ rs cs zs vs ws Hvk), veqb_eq.
    set (cl := zip4 K V1 cs zs vs ws).
    assert (Lc : length cl = length cs) by (unfold cl, zip4; rewrite !combine_length; lia).
    match goal with |- ?x = _ <-> ?y = _ => assert (E : x = y); [|rewrite E; reflexivity] end.
    rewrite Lc.
    assert (G : forall l s, combine (seq s (length l)) l
      = map (fun i => ((s + i)%nat, nth i l (v0 : V1, 0 : K, 0 : K, v0 : V1))) (seq 0 (length l))).
    { clear. induction l as [|a l IH]; intro s; [reflexivity|]. cbn [length seq combine map]. f_equal; [now rewrite Nat.add_0_r|].
      rewrite IH, <- seq_shift, map_map. apply map_ext. intro i. cbn [nth]. f_equal. lia. }
    rewrite <- Lc, G, map_map. apply vsum_map_ext. intros i _. cbn [fst snd]. unfold cl. rewrite zip4_nth by auto.
    reflexivity.
  Qed.
  Lemma vsum_split (f : nat -> VT) n k : (k < n)%nat ->
    vsum (map f (seq 0 n)) = vadd (f k) (vsum (map (fun i => if (i =? k)%nat then v0 else f i) (seq 0 n))).
  Proof.
    intro H. replace (seq 0 n) with (seq 0 k ++ [k] ++ seq (S k) (n - S k)).
    2: { change [k] with (seq k 1). replace (S k) with (k + 1)%nat by lia. rewrite <- (seq_app 1 _ k). rewrite <- (seq_app k _ 0). f_equal. lia. }
    rewrite !map_app, !vsum_app. cbn [map]. rewrite !vsum_cons. unfold vsum at 2 5. cbn [fold_right]. rewrite Nat.eqb_refl.
    rewrite (vsum_map_ext K VT (fun i => if (i =? k)%nat then v0 else f i) f (seq 0 k)).
    2: { intros i Hi. apply in_seq in Hi. destruct (Nat.eqb_spec i k); [lia|reflexivity]. }
    rewrite (vsum_map_ext K VT (fun i => if (i =? k)%nat then v0 else f i) f (seq (S k) (n - S k))).
    2: { intros i Hi. apply in_seq in Hi. destruct (Nat.eqb_spec i k); [lia|reflexivity]. }
    vring.
  Qed.

  Theorem C49_complete b g h pd vd d v pk vk rs cs zs vs ws :
    trim_vd (gen b g h pd vd) d v = Ok (pk, vk) ->
    length zs = length cs -> length vs = length cs -> length ws = length cs ->
    (forall i, (i < length cs)%nat -> valid vk cs zs vs ws i) ->
    batch_verify vk rs cs zs vs ws = true.
  Proof.
    intros E L1 L2 L3 H. apply trim_vd_inv in E as (_ & _ & _ & Hvk). apply (bv_index _ _ _ _ _ _ _ _ _ _ Hvk); auto.
    apply (vsum_zero K VT). intros i Hi. apply in_seq in Hi. specialize (H i ltac:(lia)). unfold valid in H.
    apply (verify_iff _ _ _ _ e _ _ _ _ _ _ _ _ _ Hvk) in H. rewrite H. apply vmul_0_r.
  Qed.
  (** An invalid claim other than the first: at most one value of its randomizer is bad. *)
  Theorem C49_sound_one b g h pd vd d v pk vk rs rs' cs zs vs ws k :
    trim_vd (gen b g h pd vd) d v = Ok (pk, vk) ->
    length zs = length cs -> length vs = length cs -> length ws = length cs ->
    (S k < length cs)%nat -> ~ valid vk cs zs vs ws (S k) ->
    (forall j, j <> k -> rs j = rs' j) ->
    batch_verify vk rs cs zs vs ws = true -> batch_verify vk rs' cs zs vs ws = true -> rs k = rs' k.
  Proof.
    intros E L1 L2 L3 Hk Hi Hr B1 B2. apply trim_vd_inv in E as (_ & _ & _ & Hvk).
    apply (bv_index _ _ _ _ _ _ _ _ _ _ Hvk) in B1, B2; auto.
    rewrite (vsum_split _ _ (S k) Hk) in B1. rewrite (vsum_split _ _ (S k) Hk) in B2. cbn beta in B1, B2. cbn [rnd] in B1, B2.
    set (er := verr K V1 V2 VT e b g h (nth (S k) cs v0) (nth (S k) zs 0) (nth (S k) vs 0) (nth (S k) ws v0)) in *.
    set (R := vsum _) in B1.
    match type of B2 with vadd _ ?r = _ => assert (ER : r = R) end.
    { unfold R. apply vsum_map_ext. intros i _. destruct (Nat.eqb_spec i (S k)); [reflexivity|].
      destruct i as [|i]; [reflexivity|]. cbn [rnd]. rewrite Hr by lia. reflexivity. }
    rewrite ER in B2.
    assert (Z : vmul (rs k - rs' k) er = v0).
    { transitivity (vadd (vadd (vmul (rs k) er) R) (vopp (vadd (vmul (rs' k) er) R))); [vring|].
      rewrite B1, B2. vring. }
    apply vmul_eq_0 in Z as [Z|Z]; [now apply fsub_0_eq|]. exfalso. apply Hi. unfold valid.
    apply (verify_iff _ _ _ _ e _ _ _ _ _ _ _ _ _ Hvk). exact Z.
  Qed.
  (** A single invalid claim is always caught, except when it is not the first and
      its randomizer is zero. *)
  Theorem C49_single_invalid b g h pd vd d v pk vk rs cs zs vs ws k :
    trim_vd (gen b g h pd vd) d v = Ok (pk, vk) ->
    length zs = length cs -> length vs = length cs -> length ws = length cs ->
    (k < length cs)%nat -> ~ valid vk cs zs vs ws k ->
    (forall i, (i < length cs)%nat -> i <> k -> valid vk cs zs vs ws i) ->
    batch_verify vk rs cs zs vs ws = true <-> exists k', k = S k' /\ rs k' = 0.
  Proof.
    intros E L1 L2 L3 Hk Hi Ho. apply trim_vd_inv in E as (_ & _ & _ & Hvk).
    rewrite (bv_index _ _ _ _ _ _ _ _ _ _ Hvk) by auto. rewrite (vsum_split _ _ k Hk). cbn beta.
    rewrite (vsum_zero K VT).
    2: { intros i Hin. apply in_seq in Hin. destruct (Nat.eqb_spec i k); [reflexivity|].
         specialize (Ho i ltac:(lia) ltac:(auto)). unfold valid in Ho.
         apply (verify_iff _ _ _ _ e _ _ _ _ _ _ _ _ _ Hvk) in Ho. rewrite Ho. apply vmul_0_r. }
    rewrite vadd_0_r. split.
    - intro Z. apply vmul_eq_0 in Z as [Z|Z].
      + destruct k as [|k]; [|eauto]. exfalso. exact (f1_neq_0 K Z).
      + exfalso. apply Hi. apply (verify_iff _ _ _ _ e _ _ _ _ _ _ _ _ _ Hvk). exact Z.
    - intros (k' & -> & Z). cbn [rnd]. rewrite Z. apply vmul_0_l.
  Qed.
  Theorem C49_sound b g h pd vd d v pk vk cs zs vs ws :
    trim_vd (gen b g h pd vd) d v = Ok (pk, vk) ->
    length zs = length cs -> length vs = length cs -> length ws = length cs ->
    (forall rs, batch_verify vk rs cs zs vs ws = true) ->
    forall i, (i < length cs)%nat -> valid vk cs zs vs ws i.
  Proof.
    intros E L1 L2 L3 H.
    assert (HS : forall i, (S i < length cs)%nat -> valid vk cs zs vs ws (S i)).
    { intros i Hi. unfold valid. destruct (verify _ _ _ _ _) eqn:Ev; [reflexivity|]. exfalso.
      apply (f1_neq_0 K).
      assert (X : (fun j => if (j =? i)%nat then (1 : K) else 0) i = (fun _ => 0) i).
      { apply (C49_sound_one b g h pd vd d v pk vk (fun j => if (j =? i)%nat then 1 else 0) (fun _ => 0) cs zs vs ws i E); auto.
        - unfold valid. rewrite Ev. discriminate.
        - intros j Hj. destruct (Nat.eqb_spec j i); [contradiction|reflexivity]. }
      cbn beta in X. rewrite Nat.eqb_refl in X. exact X. }
    intros [|i] Hi; [|auto]. unfold valid. destruct (verify _ _ _ _ _) eqn:Ev; [reflexivity|]. exfalso.
    specialize (H (fun _ => 0)). apply (C49_single_invalid b g h pd vd d v pk vk _ cs zs vs ws 0 E) in H; auto.
    - destruct H as (k' & ? & _). discriminate.
    - unfold valid. rewrite Ev. discriminate.
    - intros [|j] Hj Nj; [congruence|auto].
  Qed.
  (** Lists of different lengths are cut to the shortest without notice. *)
  Theorem C49_truncates_refuted vk rs cs zs vs : batch_verify vk rs cs zs vs [] = true.
  Proof.
    unfold KzgModel.batch_verify, zip4. rewrite combine_nil. cbn. apply veqb_eq.
    rewrite (vopp_0 K V1), !vadd_0_l, vmul_0_l, (vopp_0 K V1), !(pe_0_l K V1 V2 VT e). apply vadd_0_l.
  Qed.

  (** ** C50 *)

  Lemma fprod_In_0 (l : list K) : In 0 l -> fprod l = 0.
  Proof. induction l as [|x l IH]; [intros []|]. rewrite fprod_cons. intros [->|H]; [ring|]. rewrite IH by auto. ring. Qed.
  Lemma rem_is_interp (zs r ip : list K) : NoDup zs -> (length r <= length zs)%nat -> (length ip <= length zs)%nat ->
    (forall z, In z zs -> peval r z = peval ip z) -> forall x, peval r x = peval ip x.
  Proof.
    intros Nd Hr Hi H x. apply fsub_0_eq. rewrite <- peval_psub. apply peval_pzero.
    apply (root_bound K zs _ Nd); [|rewrite length_psub; lia].
    intros z Hz. rewrite peval_psub, (H z Hz). ring.
  Qed.
  Lemma mp_verify_eq b g h v vk zs vs comm w ip : vk_for K V1 V2 b g h (S v) vk ->
    zs <> [] -> length zs = length vs -> (length zs <= v)%nat -> evals_poly K zs vs = Ok ip -> (length ip <= length zs)%nat ->
    multi_point_verify vk comm zs vs w =
    Ok (veqb (e (vadd (vadd (vmul (peval ip b) g) (vopp comm)) (vmul (fprod (map (fun z => b - z) zs)) w)) h) v0).
  Proof.
    intros [] Hz Hl Hv Ei Li. unfold KzgModel.multi_point_verify.
    rewrite vkf_h, vkf_pg, vkf_ph, !length_tpowers, <- Hl, Nat.eqb_refl.
    destruct (Nat.eqb_spec (length zs) 0) as [X|_]; [destruct zs; [congruence|discriminate]|].
    destruct (Nat.ltb_spec (S v) (length zs + 1)); [lia|]. cbn [negb]. rewrite Ei. cbn [bind].
    destruct (vanish_poly_spec K zs Hz) as [[Lm _] Em].
    rewrite (msm_poly_ok K V1 b g (S v) ip) by lia. cbn [bind].
    rewrite (msm_poly_ok K V2 b h (S v) (vanish_poly K zs)) by lia. cbn [bind]. do 2 f_equal.
    rewrite Em, pe_mul_r, <- pe_mul_l, <- pe_add_l. reflexivity.
  Qed.
  Theorem C50_complete b g h pd vd d v pk vk (p : list K) zs :
    trim_vd (gen b g h pd vd) d v = Ok (pk, vk) -> pnorm K p = p -> (length p <= S d)%nat ->
    NoDup zs -> zs <> [] -> (length zs <= v)%nat ->
    exists c w, commit pk p = Ok c /\ multi_point_open pk p zs = Ok (w, map (peval p) zs) /\
      multi_point_verify vk c zs (map (peval p) zs) w = Ok true.
  Proof.
    intros E Hp Hl Nd Hz Hv. apply trim_vd_inv in E as (_ & _ & -> & Hvk).
    rewrite commit_tpowers, firstn_all2 by (auto; lia).
    unfold KzgModel.multi_point_open. destruct (Nat.eqb_spec (length zs) 0) as [X|_]; [destruct zs; [congruence|discriminate]|].
    destruct (vanish_poly_spec K zs Hz) as [Mo Em]. destruct (monic_last K _ _ Mo) as (Ne & La & _).
    pose proof (pdivmod_spec K p (vanish_poly K zs) Ne) as D.
    assert (La' : last (vanish_poly K zs) 0 <> 0) by (rewrite La; apply f1_neq_0). specialize (D La').
    unfold pquo. destruct (pdivmod K p (vanish_poly K zs)) as [q r]. destruct D as (Lq & Lr & D). cbn [fst].
    assert (Lv : length (vanish_poly K zs) = S (length zs)) by apply Mo.
    rewrite (msm_poly_ok K V1 b g (S d) (pnorm K q)) by (pose proof (length_pnorm K q); lia). cbn [bind].
    eexists _, _. split; [reflexivity|]. split; [reflexivity|].
    destruct (evals_poly_spec K zs (map (peval p) zs) Nd) as (ip & Ei & Li & Hip); [now rewrite map_length|].
    rewrite (mp_verify_eq b g h v vk zs _ _ _ ip Hvk); auto; [|now rewrite map_length].
    f_equal. apply veqb_eq.
    assert (R : forall x, peval r x = peval ip x).
    { apply (rem_is_interp zs r ip Nd); [lia|lia|]. intros z Hin. apply (In_nth _ _ 0) in Hin as (k & Hk & <-).
      rewrite (Hip k Hk). rewrite (nth_indep (map (peval p) zs) 0 (peval p 0)), map_nth by (rewrite map_length; auto).
      rewrite (D (nth k zs 0)), Em.
      assert (Z : fprod (map (fun z => nth k zs 0 - z) zs) = 0).
      { apply fprod_In_0, in_map_iff. exists (nth k zs 0). split; [ring|apply nth_In; auto]. }
      rewrite Z. ring. }
    rewrite <- (pe_0_l K V1 V2 VT e h). f_equal. rewrite peval_pnorm, (D b), Em, R. vring.
  Qed.
  (** Wrong values are accepted, for an algebraic prover, for few trapdoors only. *)
  Theorem C50_wrong_values g h pd vd d v (p q : list K) zs vs k bs :
    NoDup bs -> e g h <> v0 -> pnorm K p = p -> (length p <= S d)%nat -> (length q <= S d)%nat ->
    NoDup zs -> length zs = length vs -> (k < length zs)%nat -> nth k vs 0 <> peval p (nth k zs 0) ->
    (forall b, In b bs -> exists pk vk c, trim_vd (gen b g h pd vd) d v = Ok (pk, vk) /\
       commit pk p = Ok c /\ multi_point_verify vk c zs vs (msm pk q) = Ok true) ->
    (length bs < max (length p) (length q + length zs))%nat.
  Proof.
    intros Nd Hgh Hp Hlp Hlq Ndz Lv Hk Hne H. apply Nat.nle_gt. intro Hl.
    assert (Hz : zs <> []) by (intro; subst; cbn in Hk; lia).
    destruct (evals_poly_spec K zs vs Ndz Lv) as (ip & Ei & Li & Hip).
    destruct (vanish_poly_spec K zs Hz) as [[Lm _] Em].
    set (P := padd (psub ip p) (pmul q (vanish_poly K zs))).
    assert (EP : forall x, peval P x = peval ip x - peval p x + fprod (map (fun z => x - z) zs) * peval q x).
    { intro x. unfold P. rewrite peval_padd, peval_psub, peval_pmul, Em. ring. }
    assert (Z : pzero P).
    { apply (root_bound K bs P Nd).
      - intros b Hb. destruct (H b Hb) as (pk & vk & c & E & Ec & Hv). apply trim_vd_inv in E as (_ & _ & -> & Hvk).
        rewrite commit_tpowers, firstn_all2 in Ec by (auto; lia). injection Ec as <-.
        assert (Hlen : (length zs <= v)%nat).
        { apply Nat.nlt_ge. intro X. unfold KzgModel.multi_point_verify in Hv. destruct Hvk as [_ _ _ _ Eph].
          rewrite Eph, length_tpowers in Hv. destruct (Nat.eqb_spec (length zs) 0); [discriminate|].
          destruct (negb _); [discriminate|]. destruct (Nat.ltb_spec (S v) (length zs + 1)); [discriminate|lia]. }
        rewrite (mp_verify_eq b g h v vk zs vs _ _ ip Hvk) in Hv by auto. rewrite msm_tpowers in Hv by lia.
        injection Hv as Hv. apply veqb_eq in Hv. rewrite EP.
        assert (Hv' : vmul (peval ip b - peval p b + fprod (map (fun z => b - z) zs) * peval q b) (e g h) = v0).
        { rewrite <- Hv, <- pe_mul_l. f_equal. vring. }
        apply vmul_eq_0 in Hv' as [Hv'|Hv']; [exact Hv'|congruence].
      - unfold P. rewrite length_padd, length_psub.
        assert (length (pmul q (vanish_poly K zs)) <= length q + length zs)%nat.
        { destruct q as [|a q]; [cbn; lia|]. rewrite length_pmul_pred; rewrite ?Lm; cbn [length]; lia. }
        lia. }
    apply (peval_pzero K P (nth k zs 0)) in Z. rewrite EP, (Hip k Hk) in Z. apply Hne, fsub_0_eq. etransitivity; [|exact Z].
    assert (Z0 : fprod (map (fun z => nth k zs 0 - z) zs) = 0).
    { apply fprod_In_0, in_map_iff. exists (nth k zs 0). split; [ring|apply nth_In; auto]. }
    rewrite Z0. ring.
  Qed.
  (** The refusals, and the panic on a repeated point. *)
  Theorem C50_refusals b g h pd vd d v pk vk comm zs vs w :
    trim_vd (gen b g h pd vd) d v = Ok (pk, vk) ->
    (zs = [] \/ length zs <> length vs \/ (v < length zs)%nat <-> multi_point_verify vk comm zs vs w = Err InvalidParameters) /\
    (multi_point_verify vk comm zs vs w = Panic <-> zs <> [] /\ length zs = length vs /\ (length zs <= v)%nat /\ ~ NoDup zs).
  Proof.
    intro E. apply trim_vd_inv in E as (_ & _ & -> & Hvk). pose proof Hvk as [_ _ _ _ Eph].
    assert (Cases : (zs = [] \/ length zs <> length vs \/ (v < length zs)%nat) \/ (zs <> [] /\ length zs = length vs /\ (length zs <= v)%nat)).
    { destruct zs as [|z zs]; [auto|]. destruct (Nat.eq_dec (length (z :: zs)) (length vs)); [|auto].
      destruct (Nat.le_gt_cases (length (z :: zs)) v); [|auto]. right. split; [discriminate|auto]. }
    destruct Cases as [C|(Hz & Hl & Hv)].
    - assert (X : multi_point_verify vk comm zs vs w = Err InvalidParameters).
      { unfold KzgModel.multi_point_verify. rewrite Eph, length_tpowers.
        destruct (Nat.eqb_spec (length zs) 0); [reflexivity|]. destruct (Nat.eqb_spec (length zs) (length vs)); [|reflexivity].
        cbn [negb]. destruct (Nat.ltb_spec (S v) (length zs + 1)); [reflexivity|]. exfalso.
        destruct C as [->|[C|C]]; [cbn in *; lia|lia|lia]. }
      rewrite X. split; [tauto|]. split; [discriminate|]. intros (Hz & Hl & Hv & _). exfalso.
      destruct C as [C|[C|C]]; [contradiction|lia|lia].
    - destruct (ListDec.NoDup_dec (@feq_dec K) zs) as [Nd|Nd].
      + destruct (evals_poly_spec K zs vs Nd Hl) as (ip & Ei & Li & Hip).
        rewrite (mp_verify_eq b g h v vk zs vs comm w ip Hvk) by auto. split.
        * split; [|discriminate]. intros [C|[C|C]]; [contradiction|lia|lia].
        * split; [discriminate|]. intros (_ & _ & _ & X). contradiction.
      + assert (X : multi_point_verify vk comm zs vs w = Panic).
        { unfold KzgModel.multi_point_verify. rewrite Eph, length_tpowers, Hl, Nat.eqb_refl, <- Hl.
          destruct (Nat.eqb_spec (length zs) 0) as [Y|_]; [destruct zs; [congruence|discriminate]|]. cbn [negb].
          destruct (Nat.ltb_spec (S v) (length zs + 1)); [lia|]. rewrite evals_poly_dup by auto. reflexivity. }
        rewrite X. split; [|tauto]. split; [|discriminate]. intros [C|[C|C]]; [contradiction|lia|lia].
  Qed.

  (** ** C51 *)

  Hypothesis Root : root_ok K tad root.
  Notation multi_open := (multi_open K tad root V1).
  Notation multi_open_rou := (multi_open_rou K tad root V1).

  Lemma horner_self (p : list K) x : horner K (self_vsp K) p x = peval p x.
  Proof.
    induction p as [|c p IH]; [reflexivity|]. rewrite horner_cons, IH, peval_cons. cbn. ring.
  Qed.
  Lemma gdeg_len (p : list K) : pnorm K p = p -> gnorm K (self_vsp K) p = p.
  Proof.
    intro H. transitivity (pnorm K p); [|exact H]. clear H. induction p as [|c p IH]; [reflexivity|].
    cbn [gnorm pnorm]. rewrite IH. reflexivity.
  Qed.
  Lemma npot_fft d n : (n <= d)%nat -> (npot n <= checked_fft_size d)%nat.
  Proof.
    intro H. assert (M : (npot n <= npot d)%nat) by (unfold npot; apply Nat.pow_le_mono_r; [lia|now apply Nat.log2_up_le_mono]).
    unfold checked_fft_size, is_pow2. destruct (Nat.eqb_spec d (npot d)); lia.
  Qed.

  (** Openings at arbitrary points, all together. *)
  Theorem C51_multi_open b g h pd vd d pk vk (p : list K) zs :
    trim_fft_size K V1 V2 (gen b g h pd vd) d = Ok (pk, vk) -> pnorm K p = p -> (length p <= S d)%nat ->
    (Nat.log2_up (length p - 1) < tad)%nat -> (length zs < tad ^ 2)%nat ->
    exists ws vs, multi_open pk p zs = Ok (ws, vs) /\ length ws = length zs /\ length vs = length zs /\
      forall i, (i < length zs)%nat -> open pk p (nth i zs 0) = Ok (nth i ws v0, nth i vs 0).
  Proof.
    intros E Hp Hl Ht Hz. unfold trim_fft_size, trim_srs in E. apply trim_vd_inv in E as (_ & _ & -> & _).
    unfold KzgModel.multi_open. pose proof (npot_fft d (length p - 1) ltac:(lia)) as Hn.
    rewrite (fk23_spec K V1 b g tad root _ p Root) by lia. cbn [bind].
    assert (BE : forall (V : vsp K) (l : list V), batch_evaluate K tad V l zs = Ok (map (horner K V l) zs)).
    { intros V l. unfold batch_evaluate. destruct (Nat.eqb_spec (length zs) 0) as [X|_]; [destruct zs; [reflexivity|discriminate]|].
      destruct (Nat.ltb_spec (length zs) (tad ^ 2)); [|lia]. f_equal. apply map_ext. intro. apply gevaluate_horner. }
    rewrite !BE. cbn [bind]. eexists _, _. split; [reflexivity|]. rewrite !map_length. split; [reflexivity|]. split; [reflexivity|].
    intros i Hi.
    assert (Hlt : (length p <= S (S (checked_fft_size d)))%nat).
    { pose proof (log2_up_pow2_ge (length p - 1)). unfold npot in Hn. lia. }
    rewrite open_tpowers by auto. f_equal. f_equal.
    - rewrite (nth_indep _ v0 (horner K V1 (gnorm K V1 (hpoly K V1 b g p (npot (length p - 1)))) 0)) by (rewrite map_length; auto).
      rewrite map_nth, horner_gnorm, horner_hpoly; [reflexivity|apply log2_up_pow2_ge].
    - transitivity (horner K (self_vsp K) (gnorm K (self_vsp K) p) (nth i zs 0)).
      + rewrite horner_gnorm, horner_self. reflexivity.
      + symmetry. transitivity (nth i (map (horner K (self_vsp K) (gnorm K (self_vsp K) p)) zs) (horner K (self_vsp K) (gnorm K (self_vsp K) p) 0)).
        * apply nth_indep. rewrite map_length. auto.
        * apply (map_nth (horner K (self_vsp K) (gnorm K (self_vsp K) p))).
  Qed.
  (** Past the cutoff the call panics, although [open] works at each point. *)
  Theorem C51_many_points_refuted b g h pd vd d pk vk (p : list K) zs :
    trim_fft_size K V1 V2 (gen b g h pd vd) d = Ok (pk, vk) -> pnorm K p = p -> (length p <= S d)%nat ->
    (Nat.log2_up (length p - 1) < tad)%nat -> (tad ^ 2 <= length zs)%nat -> zs <> [] ->
    multi_open pk p zs = Panic /\ forall z, exists wv, open pk p z = Ok wv.
  Proof.
    intros E Hp Hl Ht Hz Ne. unfold trim_fft_size, trim_srs in E. apply trim_vd_inv in E as (_ & _ & -> & _).
    pose proof (npot_fft d (length p - 1) ltac:(lia)) as Hn.
    pose proof (log2_up_pow2_ge (length p - 1)) as G. unfold npot in Hn. split.
    - unfold KzgModel.multi_open. rewrite (fk23_spec K V1 b g tad root _ p Root) by (unfold npot; lia). cbn [bind].
      unfold batch_evaluate. destruct (Nat.eqb_spec (length zs) 0) as [X|_]; [destruct zs; [congruence|discriminate]|].
      destruct (Nat.ltb_spec (length zs) (tad ^ 2)); [lia|reflexivity].
    - intro z. eexists. apply open_tpowers. lia.
  Qed.

  (** Openings at roots of unity.  [dm] is a domain of the field that has room for
      the polynomial; the points are the first [n] powers of its generator. *)
  Theorem C51_multi_open_rou b g h pd vd d v pk vk (p : list K) n m dm :
    trim_vd (gen b g h pd vd) d v = Ok (pk, vk) -> pnorm K p = p -> (length p <= S d)%nat ->
    radix2_new K tad root m = Some dm -> (length p <= dsize dm)%nat -> (n <= dsize dm)%nat ->
    exists ws vs, multi_open_rou pk p n dm = Ok (ws, vs) /\ length ws = n /\ length vs = n /\
      forall i, (i < n)%nat -> open pk p (fpow (dgen dm) i) = Ok (nth i ws v0, nth i vs 0).
  Proof.
    intros E Hp Hl Ed Hlp Hn. apply trim_vd_inv in E as (_ & _ & -> & _).
    unfold KzgModel.multi_open_rou, multi_open_rou_evals, batch_evaluate_rou.
    rewrite gdeg_len by auto.
    assert (Lv : @length (self_vsp K) p = @length K p) by reflexivity.
    destruct (Nat.ltb_spec (dsize dm) (@length (self_vsp K) p)) as [X|_]; [rewrite Lv in X; lia|].
    cbn [bind]. unfold multi_open_rou_proofs. rewrite (fkp_spec K V1 b g (S d) p) by lia. cbn [bind].
    set (h0 := gnorm K V1 (hpoly K V1 b g p (length p - 1))).
    assert (Lh : (length h0 <= length p - 1)%nat).
    { unfold h0. etransitivity; [apply length_gnorm|]. unfold hpoly. rewrite map_length, seq_length. lia. }
    assert (Hh : forall z, horner K V1 h0 z = vmul (peval (pdiv p z) b) g).
    { intro z. unfold h0. rewrite horner_gnorm. apply horner_hpoly. lia. }
    assert (Gd : gdegree K V1 h0 = (length h0 - 1)%nat) by apply gdegree_gnorm. rewrite Gd.
    pose proof (radix2_size K tad root m dm Ed) as Sd.
    assert (SM : (npot (length h0 - 1 + 1) <= dsize dm)%nat).
    { rewrite Sd. unfold npot. apply Nat.pow_le_mono_r; [lia|].
      destruct (Nat.le_gt_cases (length h0) 1) as [X|X].
      - replace (length h0 - 1 + 1)%nat with 1%nat by lia. cbn. lia.
      - replace (length h0 - 1 + 1)%nat with (length h0) by lia.
        transitivity (Nat.log2_up (dsize dm)); [apply Nat.log2_up_le_mono; lia|]. rewrite Sd. unfold npot.
        rewrite Nat.log2_up_pow2; lia. }
    assert (Em : exists sm, radix2_new K tad root (length h0 - 1 + 1) = Some sm).
    { unfold radix2_new. destruct (Nat.leb_spec (Nat.log2_up (length h0 - 1 + 1)) tad); [eauto|]. exfalso.
      unfold radix2_new in Ed. destruct (Nat.leb_spec (Nat.log2_up m) tad) as [Y|]; [|discriminate].
      rewrite Sd in SM. unfold npot in SM. apply (Nat.pow_lt_mono_r 2) in H; [|lia].
      apply (Nat.pow_le_mono_r 2) in Y; lia. }
    destruct Em as (sm & Em). rewrite Em. pose proof (radix2_size K tad root _ sm Em) as Ss.
    destruct (radix2_nest K tad root _ _ sm dm Em Ed) as (pf & E1 & E2 & P0 & E3); [lia|]. rewrite E2.
    replace (max 1 pf) with pf by lia.
    assert (Lsm : (length h0 <= dsize sm)%nat).
    { rewrite Ss. unfold npot. destruct (Nat.eq_dec (length h0) 0) as [->|]; [lia|].
      replace (length h0 - 1 + 1)%nat with (length h0) by lia. apply log2_up_pow2_ge. }
    match goal with |- context [firstn n (flat_map ?F ?L)] =>
      assert (EQ : flat_map F L = map (fun k => horner K V1 h0 (fpow (dgen dm) k)) (seq 0 (dsize dm))) end.
    { rewrite E1. rewrite <- interleave. rewrite !flat_map_concat_map. f_equal. apply map_ext_in. intros j Hj. apply in_seq in Hj.
      rewrite !map_map. apply map_ext_in. intros i Hi. apply in_seq in Hi. rewrite fft_coset_horner by auto.
      rewrite nth_map_seq by lia. f_equal. rewrite E3, <- fpow_mul, fpow_add. rewrite (Nat.mul_comm pf j). ring. }
    rewrite EQ. eexists _, _. split; [reflexivity|].
    rewrite firstn_map, firstn_seq, map_length, seq_length. replace (Nat.min n (dsize dm)) with n by lia.
    split; [reflexivity|]. split.
    { etransitivity; [apply firstn_length|].
      match goal with |- Nat.min _ ?x = _ => replace x with (dsize dm) by (symmetry; apply length_fftK) end. lia. }
    intros i Hi. rewrite open_tpowers by lia. f_equal. f_equal.
    - rewrite nth_map_seq by lia. symmetry. apply Hh.
    - set (pr := resize (dsize dm) (@v0 K (self_vsp K)) p).
      transitivity (nth i (fft_coset K (self_vsp K) 1 dm pr) (@v0 K (self_vsp K))).
      + rewrite fft_coset_horner.
        2: { unfold pr, resize. rewrite app_length, firstn_length, repeat_length. lia. }
        rewrite nth_map_seq by lia. transitivity (horner K (self_vsp K) pr (fpow (dgen dm) i)); [|f_equal; ring].
        rewrite horner_self. unfold pr, resize. transitivity (peval (p ++ repeat 0 (dsize dm - @length K p)) (fpow (dgen dm) i)).
        * rewrite peval_app, peval_zeros. ring.
        * f_equal. f_equal. symmetry. apply firstn_all2. exact Hlp.
      + symmetry. transitivity (nth i (firstn n (fft_coset K (self_vsp K) 1 dm pr)) (@v0 K (self_vsp K))); [reflexivity|].
        rewrite <- (firstn_skipn n (fft_coset K (self_vsp K) 1 dm pr)) at 2. rewrite app_nth1; [reflexivity|].
        rewrite firstn_length, length_fft. lia.
  Qed.
  Lemma NoDup_map_inj {A B} (f : A -> B) l : (forall x y, In x l -> In y l -> f x = f y -> x = y) -> NoDup l -> NoDup (map f l).
  Proof.
    induction l as [|a l IH]; intros H Nd; [constructor|]. inversion Nd; subst. cbn. constructor.
    - intro X. apply in_map_iff in X as (y & Ey & Hy). apply H in Ey; [subst; auto|right; auto|left; auto].
    - apply IH; auto. intros x y Hx Hy. apply H; right; auto.
  Qed.
  (** The domain proposed by [multi_open_rou_eval_domain] has room for both. *)
  Theorem C51_eval_domain deg n dm :
    multi_open_rou_eval_domain K tad root deg n = Ok dm ->
    (exists m, radix2_new K tad root m = Some dm) /\ (S deg <= dsize dm)%nat /\ (n <= dsize dm)%nat /\
    NoDup (map (fpow (dgen dm)) (seq 0 n)).
  Proof.
    unfold multi_open_rou_eval_domain. destruct (radix2_new _ _ _ _) as [d'|] eqn:E; [|discriminate].
    intro X. injection X as <-. pose proof (radix2_size _ _ _ _ _ E) as Sd. pose proof (radix2_ok _ _ _ _ _ Root E) as [D1 D2 D3 D4].
    assert (L1 : (deg <= checked_fft_size deg)%nat).
    { pose proof (log2_up_pow2_ge deg). unfold checked_fft_size, npot. destruct (is_pow2 deg); lia. }
    pose proof (log2_up_pow2_ge (max (checked_fft_size deg + 1) n)) as L2. fold (npot (max (checked_fft_size deg + 1) n)) in L2.
    assert (Hn : (n <= dsize d')%nat) by lia.
    split; [eauto|]. split; [lia|]. split; [exact Hn|].
    apply NoDup_map_inj; [|apply seq_NoDup]. intros i j Hi Hj Eq. apply in_seq in Hi. apply in_seq in Hj.
    assert (W : forall a c, (a < c < n)%nat -> fpow (dgen d') a <> fpow (dgen d') c).
    { intros a c Hac X. apply (D3 (c - a)%nat); [lia|]. replace c with (a + (c - a))%nat in X by lia. rewrite fpow_add in X.
      assert (G0 : fpow (dgen d') a <> 0) by (apply fpow_neq_0; eapply do_gen_neq_0; constructor; eauto).
      apply (fmul_cancel_l K (fpow (dgen d') a)); auto. rewrite <- X. ring. }
    destruct (Nat.lt_trichotomy i j) as [L|[L|L]]; auto; exfalso; [eapply (W i j)|eapply (W j i)]; eauto; lia.
  Qed.
  (** With parameters trimmed to the exact degree, [multi_open] errs although
      [open] works at every point. *)
  Theorem C51_exact_trim_refuted b g h pd vd d v pk vk (p : list K) zs :
    trim_vd (gen b g h pd vd) d v = Ok (pk, vk) -> length p = S d -> (S d < npot d)%nat ->
    multi_open pk p zs = Err InvalidParameters /\ forall z, exists wv, open pk p z = Ok wv.
  Proof.
    intros E Hl Hd. apply trim_vd_inv in E as (_ & _ & -> & _). split; [|intro z; eexists; apply open_tpowers; lia].
    unfold KzgModel.multi_open, compute_h_poly_in_fk23.
    replace (length p - 1)%nat with d by lia. destruct (toeplitz_new K _ _) as [t| |] eqn:Et; cbn [bind].
    - unfold toeplitz_mul. rewrite rev_length, firstn_tpowers, length_tpowers. replace (Nat.min (npot d) (S d)) with (S d) by lia.
      assert (Lt : length (tcol K t) = npot d).
      { unfold toeplitz_new in Et. destruct (_ || _); [discriminate|]. destruct (negb _); [discriminate|]. injection Et as <-. cbn [tcol].
        unfold resize. rewrite app_length, firstn_length, repeat_length. cbn [length]. lia. }
      destruct (negb (is_pow2 (S d))); [reflexivity|]. rewrite Lt. destruct (Nat.eqb_spec (S d) (npot d)); [lia|]. reflexivity.
    - revert Et. unfold toeplitz_new. destruct (_ || _); [|destruct (negb _)]; intro X; try discriminate X; injection X as <-; reflexivity.
    - revert Et. unfold toeplitz_new. destruct (_ || _); [|destruct (negb _)]; intro X; discriminate X.
  Qed.
End PcsProps.

(** ** Concrete cases: the field of 97 elements, trapdoor 5, groups the field itself. *)

Definition self_pairing (K : fld) : pairing K (self_vsp K) (self_vsp K) (self_vsp K).
Proof.
  pose proof (fth K) as R. refine (mk_pairing K (self_vsp K) (self_vsp K) (self_vsp K) (@fmul K) _ _ _ _); intros; cbn.
  - apply R.
  - rewrite !((F_R R).(Rmul_comm) x). apply R.
  - symmetry. apply R.
  - rewrite ((F_R R).(Rmul_comm) x), <- (F_R R).(Rmul_assoc). f_equal. apply (F_R R).(Rmul_comm).
Defined.
Notation e97p := (self_pairing F97).
Definition l97 (l : list Z) : list F97 := map e97 l.
Lemma root97 : root_ok F97 5 (e97 28).
Proof.
  assert (C : forallb (fun i => negb (feqb (fpow (e97 28) i) f1)) (seq 1 31) = true) by (vm_compute; reflexivity).
  split; [apply zp_ext; vm_compute; reflexivity|]. intros i Hi. rewrite forallb_forall in C.
  specialize (C i). rewrite in_seq in C. change (2 ^ 5)%nat with 32%nat in Hi. specialize (C ltac:(lia)). intro E. rewrite E, feqb_refl in C. discriminate.
Qed.
Definition srs97 := gen_srs F97 (self_vsp F97) (self_vsp F97) (e97 5) (e97 3) (e97 7) 6 4.
Definition pv97 d v := match trim_with_verifier_degree F97 _ _ srs97 d v with Ok x => x | _ => ([], mk_vparam F97 (self_vsp F97) (self_vsp F97) f0 f0 f0 [] []) end.
Lemma pv97_ok d v : (d <= 6)%nat -> (1 <= v <= 4)%nat ->
  trim_with_verifier_degree F97 (self_vsp F97) (self_vsp F97) srs97 d v = Ok (fst (pv97 d v), snd (pv97 d v)).
Proof.
  intros Hd Hv. destruct (proj2 (proj1 (C46_trim F97 (self_vsp F97) (self_vsp F97) (e97 5) (e97 3) (e97 7) 6 4 d v))) as (pk & vk & E).
  - cbn [Nat.max]. auto.
  - unfold pv97. fold srs97 in E. rewrite E. reflexivity.
Qed.
Definition p97 := l97 [1; 2; 0; 5]%Z.
Notation S97 := (self_vsp F97).
Lemma l97_ext (a b : list F97) : map (zv 97) a = map (zv 97) b -> a = b.
Proof.
  revert b. induction a as [|x a IH]; intros [|y b] H; try discriminate; [reflexivity|].
  cbn in H. injection H as H1 H2. f_equal; [now apply zp_ext|auto].
Qed.
Lemma p97_norm : pnorm F97 p97 = p97.
Proof. apply l97_ext. vm_compute. reflexivity. Qed.
Lemma e97p_nd : e97p (e97 3) (e97 7) <> (v0 : S97).
Proof. intro E. apply (f_equal (zv 97)) in E. vm_compute in E. discriminate. Qed.
Lemma e97p_inj (x : S97) : e97p x (e97 7) = v0 -> x = v0.
Proof.
  change (fmul (x : F97) (e97 7) = f0 -> (x : F97) = f0). intro E. apply fmul_eq_0 in E as [E|E]; auto. exfalso. apply (f_equal (zv 97)) in E. vm_compute in E. discriminate.
Qed.

Example C46_case z : exists c w,
  commit F97 S97 (fst (pv97 3 1)) p97 = Ok c /\ open F97 S97 (fst (pv97 3 1)) p97 z = Ok (w, peval p97 z) /\
  verify F97 S97 S97 S97 e97p (snd (pv97 3 1)) c z (peval p97 z) w = true.
Proof. eapply C46_open_verify; [apply pv97_ok; lia|apply p97_norm|cbn; lia]. Qed.
(** For trapdoor 5 the wrong value 46 at the point 2 (true value 45) is accepted. *)
Example C47_case : e97 46 <> peval p97 (e97 2) /\
  exists c, commit F97 S97 (fst (pv97 3 1)) p97 = Ok c /\
    verify F97 S97 S97 S97 e97p (snd (pv97 3 1)) c (e97 2) (e97 46) (msm (fst (pv97 3 1)) (l97 [35%Z])) = true.
Proof.
  split; [intro E; apply (f_equal (zv 97)) in E; vm_compute in E; discriminate|].
  destruct (C46_case (e97 2)) as (c & w & Ec & _). exists c. split; [exact Ec|].
  revert c Ec. intros c Ec. assert (X : c = e97 65).
  { assert (Y : match commit F97 S97 (fst (pv97 3 1)) p97 with Ok c => zv 97 c | _ => 0%Z end = 65%Z) by (vm_compute; reflexivity).
    rewrite Ec in Y. apply zp_ext. rewrite Y. reflexivity. }
  rewrite X. vm_compute. reflexivity.
Qed.
(** So two values are accepted, and they solve the Diffie-Hellman problem. *)
Example C47_two_values_case : exists c w w', 
  verify F97 S97 S97 S97 e97p (snd (pv97 3 1)) c (e97 2) (e97 46) w = true /\
  verify F97 S97 S97 S97 e97p (snd (pv97 3 1)) c (e97 2) (peval p97 (e97 2)) w' = true.
Proof.
  destruct (C46_case (e97 2)) as (c & w & Ec & _ & Hv). destruct C47_case as (_ & c' & Ec' & Hv').
  assert (c = c') as <- by congruence. eauto.
Qed.
(** Degree 3 under parameters trimmed to degree 2. *)
Example C48_case : exists c w,
  commit F97 S97 (fst (pv97 2 1)) p97 = Ok c /\ commit F97 S97 (fst (pv97 2 1)) (pnorm F97 (removelast p97)) = Ok c /\
  open F97 S97 (fst (pv97 2 1)) p97 (e97 2) = Ok (w, peval p97 (e97 2)) /\
  verify F97 S97 S97 S97 e97p (snd (pv97 2 1)) c (e97 2) (peval p97 (e97 2)) w = false.
Proof.
  destruct (C48_top_degree_refuted F97 S97 S97 S97 e97p (e97 5) (e97 3) (e97 7) 6 4 2 1 _ _ p97 (e97 2) (pv97_ok 2 1 ltac:(lia) ltac:(lia)) p97_norm eq_refl)
    as (c & w & H1 & H2 & H3 & H4).
  exists c, w. split; [exact H1|]. split; [exact H2|]. split; [exact H3|]. apply H4; [|apply e97p_nd].
  intro E. apply (f_equal (zv 97)) in E. vm_compute in E. discriminate.
Qed.
Example C48_refuses_case : commit F97 S97 (fst (pv97 1 1)) p97 = Err InvalidParameters.
Proof. eapply C48_refuses; [apply pv97_ok; lia|apply p97_norm|cbn; lia]. Qed.
Example C48_binding_case : exists c c', commit F97 S97 (fst (pv97 3 1)) p97 = Ok c /\
  commit F97 S97 (fst (pv97 3 1)) (l97 [1; 2; 9; 5]%Z) = Ok c' /\ c <> c'.
Proof.
  pose proof (pv97_ok 3 1 ltac:(lia) ltac:(lia)) as E.
  assert (Nq : pnorm F97 (l97 [1; 2; 9; 5]%Z) = l97 [1; 2; 9; 5]%Z) by (apply l97_ext; vm_compute; reflexivity).
  destruct (C46_open_verify F97 S97 S97 S97 e97p _ _ _ _ _ _ _ _ _ p97 f0 E p97_norm ltac:(cbn; lia)) as (c & _ & Ec & _).
  destruct (C46_open_verify F97 S97 S97 S97 e97p _ _ _ _ _ _ _ _ _ (l97 [1; 2; 9; 5]%Z) f0 E Nq ltac:(cbn; lia)) as (c' & _ & Ec' & _).
  exists c, c'. split; [exact Ec|]. split; [exact Ec'|].
  eapply (C48_every_coefficient F97 S97 S97 _ _ _ _ _ _ _ _ _ p97 (l97 [1; 2; 9; 5]%Z) 2 c c' E p97_norm Nq); auto.
  - intro X. apply (f_equal (zv 97)) in X. vm_compute in X. discriminate.
  - intro X. apply (f_equal (zv 97)) in X. vm_compute in X. discriminate.
  - intro X. apply (f_equal (zv 97)) in X. vm_compute in X. discriminate.
  - intros j Hj. destruct j as [|[|[|[|j]]]]; try reflexivity. congruence.
Qed.

(** A batch of two honest claims, and one whose second value is wrong. *)
Definition cl97 (x : Z) :=
  let pk := fst (pv97 3 1) in
  match commit F97 S97 pk p97, open F97 S97 pk p97 (e97 2), open F97 S97 pk p97 (e97 3) with
  | Ok c, Ok (w, _), Ok (w', _) => ([c; c], l97 [2; 3]%Z, l97 [45%Z; x], [w; w'])
  | _, _, _ => ([], [], [], [])
  end.
Definition bv97 x r := let '(cs, zs, vs, ws) := cl97 x in
  batch_verify F97 S97 S97 S97 e97p (snd (pv97 3 1)) (fun _ => e97 r) cs zs vs ws.
Definition v97 x i := let '(cs, zs, vs, ws) := cl97 x in
  verify F97 S97 S97 S97 e97p (snd (pv97 3 1)) (nth i cs v0) (nth i zs f0) (nth i vs f0) (nth i ws v0).
Example C49_case : v97 45 0 = true /\ v97 45 1 = true /\ bv97 45 9 = true /\
  v97 46 0 = true /\ v97 46 1 = false /\ bv97 46 9 = false /\ bv97 46 0 = true.
Proof. vm_compute. repeat split. Qed.
Example C50_case : exists c w,
  commit F97 S97 (fst (pv97 3 3)) p97 = Ok c /\
  multi_point_open F97 S97 (fst (pv97 3 3)) p97 (l97 [1; 2; 3]%Z) = Ok (w, map (peval p97) (l97 [1; 2; 3]%Z)) /\
  multi_point_verify F97 S97 S97 S97 e97p (snd (pv97 3 3)) c (l97 [1; 2; 3]%Z) (map (peval p97) (l97 [1; 2; 3]%Z)) w = Ok true.
Proof.
  eapply C50_complete; [apply pv97_ok; lia|apply p97_norm|cbn; lia| |discriminate|cbn; lia].
  apply (NoDup_map_inv (zv 97)). vm_compute. repeat constructor; cbn; intuition discriminate.
Qed.
Example C50_panic_case c w :
  multi_point_verify F97 S97 S97 S97 e97p (snd (pv97 3 3)) c (l97 [2; 2]%Z) (l97 [1; 1]%Z) w = Panic.
Proof.
  apply (C50_refusals F97 S97 S97 S97 e97p _ _ _ _ _ _ _ _ _ c (l97 [2; 2]%Z) (l97 [1; 1]%Z) w (pv97_ok 3 3 ltac:(lia) ltac:(lia))).
  split; [discriminate|]. split; [reflexivity|]. split; [cbn; lia|]. intro N. inversion N as [|? ? H]; subst. apply H. left. reflexivity.
Qed.
(** Four proofs at once: the amortised and the single openings agree. *)
Example C51_case : exists ws vs,
  multi_open F97 5 (e97 28) S97 (fst (pv97 4 1)) p97 (l97 [1; 2; 3]%Z) = Ok (ws, vs) /\ length ws = 3%nat /\ length vs = 3%nat /\
  forall i, (i < 3)%nat -> open F97 S97 (fst (pv97 4 1)) p97 (nth i (l97 [1; 2; 3]%Z) f0) = Ok (nth i ws v0, nth i vs f0).
Proof.
  apply (C51_multi_open F97 5 (e97 28) S97 S97 root97 (e97 5) (e97 3) (e97 7) 6 4 3 _ (snd (pv97 4 1)) p97 (l97 [1; 2; 3]%Z)).
  - exact (pv97_ok 4 1 ltac:(lia) ltac:(lia)).
  - apply p97_norm.
  - cbn. lia.
  - vm_compute. lia.
  - vm_compute. lia.
Qed.
Example C51_rou_case : exists dm ws vs, multi_open_rou_eval_domain F97 5 (e97 28) 3 5 = Ok dm /\
  multi_open_rou F97 5 (e97 28) S97 (fst (pv97 3 1)) p97 5 dm = Ok (ws, vs) /\ length ws = 5%nat /\ length vs = 5%nat /\
  forall i, (i < 5)%nat -> open F97 S97 (fst (pv97 3 1)) p97 (fpow (dgen dm) i) = Ok (nth i ws v0, nth i vs f0).
Proof.
  assert (Y : match multi_open_rou_eval_domain F97 5 (e97 28) 3 5 with Ok _ => true | _ => false end = true) by (vm_compute; reflexivity).
  destruct (multi_open_rou_eval_domain F97 5 (e97 28) 3 5) as [dm| |] eqn:E; [|discriminate|discriminate].
  destruct (C51_eval_domain F97 5 (e97 28) root97 _ _ _ E) as ((m & Em) & H1 & H2 & _).
  destruct (C51_multi_open_rou F97 5 (e97 28) S97 S97 (e97 5) (e97 3) (e97 7) 6 4 3 1 _ _ p97 5 m dm (pv97_ok 3 1 ltac:(lia) ltac:(lia)) p97_norm)
    as (ws & vs & H); auto.
  exists dm, ws, vs. auto.
Qed.
Example C51_many_points_case : multi_open F97 5 (e97 28) S97 (fst (pv97 4 1)) p97 (repeat (e97 2) 25) = Panic.
Proof.
  apply (C51_many_points_refuted F97 5 (e97 28) S97 S97 root97 (e97 5) (e97 3) (e97 7) 6 4 3 _ (snd (pv97 4 1)) p97 (repeat (e97 2) 25)).
  - exact (pv97_ok 4 1 ltac:(lia) ltac:(lia)).
  - apply p97_norm.
  - cbn. lia.
  - vm_compute. lia.
  - vm_compute. lia.
  - discriminate.
Qed.
Example C51_exact_trim_case zs : multi_open F97 5 (e97 28) S97 (fst (pv97 5 1)) (l97 [1; 2; 0; 5; 0; 7]%Z) zs = Err InvalidParameters.
Proof.
  apply (C51_exact_trim_refuted F97 5 (e97 28) S97 S97 (e97 5) (e97 3) (e97 7) 6 4 5 1 _ _ (l97 [1; 2; 0; 5; 0; 7]%Z) zs
    (pv97_ok 5 1 ltac:(lia) ltac:(lia)) eq_refl). vm_compute. lia.
Qed.

Print Assumptions C46_trim.
Print Assumptions C46_open_verify.
Print Assumptions C46_batch_open.
Print Assumptions C47_verify_exact.
Print Assumptions C47_wrong_value.
Print Assumptions C47_two_values.
Print Assumptions C48_refuses.
Print Assumptions C48_every_coefficient.
Print Assumptions C48_binding.
Print Assumptions C48_top_degree_refuted.
Print Assumptions C49_complete.
Print Assumptions C49_sound_one.
Print Assumptions C49_single_invalid.
Print Assumptions C49_sound.
Print Assumptions C49_truncates_refuted.
Print Assumptions C50_complete.
Print Assumptions C50_wrong_values.
Print Assumptions C50_refusals.
Print Assumptions C51_multi_open.
Print Assumptions C51_many_points_refuted.
Print Assumptions C51_multi_open_rou.
Print Assumptions C51_eval_domain.
Print Assumptions C51_exact_trim_refuted.
