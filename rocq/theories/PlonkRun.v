(** An honest run of the batched prover makes the verifier's check hold.  Used by C57. *)
From Coq Require Import String List Arith ZArith Lia Bool Ring Field.
From Verif Require Import Base ListAux Alg Poly VRing KzgModel KzgProofs KzgFft CircuitModel CircuitProofs SatProofs FinalModel PermProofs
  CosetProofs FinalProps PlonkModel LagrangeProofs PlonkPoly PlonkInst PlonkLin PlonkOpen PlonkCheck PlonkVanish PlonkRounds.
Import ListNotations.

Lemma seq_repr {A} (l : list A) d k : length l = k -> l = map (fun i => nth i l d) (seq 0 k).
Proof.
  intros <-. induction l as [|a l IH]; [reflexivity|]. cbn [length seq map nth]. f_equal. rewrite <- seq_shift, map_map. exact IH.
Qed.
Lemma combine_seq {A B} (l : list A) (l' : list B) d d' k : length l = k -> length l' = k ->
  combine l l' = map (fun i => (nth i l d, nth i l' d')) (seq 0 k).
Proof.
  intros H H'. rewrite (seq_repr l d k H) at 1. rewrite (seq_repr l' d' k H') at 1.
  clear. induction (seq 0 k) as [|x l0 IH]; [reflexivity|]. cbn [map combine]. now rewrite IH.
Qed.
Lemma fold_res_plain {X A B} (f : B -> nat -> outcome X B) (f' : B -> A -> outcome X B) (l : list A) : forall s st,
  (forall st i a, nth_error l i = Some a -> f st (s + i)%nat = f' st a) ->
  fold_res f (seq s (length l)) st = fold_res f' l st.
Proof.
  induction l as [|a l IH]; intros s st H; [reflexivity|]. cbn [length seq fold_res].
  pose proof (H st 0%nat a eq_refl) as E. rewrite Nat.add_0_r in E. rewrite E. destruct (f' st a); cbn [bind]; auto.
  apply IH. intros st' i a' Hi. rewrite Nat.add_succ_l, <- Nat.add_succ_r. apply (H st' (S i)). exact Hi.
Qed.
Lemma fold_res_map {X A B C} (f : B -> C -> outcome X B) (h : A -> C) l : forall st,
  fold_res f (map h l) st = fold_res (fun st a => f st (h a)) l st.
Proof. induction l as [|a l IH]; intro st; [reflexivity|]. cbn [map fold_res]. destruct (f st (h a)); cbn [bind]; auto. Qed.
Lemma fold_res_ext_in {X A B} (f f' : B -> A -> outcome X B) l : (forall st a, In a l -> f st a = f' st a) -> forall st,
  fold_res f l st = fold_res f' l st.
Proof.
  induction l as [|a l IH]; intros H st; [reflexivity|]. cbn [fold_res]. rewrite (H st a) by now left.
  destruct (f' st a); cbn [bind]; auto. apply IH. intros; apply H; now right.
Qed.
Lemma existsb_map {A B} (f : B -> bool) (h : A -> B) l : existsb f (map h l) = existsb (fun a => f (h a)) l.
Proof. induction l; cbn; congruence. Qed.
Lemma existsb_ext_in {A} (f h : A -> bool) l : (forall a, In a l -> f a = h a) -> existsb f l = existsb h l.
Proof. induction l as [|a l IH]; intro H; [reflexivity|]. cbn. rewrite (H a) by now left. rewrite IH; auto. intros; apply H; now right. Qed.

Section Run.
  Variable K : fld.
  Local Open Scope fld_scope.
  Add Field Krun : (fth K).
  Notation pol := (list K).
  Variables V1 V2 : vsp K.
  Variable T : transcript K V1 V2.
  Variable ta : nat.
  Variable root fgen : K.
  Variable coset_rnd : list K.
  Hypothesis Hroot : root_ok K ta root.
  Hypothesis Hfgen : fgen <> 0.
  Notation circuit := (circuit K).
  Notation pkey := (pkey K V1 V2).
  Notation vkof := (pk_vk K V1 V2).
  Notation eval_domain := (eval_domain K ta root).
  Notation lkp := (pk_plookup K V1 V2).
  Notation ws := (or_wires K).
  Variables (b : K) (gg : V1) (d : dom K).
  Notation Cm := (Cm K V1 b gg).
  Notation n := (dsize d).
  Notation ck := (tpowers K V1 b gg (dsize d + 3)).

  (** A circuit with a proving key made for it and its public input. *)
  Record inst_ok (c : circuit) (pk : pkey) (pub : list K) : Prop := {
    ik_prov : provable K c;
    ik_dom : eval_domain c = Ok d;
    ik_key : key_sem K V1 V2 coset_rnd d c pk;
    ik_comms : vk_comms K V1 V2 b gg pk;
    ik_ck : pk_ck K V1 V2 pk = ck;
    ik_pub : public_input c = Ok pub;
    ik_pi : forall z, evaluate_pi_poly K d pub z (vk_merged K V1 V2 (vkof pk)) = Ok (peval (ipoly K d (pub_input_vec K c)) z) }.
  Definition insts_ok (cs : list circuit) (pks : list pkey) (pubs : list (list K)) : Prop :=
    length pks = length cs /\ length pubs = length cs /\
    forall i c pk pub, nth_error cs i = Some c -> nth_error pks i = Some pk -> nth_error pubs i = Some pub -> inst_ok c pk pub.

  (** The transcript has no failing appends or challenges. *)
  Definition t_total : Prop :=
    (forall s l c, exists s', t_commitment K V1 V2 T s l c = Ok s') /\ (forall s l, exists xs, t_challenge K V1 V2 T s l = Ok xs).

  Notation op := (oracles K * pkey * list K)%type.
  Notation oco o := (fst (fst o)).
  Notation pko o := (snd (fst o)).

  Section Weights.
    Variables (nw : nat) (tau : option K) (al be ga ze A : K).
    Lemma tot_wsum (ops : list op) x : forall ab,
      tot K V1 V2 d tau al be ga A (map fst ops) ab x
      = wsum K V1 V2 (fun o => inst_num K V1 V2 d tau al be ga (oco o) (pko o) x) (combine ops (alpha_bases_from K ab A (length ops))).
    Proof.
      unfold wsum. induction ops as [|o ops IH]; intro ab; [reflexivity|]. cbn [map tot length alpha_bases_from combine]. rewrite fsum_cons, IH. reflexivity.
    Qed.
    Lemma wsum_ext (f f' : op -> K) wl : (forall oa, In oa wl -> f (fst oa) = f' (fst oa)) -> wsum K V1 V2 f wl = wsum K V1 V2 f' wl.
    Proof. intro H. unfold wsum. apply fsum_map_ext. intros oa Ho. now rewrite H. Qed.
    Lemma wsum_add (f f' : op -> K) wl : wsum K V1 V2 (fun o => f o + f' o) wl = wsum K V1 V2 f wl + wsum K V1 V2 f' wl.
    Proof. unfold wsum. rewrite <- fsum_map_add. apply fsum_map_ext. intros. ring. Qed.
    Lemma length_bases ab k : length (alpha_bases_from K ab A k) = k.
    Proof. revert ab. induction k as [|k IH]; intro ab; cbn; auto. Qed.
    Lemma map_fst_combine {X Y} (l : list X) (l' : list Y) : length l = length l' -> map fst (combine l l') = l.
    Proof. revert l'. induction l as [|x l IH]; intros [|y l'] H; cbn in *; try lia; auto. f_equal. apply IH. lia. Qed.
    Lemma map_snd_combine {X Y} (l : list X) (l' : list Y) : length l = length l' -> map snd (combine l l') = l'.
    Proof. revert l'. induction l as [|x l IH]; intros [|y l'] H; cbn in *; try lia; auto. f_equal. apply IH. lia. Qed.

    Lemma lin_fold (ops : list op) qd ch : ch_tau K ch = tau -> ch_alpha K ch = al -> ch_beta K ch = be -> ch_gamma K ch = ga -> ch_zeta K ch = ze ->
      dom_ok K d -> (2 <= n)%nat -> (forall o, In o ops -> shape K V1 V2 d nw (oco o) (pko o)) ->
      (forall o ab, In o ops -> next_alpha_base K ch (is_some (lkp (pko o))) ab = ab * A) ->
      forall acc ab res, (length acc <= n + 3)%nat ->
      fold_res (fun la (o : op) =>
         let* l := lin_instance K V1 V2 (mk_prover K d qd) (snd la) (pko o) ch (oco o) (pevals K V1 V2 d ze (oco o) (pko o) nw)
                     (opt_levals K V1 V2 d ze (oco o) (pko o)) in
         Ok (paddp K (fst la) l, next_alpha_base K ch (is_some (opt_levals K V1 V2 d ze (oco o) (pko o))) (snd la))) ops (acc, ab) = Ok res ->
      (length (fst res) <= n + 3)%nat /\
      forall y, peval (fst res) y = peval acc y + wsum K V1 V2 (fun o => lin_at K V1 V2 d tau al be ga ze (oco o) (pko o) nw y) (combine ops (alpha_bases_from K ab A (length ops))).
    Proof.
      intros C1 C2 C3 C4 C5 Hd Hn. unfold wsum. induction ops as [|o ops IH]; intros Hs HA acc ab res La E; cbn [fold_res] in E.
      - apply Ok_inj in E. rewrite <- E. cbn. split; [exact La|]. intro y. ring.
      - apply bind_ok in E as (st & Est & E). apply bind_ok in Est as (l & El & Est). apply Ok_inj in Est. rewrite <- Est in E. cbn [fst snd] in E, El.
        replace (is_some (opt_levals K V1 V2 d ze (oco o) (pko o))) with (is_some (lkp (pko o))) in E by (unfold opt_levals; destruct (lkp (pko o)); reflexivity).
        rewrite HA in E by now left.
        apply (lin_instance_ok K V1 V2 d Hd tau al be ga ze) in El; auto; [|apply Hs; now left]. destruct El as [Ll El].
        apply IH in E; [|intros; apply Hs; now right|intros; apply HA; now right|].
        + destruct E as [Lr Er]. split; [exact Lr|]. intro y. rewrite Er. cbn [length alpha_bases_from combine map]. rewrite fsum_cons, peval_paddp, El.
          cbn [fst snd]. ring.
        + pose proof (length_paddp K acc l). lia.
    Qed.
  End Weights.

  Theorem run_ok rnd cs pks pubs extra bp ocs ch : (2 <= n)%nat -> insts_ok cs pks pubs -> t_total ->
    batch_prove_internal K V1 V2 T ta root fgen coset_rnd rnd cs pks extra = Ok (bp, ocs, ch) ->
    radix2_new K ta root n = Some d /\ cs <> []
    /\ (length (bp_wires K V1 bp) = length cs /\ length (bp_perms K V1 bp) = length cs /\ length (bp_evals K V1 bp) = length cs
         /\ length (bp_plookups K V1 bp) = length cs) /\
    exists info, prepare_pcs_info K V1 V2 T d (map vkof pks) pubs bp extra = Ok info
      /\ forall VT (e : pairing K V1 V2 VT) h ok, vk_for K V1 V2 b gg h 2 ok -> info_err K V1 V2 VT e ok info = v0.
  Proof.
    intros Hn (Lpk & Lpub & HI) (TC & TG) H. unfold batch_prove_internal in H.
    destruct (Nat.eqb_spec (length cs) 0) as [|Hk]; [discriminate|].
    destruct (Nat.eqb_spec (length cs) (length pks)) as [_|]; [cbn [negb] in H|lia].
    set (k := length cs) in *. cbv zeta in H.
    apply bind_ok in H as (c0 & Hc0 & H). apply bind_ok in H as (pk0 & Hpk0 & H). apply bind_ok in H as (d0 & Hd0 & H).
    set (C i := nth i cs c0). set (PK i := nth i pks pk0). set (PB i := nth i pubs []).
    assert (Inst : forall i, (i < k)%nat -> inst_ok (C i) (PK i) (PB i)).
    { intros i Hi. apply (HI i); apply nth_error_nth'; lia. }
    assert (IC : forall i, (i < k)%nat -> @index perr _ cs i = Ok (C i)) by (intros; apply index_lt; auto).
    assert (IPK : forall i, (i < k)%nat -> @index perr _ pks i = Ok (PK i)) by (intros; apply index_lt; lia).
    assert (C0 : C 0%nat = c0). { rewrite (IC 0%nat) in Hc0 by lia. now apply Ok_inj in Hc0. }
    assert (PK0 : PK 0%nat = pk0). { rewrite (IPK 0%nat) in Hpk0 by lia. now apply Ok_inj in Hpk0. }
    pose proof (Inst 0%nat ltac:(lia)) as I0. rewrite C0, PK0 in I0.
    rewrite (ik_dom _ _ _ I0) in Hd0. apply Ok_inj in Hd0. subst d0.
    assert (Rd : radix2_new K ta root n = Some d).
    { pose proof (ik_dom _ _ _ I0) as E. unfold PlonkModel.eval_domain in E. destruct (is_finalized c0); [|discriminate]. apply expect_ok in E.
      eapply radix2_again; eauto. }
    assert (Hd : dom_ok K d) by (eapply radix2_ok; eauto).
    split; [exact Rd|]. split; [intro; subst cs; now apply Hk|].
    set (nw := num_wire_types c0) in *.
    apply bind_ok in H as (chk & Hchk & H). apply bind_ok in H as (pis & Hpis & H). apply bind_ok in H as (s0 & Hs0 & H).
    apply bind_ok in H as (pr & Hpr & H).
    destruct (prover_new_ok K ta root Hroot n nw pr d ltac:(lia) Rd eq_refl Hpr) as (qd & r & -> & Hqd & Hr & Hr1 & Hg & Hm). clear Hpr.
    assert (Lpis : pis = pubs).
    { apply map_res_ok in Hpis as [Lp Np]. rewrite (seq_repr pis [] k Lp), (seq_repr pubs [] k Lpub). apply map_ext_in. intros i Hi. apply in_seq in Hi.
      specialize (Np i (C i) [] ltac:(apply nth_error_nth'; lia)). rewrite (ik_pub _ _ _ (Inst i ltac:(lia))) in Np. cbn in Np. symmetry. now apply Ok_inj in Np. }
    subst pis. clear Hpis.
    assert (NW : forall i, (i < k)%nat -> num_wire_types (C i) = nw /\ support_lookup (C i) = is_some (lkp (PK i))).
    { intros i Hi. apply map_res_ok in Hchk as [_ Nc].
      specialize (Nc i (C i, PK i) tt). rewrite (nth_error_nth' _ (c0, pk0)) in Nc by (rewrite combine_length; lia).
      rewrite combine_nth in Nc by (fold k; lia). specialize (Nc eq_refl). cbn [fst snd] in Nc. unfold check_instance in Nc.
      rewrite (ik_dom _ _ _ (Inst i Hi)) in Nc. cbn [bind] in Nc.
      apply bind_ok in Nc as (u1 & _ & Nc). apply bind_ok in Nc as (u2 & _ & Nc). apply bind_ok in Nc as (u3 & _ & Nc).
      apply bind_ok in Nc as (u4 & H4 & Nc). apply guard_ok in H4. apply guard_ok in Nc. apply Nat.eqb_eq in Nc. apply eqb_prop in H4. auto. }
    clear Hchk.
    (* rounds 1 and 1.5 *)
    apply bind_ok in H as (r1 & Hr1' & H). apply bind_ok in H as (s1 & Hs1 & H). apply bind_ok in H as ([tau s15] & Htau & H). cbn [fst snd] in H.
    apply bind_ok in H as (r15 & Hr15 & H). apply bind_ok in H as (s2 & Hs2 & H).
    apply bind_ok in H as ([be sb] & Hbe & H). apply bind_ok in H as ([ga sg] & Hga & H). cbn [fst snd] in H, Hga.
    apply bind_ok in H as (r2 & Hr2 & H). apply bind_ok in H as (s3 & Hs3 & H).
    apply bind_ok in H as (r25 & Hr25 & H). apply bind_ok in H as (s4 & Hs4 & H).
    apply bind_ok in H as (ocs' & Hocs & H). apply bind_ok in H as ([al sa] & Hal & H). cbn [fst snd] in H.
    apply bind_ok in H as ([qc qs] & Hr3 & H). cbn [fst snd] in H. apply bind_ok in H as (s5 & Hs5 & H).
    apply bind_ok in H as ([ze sz] & Hze & H). cbn [fst snd] in H. apply bind_ok in H as (s6 & Hs6 & H).
    apply bind_ok in H as (les & Hles & H). apply bind_ok in H as (s7 & Hs7 & H). apply bind_ok in H as (lq & Hlq & H).
    apply bind_ok in H as ([lin lab] & Hlin & H). apply bind_ok in H as ([v sv] & Hv & H). cbn [fst snd] in H.
    apply bind_ok in H as ([W W'] & HW & H). apply bind_ok in H as (lks & Hlks & H). cbn [fst snd] in H.
    apply Ok_inj in H. injection H as Hbp -> Hch. clear Hch ch.
    set (OC i := nth i ocs (mk_or K [] [] [] [] [])).
    apply (map_res_seq _ _ _ ([], [], [])) in Hr1' as [L1 N1]. apply (map_res_seq _ _ _ None) in Hr15 as [L15 N15].
    apply (map_res_seq _ _ _ (v0, [])) in Hr2 as [L2 N2]. apply (map_res_seq _ _ _ None) in Hr25 as [L25 N25].
    apply (map_res_seq _ _ _ (mk_or K [] [] [] [] [])) in Hocs as [Loc Noc]. apply (map_res_seq _ _ _ None) in Hles as [Lles Nles].
    apply (map_res_seq _ _ _ None) in Hlks as [Llks Nlks].
    (* what each instance's oracles are *)
    assert (Hon : forall i, (i < k)%nat ->
       honest K d tau be ga (vk_k K V1 V2 (vkof (PK i))) (C i) (OC i)
       /\ fst (fst (nth i r1 ([], [], []))) = map Cm (ws (OC i)) /\ fst (nth i r2 (v0, [])) = Cm (or_z K (OC i))
       /\ or_pi K (OC i) = ipoly K d (pub_input_vec K (C i))
       /\ nth i r15 None = (if support_lookup (C i) then Some (map Cm (or_h K (OC i)), or_h K (OC i),
              match nth i r15 None with Some (_, _, s, _) => s | None => [] end, match nth i r15 None with Some (_, _, _, t) => t | None => [] end) else None)
       /\ nth i r25 None = (if support_lookup (C i) then Some (Cm (or_prod K (OC i)), or_prod K (OC i)) else None)).
    { intros i Hi. pose proof (Inst i Hi) as I. destruct (NW i Hi) as [Ew Es].
      pose proof (km_dom _ _ _ _ _ _ _ (ik_key _ _ _ I)) as Hdc. pose proof (pv_cols _ _ (ik_prov _ _ _ I)) as Hcol.
      specialize (N1 i Hi). rewrite IC, IPK in N1 by auto. cbn [bind] in N1. rewrite (ik_ck _ _ _ I) in N1.
      specialize (N15 i Hi). rewrite IC, IPK in N15 by auto. cbn [bind] in N15. rewrite (ik_ck _ _ _ I) in N15.
      specialize (N2 i Hi). rewrite IC, IPK in N2 by auto. cbn [bind] in N2. rewrite (ik_ck _ _ _ I) in N2.
      specialize (N25 i Hi). rewrite IC, IPK in N25 by auto. cbn [bind] in N25. rewrite (ik_ck _ _ _ I) in N25.
      specialize (Noc i Hi). rewrite (index_lt r1 i ([], [], [])), (index_lt r15 i None), (index_lt r2 i (v0, [])), (index_lt r25 i None) in Noc by lia.
      cbn [bind] in Noc. apply Ok_inj in Noc. fold (OC i) in Noc.
      rewrite (index_lt r15 i None) in N25 by lia. cbn [bind] in N25.
      destruct (nth i r1 ([], [], [])) as [[cm1 w1] pi1]. destruct (nth i r2 (v0, [])) as [cm2 z2]. cbn [fst snd] in *.
      destruct (round1_ok K V1 ta root d qd b gg Hd (C i) (ik_dom _ _ _ I) Hdc Hcol rnd i cm1 w1 pi1 N1) as (A1 & A2 & A3 & A4 & A5).
      destruct (round2_ok K V1 ta root coset_rnd d qd b gg Hd (C i) (ik_dom _ _ _ I) Hdc rnd i be ga (vk_k K V1 V2 (vkof (PK i))) cm2 z2 (km_k _ _ _ _ _ _ _ (ik_key _ _ _ I)) N2) as (B1 & B2 & B3 & B4).
      destruct (support_lookup (C i)) eqn:Esl.
      - apply bind_ok in N15 as (t & Ht & N15). apply expect_ok in Ht. apply bind_ok in N15 as ([[[hc hs] s] tb] & N15 & E15). apply Ok_inj in E15.
        rewrite <- E15 in *. cbn [option_map fst snd] in N25. apply bind_ok in N25 as ([cm25 p25] & N25 & E25). apply Ok_inj in E25. rewrite <- E25 in *.
        cbn [fst snd] in *.
        destruct (round15_ok K V1 ta root d qd b gg Hd (C i) (ik_dom _ _ _ I) Hdc rnd i t hc hs s tb N15) as (D1 & D2 & D3 & rt & D4 & D5 & D6 & D7).
        rewrite Ht, D5 in N25.
        destruct (round25_ok K V1 ta root d qd b gg Hd (C i) (ik_dom _ _ _ I) Hdc rnd i t be ga s rt cm25 p25 D6 N25) as (G1 & G2 & G3 & G4).
        rewrite <- Noc. cbn [or_wires or_pi or_z or_h or_prod]. rewrite <- A1, <- B1, <- D1, <- G1. split; [|repeat split; auto].
        constructor; cbn [or_wires or_pi or_z or_h or_prod]; auto.
        + rewrite A5. now apply length_ipoly.
        + intro x. now rewrite A5.
        + intros _. exists t. split; [exact Ht|]. constructor; cbn [or_h or_prod]; auto.
          exists rt, s. split; [auto|]. split; [auto|]. split; [auto|]. intros j Hj. destruct (D7 j Hj). rewrite G4 by auto. auto.
      - apply Ok_inj in N15. apply Ok_inj in N25. rewrite <- N15, <- N25 in *.
        rewrite <- Noc. cbn [or_wires or_pi or_z or_h or_prod]. rewrite <- A1, <- B1. split; [|repeat split; auto].
        constructor; cbn [or_wires or_pi or_z or_h or_prod]; auto.
        + rewrite A5. now apply length_ipoly.
        + intro x. now rewrite A5.
        + congruence. }
    assert (Sh : forall i, (i < k)%nat -> shape K V1 V2 d nw (OC i) (PK i)).
    { intros i Hi. destruct (Hon i Hi) as [Ho _]. destruct (NW i Hi) as [Ew _]. rewrite <- Ew. eapply shape_ok; eauto. apply (ik_key _ _ _ (Inst i Hi)). }
    (* the operands *)
    set (ops := map (fun i => (OC i, PK i, PB i)) (seq 0 k)).
    assert (Lops : length ops = k) by (unfold ops; now rewrite map_length, seq_length).
    assert (Oin : forall o, In o ops -> exists i, (i < k)%nat /\ o = (OC i, PK i, PB i)).
    { intros o Ho. unfold ops in Ho. apply in_map_iff in Ho as (i & <- & Hi). apply in_seq in Hi. exists i. split; [lia|reflexivity]. }
    assert (Onth : forall i o, nth_error ops i = Some o -> (i < k)%nat /\ o = (OC i, PK i, PB i)).
    { intros i o Hi. assert (i < k)%nat by (rewrite <- Lops; apply nth_error_Some; congruence). split; auto.
      apply (nth_error_nth _ _ (mk_or K [] [] [] [] [], pk0, [])) in Hi. rewrite <- Hi. unfold ops. now rewrite nth_map_seq. }
    assert (Emv : map (fun o : op => vkof (pko o)) ops = map vkof pks).
    { unfold ops. rewrite map_map. cbn [fst snd]. rewrite (seq_repr pks pk0 k Lpk), map_map. reflexivity. }
    assert (Emp : map snd ops = pubs).
    { unfold ops. rewrite map_map. cbn [snd]. symmetry. now apply seq_repr. }
    assert (Ecomb : combine ocs pks = map fst ops).
    { rewrite (combine_seq ocs pks (mk_or K [] [] [] [] []) pk0 k Loc Lpk). unfold ops. rewrite map_map. reflexivity. }
    set (A := if (nw =? 6)%nat then al * al * al * (al * al * (al * al)) else al * al * al).
    assert (HA : forall o (ch : challenges K) ab, ch_alpha K ch = al -> In o ops -> next_alpha_base K ch (is_some (lkp (pko o))) ab = ab * A).
    { intros o ch ab Ea Ho. apply Oin in Ho as (i & Hi & ->). cbn [fst snd]. pose proof (sh_nw _ _ _ _ _ _ _ (Sh i Hi)) as Enw.
      unfold next_alpha_base, A. rewrite Ea, Enw. destruct (lkp (PK i)); cbn [is_some Nat.eqb]; ring. }
    set (chz := mk_ch K tau al be ga ze 0 0) in *.
    (* round 3 *)
    unfold run_3rd_round in Hr3. apply bind_ok in Hr3 as (q & Hq & Hr3). apply bind_ok in Hr3 as (ps & Hps & Hr3). apply bind_ok in Hr3 as (cs3 & Hcs3 & Hr3).
    apply Ok_inj in Hr3. injection Hr3 as -> ->.
    rewrite (ik_ck _ _ _ I0) in Hcs3.
    assert (Hnw : (5 <= nw <= 6)%nat) by (unfold nw, num_wire_types; destruct (ptype c0); lia).
    apply (quotient_ok K V1 V2 d qd r fgen Hd Hqd Hr Hr1 Hg tau al be ga A) in Hq; auto; try lia.
    2:{ nia. }
    2:{ intros x Hx. rewrite Ecomb in Hx. apply in_map_iff in Hx as (o & <- & Ho). apply Oin in Ho as (i & Hi & ->). cbn [fst snd]. auto. }
    2:{ intros x ab Hx. rewrite Ecomb in Hx. apply in_map_iff in Hx as (o & <- & Ho). now apply HA. }
    2:{ intros x j Hx Hj. rewrite Ecomb in Hx. apply in_map_iff in Hx as (o & <- & Ho). apply Oin in Ho as (i & Hi & ->). cbn [fst snd].
        destruct (Hon i Hi) as [Ho _]. eapply inst_zero; eauto; apply (Inst i Hi). }
    destruct Hq as [Htau' Hq]. rewrite Ecomb in Hq, Htau'.
    apply split_spec in Hps; [|lia|cbn [pr_dom]; lia]. cbn [pr_dom] in Hps. destruct Hps as (Lqs & Bqs & Eqs).
    assert (Bq : forall p, In p qs -> (length p <= n + 3)%nat) by (intros p Hp; destruct (Bqs p Hp); lia). clear Bqs.
    apply lift_pcs_ok, batch_commit_ok in Hcs3; [|exact Bq].
    (* rounds 4 and 5 *)
    assert (Eev : map (fun op => compute_evaluations K V1 V2 (mk_prover K d qd) (snd op) ze (fst op) nw) (combine ocs pks)
                  = map (fun o : op => pevals K V1 V2 d ze (oco o) (pko o) nw) ops) by (rewrite Ecomb, map_map; reflexivity).
    rewrite Eev in *. clear Eev.
    assert (Eles : les = map (fun o : op => opt_levals K V1 V2 d ze (oco o) (pko o)) ops).
    { unfold ops. rewrite map_map. rewrite (seq_repr les None k Lles). apply map_ext_in. intros i Hi. apply in_seq in Hi. cbn [fst snd].
      assert (Hi' : (i < k)%nat) by lia. specialize (Nles i Hi'). rewrite IC, IPK, (index_lt ocs i (mk_or K [] [] [] [] [])) in Nles by lia. cbn [bind] in Nles.
      fold (OC i) in Nles. destruct (NW i Hi') as [_ Es]. unfold opt_levals. destruct (lkp (PK i)) as [lp|] eqn:El; rewrite Es in Nles; cbn [is_some] in Nles.
      - apply bind_ok in Nles as (le & Hle & E). apply Ok_inj in E. rewrite <- E. cbn [option_map]. f_equal.
        exact (plookup_evals_ok K V1 V2 d ze nw _ _ _ _ _ (Sh i Hi') El Hle).
      - apply Ok_inj in Nles. now rewrite <- Nles. }
    apply (lin_quot_ok K d (n + 3) ze qs) in Hlq as (Hqn & Llq & Elq); [|exact Bq].
    rewrite <- Lops in Hlin.
    rewrite (fold_res_plain _ (fun la (o : op) =>
         let* l := lin_instance K V1 V2 (mk_prover K d qd) (snd la) (pko o) chz (oco o) (pevals K V1 V2 d ze (oco o) (pko o) nw)
                     (opt_levals K V1 V2 d ze (oco o) (pko o)) in
         Ok (paddp K (fst la) l, next_alpha_base K chz (is_some (opt_levals K V1 V2 d ze (oco o) (pko o))) (snd la))) ops) in Hlin.
    2:{ intros st i o Hi. cbn [Nat.add]. pose proof Hi as Hi0. apply Onth in Hi as [Hi ->]. cbn [fst snd].
        rewrite IPK, (index_lt ocs i (mk_or K [] [] [] [] [])) by lia. cbn [bind]. rewrite (index_map _ _ i _ Hi0). cbn [bind]. rewrite Eles.
        rewrite (index_map _ _ i _ Hi0). cbn [bind fst snd]. reflexivity. }
    apply (lin_fold nw tau al be ga ze A ops qd chz) in Hlin; [|reflexivity|reflexivity|reflexivity|reflexivity|reflexivity|exact Hd|exact Hn| | |exact Llq].
    2:{ intros o Ho. apply Oin in Ho as (i & Hi & ->). cbn [fst snd]. auto. }
    2:{ intros o ab Ho. now apply HA. }
    destruct Hlin as [Llin Elin]. cbn [fst] in Llin, Elin.
    set (wl := combine ops (alpha_bases_from K 1 A (length ops))) in *.
    assert (Lb : length ops = length (alpha_bases_from K 1 A (length ops))) by now rewrite length_bases.
    assert (Ewf : map fst wl = ops) by now apply map_fst_combine.
    assert (Ews : map snd wl = alpha_bases_from K 1 A (length wl)).
    { unfold wl at 1. rewrite map_snd_combine by auto. f_equal. unfold wl. now rewrite combine_length, <- Lb, Nat.min_id. }
    (* opening proofs *)
    unfold compute_opening_proofs in HW. destruct (_ || _) in HW; [discriminate|].
    apply bind_ok in HW as (ps1 & Hps1 & HW). apply bind_ok in HW as (w1 & Hw1 & HW). apply bind_ok in HW as (ps2 & Hps2 & HW).
    apply bind_ok in HW as (w2 & Hw2 & HW). apply Ok_inj in HW. injection HW as -> ->. cbn [pr_dom] in Hw2.
    rewrite Ecomb in Hps1, Hps2. rewrite (ik_ck _ _ _ I0) in Hw1, Hw2.
    assert (E1 : concat ps1 = OP K V1 V2 nw ops).
    { unfold OP. f_equal. apply map_res_ok in Hps1 as [La Na]. rewrite map_length in La. rewrite (seq_repr ps1 [] k) by lia. unfold ops at 1. rewrite map_map.
      apply map_ext_in. intros i Hi. apply in_seq in Hi. cbn [fst snd]. specialize (Na i (OC i, PK i) []).
      apply (open_polys_ok K V1 V2 d nw); [apply Sh; lia|]. apply Na. unfold ops. rewrite map_map. cbn [fst].
      rewrite (nth_error_nth' _ (OC 0%nat, PK 0%nat)) by (rewrite map_length, seq_length; lia). now rewrite nth_map_seq by lia. }
    assert (E2 : concat ps2 = SP K V1 V2 ops).
    { unfold SP. f_equal. apply map_res_ok in Hps2 as [La Na]. rewrite map_length in La. rewrite (seq_repr ps2 [] k) by lia. unfold ops at 1. rewrite map_map.
      apply map_ext_in. intros i Hi. apply in_seq in Hi. cbn [fst snd]. specialize (Na i (OC i, PK i) []).
      apply (shifted_open_polys_ok K V1 V2 d nw); [apply Sh; lia|]. apply Na. unfold ops. rewrite map_map. cbn [fst].
      rewrite (nth_error_nth' _ (OC 0%nat, PK 0%nat)) by (rewrite map_length, seq_length; lia). now rewrite nth_map_seq by lia. }
    rewrite E1 in Hw1. rewrite E2 in Hw2. clear ps1 ps2 Hps1 Hps2 E1 E2.
    apply witness_ok in Hw1.
    2:{ intros p [<-|Hp]; [exact Llin|]. unfold OP in Hp. apply in_concat in Hp as (l & Hl & Hp). apply in_map_iff in Hl as (o & <- & Ho).
        apply Oin in Ho as (i & Hi & ->). cbn [fst snd] in Hp. eapply open_l_len; eauto. }
    apply witness_ok in Hw2.
    2:{ intros p Hp. unfold SP in Hp. apply in_concat in Hp as (l & Hl & Hp). apply in_map_iff in Hl as (o & <- & Ho).
        apply Oin in Ho as (i & Hi & ->). cbn [fst snd] in Hp. eapply shift_l_len; eauto. }
    destruct Hw1 as (w & -> & Dw). destruct Hw2 as (w' & -> & Dw').
    (* the proof *)
    assert (Elks : lks = map (fun o : op => lkproof K V1 V2 b gg d ze (oco o) (pko o)) ops).
    { unfold ops. rewrite map_map. rewrite (seq_repr lks None k Llks). apply map_ext_in. intros i Hi. apply in_seq in Hi. cbn [fst snd].
      assert (Hi' : (i < k)%nat) by lia. specialize (Nlks i Hi'). rewrite IC in Nlks by lia. cbn [bind] in Nlks.
      destruct (NW i Hi') as [_ Es]. destruct (Hon i Hi') as (_ & _ & _ & _ & E15 & E25). unfold lkproof.
      destruct (lkp (PK i)) as [lp|] eqn:El; rewrite Es in *; cbn [is_some] in *.
      - rewrite (index_lt r15 i None), (index_lt r25 i None), (index_lt les i None) in Nlks by lia. cbn [bind] in Nlks.
        rewrite E15, E25 in Nlks. cbn [bind expect] in Nlks. apply bind_ok in Nlks as (le & Hle & E). apply Ok_inj in E. rewrite <- E. cbn [option_map fst snd].
        apply expect_ok in Hle. rewrite Eles in Hle. unfold ops in Hle. rewrite map_map, nth_map_seq in Hle by lia. cbn [fst snd] in Hle.
        unfold opt_levals in Hle. rewrite El in Hle. cbn [option_map] in Hle. injection Hle as <-. reflexivity.
      - apply Ok_inj in Nlks. now rewrite <- Nlks. }
    assert (Ebp : bp = bp_of K V1 V2 b gg d ze nw ops qs (vmul w gg) (vmul w' gg)).
    { rewrite <- Hbp. unfold bp_of. f_equal.
      - rewrite (seq_repr r1 ([], [], []) k L1). unfold ops. rewrite !map_map. apply map_ext_in. intros i Hi. apply in_seq in Hi. cbn [fst snd].
        apply Hon. lia.
      - rewrite (seq_repr r2 (v0, []) k L2). unfold ops. rewrite !map_map. apply map_ext_in. intros i Hi. apply in_seq in Hi. cbn [fst snd].
        apply Hon. lia.
      - exact Elks.
      - exact Hcs3. }
    clear Hbp. split; [rewrite Ebp; cbn [bp_of bp_wires bp_perms bp_evals bp_plookups]; now rewrite !map_length, Lops|].
    (* the verifier's challenges *)
    destruct (TC sv "open_proof"%string (vmul w gg)) as (sv1 & Hv1). destruct (TC sv1 "shifted_open_proof"%string (vmul w' gg)) as (sv2 & Hv2).
    destruct (TG sv2 "u"%string) as ([u su] & Hu).
    assert (Hch : compute_challenges K V1 V2 T (map (fun o : op => vkof (pko o)) ops) (map snd ops) bp extra = Ok (ch5 K ze v tau al be ga u)).
    { rewrite Emv, Emp. unfold compute_challenges. rewrite Ebp. unfold bp_len, bp_of. cbn [bp_wires bp_perms bp_evals bp_plookups bp_quots bp_open bp_shifted].
      rewrite !map_length, Lops, Lpk, Lpub, !Nat.eqb_refl. cbn [negb orb]. rewrite Hs0. cbn [bind].
      replace (fold_res (fun s cs => t_commitments K V1 V2 T s "witness_poly_comms" cs) (map (fun o : op => map Cm (ws (oco o))) ops) s0) with (@Ok perr _ s1).
      2:{ symmetry. etransitivity; [|exact Hs1]. rewrite fold_res_map. rewrite (seq_repr r1 ([], [], []) k L1). unfold ops. rewrite !fold_res_map.
          apply fold_res_ext_in. intros st i Hi. apply in_seq in Hi. cbn [fst snd]. destruct (Hon i ltac:(lia)) as (_ & -> & _). reflexivity. }
      cbn [bind].
      replace (existsb (fun vk => is_some (vk_plookup K V1 V2 vk)) (map vkof pks)) with (existsb (fun c => support_lookup c) cs).
      2:{ rewrite existsb_map. rewrite (seq_repr cs c0 k eq_refl), (seq_repr pks pk0 k Lpk), !existsb_map. apply existsb_ext_in. intros i Hi. apply in_seq in Hi.
          destruct (NW i ltac:(lia)) as [_ Es]. fold (C i) (PK i). rewrite Es, (vc_lk _ _ _ _ _ _ (ik_comms _ _ _ (Inst i ltac:(lia)))).
          destruct (lkp (PK i)); reflexivity. }
      rewrite Htau. cbn [bind fst snd].
      replace (fold_res _ (map (fun o : op => lkproof K V1 V2 b gg d ze (oco o) (pko o)) ops) s15) with (@Ok perr _ s2).
      2:{ symmetry. etransitivity; [|exact Hs2]. rewrite fold_res_map. rewrite (seq_repr r15 None k L15). unfold ops. rewrite !fold_res_map.
          apply fold_res_ext_in. intros st i Hi. apply in_seq in Hi. cbn [fst snd]. destruct (Hon i ltac:(lia)) as (_ & _ & _ & _ & -> & _).
          destruct (NW i ltac:(lia)) as [_ ->]. unfold lkproof. destruct (lkp (PK i)); reflexivity. }
      cbn [bind]. rewrite Hbe. cbn [bind fst snd]. rewrite Hga. cbn [bind fst snd].
      replace (fold_res _ (map (fun o : op => Cm (or_z K (oco o))) ops) sg) with (@Ok perr _ s3).
      2:{ symmetry. etransitivity; [|exact Hs3]. rewrite fold_res_map. rewrite (seq_repr r2 (v0, []) k L2). unfold ops. rewrite !fold_res_map.
          apply fold_res_ext_in. intros st i Hi. apply in_seq in Hi. cbn [fst snd]. destruct (Hon i ltac:(lia)) as (_ & _ & -> & _). reflexivity. }
      cbn [bind].
      replace (fold_res _ (map (fun o : op => lkproof K V1 V2 b gg d ze (oco o) (pko o)) ops) s3) with (@Ok perr _ s4).
      2:{ symmetry. etransitivity; [|exact Hs4]. rewrite fold_res_map. rewrite (seq_repr r25 None k L25). unfold ops. rewrite !fold_res_map.
          apply fold_res_ext_in. intros st i Hi. apply in_seq in Hi. cbn [fst snd]. destruct (Hon i ltac:(lia)) as (_ & _ & _ & _ & _ & ->).
          destruct (NW i ltac:(lia)) as [_ ->]. unfold lkproof. destruct (lkp (PK i)); reflexivity. }
      cbn [bind]. rewrite Hal. cbn [bind fst snd]. rewrite Hcs3 in Hs5. 
      replace (t_commitments K V1 V2 T sa "quot_poly_comms" (map Cm qs)) with (@Ok perr _ s5) by (symmetry; exact Hs5).
      cbn [bind]. rewrite Hze. cbn [bind fst snd]. rewrite Hs6. cbn [bind].
      replace (fold_res _ (map (fun o : op => lkproof K V1 V2 b gg d ze (oco o) (pko o)) ops) s6) with (@Ok perr _ s7).
      2:{ symmetry. etransitivity; [|exact Hs7]. rewrite Eles. rewrite !fold_res_map.
          apply fold_res_ext_in. intros st o _. unfold lkproof, opt_levals. destruct (lkp (pko o)); reflexivity. }
      cbn [bind]. rewrite Hv. cbn [bind fst snd]. rewrite Hv1. cbn [bind]. rewrite Hv2. cbn [bind]. rewrite Hu. reflexivity. }
    assert (Hop : forall oa, In oa wl -> op_ok K V1 V2 b gg d ze nw tau (fst oa)).
    { intros oa Ho. assert (Ho' : In (fst oa) ops) by (rewrite <- Ewf; now apply in_map). clear Ho. revert Ho'. generalize (fst oa). intros o Ho'.
      pose proof (in_map fst _ _ Ho') as Ht. apply Oin in Ho' as (i & Hi & ->). pose proof (Inst i Hi) as I. cbn [fst snd] in Ht. constructor; cbn [fst snd].
      - now apply Sh.
      - apply (ik_comms _ _ _ I).
      - intros Hne. destruct (Htau' _ Ht Hne) as (t & ->). discriminate.
      - rewrite (km_in _ _ _ _ _ _ _ (ik_key _ _ _ I)). pose proof (ik_pub _ _ _ I) as Ep. apply map_res_ok in Ep as [Ep _]. exact Ep.
      - rewrite (ik_pi _ _ _ I). destruct (Hon i Hi) as (_ & _ & _ & -> & _). reflexivity. }
    assert (Hwl : wl <> []). { intro E. rewrite E in Ewf. cbn in Ewf. rewrite <- Ewf in Lops. cbn in Lops. lia. }
    rewrite Ebp in Hch. rewrite <- Ewf in Hch.
    destruct (prepare_ok K V1 V2 b gg d Hd ze v nw tau al be ga u T wl qs (vmul w gg) (vmul w' gg) extra A Hn Hwl Hop Hqn eq_refl Ews Hch) as (m & Em & Sm).
    rewrite Ewf, <- Ebp, Emv, Emp in Em.
    exists (mk_info K V1 u ze (ze * dgen d) (v * peval (vals K (OP K V1 V2 nw ops) ze) v + u * peval (vals K (SP K V1 V2 ops) (ze * dgen d)) v
               - wsum K V1 V2 (fun o => const_at K V1 V2 d al be ga ze (oco o) (pko o) nw) wl) m (vmul w gg) (vmul w' gg)).
    split; [exact Em|]. intros VT e h ok Hok.
    (* the value of the linearization polynomial at the challenge *)
    assert (Lz : peval lin ze = - wsum K V1 V2 (fun o => const_at K V1 V2 d al be ga ze (oco o) (pko o) nw) wl).
    { rewrite Elin, Elq, zn2_pow, <- recombine_vals, Eqs. specialize (Hq ze). rewrite tot_wsum in Hq. fold wl in Hq.
      unfold vanish_at. rewrite fpow_1, Hq.
      rewrite (wsum_ext _ (fun o => lin_at K V1 V2 d tau al be ga ze (oco o) (pko o) nw ze + const_at K V1 V2 d al be ga ze (oco o) (pko o) nw)).
      - rewrite wsum_add. ring.
      - intros oa Ho. specialize (Hop oa Ho). apply (lin_const K V1 V2 d tau al be ga ze nw); apply Hop. }
    assert (Ev : v * peval (vals K (OP K V1 V2 nw ops) ze) v + u * peval (vals K (SP K V1 V2 ops) (ze * dgen d)) v
               - wsum K V1 V2 (fun o => const_at K V1 V2 d al be ga ze (oco o) (pko o) nw) wl
             = (peval lin ze + v * peval (vals K (OP K V1 V2 nw ops) ze) v) + u * peval (vals K (SP K V1 V2 ops) (ze * dgen d)) v) by (rewrite Lz; ring).
    rewrite Ev. rewrite Ewf in Sm.
    apply (opening_valid K V1 V2 VT e b gg h ok ze (ze * dgen d) v u w w'
             (peval lin b + v * peval (vals K (OP K V1 V2 nw ops) b) v) _ (peval (vals K (SP K V1 V2 ops) b) v)).
    - apply (vkf_g _ _ _ _ _ _ _ _ Hok).
    - apply (vkf_h _ _ _ _ _ _ _ _ Hok).
    - apply (vkf_bh _ _ _ _ _ _ _ _ Hok).
    - etransitivity; [exact Dw|]. change (vals K (lin :: OP K V1 V2 nw ops) b) with (peval lin b :: vals K (OP K V1 V2 nw ops) b).
      change (vals K (lin :: OP K V1 V2 nw ops) ze) with (peval lin ze :: vals K (OP K V1 V2 nw ops) ze). cbn [peval]. ring.
    - replace (ze * dgen d) with (dgen d * ze) by ring. exact Dw'.
    - rewrite Sm. f_equal. rewrite Elin, Elq. ring.
  Qed.
End Run.
