(** C57 and C58: proofs made by the prover are accepted, one by one and in batches;
    a batch with a bad proof is accepted for few combination challenges only. *)
From Coq Require Import String List Arith ZArith Lia Bool Ring Field.
From Verif Require Import Base ListAux Alg Poly VRing KzgModel KzgProofs KzgFft CircuitModel CircuitProofs SatProofs FinalModel FinalProofs FinalizeProofs PermProofs
  CosetProofs FinalProps PlonkModel LagrangeProofs PlonkPoly PlonkInst PlonkLin PlonkOpen PlonkCheck PlonkVanish PlonkRounds PlonkAccepted PlonkRun.
Import ListNotations.

Lemma map_res_ext {X A B} (f h : A -> outcome X B) l : (forall a, f a = h a) -> map_res f l = map_res h l.
Proof. intro H. induction l as [|a l IH]; [reflexivity|]. cbn [map_res]. now rewrite H, IH. Qed.

Section Props.
  Variable K : fld.
  Local Open Scope fld_scope.
  Add Field Kpp : (fth K).
  Variables V1 V2 VT : vsp K.
  Variable e : pairing K V1 V2 VT.
  Variable T : transcript K V1 V2.
  Variable ta : nat.
  Variable root fgen : K.
  Variable coset_rnd : list K.
  Variable zval : K -> Z.
  Hypothesis Hroot : root_ok K ta root.
  Hypothesis Hfgen : fgen <> 0.
  Notation circuit := (circuit K).
  Notation pkey := (pkey K V1 V2).
  Notation vkey := (vkey K V1 V2).
  Notation proof := (proof K V1).
  Notation vkof := (pk_vk K V1 V2).
  Notation verifier_new := (verifier_new K ta root).
  Notation prepare := (prepare_pcs_info K V1 V2 T).
  Notation verify_proof := (verify_proof K V1 V2 VT e T ta root).
  Notation verify_batch_proof := (verify_batch_proof K V1 V2 VT e T ta root).
  Notation batch_verify := (batch_verify K V1 V2 VT e T ta root).
  Notation prove := (prove K V1 V2 T ta root fgen coset_rnd).
  Notation batch_prove := (batch_prove K V1 V2 T ta root fgen coset_rnd).

  (** A circuit built with the public operations and finalized, keys made for it from a
      reference string, and an assignment of its variables that the satisfiability check
      accepts.  The keys may have been made with another assignment [ws0]. *)
  Record instance (s : srs K V1 V2) (cw : circuit) (pk : pkey) (vk : vkey) (pub : list K) : Prop := {
    is_circ : exists c tabs c' ws ws0, reached c tabs /\ tables_clear c /\ io_registered K c
      /\ finalize_for_arithmetization K ta c = (Ok tt, c')
      /\ preprocess K V1 V2 ta root coset_rnd s (with_witness c' ws0) = Ok (pk, vk)
      /\ accepts zval c' ws pub /\ cw = with_witness c' ws;
    is_pub : public_input cw = Ok pub }.

  Lemma instance_ok b gg h pd vd cw pk vk pub : instance (gen_srs K V1 V2 b gg h pd vd) cw pk vk pub ->
    exists d, radix2_new K ta root (dsize d) = Some d /\ (2 <= dsize d)%nat /\ inst_ok K V1 V2 ta root coset_rnd b gg d cw pk pub
      /\ vk = vkof pk /\ vk_for K V1 V2 b gg h 2 (vk_open K V1 V2 vk) /\ vk_n K V1 V2 vk = dsize d.
  Proof.
    intros [(c & tabs & c' & ws & ws0 & R & TC & Hio & Fz & Hpre & Hacc & ->) Hpub].
    destruct (provable_finalized K zval ta c c' tabs ws pub R TC Hio Fz Hacc Hpub) as (Hprov & (l & El) & H2 & Hids & Hlen).
    change (preprocess K V1 V2 ta root coset_rnd (gen_srs K V1 V2 b gg h pd vd) (with_witness c' ws) = Ok (pk, vk)) in Hpre.
    assert (Hd : exists d, eval_domain K ta root (with_witness c' ws) = Ok d).
    { unfold preprocess in Hpre. apply bind_ok in Hpre as (d & Hd & _). eauto. }
    destruct Hd as [d Ed]. pose proof Ed as Ed'. unfold eval_domain in Ed'. destruct (is_finalized _); [|discriminate]. apply expect_ok in Ed'.
    change (radix2_new K ta root (domain c') = Some d) in Ed'.
    assert (Hn : dsize d = domain c'). { rewrite El in Ed' |- *. eapply radix2_pow2; eauto. }
    assert (Hok : dom_ok K d) by (eapply radix2_ok; eauto).
    destruct (preprocess_ok K V1 V2 ta root coset_rnd d b gg Hok (with_witness c' ws) Ed Hn (pv_gates _ _ Hprov) (pv_perm _ _ Hprov) h pd vd pk vk Hpre)
      as (-> & Hk & Hv & Hc & Hm & Ho).
    exists d. split; [eapply radix2_again; eauto|]. split; [lia|]. split; [|split; [auto|split; [auto|apply Hk]]].
    constructor; auto. intro z. rewrite Hm. apply (pi_ok K ta root (domain c') d (with_witness c' ws) pub z); auto.
  Qed.

  Definition instances s cs pks vks pubs : Prop :=
    length pks = length cs /\ length vks = length cs /\ length pubs = length cs /\
    forall i c pk vk pub, nth_error cs i = Some c -> nth_error pks i = Some pk -> nth_error vks i = Some vk -> nth_error pubs i = Some pub ->
      instance s c pk vk pub.

  Lemma eval_size c d : eval_domain K ta root c = Ok d -> radix2_new K ta root (dsize d) = Some d.
  Proof. unfold eval_domain. destruct (is_finalized c); [|discriminate]. intro H. apply expect_ok in H. eapply radix2_again; eauto. Qed.

  Lemma batch_run b gg h pd vd rnd cs pks vks pubs extra bp ocs ch : t_total K V1 V2 T ->
    instances (gen_srs K V1 V2 b gg h pd vd) cs pks vks pubs ->
    batch_prove_internal K V1 V2 T ta root fgen coset_rnd rnd cs pks extra = Ok (bp, ocs, ch) ->
    exists d vk0 vks', vks = vk0 :: vks' /\ verifier_new (vk_n K V1 V2 vk0) = Ok d
    /\ (length (bp_wires K V1 bp) = length cs /\ length (bp_perms K V1 bp) = length cs /\ length (bp_evals K V1 bp) = length cs
         /\ length (bp_plookups K V1 bp) = length cs)
    /\ exists info, prepare d vks pubs bp extra = Ok info /\ info_err K V1 V2 VT e (vk_open K V1 V2 vk0) info = v0.
  Proof.
    intros HT (Lp & Lv & Lb & HI) H. pose proof H as H0. unfold batch_prove_internal in H0.
    destruct (Nat.eqb_spec (length cs) 0) as [|Hk]; [discriminate|].
    destruct (Nat.eqb_spec (length cs) (length pks)) as [_|]; [cbn [negb] in H0|lia]. cbv zeta in H0.
    apply bind_ok in H0 as (c0 & Hc0 & H0). apply bind_ok in H0 as (pk0 & Hpk0 & H0). apply bind_ok in H0 as (d0 & Hd0 & H0).
    apply bind_ok in H0 as (chk & Hchk & _).
    destruct vks as [|vk0 vks']; [cbn in Lv; lia|]. destruct cs as [|c0' cs']; [now cbn in Hk|]. destruct pks as [|pk0' pks']; [cbn in Lp; lia|].
    destruct pubs as [|pub0 pubs']; [cbn in Lb; lia|]. cbn in Hc0, Hpk0. apply Ok_inj in Hc0, Hpk0. subst c0' pk0'.
    pose proof (HI 0%nat c0 pk0 vk0 pub0 eq_refl eq_refl eq_refl eq_refl) as I0.
    destruct (instance_ok b gg h pd vd c0 pk0 vk0 pub0 I0) as (d & Rd & H2 & Iok & -> & Hfor & Hvn).
    rewrite (ik_dom _ _ _ _ _ _ _ _ _ _ _ _ Iok) in Hd0. apply Ok_inj in Hd0. subst d0.
    assert (Hall : insts_ok K V1 V2 ta root coset_rnd b gg d (c0 :: cs') (pk0 :: pks') (pub0 :: pubs') /\ map vkof (pk0 :: pks') = vkof pk0 :: vks').
    { assert (A : forall i c pk vk pub, nth_error (c0 :: cs') i = Some c -> nth_error (pk0 :: pks') i = Some pk -> nth_error (vkof pk0 :: vks') i = Some vk ->
        nth_error (pub0 :: pubs') i = Some pub -> inst_ok K V1 V2 ta root coset_rnd b gg d c pk pub /\ vk = vkof pk).
      { intros i c pk vk pub E1 E2 E3 E4. destruct (instance_ok b gg h pd vd c pk vk pub (HI i c pk vk pub E1 E2 E3 E4)) as (d' & Rd' & _ & Iok' & Ev & _).
        split; [|exact Ev]. replace d with d'; [exact Iok'|].
        apply map_res_ok in Hchk as [_ Nc]. specialize (Nc i (c, pk) tt).
        assert (Ecp : nth_error (combine (c0 :: cs') (pk0 :: pks')) i = Some (c, pk)).
        { clear - E1 E2. revert i E1 E2. generalize (c0 :: cs') (pk0 :: pks'). intros l l'. revert l'. induction l as [|x l IH]; intros l' [|i] E1 E2; destruct l'; cbn in *; try discriminate.
          - congruence. - now apply IH. }
        specialize (Nc Ecp). cbn [fst snd] in Nc. unfold check_instance in Nc. rewrite (ik_dom _ _ _ _ _ _ _ _ _ _ _ _ Iok') in Nc. cbn [bind] in Nc.
        apply bind_ok in Nc as (u1 & Hu1 & _). apply guard_ok in Hu1. apply Nat.eqb_eq in Hu1. rewrite Hu1, Rd in Rd'. congruence. }
      split.
      - split; [exact Lp|]. split; [exact Lb|]. intros i c pk pub E1 E2 E3.
        destruct (nth_error (vkof pk0 :: vks') i) as [vk|] eqn:E4; [exact (proj1 (A i c pk vk pub E1 E2 E4 E3))|].
        apply nth_error_None in E4. assert (i < length (c0 :: cs'))%nat by (apply nth_error_Some; congruence). lia.
      - apply list_ext. intro i. destruct (nth_error (vkof pk0 :: vks') i) as [vk|] eqn:E4.
        + assert (Hi : (i < length (c0 :: cs'))%nat) by (rewrite <- Lv; apply nth_error_Some; congruence).
          destruct (nth_error (c0 :: cs') i) as [c|] eqn:E1; [|apply nth_error_None in E1; lia].
          destruct (nth_error (pk0 :: pks') i) as [pk|] eqn:E2; [|apply nth_error_None in E2; lia].
          destruct (nth_error (pub0 :: pubs') i) as [pub|] eqn:E3; [|apply nth_error_None in E3; lia].
          rewrite nth_error_map, E2. cbn [option_map]. f_equal. symmetry. apply (A i c pk vk pub); auto.
        + apply nth_error_None in E4. apply nth_error_None. rewrite map_length. lia. }
    destruct Hall as [Hall Ev].
    destruct (run_ok K V1 V2 T ta root fgen coset_rnd Hroot Hfgen b gg d rnd _ _ _ extra bp ocs ch H2 Hall HT H) as (_ & _ & Hs & info & Hi & Herr).
    exists d, (vkof pk0), vks'. split; [reflexivity|]. split; [unfold PlonkModel.verifier_new; now rewrite Hvn, Rd|]. split; [exact Hs|].
    exists info. rewrite <- Ev. split; [exact Hi|]. apply (Herr VT e h). exact Hfor.
  Qed.

  (** *** C57: a batched proof the prover outputs is accepted. *)
  Theorem C57_batch_prove_verifies b gg h pd vd rnd cs pks vks pubs bp : t_total K V1 V2 T ->
    instances (gen_srs K V1 V2 b gg h pd vd) cs pks vks pubs ->
    batch_prove rnd cs pks = Ok bp ->
    verify_batch_proof vks pubs bp = Ok tt.
  Proof.
    intros HT HI H. unfold PlonkModel.batch_prove in H. apply bind_ok in H as ([[bp' ocs] ch] & H & E). apply Ok_inj in E. cbn [fst] in E. subst bp'.
    destruct (batch_run b gg h pd vd rnd cs pks vks pubs None bp ocs ch HT HI H) as (d & vk0 & vks' & -> & Hd & _ & info & Hi & Herr).
    unfold PlonkModel.verify_batch_proof. rewrite Hd. cbn [bind]. rewrite Hi. cbn [bind].
    unfold batch_verify_opening_proofs, batch_r. cbn [length Nat.eqb bind]. rewrite check_openings_err. cbn [map vpeval]. rewrite Herr.
    replace (vadd v0 (vmul 1 v0)) with (v0 : VT) by vring. now rewrite (proj2 (veqb_eq K VT v0 v0) eq_refl).
  Qed.

  (** One proof. *)
  Theorem C57_prove_verifies b gg h pd vd rnd c pk vk pub extra p : t_total K V1 V2 T ->
    instance (gen_srs K V1 V2 b gg h pd vd) c pk vk pub ->
    prove rnd c pk extra = Ok p ->
    verify_proof vk pub p extra = Ok tt.
  Proof.
    intros HT HI H. unfold PlonkModel.prove in H. apply bind_ok in H as ([[bp ocs] ch] & H & E). cbn [fst] in E.
    assert (HIs : instances (gen_srs K V1 V2 b gg h pd vd) [c] [pk] [vk] [pub]).
    { split; [|split; [|split]]; auto. intros [|i] c1 pk1 vk1 pub1 E1 E2 E3 E4; cbn in *; [|destruct i; discriminate]. congruence. }
    destruct (batch_run b gg h pd vd rnd [c] [pk] [vk] [pub] extra bp ocs ch HT HIs H) as (d & vk0 & vks' & Ev & Hd & (L1 & L2 & L3 & L4) & info & Hi & Herr).
    injection Ev as <- <-.
    assert (Ebp : batch_of_proof K V1 p = bp).
    { destruct bp as [ws zs es lks qs W W']. cbn [bp_wires bp_perms bp_evals bp_plookups bp_quots bp_open bp_shifted length] in *.
      destruct ws as [|w0 [|]]; try discriminate. destruct zs as [|z0 [|]]; try discriminate. destruct es as [|e0 [|]]; try discriminate.
      destruct lks as [|l0 [|]]; try discriminate. cbn in E. apply Ok_inj in E. rewrite <- E. reflexivity. }
    unfold PlonkModel.verify_proof, PlonkModel.batch_verify. cbn [length Nat.eqb negb orb combine map_res]. rewrite Hd. cbn [bind]. rewrite Ebp, Hi. cbn [bind].
    unfold batch_verify_opening_proofs, batch_r. cbn [length Nat.eqb bind]. rewrite check_openings_err. cbn [map vpeval]. rewrite Herr.
    replace (vadd v0 (vmul 1 v0)) with (v0 : VT) by vring. now rewrite (proj2 (veqb_eq K VT v0 v0) eq_refl).
  Qed.

  (** *** C58: verifying several proofs at once. *)
  Notation vkopen := (vk_open K V1 V2).
  Definition job := (vkey * proof * list K * option (list nat))%type.
  Notation jvk j := (fst (fst (fst j))).
  Notation jpf j := (snd (fst (fst j))).
  Notation jpi j := (snd (fst j)).
  Notation jex j := (snd j).
  (** [batch_verify] on a list of (key, proof, public input, extra message) *)
  Definition batch (U : transcript K V1 V2) (js : list job) : outcome perr unit :=
    PlonkModel.batch_verify K V1 V2 VT e U ta root (map (fun j => jvk j) js) (map (fun j => jpi j) js) (map (fun j => jpf j) js) (map (fun j => jex j) js).
  Definition single (j : job) : outcome perr unit := verify_proof (jvk j) (jpi j) (jpf j) (jex j).

  Definition prep (j : job) : outcome perr (pcs_info K V1) :=
    let* d := verifier_new (vk_n K V1 V2 (jvk j)) in prepare d [jvk j] [jpi j] (batch_of_proof K V1 (jpf j)) (jex j).

  Lemma combine_jobs (js : list job) :
    combine (combine (combine (map (fun j => jvk j) js) (map (fun j => jpf j) js)) (map (fun j => jpi j) js)) (map (fun j => jex j) js) = js.
  Proof. induction js as [|[[[vk p] pi] ex] js IH]; [reflexivity|]. cbn [map combine fst snd]. now rewrite IH. Qed.
  Lemma batch_eq U js : batch U js = match js with [] => Err ParamError | j0 :: _ =>
      let* infos := map_res (fun j => let* d := verifier_new (vk_n K V1 V2 (jvk j)) in
                        prepare_pcs_info K V1 V2 U d [jvk j] [jpi j] (batch_of_proof K V1 (jpf j)) (jex j)) js in
      let* ok := batch_verify_opening_proofs K V1 V2 VT e U (vkopen (jvk j0)) infos in if ok then Ok tt else Err WrongProof end.
  Proof.
    unfold batch, PlonkModel.batch_verify. rewrite !map_length, !Nat.eqb_refl. cbn [negb orb]. rewrite combine_jobs.
    destruct js as [|j0 js]; [reflexivity|]. cbn [map].
    rewrite (map_res_ext _ (fun j => let* d := verifier_new (vk_n K V1 V2 (jvk j)) in
                        prepare_pcs_info K V1 V2 U d [jvk j] [jpi j] (batch_of_proof K V1 (jpf j)) (jex j)) (j0 :: js)); [reflexivity|].
    intros [[[vk p] pi] ex]. reflexivity.
  Qed.
  Lemma single_ok j : single j = Ok tt <-> exists x, prep j = Ok x /\ info_err K V1 V2 VT e (vkopen (jvk j)) x = v0.
  Proof.
    unfold single. change (verify_proof (jvk j) (jpi j) (jpf j) (jex j)) with (batch T [j]). rewrite batch_eq. cbn [map_res].
    change (let* d := verifier_new (vk_n K V1 V2 (jvk j)) in prepare d [jvk j] [jpi j] (batch_of_proof K V1 (jpf j)) (jex j)) with (prep j).
    destruct (prep j) as [x|x|] eqn:E; cbn [bind].
    - unfold batch_verify_opening_proofs, batch_r. cbn [length Nat.eqb bind]. rewrite check_openings_err. cbn [map vpeval].
      replace (vadd (info_err K V1 V2 VT e (vkopen (jvk j)) x) (vmul 1 v0)) with (info_err K V1 V2 VT e (vkopen (jvk j)) x) by vring.
      destruct (veqb _ _) eqn:Ev.
      + apply veqb_eq in Ev. split; [|reflexivity]. intros _. eauto.
      + split; [discriminate|]. intros (y & Ey & Hy). apply Ok_inj in Ey. subst y. rewrite (proj2 (veqb_eq K VT _ _) Hy) in Ev. discriminate.
    - split; [discriminate|]. intros (y & Ey & _). discriminate.
    - split; [discriminate|]. intros (y & Ey & _). discriminate.
  Qed.

  (** Proofs that are accepted one by one, under the same opening key, are accepted together. *)
  Theorem C58_batch_complete ok js : t_total K V1 V2 T -> (forall s l x, exists s', t_field K V1 V2 T s l x = Ok s') ->
    js <> [] -> (forall j, In j js -> vkopen (jvk j) = ok /\ single j = Ok tt) -> batch T js = Ok tt.
  Proof.
    intros [_ TG] TF Hne H. rewrite batch_eq. destruct js as [|j0 js]; [congruence|]. change (map_res _ (j0 :: js)) with (map_res prep (j0 :: js)).
    assert (Hi : exists infos, map_res prep (j0 :: js) = Ok infos /\ forall x, In x infos -> info_err K V1 V2 VT e ok x = v0).
    { clear Hne. induction (j0 :: js) as [|j l IH]; [exists []; split; [reflexivity|intros x []]|].
      destruct IH as (infos & E & Hx); [intros; apply H; now right|]. destruct (H j) as [Ho Hs]; [now left|]. apply single_ok in Hs as (x & Ex & Hz).
      exists (x :: infos). cbn [map_res]. rewrite Ex, E. cbn [bind]. split; [reflexivity|]. intros y [<-|Hy]; auto. now rewrite <- Ho. }
    destruct Hi as (infos & E & Hx). rewrite E. cbn [bind]. destruct (H j0) as [-> _]; [now left|].
    unfold batch_verify_opening_proofs.
    assert (Hr : exists r, batch_r K V1 V2 T infos = Ok r).
    { unfold batch_r. destruct (_ =? _)%nat; [eauto|].
      assert (Hf : forall l s, exists s', fold_res (fun s (x : pcs_info K V1) => t_field K V1 V2 T s "u" (in_u K V1 x)) l s = Ok s').
      { induction l as [|x l IH]; intro s; cbn [fold_res]; [eauto|]. destruct (TF s "u"%string (in_u K V1 x)) as [s' ->]. cbn [bind]. auto. }
      destruct (Hf infos (t_new K V1 V2 T "batch verify")) as [s ->]. cbn [bind]. destruct (TG s "r"%string) as [[r s'] ->]. cbn. eauto. }
    destruct Hr as [r ->]. cbn [bind]. rewrite check_openings_err, vpeval_0.
    - now rewrite (proj2 (veqb_eq K VT v0 v0) eq_refl).
    - intros c Hc. apply in_map_iff in Hc as (x & <- & Hx'). auto.
  Qed.

  (** The transcript whose answer to the combination query of a batch verification is [r]. *)
  Definition answer_r (r : K) : transcript K V1 V2 :=
    mk_transcript K V1 V2 (tstate K V1 V2 T) (t_new K V1 V2 T) (t_message K V1 V2 T) (t_vk_pi K V1 V2 T) (t_commitment K V1 V2 T) (t_field K V1 V2 T)
      (fun s l => if String.eqb l "r" then Ok (r, s) else t_challenge K V1 V2 T s l).

  Lemma prep_answer r d vks pis bp extra : prepare_pcs_info K V1 V2 (answer_r r) d vks pis bp extra = prepare d vks pis bp extra.
  Proof. reflexivity. Qed.

  (** If a proof is rejected on its own, a batch of [k] proofs containing it is accepted
      for fewer than [k] of the answers to the combination query. *)
  Theorem C58_bad_proof_bound ok js j rs : In j js -> single j <> Ok tt -> (forall i, In i js -> vkopen (jvk i) = ok) ->
    NoDup rs -> (forall r, In r rs -> batch (answer_r r) js = Ok tt) -> (length rs < length js)%nat.
  Proof.
    intros Hj Hbad Hok Nd Hacc. destruct (Nat.lt_ge_cases (length rs) (length js)) as [|Hge]; auto. exfalso. apply Hbad. apply single_ok.
    rewrite Hok by auto.
    assert (L0 : (0 < length js)%nat) by (destruct js; [destruct Hj|cbn; lia]).
    assert (Hall : exists infos, map_res prep js = Ok infos /\ forall r, In r rs -> (length js = 1)%nat \/ vpeval K VT (map (info_err K V1 V2 VT e ok) infos) r = v0).
    { assert (Hb : forall r, In r rs -> exists infos, map_res prep js = Ok infos /\ ((length js = 1)%nat \/ vpeval K VT (map (info_err K V1 V2 VT e ok) infos) r = v0)).
      { intros r Hr. specialize (Hacc r Hr). rewrite batch_eq in Hacc. destruct js as [|j0 js']; [discriminate|].
        change (map_res _ (j0 :: js')) with (map_res prep (j0 :: js')) in Hacc. apply bind_ok in Hacc as (infos & E & Hacc). exists infos. split; [exact E|].
        rewrite Hok in Hacc by now left. apply bind_ok in Hacc as (b & Hb & Hacc). destruct b; [|discriminate].
        unfold batch_verify_opening_proofs, batch_r in Hb. pose proof (proj1 (map_res_ok _ _ _ E)) as Li.
        destruct (Nat.eqb_spec (length infos) 1) as [E1|E1]; [left; congruence|right].
        apply bind_ok in Hb as (r' & Hr' & Hb). apply bind_ok in Hr' as (s & _ & Hr'). cbn [answer_r t_challenge] in Hr'. cbn in Hr'. apply Ok_inj in Hr'. subst r'.
        apply Ok_inj in Hb. rewrite check_openings_err in Hb. now apply veqb_eq in Hb. }
      destruct rs as [|r0 rs']; [cbn in Hge; lia|]. destruct (Hb r0) as (infos & E & _); [now left|]. exists infos. split; [exact E|].
      intros r Hr. destruct (Hb r Hr) as (infos' & E' & H'). rewrite E in E'. apply Ok_inj in E'. now subst infos'. }
    destruct Hall as (infos & E & Hall). pose proof (map_res_ok _ _ _ E) as [Li Ni].
    apply In_nth_error in Hj as (i & Hi).
    assert (Li' : (i < length infos)%nat) by (rewrite Li; apply nth_error_Some; congruence).
    destruct (nth_error infos i) as [x|] eqn:Ex; [|apply nth_error_None in Ex; lia].
    exists x. assert (Ep : prep j = Ok x). { rewrite (Ni i j x Hi). f_equal. now apply nth_error_nth. }
    split; [exact Ep|].
    destruct (Nat.eq_dec (length js) 1) as [L1|L1].
    - destruct rs as [|r0 rs']; [cbn in Hge; lia|]. specialize (Hacc r0 (or_introl eq_refl)). rewrite batch_eq in Hacc.
      destruct js as [|j0 [|]]; try discriminate. destruct i as [|i]; [|destruct i; discriminate]. cbn in Hi. injection Hi as ->.
      change (map_res _ [j]) with (map_res prep [j]) in Hacc. rewrite E in Hacc. cbn [bind] in Hacc. rewrite Hok in Hacc by now left.
      destruct infos as [|y [|]]; try discriminate. cbn in Ex. injection Ex as ->.
      unfold batch_verify_opening_proofs, batch_r in Hacc. cbn [length Nat.eqb bind] in Hacc. rewrite check_openings_err in Hacc. cbn [map vpeval] in Hacc.
      destruct (veqb _ _) eqn:Ev in Hacc; [|discriminate]. apply veqb_eq in Ev. rewrite <- Ev. vring.
    - apply (vroot_coeffs K VT (map (info_err K V1 V2 VT e ok) infos) rs Nd).
      + intros r Hr. destruct (Hall r Hr); [contradiction|auto].
      + rewrite map_length. lia.
      + apply in_map. eapply nth_error_In; eauto.
  Qed.
End Props.
