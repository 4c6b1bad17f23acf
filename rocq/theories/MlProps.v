(** C52-C53: the multilinear KZG commitment scheme and its batched openings.

    Parameters come from the generation with arbitrary trapdoors [t] and generators,
    trimmed as a user does.  [mleval l z] is the value at [z] of the multilinear
    polynomial whose values on the hypercube are [l], as an explicit sum over the
    hypercube. *)
From Coq Require Import List Arith ZArith Lia Bool Ring Field.
From Verif Require Import Base ListAux Alg Poly VRing KzgModel KzgProofs KzgFft KzgFk PcsProps MlModel MlProofs MlBatch.
Import ListNotations.

Section MlProps.
  Variable K : fld.
  Local Open Scope fld_scope.
  Add Field Kmlp : (fth K).
  Variables V1 V2 VT : vsp K.
  Variable e : pairing K V1 V2 VT.
  Notation mleval := (mleval K).
  Notation gen := (gen_ml_srs K V1 V2).
  Notation trim := (ml_trim K V1 V2).
  Notation commit := (ml_commit K V1 V2).
  Notation open := (ml_open K V1 V2).
  Notation verify := (ml_verify K V1 V2 VT e).

  (** ** C52 *)

  (** [mleval] interpolates: at a vertex of the hypercube it is the listed value. *)
  Theorem C52_value_at_vertex n j (l : list K) : (j < 2 ^ n)%nat ->
    mleval l (map (fun i => if Nat.testbit j i then 1 else 0) (seq 0 n)) = nth j l 0.
  Proof. apply mleval_vertex. Qed.
  (** Generation refuses only the constant case; trimming refuses only more variables
      than generated. *)
  Theorem C52_setup t g h nv :
    (t = [] <-> gen t g h = Err InvalidParameters) /\
    (t <> [] -> exists s, gen t g h = Ok s /\
      ((length t < nv)%nat -> trim s nv = Err InvalidParameters) /\
      ((nv <= length t)%nat -> exists pk vk, trim s nv = Ok (pk, vk))).
  Proof.
    rewrite gen_ml_srs_eq. destruct (Nat.eqb_spec (length t) 0) as [E|E].
    - destruct t; [|discriminate]. split; [tauto|congruence].
    - split; [split; [intros ->; cbn in E; lia|discriminate]|]. intros _. eexists. split; [reflexivity|]. rewrite ml_trim_eq.
      destruct (Nat.ltb_spec (length t) nv) as [H|H]; split; intro X; try lia; auto. eexists _, _. reflexivity.
  Qed.
  Lemma keys_inv t g h s nv pk vk : gen t g h = Ok s -> trim s nv = Ok (pk, vk) ->
    exists t', t' = skipn (length t - nv) t /\ length t' = nv /\ pk = fst (ml_keys K V1 V2 t' g h) /\ vk = snd (ml_keys K V1 V2 t' g h).
  Proof.
    rewrite gen_ml_srs_eq. destruct (length t =? 0)%nat; [discriminate|]. intro E. injection E as <-. rewrite ml_trim_eq.
    destruct (Nat.ltb_spec (length t) nv); [discriminate|]. intro E. assert (E' : ml_keys K V1 V2 (skipn (length t - nv) t) g h = (pk, vk)) by congruence. clear E.
    eexists. split; [reflexivity|]. rewrite E'. split; [rewrite skipn_length; lia|]. split; reflexivity.
  Qed.
  (** Every polynomial with at most the trimmed number of variables, at every point. *)
  Theorem C52_open_verify t g h s nv pk vk (p : mle K) pt :
    gen t g h = Ok s -> trim s nv = Ok (pk, vk) ->
    length (mevals p) = (2 ^ mnv p)%nat -> (mnv p <= nv)%nat -> length pt = mnv p ->
    exists c w, commit pk p = Ok c /\ open pk p pt = Ok (w, mleval (mevals p) pt) /\ verify vk c pt (mleval (mevals p) pt) w = Ok true.
  Proof.
    intros G T L H Hp. destruct (keys_inv _ _ _ _ _ _ _ G T) as (t' & _ & Lt & -> & ->).
    rewrite ml_commit_eq, ml_open_eq by (auto; lia). eexists _, _. split; [reflexivity|]. split; [reflexivity|].
    rewrite ml_verify_eq by lia. rewrite Hp. set (ts := skipn (length t' - mnv p) t').
    assert (Lts : length ts = mnv p) by (unfold ts; rewrite skipn_length; lia).
    rewrite length_open_rounds.
    2: { rewrite <- tls_eq, map_length, seq_length. lia. }
    rewrite Hp, Nat.eqb_refl. f_equal. apply veqb_eq. rewrite <- (open_rounds_eq K V1 g ts pt (mevals p)) by (try rewrite Lts; auto).
    match goal with |- pe _ ?y _ = _ => replace y with (@v0 K V1) by vring end.
    rewrite <- (vmul_0_l _ _ (@v0 K V1)), pe_mul_l. apply vmul_0_l.
  Qed.
  (** What is refused, and with what. *)
  Theorem C52_refusals t g h s nv pk vk (p : mle K) pt c v w :
    gen t g h = Ok s -> trim s nv = Ok (pk, vk) ->
    ((nv < mnv p)%nat -> commit pk p = Err InvalidParameters /\ open pk p pt = Err InvalidParameters) /\
    (length pt <> mnv p -> open pk p pt = Err InvalidParameters) /\
    ((nv < length pt)%nat -> verify vk c pt v w = Err InvalidParameters).
  Proof.
    intros G T. destruct (keys_inv _ _ _ _ _ _ _ G T) as (t' & _ & Lt & -> & ->).
    unfold ml_commit, ml_open, ml_verify. cbn [ml_keys fst snd mp_num_vars mv_num_vars]. rewrite Lt. split; [|split].
    - intro H. rewrite (proj2 (Nat.ltb_lt _ _) H). auto.
    - intro H. destruct (nv <? mnv p)%nat; [reflexivity|]. rewrite (proj2 (Nat.eqb_neq _ _)) by congruence. reflexivity.
    - intro H. rewrite (proj2 (Nat.ltb_lt _ _) H). reflexivity.
  Qed.
  (** With a non-degenerate pairing, acceptance is exactly the opening equation in the
      trapdoors of the last [length pt] variables. *)
  Theorem C52_verify_exact t g h s nv pk vk c pt v w :
    gen t g h = Ok s -> trim s nv = Ok (pk, vk) -> (forall x : V1, e x h = v0 -> x = v0) -> (length pt <= nv)%nat ->
    (verify vk c pt v w = Ok true <->
     length w = length pt /\
     c = vadd (vmul v g) (vsum (map (fun tzw => vmul (fst (fst tzw) - snd (fst tzw)) (snd tzw)) (combine (combine (skipn (length t - length pt) t) pt) w)))).
  Proof.
    intros G T Nd H. destruct (keys_inv _ _ _ _ _ _ _ G T) as (t' & Et & Lt & -> & ->).
    rewrite ml_verify_eq by lia.
    replace (skipn (length t' - length pt) t') with (skipn (length t - length pt) t).
    2: { rewrite Et, skipn_skipn', skipn_length. f_equal.
         assert (nv <= length t)%nat; [|lia]. rewrite <- Lt, Et, skipn_length. lia. }
    set (lc := lincomb K V1 _ pt w). change (vsum _) with lc.
    destruct (Nat.eqb_spec (length w) (length pt)) as [E|E]; [|split; [discriminate|tauto]].
    split.
    - intro X. injection X as X. split; [exact E|]. apply veqb_eq in X. apply Nd in X. apply (vsub_eq K V1).
      transitivity (vopp (vadd lc (vadd (vmul v g) (vopp c)))); [vring|]. rewrite X. apply vopp_0.
    - intros [_ X]. f_equal. apply veqb_eq. rewrite X.
      match goal with |- pe _ ?y _ = _ => replace y with (@v0 K V1) by vring end.
      rewrite <- (vmul_0_l _ _ (@v0 K V1)), pe_mul_l. apply vmul_0_l.
  Qed.
  (** Two accepted values for one commitment and one point give a nontrivial linear
      relation on the trapdoors; at the trapdoor point itself it is impossible. *)
  Theorem C52_two_values t g h s nv pk vk c pt v v' w w' :
    gen t g h = Ok s -> trim s nv = Ok (pk, vk) -> (forall x : V1, e x h = v0 -> x = v0) -> (length pt <= nv)%nat ->
    verify vk c pt v w = Ok true -> verify vk c pt v' w' = Ok true ->
    vsum (map (fun tzw => vmul (fst (fst tzw) - snd (fst tzw)) (snd tzw)) (combine (combine (skipn (length t - length pt) t) pt)
          (map (fun ab => vadd (fst ab) (vopp (snd ab))) (combine w w')))) = vmul (v' - v) g.
  Proof.
    intros G T Nd H A B. apply (C52_verify_exact _ _ _ _ _ _ _ _ _ _ _ G T Nd H) in A as [La A].
    apply (C52_verify_exact _ _ _ _ _ _ _ _ _ _ _ G T Nd H) in B as [Lb B].
    set (tz := combine (skipn (length t - length pt) t) pt) in *.
    assert (X : forall w w' : list V1, length w = length w' -> 
      vsum (map (fun tzw => vmul (fst (fst tzw) - snd (fst tzw)) (snd tzw)) (combine tz (map (fun ab => vadd (fst ab) (vopp (snd ab))) (combine w w'))))
      = vadd (vsum (map (fun tzw => vmul (fst (fst tzw) - snd (fst tzw)) (snd tzw)) (combine tz w)))
             (vopp (vsum (map (fun tzw => vmul (fst (fst tzw) - snd (fst tzw)) (snd tzw)) (combine tz w'))))).
    { clear. induction tz as [|a tz IH]; intros [|x w] [|y w'] L; try discriminate; cbn [combine map fst snd];
        try (change (vsum (@nil V1)) with (@v0 K V1); vring).
      rewrite !vsum_cons, IH by (cbn in L; lia). vring. }
    rewrite X by congruence. clear X. rewrite A in B.
    match goal with |- vadd ?x (vopp ?y) = _ => set (sa := x) in *; set (sb := y) in * end.
    apply (vadd_cancel_l K V1 (vadd (vmul v g) sb)).
    transitivity (vadd (vmul v g) sa); [vring|]. rewrite B. vring.
  Qed.
  (** A proof with the wrong number of elements does not return an error: the pairing
      product panics. *)
  Theorem C52_proof_length_refuted t g h s nv pk vk c pt v w :
    gen t g h = Ok s -> trim s nv = Ok (pk, vk) -> (length pt <= nv)%nat -> length w <> length pt -> verify vk c pt v w = Panic.
  Proof.
    intros G T H N. destruct (keys_inv _ _ _ _ _ _ _ G T) as (t' & _ & Lt & -> & ->).
    rewrite ml_verify_eq by lia. rewrite (proj2 (Nat.eqb_neq _ _)) by auto. reflexivity.
  Qed.

  (** ** C53 *)
  Variables (tad : nat) (root : K).
  Hypothesis Root : root_ok K tad root.
  Variable chal : V1 -> list (list K) -> V1 -> K.
  Notation batch_commit := (ml_batch_commit K V1 V2).
  Notation batch_open := (batch_open_internal K V1 V2 tad root chal).
  Notation batch_verify := (batch_verify_internal K V1 V2 VT e tad root chal).

  Lemma map_res_const {A B} (f : A -> pres B) : forall l, (forall a, In a l -> exists b, f a = Ok b) ->
    exists bs, map_res f l = Ok bs /\ length bs = length l /\ forall i a b, nth_error l i = Some a -> nth_error bs i = Some b -> f a = Ok b.
  Proof.
    induction l as [|a l IH]; intro H; [exists []; split; [reflexivity|]; split; [reflexivity|intros [|i]; discriminate]|].
    destruct (H a) as [b E]; [left; auto|]. destruct IH as (bs & E' & L & N); [intros; apply H; right; auto|].
    exists (b :: bs). cbn [map_res]. rewrite E. cbn [bind]. rewrite E'. cbn [bind]. split; [reflexivity|]. split; [cbn; lia|].
    intros [|i] x y X Y; cbn in X, Y; [congruence|eauto].
  Qed.

  (** Honest batch openings verify, provided the multilinear key is trimmed to exactly
      the merged number of variables and the composed polynomial fits the domain the
      code picks for it.  The value reported for the [i]-th polynomial is its value at
      the {e reversed} [i]-th point. *)
  Theorem C53_batch_open_partial b gu hu pd vd d v upk uvk t g h s mpk mvk nv (ps : list (mle K)) points :
    trim_with_verifier_degree K V1 V2 (gen_srs K V1 V2 b gu hu pd vd) d v = Ok (upk, uvk) ->
    gen t g h = Ok s -> trim s (nv + Nat.log2_up (length ps)) = Ok (mpk, mvk) ->
    ps <> [] -> length points = length ps -> (1 <= nv)%nat ->
    (forall p, In p ps -> mnv p = nv /\ length (mevals p) = (2 ^ nv)%nat) -> (forall pt, In pt points -> length pt = nv) ->
    (Nat.log2_up (length ps) <= tad)%nat ->
    let m := (nv + Nat.log2_up (length ps))%nat in
    let D := npot (length ps) in
    let N := npot ((Nat.log2_up m + 2) * (D - 1)) in
    (Nat.log2_up ((Nat.log2_up m + 2) * (D - 1)) <= tad)%nat ->
    (m * (D - 1) < N)%nat -> (N <= S d)%nat ->
    exists c prf vals y,
      batch_commit mpk ps = Ok c /\
      batch_open upk mpk ps c points = Ok (prf, vals) /\
      vals = map (fun ppt => mleval (mevals (fst ppt)) (rev (snd ppt))) (combine ps points) ++ [y] /\
      batch_verify uvk mvk c points vals prf = Ok true.
  Proof.
    intros U G T Ne Lp Hnv Wf Hpt Hk m D N HN Deg Hd.
    destruct (keys_inv _ _ _ _ _ _ _ G T) as (t' & _ & Lt & -> & ->).
    assert (Ed : exists dd, get_uni_domain K tad root (length points) = Ok dd).
    { unfold get_uni_domain, radix2_new. rewrite Lp. rewrite (proj2 (Nat.leb_le _ _) Hk). eauto. }
    destruct Ed as [dd Ed]. destruct (dom_d K tad root Root points dd Ed) as (D1 & D2 & D3). rewrite Lp in D2. fold (npot (length ps)) in D2. fold D in D2.
    pose proof (build_l_eq K tad root Root nv points dd Ed Hpt) as Eb.
    set (us := curve K nv points dd) in *.
    assert (Lus : length us = m) by (unfold us; rewrite length_curve, Lp; unfold m; lia).
    pose proof (merge_polynomials_eq K nv ps Ne Wf) as Em. fold m in Em. set (w := mk_mle m (merged K nv ps)) in *.
    assert (Lw : length (mevals w) = (2 ^ mnv w)%nat) by (apply length_merged; auto).
    assert (Pne : points <> []) by (intros ->; destruct ps; [congruence|discriminate]).
    assert (HD : (1 <= D)%nat) by (unfold D, npot; apply pow2_pos).
    (* the composition *)
    assert (Lr : forall x, length (map (fun p => peval p x) (rev us)) = mnv w) by (intro x; rewrite map_length, rev_length; exact Lus).
    destruct (compose_mle K D (rev us) (mevals w) HD) as (cc & C1 & C2).
    { rewrite rev_length, Lus. exact Lw. }
    { intros r Hr. apply in_rev in Hr. rewrite <- D2. eapply curve_len; eauto. }
    rewrite rev_length, Lus in C1.
    assert (Eq : exists q, compute_w_circ_l K tad root w us = Ok q /\ (length q <= N)%nat /\ pnorm K q = q /\
                 forall x, peval q x = mleval (mevals w) (map (fun p => peval p x) (rev us))).
    { unfold compute_w_circ_l. change (mnv w) with m. rewrite Lus, Nat.eqb_refl. cbn [negb].
      destruct (nth_error us 0) as [l0|] eqn:E0; [|apply nth_error_None in E0; unfold m in *; lia].
      unfold index at 1. rewrite E0. cbn [bind]. rewrite (curve_degree K tad root Root nv points dd Ed l0 Pne E0). cbn [bind].
      rewrite D2, Nat.sub_diag. cbn [Nat.add]. unfold radix2_new. rewrite (proj2 (Nat.leb_le _ _) HN).
      set (d2 := mk_dom K _ _). 
      assert (E2 : radix2_new K tad root ((Nat.log2_up m + 2) * (D - 1)) = Some d2) by (unfold radix2_new; rewrite (proj2 (Nat.leb_le _ _) HN); reflexivity).
      pose proof (radix2_ok K _ _ _ _ Root E2) as Ok2. pose proof (radix2_size K _ _ _ _ E2) as Sz2. fold N in Sz2.
      rewrite (map_res_ok _ (fun i => mleval (mevals w) (map (fun p => peval p (dom_element K d2 i)) (rev us)))).
      2: { intros i _. apply mle_evaluate_eq; auto. }
      cbn [bind]. eexists. split; [reflexivity|]. split; [rewrite <- Sz2; apply length_interpolate|]. split; [apply interpolate_norm|].
      intro x. rewrite <- C2. apply interpolate_unique; auto; [lia|]. intros i Hi. rewrite nth_map_seq by auto. apply C2. }
    destruct Eq as (q & Eq & Lq & Nq & Pq).
    destruct (C46_open_verify K V1 V2 VT e b gu hu pd vd d v upk uvk q 0 U Nq ltac:(lia)) as (qc & _ & Ec & _ & _).
    set (ow := fun z => match KzgModel.open K V1 upk q z with Ok wv => fst wv | _ => v0 end).
    assert (KO : forall z, KzgModel.open K V1 upk q z = Ok (ow z, peval q z) /\
       KzgModel.verify K V1 V2 VT e uvk qc z (peval q z) (ow z) = true).
    { intro z. destruct (C46_open_verify K V1 V2 VT e b gu hu pd vd d v upk uvk q z U Nq ltac:(lia)) as (c & wz & X1 & X2 & X3).
      rewrite Ec in X1. injection X1 as <-. unfold ow. rewrite X2. split; [reflexivity|exact X3]. }
    clear U.
    (* the multilinear opening *)
    set (c := vmul (mleval (mevals w) (skipn (length t' - mnv w) t')) g).
    assert (Ecm : commit (fst (ml_keys K V1 V2 t' g h)) w = Ok c) by (apply ml_commit_eq; auto; change (mnv w) with m; unfold m; lia).
    set (r := chal c points qc). set (pr := map (fun p => peval p r) (rev us)).
    destruct (C52_open_verify t g h s m _ _ w pr G T Lw (le_n _) (Lr r)) as (c' & mw & Ec' & Emo & Evo).
    rewrite Ecm in Ec'. injection Ec' as <-.
    set (n := length points) in *.
    set (prf := mk_batch_proof K V1 mw qc (map (fun i => ow (dom_element K dd i)) (seq 0 n) ++ [ow r])).
    set (vals := map (fun i => peval q (dom_element K dd i)) (seq 0 n) ++ [peval q r]).
    assert (Q : forall i, (i < n)%nat -> peval q (dom_element K dd i) = mleval (mevals (nth i ps (mk_mle 0 []))) (rev (nth i points []))).
    { intros i Hi. rewrite Pq. unfold us. rewrite (curve_at K tad root Root nv points dd Ed Hpt i Hi).
      unfold w. cbn [mevals]. fold n. rewrite Lp. apply mleval_merged; auto; [rewrite rev_length; apply Hpt, nth_In; auto|lia]. }
    exists c, prf, vals, (peval q r).
    assert (Qr : mleval (mevals w) pr = peval q r) by (symmetry; apply Pq).
    assert (P0 : exists p0, nth_error ps 0 = Some p0 /\ mnv p0 = nv).
    { destruct ps as [|p0 ps']; [congruence|]. exists p0. split; [reflexivity|]. apply Wf. left. auto. }
    destruct P0 as (p0 & P0 & Np0).
    split; [|split; [|split]].
    - unfold ml_batch_commit. rewrite Em. cbn [bind]. rewrite <- Ecm. unfold ml_commit. cbn [ml_keys fst mp_num_vars mp_powers].
      change (mnv w) with m. replace (length t') with m by (symmetry; exact Lt). rewrite Nat.ltb_irrefl, Nat.sub_diag. reflexivity.
    - unfold batch_open_internal. fold n.
      assert (Hn0 : n <> 0%nat) by (unfold n; destruct points; [congruence|cbn; lia]).
      rewrite (proj2 (Nat.eqb_neq _ _) Hn0), Lp, Nat.eqb_refl. cbn [negb].
      unfold index at 1. rewrite P0. cbn [bind]. rewrite Np0.
      replace (forallb (fun p => (mnv p =? nv)%nat) (skipn 1 ps)) with true.
      2: { symmetry. apply forallb_forall. intros p Hp. apply Nat.eqb_eq. apply Wf. rewrite <- (firstn_skipn 1 ps). apply in_app_iff. auto. }
      replace (forallb (fun pt => (length pt =? nv)%nat) points) with true.
      2: { symmetry. apply forallb_forall. intros p Hp. apply Nat.eqb_eq. auto. }
      cbn [negb]. rewrite <- Lp, Ed. cbn [bind]. rewrite Eb. cbn [bind]. rewrite Em. cbn [bind]. rewrite Eq. cbn [bind]. rewrite Ec. cbn [bind].
      fold r. fold pr.
      rewrite (map_res_ok _ (fun i => (ow (dom_element K dd i), peval q (dom_element K dd i)))).
      2: { intros i _. rewrite (proj1 (KO _)). cbn [bind snd]. rewrite mle_evaluate_eq by auto. cbn [bind]. rewrite <- Pq, feqb_refl. reflexivity. }
      cbn [bind]. rewrite (proj1 (KO r)). cbn [bind]. rewrite Emo. cbn [bind fst snd]. rewrite Qr, feqb_refl.
      rewrite !map_map. reflexivity.
    - unfold vals. f_equal. transitivity (map (fun i => mleval (mevals (nth i ps (mk_mle 0 []))) (rev (nth i points []))) (seq 0 n)).
      + apply map_ext_in. intros i Hi. apply in_seq in Hi. apply Q. lia.
      + rewrite (map_nth_seq (combine ps points) (mk_mle 0 [], [])). rewrite combine_length, <- Lp, Nat.min_id. fold n. rewrite map_map.
        apply map_ext_in. intros i Hi. rewrite combine_nth by auto. reflexivity.
    - unfold batch_verify_internal. fold n.
      assert (Hn0 : n <> 0%nat) by (unfold n; destruct points; [congruence|cbn; lia]).
      rewrite (proj2 (Nat.eqb_neq _ _) Hn0). unfold prf, vals. cbn [bp_q_opens bp_q_commit bp_proof].
      rewrite !app_length, !map_length, !seq_length. cbn [length]. rewrite Nat.eqb_refl. cbn [negb].
      destruct (nth_error points 0) as [pt0|] eqn:Ep; [|apply nth_error_None in Ep; fold n in Ep; lia].
      unfold index at 1. rewrite Ep. cbn [bind]. replace (length pt0) with nv by (symmetry; apply Hpt; eapply nth_error_In; eauto).
      replace (forallb (fun pt => (length pt =? nv)%nat) (skipn 1 points)) with true.
      2: { symmetry. apply forallb_forall. intros p Hp. apply Nat.eqb_eq. apply Hpt. rewrite <- (firstn_skipn 1 points). apply in_app_iff. auto. }
      cbn [negb]. rewrite Ed. cbn [bind].
      assert (Nv : forall (f : nat -> K) y i, (i < n)%nat -> nth i (map f (seq 0 n) ++ [y]) 0 = f i).
      { intros f y i Hi. rewrite app_nth1 by (rewrite map_length, seq_length; auto). now apply nth_map_seq. }
      assert (Nw : forall (f : nat -> V1) y i, (i < n)%nat -> nth i (map f (seq 0 n) ++ [y]) v0 = f i).
      { intros f y i Hi. rewrite app_nth1 by (rewrite map_length, seq_length; auto). now apply nth_map_seq. }
      replace (forallb _ (seq 0 n)) with true.
      2: { symmetry. apply forallb_forall. intros i Hi. apply in_seq in Hi. rewrite Nv, Nw by lia. apply KO. }
      cbn [negb]. rewrite !app_nth2 by (rewrite map_length, seq_length; auto). rewrite !map_length, !seq_length, Nat.sub_diag. cbn [nth].
      fold r. rewrite (proj2 (KO r)). cbn [negb]. rewrite Eb. cbn [bind]. fold pr. rewrite <- Qr. exact Evo.
  Qed.
End MlProps.

(** ** Concrete cases: the field of 97 elements, groups the field itself. *)
Definition mt97 : list F97 := l97 [2; 3; 5; 7; 11]%Z.
Definition mkeys97 nv := match gen_ml_srs F97 S97 S97 mt97 (e97 3) (e97 7) with
  | Ok s => match ml_trim F97 S97 S97 s nv with Ok x => Some x | _ => None end | _ => None end.
Definition mpk97 nv := match mkeys97 nv with Some x => fst x | None => mk_mprover F97 S97 S97 0 [] f0 f0 end.
Definition mvk97 nv := match mkeys97 nv with Some x => snd x | None => mk_mverifier F97 S97 S97 0 f0 f0 [] end.
Lemma mkeys97_ok nv : (nv <= 5)%nat -> exists s, gen_ml_srs F97 S97 S97 mt97 (e97 3) (e97 7) = Ok s /\ ml_trim F97 S97 S97 s nv = Ok (mpk97 nv, mvk97 nv).
Proof.
  intro H. destruct (C52_setup F97 S97 S97 mt97 (e97 3) (e97 7) nv) as [_ X]. destruct X as (s & E & _ & X); [discriminate|].
  destruct X as (pk & vk & T); [exact H|]. exists s. split; [exact E|]. unfold mpk97, mvk97, mkeys97. rewrite E, T. reflexivity.
Qed.
Definition mp97 : mle F97 := mk_mle 2 (l97 [4; 9; 1; 60]%Z).
Example C52_case : exists c w, ml_commit F97 S97 S97 (mpk97 3) mp97 = Ok c /\
  ml_open F97 S97 S97 (mpk97 3) mp97 (l97 [10; 20]%Z) = Ok (w, mleval F97 (mevals mp97) (l97 [10; 20]%Z)) /\
  ml_verify F97 S97 S97 S97 e97p (mvk97 3) c (l97 [10; 20]%Z) (mleval F97 (mevals mp97) (l97 [10; 20]%Z)) w = Ok true.
Proof.
  destruct (mkeys97_ok 3 ltac:(lia)) as (s & G & T). eapply C52_open_verify; [exact G|exact T|reflexivity|cbn; lia|reflexivity].
Qed.
(** The cheating prover of [C52_two_values], which needs the trapdoors. *)
Example C52_two_values_case : exists c w w', ml_verify F97 S97 S97 S97 e97p (mvk97 1) c [e97 1] (e97 4) [w] = Ok true /\
  ml_verify F97 S97 S97 S97 e97p (mvk97 1) c [e97 1] (e97 5) [w'] = Ok true.
Proof. exists (e97 12), (e97 0), (e97 87). split; vm_compute; reflexivity. Qed.
Definition usrs97 d := match trim_with_verifier_degree F97 S97 S97 (gen_srs F97 S97 S97 (e97 5) (e97 3) (e97 7) 16 4) d 1 with
  | Ok x => x | _ => ([], mk_vparam F97 S97 S97 f0 f0 f0 [] []) end.
Lemma usrs97_ok d : (d <= 16)%nat -> trim_with_verifier_degree F97 S97 S97 (gen_srs F97 S97 S97 (e97 5) (e97 3) (e97 7) 16 4) d 1 = Ok (fst (usrs97 d), snd (usrs97 d)).
Proof.
  intro Hd. destruct (proj2 (proj1 (C46_trim F97 S97 S97 (e97 5) (e97 3) (e97 7) 16 4 d 1))) as (pk & vk & E).
  - cbn [Nat.max]. lia.
  - unfold usrs97. rewrite E. reflexivity.
Qed.
Definition ch97 : S97 -> list (list F97) -> S97 -> F97 := fun _ _ _ => e97 5.
Definition bps97 : list (mle F97) := [mk_mle 1 (l97 [4; 9]%Z); mk_mle 1 (l97 [1; 60]%Z); mk_mle 1 (l97 [7; 7]%Z)].
Example C53_case : exists c prf vals y,
  ml_batch_commit F97 S97 S97 (mpk97 3) bps97 = Ok c /\
  batch_open_internal F97 S97 S97 5 (e97 28) ch97 (fst (usrs97 15)) (mpk97 3) bps97 c (map l97 [[10]; [20]; [30]]%Z) = Ok (prf, vals) /\
  vals = map (fun ppt => mleval F97 (mevals (fst ppt)) (rev (snd ppt))) (combine bps97 (map l97 [[10]; [20]; [30]]%Z)) ++ [y] /\
  batch_verify_internal F97 S97 S97 S97 e97p 5 (e97 28) ch97 (snd (usrs97 15)) (mvk97 3) c (map l97 [[10]; [20]; [30]]%Z) vals prf = Ok true.
Proof.
  destruct (mkeys97_ok 3 ltac:(lia)) as (s & G & T).
  eapply (C53_batch_open_partial F97 S97 S97 S97 e97p 5 (e97 28) root97 ch97 _ _ _ _ _ 15 1 _ _ _ _ _ s _ _ 1 bps97 (map l97 [[10]; [20]; [30]]%Z)).
  - apply usrs97_ok. lia.
  - exact G.
  - exact T.
  - discriminate.
  - reflexivity.
  - lia.
  - intros p [<-|[<-|[<-|[]]]]; split; reflexivity.
  - intros pt [<-|[<-|[<-|[]]]]; reflexivity.
  - cbn. lia.
  - cbn. lia.
  - cbn. lia.
  - cbn. lia.
Qed.

(** The reported (and verified) value is not the value at the requested point. *)
Definition batch97 (ck : nat) (ps : list (mle F97)) (pts : list (list Z)) : outcome pcs_error (list Z * outcome pcs_error bool) :=
  let* c := ml_batch_commit F97 S97 S97 (mpk97 ck) ps in
  let* pv := batch_open_internal F97 S97 S97 5 (e97 28) ch97 (fst (usrs97 15)) (mpk97 ck) ps c (map l97 pts) in
  Ok (map (zv 97) (snd pv), batch_verify_internal F97 S97 S97 S97 e97p 5 (e97 28) ch97 (snd (usrs97 15)) (mvk97 ck) c (map l97 pts) (snd pv) (fst pv)).
Theorem C53_reversed_point_refuted :
  batch97 2 [mp97] [[2; 3]]%Z = Ok ([46; 46]%Z, Ok true) /\
  mleval F97 (mevals mp97) (l97 [2; 3]%Z) = e97 38 /\ mleval F97 (mevals mp97) (l97 [3; 2]%Z) = e97 46.
Proof. split; [vm_compute; reflexivity|]. split; apply zp_ext; vm_compute; reflexivity. Qed.
(** Two polynomials in three variables: the domain chosen for the composed
    polynomial has 4 points, its degree is 4, and the honest prover errs. *)
Definition w97 : list (mle F97) := [mk_mle 3 (l97 [4; 9; 1; 60; 3; 4; 90; 2]%Z); mk_mle 3 (l97 [1; 2; 3; 5; 6; 0; 44; 12]%Z)].
Theorem C53_degree_bound_refuted : batch97 4 w97 [[2; 3; 5]; [4; 10; 20]]%Z = Err InvalidProver.
Proof. vm_compute. reflexivity. Qed.
(** With a key for one more variable than the merged polynomial the honest batch
    opening is produced but rejected: the batch commitment always uses the table of
    the largest size. *)
Theorem C53_larger_key_refuted :
  batch97 3 bps97 [[10]; [20]; [30]]%Z = Ok ([54; 17; 7; 67]%Z, Ok true) /\
  batch97 4 bps97 [[10]; [20]; [30]]%Z = Ok ([54; 17; 7; 67]%Z, Ok false).
Proof. split; vm_compute; reflexivity. Qed.

Print Assumptions C52_value_at_vertex.
Print Assumptions C52_setup.
Print Assumptions C52_open_verify.
Print Assumptions C52_refusals.
Print Assumptions C52_verify_exact.
Print Assumptions C52_two_values.
Print Assumptions C52_proof_length_refuted.
Print Assumptions C53_batch_open_partial.
Print Assumptions C53_reversed_point_refuted.
Print Assumptions C53_degree_bound_refuted.
Print Assumptions C53_larger_key_refuted.
