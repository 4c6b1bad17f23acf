(** C89: public values and points (relation/src/constraint_system.rs lines 673-687,
    relation/src/gadgets/emulated.rs lines 143-155,
    relation/src/gadgets/ecc/emulated/short_weierstrass.rs lines 38-57 and 94-104).

    Values that are declared public are, in every accepted assignment, the public inputs
    at their place, in the order of the declarations. *)

From Coq Require Import List Arith ZArith Znumtheory Bool Lia Ring Field.
From Verif Require Import Base ListAux Alg Poly CircuitModel CircuitProofs GadgetModel GadgetProofs RangeProofs
  BitProofs CmpProofs RangeLookup SatProofs SatGadget CircuitProps MerkleGadgetProofs EmulatedModel EmulatedProofs
  EmulatedMul EmulatedAdd EmulatedGate EmulatedExact EmulatedProps EmulatedEcc EmulatedEccProps.
Import ListNotations.
Local Open Scope fld_scope.
Local Open Scope circ_scope.

Section Public.
  Context {K : fld}.
  Variable zval : K -> Z.
  Add Field PubK : (fth K).
  Notation accepts := (accepts zval).
  Notation csat := (csat zval).

  (** What the declarations of the values [xs] add. *)
  Definition pubs (c c' : circuit K) (xs : list K) : Prop :=
    num_vars c' = (num_vars c + length xs)%nat /\ witness c' = witness c ++ xs /\ ptype c' = ptype c /\ range_col c' = range_col c /\
    gates c' = gates c ++ repeat (io_gate K) (length xs) /\
    rows c' = rows c ++ map (mk_row 0 0 0 0) (seq (num_vars c) (length xs)) /\
    pub_ids c' = pub_ids c ++ seq (length (gates c)) (length xs).
  Lemma pubs_nil c : pubs c c [].
  Proof. unfold pubs. cbn. rewrite !app_nil_r, Nat.add_0_r. repeat split. Qed.
  Lemma pubs_trans a b c xs ys : pubs a b xs -> pubs b c ys -> pubs a c (xs ++ ys).
  Proof.
    intros (A1 & A2 & A3 & A4 & A5 & A6 & A7) (B1 & B2 & B3 & B4 & B5 & B6 & B7). unfold pubs.
    rewrite !app_length, repeat_app, !seq_app, map_app. rewrite B1, B2, B3, B4, B5, B6, B7, A1, A2, A3, A4, A5, A6, A7, app_length, repeat_length.
    rewrite <- !app_assoc. repeat split; auto; lia.
  Qed.
  Lemma pubs_one x c : good c -> exists c', create_public_variable x c = (Ok (num_vars c), c') /\ good c' /\ pubs c c' [x].
  Proof.
    intros G. pose proof (gd_wf _ G) as W.
    destruct (wpc_var x c (fun v d => v = num_vars c /\ d = dval x) W (conj eq_refl eq_refl)) as (v & d & E & P & -> & ->).
    pose proof (C65_create_variable_good c x G _ _ E) as G1. pose proof (gd_wf _ G1) as W1.
    unfold create_public_variable, cbind. rewrite E.
    destruct (set_variable_public (num_vars c) (capp c (dval x))) as [o c'] eqn:Es.
    pose proof Es as Es'. unfold set_variable_public, insert_gate, cbind in Es'. rewrite (finalize_false _ W1) in Es'. unfold lift, modify in Es'.
    assert (F : check_finalize_flag false (push_pub (num_gates (capp c (dval x))) (capp c (dval x))) = (Ok tt, push_pub (num_gates (capp c (dval x))) (capp c (dval x)))).
    { unfold check_finalize_flag, lift, is_finalized. cbn. rewrite (wf_open _ W). reflexivity. }
    rewrite F in Es'. injection Es' as <- <-. eexists. split; [reflexivity|].
    assert (Hv : (num_vars c < num_vars (capp c (dval x)))%nat) by (cbn; lia).
    split; [apply (C65_set_variable_public_good _ _ G1 Hv _ _ Es)|].
    unfold pubs. cbn [push_gate push_row push_pub capp dval num_vars witness ptype range_col gates rows pub_ids d_vals d_gates d_range d_pubs length map repeat seq num_gates].
    rewrite !app_nil_r. repeat split.
  Qed.
  Lemma pubs_list xs : forall c, good c -> exists c', mapM create_public_variable xs c = (Ok (seq (num_vars c) (length xs)), c') /\ good c' /\ pubs c c' xs.
  Proof.
    induction xs as [|x xs IH]; intros c G.
    - exists c. split; [reflexivity|]. split; [exact G|apply pubs_nil].
    - destruct (pubs_one x c G) as (c1 & E1 & G1 & P1). destruct (IH c1 G1) as (c2 & E2 & G2 & P2). exists c2.
      split; [|split; [exact G2|apply (pubs_trans c c1 c2 [x] xs); auto]].
      cbn [mapM]. unfold cbind. rewrite E1, E2. unfold ret. pose proof P1 as (N1 & _). rewrite N1. cbn [length seq]. now rewrite Nat.add_1_r.
  Qed.
  Lemma pubs_extends c c' xs : pubs c c' xs -> extends c c'.
  Proof.
    intros (A1 & A2 & A3 & A4 & A5 & A6 & A7). split; [exact A3|lia|eauto|eauto|]. exists []. now rewrite app_nil_r.
  Qed.
  Lemma io_sat w pi v : gsat w pi (io_gate K) (mk_row 0 0 0 0 v) <-> w v = pi.
  Proof.
    unfold gsat, gate_expected, gate_output, pow5. cbn. split; intros H.
    - transitivity (1 * w v); [ring|]. rewrite <- H. ring.
    - rewrite H. ring.
  Qed.
  Lemma pubs_sound c c' xs c'' w pub : good c -> pubs c c' xs -> extends c' c'' -> (exists l, pub_ids c'' = pub_ids c' ++ l) -> csat c'' w pub ->
    forall i, (i < length xs)%nat -> w (num_vars c + i)%nat = nth (num_inputs c + i) pub 0.
  Proof.
    intros G (A1 & A2 & A3 & A4 & A5 & A6 & A7) Ex [l El] S i Hi.
    assert (Eid : nth_error (pub_ids c'') (num_inputs c + i) = Some (length (gates c) + i)%nat).
    { rewrite El, A7. unfold num_inputs. rewrite nth_error_app1 by (rewrite app_length, seq_length; lia).
      rewrite nth_error_app2 by lia. replace (length (pub_ids c) + i - length (pub_ids c))%nat with i by lia.
      rewrite (nth_error_nth' _ 0%nat) by (rewrite seq_length; lia). now rewrite seq_nth by lia. }
    destruct (cs_pub _ _ _ _ S _ _ Eid) as (g & r & Eg & Er & Hs).
    assert (Eg' : nth_error (gates c'') (length (gates c) + i) = Some (io_gate K)).
    { apply (prefix_nth (gates c')); [apply (ex_gates _ _ Ex)|]. rewrite A5, nth_error_app2 by lia.
      replace (length (gates c) + i - length (gates c))%nat with i by lia.
      rewrite (nth_error_nth' _ (io_gate K)) by (rewrite repeat_length; lia). now rewrite nth_repeat. }
    assert (Er' : nth_error (rows c'') (length (gates c) + i) = Some (mk_row 0 0 0 0 (num_vars c + i))).
    { apply (prefix_nth (rows c')); [apply (ex_rows _ _ Ex)|]. rewrite A6, <- (wf_rows _ (gd_wf _ G)), nth_error_app2 by lia.
      replace (length (rows c) + i - length (rows c))%nat with i by lia.
      rewrite nth_error_map, (nth_error_nth' _ 0%nat) by (rewrite seq_length; lia). now rewrite seq_nth by lia. }
    rewrite Eg' in Eg. rewrite Er' in Er. injection Eg as <-. injection Er as <-. apply io_sat. exact Hs.
  Qed.
  Lemma pubs_complete c c' xs pub : good c -> good c' -> pubs c c' xs -> accepts c (witness c) pub -> accepts c' (witness c') (pub ++ xs).
  Proof.
    intros G G' P Ha. pose proof (gd_wf _ G) as W. pose proof (gd_bd _ G) as Bd. pose proof Ha as [Hl _].
    apply (accepts_csat zval _ _ _ Bd Hl) in Ha. pose proof P as (A1 & A2 & A3 & A4 & A5 & A6 & A7).
    assert (Hl' : length (witness c') = num_vars c') by apply (wf_wit _ (gd_wf _ G')).
    apply (accepts_csat zval _ _ _ (gd_bd _ G') Hl').
    set (w := asg (witness c)) in *. set (w' := asg (witness c')).
    assert (Hw : forall v, (v < num_vars c)%nat -> w v = w' v).
    { intros v Hv. unfold w, w', asg. rewrite A2, app_nth1 by lia. reflexivity. }
    assert (Hn : forall i, (i < length xs)%nat -> w' (num_vars c + i)%nat = nth i xs 0).
    { intros i Hi. unfold w', asg. rewrite A2, app_nth2 by lia. f_equal. lia. }
    pose proof (cs_len _ _ _ _ Ha) as Lp.
    assert (Hgr : forall j g r, nth_error (gates c') j = Some g -> nth_error (rows c') j = Some r ->
      (nth_error (gates c) j = Some g /\ nth_error (rows c) j = Some r) \/ g = io_gate K).
    { intros j g r H1 H2. rewrite A5 in H1. rewrite A6 in H2. destruct (Nat.lt_ge_cases j (length (gates c))) as [L|L].
      - left. rewrite nth_error_app1 in H1 by auto. rewrite nth_error_app1 in H2 by (rewrite (wf_rows _ W); auto). auto.
      - right. rewrite nth_error_app2 in H1 by auto. apply nth_error_In, repeat_spec in H1. exact H1. }
    assert (Hold : forall j g, nth_error (gates c) j = Some g -> nth_error (gates c') j = Some g) by (intros; apply (prefix_nth (gates c)); eauto).
    assert (Holr : forall j r, nth_error (rows c) j = Some r -> nth_error (rows c') j = Some r) by (intros; apply (prefix_nth (rows c)); eauto).
    split.
    - unfold num_inputs in *. rewrite A7, !app_length, seq_length. lia.
    - intros i id E. rewrite A7 in E. destruct (Nat.lt_ge_cases i (length (pub_ids c))) as [L|L].
      + rewrite nth_error_app1 in E by auto. destruct (cs_pub _ _ _ _ Ha i id E) as (g & r & Eg & Er & Hs).
        exists g, r. split; [auto|split; [auto|]]. unfold num_inputs in Lp. rewrite app_nth1 by lia. eapply gsat_ext; [eapply bd_row_lt; eauto|exact Hw|exact Hs].
      + rewrite nth_error_app2 in E by auto. set (k := (i - length (pub_ids c))%nat) in *.
        assert (Hk : (k < length xs)%nat) by (rewrite <- (seq_length (length xs) (length (gates c))); apply nth_error_Some; congruence).
        rewrite (nth_error_nth' _ 0%nat) in E by (rewrite seq_length; auto). rewrite seq_nth in E by auto. injection E as <-.
        exists (io_gate K), (mk_row 0 0 0 0 (num_vars c + k)). split; [|split].
        * rewrite A5, nth_error_app2 by lia. replace (length (gates c) + k - length (gates c))%nat with k by lia.
          rewrite (nth_error_nth' _ (io_gate K)) by (rewrite repeat_length; lia). now rewrite nth_repeat.
        * rewrite A6, <- (wf_rows _ W), nth_error_app2 by lia. replace (length (rows c) + k - length (rows c))%nat with k by lia.
          rewrite nth_error_map, (nth_error_nth' _ 0%nat) by (rewrite seq_length; lia). now rewrite seq_nth by lia.
        * apply io_sat. rewrite Hn by auto. unfold num_inputs in Lp. rewrite app_nth2 by lia. f_equal. lia.
    - intros j g r Eg Er Hio. destruct (Hgr j g r Eg Er) as [[L1 L2]| ->]; [|discriminate].
      eapply gsat_ext; [eapply bd_row_lt; eauto|exact Hw|]. apply (cs_gate _ _ _ _ Ha j); auto.
    - intros v Hv. rewrite A4 in Hv. rewrite A3. eapply rsat_ext; [|apply (cs_range _ _ _ _ Ha); auto].
      apply Hw. pose proof (bd_range _ Bd) as F. rewrite Forall_forall in F. auto.
    - intros Ht j g r Eg Er Hq. rewrite A3 in Ht. destruct (Hgr j g r Eg Er) as [[L1 L2]| ->]; [|exfalso; apply Hq; reflexivity].
      destruct (cs_lookup _ _ _ _ Ha Ht j g r L1 L2 Hq) as [H|(j' & g' & r' & Eg' & Er' & Hq' & H)].
      + left. destruct (bd_row_lt _ _ _ Bd L2) as (B0 & B1 & B2 & B3 & B4). now rewrite <- !Hw by auto.
      + right. exists j', g', r'. split; [auto|split; [auto|split; [auto|]]].
        destruct (bd_row_lt _ _ _ Bd L2) as (B0 & B1 & B2 & B3 & B4). destruct (bd_row_lt _ _ _ Bd Er') as (D0 & D1 & D2 & D3 & D4).
        now rewrite <- !Hw by auto.
  Qed.

  Lemma map_res_app {X A B} (f : A -> outcome X B) l1 l2 a b : map_res f l1 = Ok a -> map_res f l2 = Ok b -> map_res f (l1 ++ l2) = Ok (a ++ b).
  Proof.
    revert a. induction l1 as [|x l1 IH]; intros a H1 H2; cbn [map_res app] in *; [injection H1 as <-; exact H2|].
    unfold bind in *. destruct (f x); [|discriminate|discriminate]. destruct (map_res f l1) as [r| |]; [|discriminate|discriminate].
    injection H1 as <-. rewrite (IH r eq_refl H2). reflexivity.
  Qed.
  Lemma map_res_in {X A B} (f g : A -> outcome X B) l : (forall x, In x l -> f x = g x) -> map_res f l = map_res g l.
  Proof.
    induction l as [|x l IH]; intros H; [reflexivity|]. cbn [map_res]. rewrite (H x (or_introl eq_refl)), IH by (intros y Hy; apply H; right; exact Hy). reflexivity.
  Qed.
  Lemma pubs_input c c' xs l : good c -> pubs c c' xs -> public_input c = Ok l -> public_input c' = Ok (l ++ xs).
  Proof.
    intros G (A1 & A2 & A3 & A4 & A5 & A6 & A7) H. pose proof (gd_wf _ G) as W. pose proof (gd_bd _ G) as Bd. unfold public_input in *. rewrite A7.
    apply map_res_app.
    - rewrite <- H. apply map_res_in. intros j Hj.
      assert (Lj : (j < length (rows c))%nat) by (rewrite (wf_rows _ W); pose proof (bd_pub _ Bd) as F; rewrite Forall_forall in F; auto).
      pose proof (nth_error_nth' (rows c) (mk_row 0 0 0 0 0) Lj) as Er. unfold index. rewrite A6, nth_error_app1 by auto. rewrite Er. cbn [bind].
      pose proof (bd_row_lt _ _ _ Bd Er) as (_ & _ & _ & _ & R4). unfold wval. rewrite A1.
      destruct (Nat.leb_spec (num_vars c + length xs) (r4 (nth j (rows c) (mk_row 0 0 0 0 0)))); [lia|].
      destruct (Nat.leb_spec (num_vars c) (r4 (nth j (rows c) (mk_row 0 0 0 0 0)))); [lia|].
      unfold index. rewrite A2, nth_error_app1 by (rewrite (wf_wit _ W); auto). reflexivity.
    - assert (Hi : forall n k, (k + n = length xs)%nat ->
        map_res (fun j => let* r := index (rows c') j in wval c' (r4 r)) (seq (length (gates c) + k) n) = Ok (skipn k xs)).
      { induction n as [|n IH]; intros k Hk; [cbn; rewrite skipn_all2 by lia; reflexivity|].
        cbn [seq map_res]. replace (S (length (gates c) + k)) with (length (gates c) + S k)%nat by lia. rewrite IH by lia.
        assert (Er : nth_error (rows c') (length (gates c) + k) = Some (mk_row 0 0 0 0 (num_vars c + k))).
        { rewrite A6, <- (wf_rows _ W), nth_error_app2 by lia. replace (length (rows c) + k - length (rows c))%nat with k by lia.
          rewrite nth_error_map, (nth_error_nth' _ 0%nat) by (rewrite seq_length; lia). now rewrite seq_nth by lia. }
        unfold index at 1. rewrite Er. cbn [bind r4]. unfold wval. rewrite A1. destruct (Nat.leb_spec (num_vars c + length xs) (num_vars c + k)); [lia|].
        unfold index. rewrite A2, nth_error_app2 by (rewrite (wf_wit _ W); lia). rewrite (wf_wit _ W).
        replace (num_vars c + k - num_vars c)%nat with k by lia. rewrite (nth_error_nth' _ 0) by lia. cbn [bind]. f_equal.
        clear - Hk. revert k Hk. induction xs as [|x xs IHx]; intros k Hk; [cbn in Hk; lia|]. destruct k as [|k]; [reflexivity|].
        cbn [nth skipn length] in *. apply IHx. lia. }
      specialize (Hi (length xs) 0%nat eq_refl). rewrite Nat.add_0_r in Hi. exact Hi.
  Qed.
  Lemma slice (f : nat -> K) pub n : forall a k, (k + n <= length pub)%nat -> (forall i, (i < n)%nat -> f (a + i)%nat = nth (k + i) pub 0) ->
    map f (seq a n) = firstn n (skipn k pub).
  Proof.
    induction n as [|n IH]; intros a k Hk H; [reflexivity|]. cbn [seq map].
    assert (E : skipn k pub = nth k pub 0 :: skipn (S k) pub).
    { clear - Hk. assert (Hl : (k < length pub)%nat) by lia. clear Hk. revert k Hl. induction pub as [|x pub IH]; intros k Hl; [cbn in Hl; lia|].
      destruct k as [|k]; [reflexivity|]. cbn [nth length] in *. change (skipn (S k) (x :: pub)) with (skipn k pub).
      change (skipn (S (S k)) (x :: pub)) with (skipn (S k) pub). apply IH. lia. }
    rewrite E. cbn [firstn]. f_equal.
    - specialize (H 0%nat ltac:(lia)). rewrite !Nat.add_0_r in H. exact H.
    - apply IH; [lia|]. intros i Hi. specialize (H (S i) ltac:(lia)). rewrite <- !Nat.add_succ_comm in H. exact H.
  Qed.

  (** In every accepted assignment of the circuit and of every later state of it, the
      values declared public are the public inputs at their place. *)
  Definition pinned (c c' : circuit K) (vs : list nat) : Prop :=
    forall c'' ws pub, extends c' c'' -> (exists l, pub_ids c'' = pub_ids c' ++ l) -> bounded c'' -> accepts c'' ws pub ->
      map (asg ws) vs = firstn (length vs) (skipn (num_inputs c) pub).
  Lemma pubs_pinned c c' xs : good c -> pubs c c' xs -> pinned c c' (seq (num_vars c) (length xs)).
  Proof.
    intros G P c'' ws pub Ex [l El] Bd Ha. pose proof Ha as [Hl _]. apply (accepts_csat zval _ _ _ Bd Hl) in Ha.
    rewrite seq_length. apply slice.
    - rewrite (cs_len _ _ _ _ Ha). unfold num_inputs. rewrite El. destruct P as (_ & _ & _ & _ & _ & _ & ->). rewrite !app_length, seq_length. lia.
    - apply (pubs_sound c c' xs c'' (asg ws) pub G P Ex (ex_intro _ l El) Ha).
  Qed.
  Theorem C89_public_values xs c : good c ->
    exists vs c', mapM create_public_variable xs c = (Ok vs, c') /\ good c' /\ extends c c' /\ length vs = length xs /\
      (forall l, public_input c = Ok l -> public_input c' = Ok (l ++ xs)) /\ pinned c c' vs /\
      (forall pub, accepts c (witness c) pub -> accepts c' (witness c') (pub ++ xs)).
  Proof.
    intros G. destruct (pubs_list xs c G) as (c' & E & G' & P). exists (seq (num_vars c) (length xs)), c'.
    split; [exact E|]. split; [exact G'|]. split; [exact (pubs_extends _ _ _ P)|]. split; [apply seq_length|].
    split; [intros l Hl; exact (pubs_input c c' xs l G P Hl)|]. split; [exact (pubs_pinned c c' xs G P)|]. intros pub Ha. exact (pubs_complete c c' xs pub G G' P Ha).
  Qed.
End Public.

Lemma app_eq_len {A} (a b c d : list A) : length a = length c -> a ++ b = c ++ d -> a = c /\ b = d.
Proof.
  revert c. induction a as [|x a IH]; intros [|y c] H E; cbn in *; try discriminate; [auto|]. injection E as -> E.
  destruct (IH c) as [-> ->]; auto.
Qed.

Section PublicPoints.
  Context {K : fld}.
  Variable zval : K -> Z.
  Variable p : Z.
  Variable nb L : nat.
  Hypothesis HF : pfield K zval p nb L.
  Context {E : fld}.
  Variable ez : E -> Z.
  Variable q : Z.
  Hypothesis HE : zfield E ez q.
  Variables T B NL : nat.
  Hypothesis HB : (1 <= B)%nat.
  Hypothesis HNL : (1 <= NL)%nat.
  Hypothesis HT : T = (B * NL)%nat.
  Hypothesis Hq : (0 < q < 2 ^ Z.of_nat T)%Z.
  Hypothesis Hroom : (4 * Z.of_nat NL * 2 ^ (2 * Z.of_nat B) <= p)%Z.
  Notation accepts := (accepts zval).
  Notation is := (is zval ez B).
  Notation limbs_of v := (from_emulated_field ez B NL v : list K).

  (** ecc/emulated/short_weierstrass.rs:43-48, [serialize_to_native_elements]. *)
  Definition sw_serialize (P : @sw_point E) : list K := limbs_of (sw_x P) ++ limbs_of (sw_y P) ++ [if sw_inf P then 1 else 0].
  Lemma limbs_len v : length (limbs_of v) = NL.
  Proof. unfold from_emulated_field. apply length_limbs. Qed.
  (** Limbs that are those of an element stand for this element. *)
  Lemma limbs_is w a v : map w a = limbs_of v -> is w a v.
  Proof.
    intros H. unfold EmulatedEcc.is. pose proof (zf_range _ _ _ HE v).
    destruct (ev_limbs zval p nb L HF T B NL HB HNL HT Hroom w a (ez v) H ltac:(lia)) as [H1 H2]. split; auto.
  Qed.

  Theorem C89_public_element v c : good c ->
    exists r c', create_public_emulated_variable ez B NL v c = (Ok r, c') /\ good c' /\ extends c c' /\ length r = NL /\
      (forall l, public_input c = Ok l -> public_input c' = Ok (l ++ limbs_of v)) /\
      (forall c'' ws pub u, extends c' c'' -> (exists l, pub_ids c'' = pub_ids c' ++ l) -> bounded c'' -> accepts c'' ws pub ->
         firstn NL (skipn (num_inputs c) pub) = limbs_of u -> is (asg ws) r u) /\
      (forall pub, accepts c (witness c) pub -> accepts c' (witness c') (pub ++ limbs_of v)).
  Proof.
    intros G. destruct (C89_public_values zval (limbs_of v) c G) as (vs & c' & Em & G' & Ex & Lv & Hi & Pn & Hc). rewrite limbs_len in Lv.
    exists vs, c'. split; [exact Em|]. split; [exact G'|]. split; [exact Ex|]. split; [exact Lv|]. split; [exact Hi|]. split; [|exact Hc].
    intros c'' ws pub u Ex' Hl Bd Ha Hs. apply limbs_is. rewrite (Pn c'' ws pub Ex' Hl Bd Ha), Lv. exact Hs.
  Qed.
  Theorem C89_public_sw P c : good c ->
    exists R c', create_public_sw_variable ez B NL P c = (Ok R, c') /\ good c' /\ extends c c' /\ sw_ok NL (num_vars c') R /\
      (forall l, public_input c = Ok l -> public_input c' = Ok (l ++ sw_serialize P)) /\
      (forall c'' ws pub Q, extends c' c'' -> (exists l, pub_ids c'' = pub_ids c' ++ l) -> bounded c'' -> accepts c'' ws pub ->
         firstn (2 * NL + 1) (skipn (num_inputs c) pub) = sw_serialize Q ->
         is (asg ws) (sv_x R) (sw_x Q) /\ is (asg ws) (sv_y R) (sw_y Q) /\ asg ws (sv_inf R) = if sw_inf Q then 1 else 0) /\
      (forall pub, accepts c (witness c) pub -> accepts c' (witness c') (pub ++ sw_serialize P)).
  Proof.
    intros G. destruct (pubs_list (limbs_of (sw_x P)) c G) as (c1 & E1 & G1 & P1).
    destruct (pubs_list (limbs_of (sw_y P)) c1 G1) as (c2 & E2 & G2 & P2).
    destruct (pubs_one (if sw_inf P then 1 else 0) c2 G2) as (c3 & E3 & G3 & P3).
    pose proof (pubs_trans _ _ _ _ _ P1 (pubs_trans _ _ _ _ _ P2 P3)) as P0. fold (sw_serialize P) in P0.
    assert (Ls : forall Q, length (sw_serialize Q) = (2 * NL + 1)%nat) by (intros Q; unfold sw_serialize; rewrite !app_length, !limbs_len; cbn; lia).
    pose proof P1 as (N1 & _). pose proof P2 as (N2 & _). pose proof P3 as (N3 & _). rewrite limbs_len in *. cbn [length] in N3.
    exists (mk_swv (seq (num_vars c) NL) (seq (num_vars c + NL) NL) (num_vars c + NL + NL)), c3.
    split.
    { unfold create_public_sw_variable, create_public_emulated_variable, create_public_boolean_variable, cbind.
      rewrite E1, E2, E3, N2, N1. reflexivity. }
    split; [exact G3|]. split; [exact (pubs_extends _ _ _ P0)|]. split.
    { split; [|split]; cbn [sv_x sv_y sv_inf]; try (split; [apply seq_length|apply Forall_forall; intros v Hv; apply in_seq in Hv]); lia. }
    split; [intros l Hl; exact (pubs_input c c3 _ l G P0 Hl)|]. split; [|intros pub Ha; exact (pubs_complete zval c c3 _ pub G G3 P0 Ha)].
    intros c'' ws pub Q Ex Hl Bd Ha Hs. pose proof (pubs_pinned zval c c3 _ G P0 c'' ws pub Ex Hl Bd Ha) as H.
    rewrite seq_length, Ls, Hs in H. replace (2 * NL + 1)%nat with (NL + (NL + 1))%nat in H by lia. rewrite !seq_app, !map_app in H. unfold sw_serialize in H.
    apply app_eq_len in H as [H1 H]; [|rewrite map_length, seq_length, limbs_len; reflexivity].
    apply app_eq_len in H as [H2 H]; [|rewrite map_length, seq_length, limbs_len; reflexivity].
    cbn [sv_x sv_y sv_inf]. split; [apply limbs_is; exact H1|]. split; [apply limbs_is; exact H2|]. cbn in H. injection H as H. exact H.
  Qed.
  (** ecc/emulated/twisted_edwards.rs:50-58, [create_public_emulated_te_point_variable]. *)
  Definition create_public_te_variable (x y : E) : circ K te_var :=
    vx <- create_public_emulated_variable ez B NL x ;; vy <- create_public_emulated_variable ez B NL y ;; ret (mk_tev vx vy).
  Theorem C89_public_te x y c : good c ->
    exists R c', create_public_te_variable x y c = (Ok R, c') /\ good c' /\ extends c c' /\ length (tv_x R) = NL /\ length (tv_y R) = NL /\
      (forall l, public_input c = Ok l -> public_input c' = Ok (l ++ limbs_of x ++ limbs_of y)) /\
      (forall c'' ws pub u v, extends c' c'' -> (exists l, pub_ids c'' = pub_ids c' ++ l) -> bounded c'' -> accepts c'' ws pub ->
         firstn (NL + NL) (skipn (num_inputs c) pub) = limbs_of u ++ limbs_of v -> is (asg ws) (tv_x R) u /\ is (asg ws) (tv_y R) v) /\
      (forall pub, accepts c (witness c) pub -> accepts c' (witness c') (pub ++ limbs_of x ++ limbs_of y)).
  Proof.
    intros G. destruct (pubs_list (limbs_of x) c G) as (c1 & E1 & G1 & P1). destruct (pubs_list (limbs_of y) c1 G1) as (c2 & E2 & G2 & P2).
    pose proof (pubs_trans _ _ _ _ _ P1 P2) as P0. pose proof P1 as (N1 & _). rewrite limbs_len in *.
    exists (mk_tev (seq (num_vars c) NL) (seq (num_vars c + NL) NL)), c2.
    split; [unfold create_public_te_variable, create_public_emulated_variable, cbind; rewrite E1, E2, N1; reflexivity|].
    split; [exact G2|]. split; [exact (pubs_extends _ _ _ P0)|]. cbn [tv_x tv_y]. split; [apply seq_length|]. split; [apply seq_length|].
    split; [intros l Hl; exact (pubs_input c c2 _ l G P0 Hl)|]. split; [|intros pub Ha; exact (pubs_complete zval c c2 _ pub G G2 P0 Ha)].
    intros c'' ws pub u v Ex Hl Bd Ha Hs. pose proof (pubs_pinned zval c c2 _ G P0 c'' ws pub Ex Hl Bd Ha) as H.
    rewrite seq_length, app_length, !limbs_len in H. rewrite Hs, seq_app, map_app in H.
    apply app_eq_len in H as [H1 H2]; [|rewrite map_length, seq_length, limbs_len; reflexivity]. split; apply limbs_is; auto.
  Qed.
End PublicPoints.

(** A public point modulo 61 over the field of 3079 elements: the honest inputs are
    accepted, and every accepted assignment reads the point the inputs encode. *)
Theorem C89_instance : exists R c', create_public_sw_variable e61 2 3 (pt 8 20 false) (new_circuit F3079 Turbo) = (Ok R, c') /\ good c' /\
  public_input c' = Ok [0; 1 + 1; 0; 0; 1; 1; 0] /\ accepts z79 c' (witness c') [0; 1 + 1; 0; 0; 1; 1; 0] /\
  (forall ws Q, accepts z79 c' ws (sw_serialize e61 2 3 Q) ->
     is z79 e61 2 (asg ws) (sv_x R) (sw_x Q) /\ is z79 e61 2 (asg ws) (sv_y R) (sw_y Q) /\ asg ws (sv_inf R) = if sw_inf Q then 1 else 0).
Proof.
  destruct (C89_public_sw z79 3079 12 64 F3079_pfield e61 61 (Zp_zfield 61 prime_61) 6 2 3 ltac:(lia) ltac:(lia) eq_refl
      ltac:(cbn; lia) ltac:(cbn; lia) (pt 8 20 false) (new_circuit F3079 Turbo) (good_new _)) as (R & c' & Em & G' & _ & _ & Hi & Hs & Hc).
  assert (Es : sw_serialize e61 2 3 (pt 8 20 false) = ([0; 1 + 1; 0; 0; 1; 1; 0] : list F3079)) by (vm_compute; reflexivity).
  exists R, c'. split; [exact Em|]. split; [exact G'|]. rewrite <- Es. split; [apply (Hi []); vm_compute; reflexivity|].
  split; [apply (Hc []); clear; vm_compute; repeat (split; auto)|].
  intros ws Q Ha. apply (Hs c' ws _ Q (extends_refl _) (ex_intro _ [] (eq_sym (app_nil_r _))) (gd_bd _ G') Ha).
  apply (firstn_all2 (sw_serialize e61 2 3 Q)). unfold sw_serialize. rewrite !app_length, !limbs_len. cbn. lia.
Qed.

Print Assumptions C89_public_values.
Print Assumptions C89_public_element.
Print Assumptions C89_public_sw.
Print Assumptions C89_public_te.
Print Assumptions C89_instance.
