(** Where finalization puts the lookup gates, and what the lookup argument's
    vectors say about a circuit. *)

From Coq Require Import List Arith ZArith Bool Lia Sorted Ring Field.
From Verif Require Import Base ListAux Alg Poly CircuitModel CircuitProofs GadgetModel BitProofs RangeLookup SatProofs SatGadget
  FinalModel FinalProofs PermProofs FinalizeProofs BuiltProofs.
Import ListNotations.

Section Layout.
  Context {K : fld}.
  Implicit Types c : circuit K.

  Definition lk c (k : nat) : Prop := exists g, nth_error (gates c) k = Some g /\ q_lookup g <> 0%F.

  (** The lookup gates of a circuit under construction are the gates of its
      tables, which do not overlap. *)
  Record placed c : Prop := {
    pl_order : StronglySorted (fun t t' => fst t + snd t <= fst t') (table_ids c);
    pl_gates : forall k, lk c k -> exists t, In t (table_ids c) /\ fst t <= k < fst t + snd t;
    pl_one : forall k g, nth_error (gates c) k = Some g -> q_lookup g <> 0%F -> q_lookup g = 1%F }.

  Lemma placed_new t : placed (new_circuit K t).
  Proof.
    assert (H : forall k g, nth_error (gates (new_circuit K t)) k = Some g -> q_lookup g = 0%F).
    { intros k g E. cbn in E. destruct k as [|[|k]]; cbn in E; try (inversion E; reflexivity). destruct k; discriminate. }
    split.
    - constructor.
    - intros k (g & E & N). exfalso. apply N. eauto.
    - intros k g E N. exfalso. apply N. eauto.
  Qed.
  Lemma placed_more c c' gs : placed c -> gates c' = gates c ++ gs -> table_ids c' = table_ids c ->
    Forall (fun g => q_lookup g = 0%F) gs -> placed c'.
  Proof.
    intros [A B C] E1 E2 F. rewrite Forall_forall in F.
    assert (H : forall k g, nth_error (gates c') k = Some g -> q_lookup g <> 0%F -> nth_error (gates c) k = Some g).
    { intros k g E N. rewrite E1 in E. destruct (Nat.lt_ge_cases k (length (gates c))).
      - now rewrite nth_error_app1 in E by auto.
      - rewrite nth_error_app2 in E by auto. exfalso. apply N, F. eapply nth_error_In; eauto. }
    split.
    - now rewrite E2.
    - intros k (g & E & N). rewrite E2. apply B. exists g. auto.
    - intros k g E N. eauto.
  Qed.
  Lemma placed_after c lookups table : built c -> placed c -> placed (after_tables c lookups table).
  Proof.
    intros Bt [A B C]. pose proof (bt_tab_bound _ Bt) as TB.
    set (n := Nat.max (length lookups) (length table)).
    assert (H : forall k g, nth_error (gates (after_tables c lookups table)) k = Some g ->
       nth_error (gates c) k = Some g \/ (num_gates c <= k < num_gates c + n /\ q_lookup g = 1%F)).
    { intros k g E. unfold after_tables in E; cbn [gates] in E. fold n in E. unfold num_gates.
      destruct (Nat.lt_ge_cases k (length (gates c))).
      - rewrite nth_error_app1 in E by auto. auto.
      - rewrite nth_error_app2 in E by auto. right.
        assert (k - length (gates c) < n).
        { assert (X : k - length (gates c) < length (map (lgate (K:=K) (S (length (table_ids c))) (length lookups) (length table)) (seq 0 n)))
            by (apply nth_error_Some; congruence). now rewrite map_length, seq_length in X. }
        split; [lia|]. apply nth_error_In, in_map_iff in E as (i & <- & _). reflexivity. }
    split.
    - cbn [after_tables table_ids]. fold n. unfold num_gates. clear - A TB. induction (table_ids c) as [|t l IH]; cbn.
      + repeat constructor.
      + inversion A; subst. inversion TB; subst. constructor; auto. apply Forall_app; split; auto.
    - intros k (g & E & N). cbn [after_tables table_ids]. fold n. apply H in E as [E|[E _]].
      + destruct (B k) as (t & Ht & Hk); [exists g; auto|]. exists t. split; auto. apply in_or_app; auto.
      + exists (num_gates c, n). split; [apply in_or_app; right; left; auto|]. cbn. lia.
    - intros k g E N. apply H in E as [E|[_ E]]; eauto.
  Qed.

  (** The ids visited by the table loop. *)
  Lemma table_list_length (l : list (nat * nat)) :
    length (concat (map (fun t => rev (seq (fst t) (snd t))) (rev l))) = list_sum (map snd l).
  Proof.
    induction l as [|t l IH]; auto. cbn [rev]. rewrite map_app, concat_app, app_length, IH. cbn [map concat].
    rewrite app_nil_r, rev_length, seq_length.
    change (list_sum (snd t :: map snd l)) with (snd t + list_sum (map snd l)). lia.
  Qed.
  Lemma In_table_list (l : list (nat * nat)) k :
    In k (concat (map (fun t => rev (seq (fst t) (snd t))) (rev l))) <-> exists t, In t l /\ fst t <= k < fst t + snd t.
  Proof.
    rewrite in_concat. split.
    - intros (s & Hs & Hk). apply in_map_iff in Hs as (t & <- & Ht). apply in_rev in Ht. apply in_rev in Hk.
      apply in_seq in Hk. eauto.
    - intros (t & Ht & Hk). exists (rev (seq (fst t) (snd t))). split.
      + apply in_map_iff. exists t. split; auto. now apply in_rev in Ht.
      + apply -> in_rev. apply in_seq. lia.
  Qed.
  Lemma ss_app {A} (R : A -> A -> Prop) l l' : StronglySorted R l -> StronglySorted R l' ->
    (forall x y, In x l -> In y l' -> R x y) -> StronglySorted R (l ++ l').
  Proof.
    induction l as [|a l IH]; intros H1 H2 H; auto. inversion H1; subst. cbn. constructor.
    - apply IH; auto. intros; apply H; auto. now right.
    - apply Forall_app; split; auto. apply Forall_forall. intros y Hy. apply H; auto. now left.
  Qed.
  Lemma rev_seq_sorted a k : StronglySorted gt (rev (seq a k)).
  Proof.
    induction k as [|k IH] in a |- *; [constructor|]. cbn [seq rev]. apply ss_app; auto.
    - repeat constructor.
    - intros x y Hx [<-|[]]. apply in_rev, in_seq in Hx. lia.
  Qed.
  Lemma table_list_sorted (l : list (nat * nat)) : StronglySorted (fun t t' => fst t + snd t <= fst t') l ->
    StronglySorted gt (concat (map (fun t => rev (seq (fst t) (snd t))) (rev l))).
  Proof.
    induction l as [|t l IH]; intros H; [constructor|]. inversion H; subst. cbn [rev].
    rewrite map_app, concat_app. apply ss_app; auto.
    - cbn. rewrite app_nil_r. apply rev_seq_sorted.
    - intros x y Hx Hy. apply In_table_list in Hx as (t' & Ht' & Hx). cbn in Hy. rewrite app_nil_r in Hy.
      apply in_rev, in_seq in Hy. rewrite Forall_forall in H3. specialize (H3 t' Ht'). lia.
  Qed.

  Lemma lk_swap i j c c' k : (forall k, nth_error (gates c') k = nth_error (gates c) (tr i j k)) ->
    lk c' k <-> lk c (tr i j k).
  Proof. intros H. unfold lk. rewrite H. tauto. Qed.

  Lemma move_io_lk ids : forall i c r, length (rows c) = length (gates c) ->
    Forall (fun id => id < length (gates c)) ids ->
    (forall id, In id ids -> ~ lk c id) -> (forall k, i <= k < i + length ids -> ~ lk c k) ->
    i + length ids <= length (gates c) ->
    move_io K i ids c = Ok r -> (forall k, lk (snd r) k <-> lk c k) /\ length (gates (snd r)) = length (gates c)
      /\ length (rows (snd r)) = length (rows c).
  Proof.
    induction ids as [|id ids IH]; intros i c r Hl Hb Hn Hi Hle E; cbn [move_io] in E.
    - inversion E; subst. cbn. tauto.
    - inversion Hb as [|? ? Hid Hb']; subst.
      assert (S1 : exists c1 x, (if i <? id then let* c' := swap_gates K i id c in Ok (i, c') else Ok (id, c)) = Ok (x, c1)
         /\ (forall k, lk c1 k <-> lk c k) /\ length (gates c1) = length (gates c) /\ length (rows c1) = length (rows c)).
      { destruct (Nat.ltb_spec i id).
        - cbn [length] in Hle.
          destruct (swap_gates_ok i id c Hl ltac:(lia) ltac:(lia)) as (c1 & E1 & SE & SG & _ & _ & N1 & _).
          rewrite E1. cbn [bind]. exists c1, i. split; auto. split; [|split; [apply (sg_len_g _ _ SG)|apply (sg_len_r _ _ SG)]].
          intros k. rewrite (lk_swap i id c c1 k N1). unfold tr.
          assert (Ni : ~ lk c i) by (apply Hi; cbn; lia). assert (Nd : ~ lk c id) by (apply Hn; left; auto).
          destruct (Nat.eqb_spec k i) as [->|]; [tauto|]. destruct (Nat.eqb_spec k id) as [->|]; tauto.
        - exists c, id. split; auto. split; [tauto|auto]. }
      destruct S1 as (c1 & x & E1 & H1 & L1 & L1'). rewrite E1 in E. cbn [bind fst snd] in E.
      destruct (move_io K (S i) ids c1) as [r'| |] eqn:E2; try discriminate. cbn [bind] in E. inversion E; subst. cbn [snd].
      destruct (IH (S i) c1 r') as (A1 & A2 & A3); auto.
      + lia.
      + now rewrite L1.
      + intros id' Hid'. rewrite H1. apply Hn. now right.
      + intros k Hk. rewrite H1. apply Hi. cbn. lia.
      + rewrite L1. cbn in Hle. lia.
      + split; [|split; congruence]. intros k. now rewrite A1.
  Qed.

  Lemma move_tables_lk ids : forall cur top c c', length (rows c) = length (gates c) -> cur < length (gates c) ->
    StronglySorted gt ids -> (forall id, In id ids -> id < cur) ->
    (forall k, lk c k -> In k ids \/ cur < k <= top) -> cur <= top ->
    move_tables K ids cur c = Ok c' -> forall k, lk c' k -> cur - length ids < k <= top.
  Proof.
    induction ids as [|id ids IH]; intros cur top c c' Hl Hc Hs Hlt Hk Hct E k; cbn [move_tables] in E.
    - inversion E; subst. intros H. apply Hk in H as [[]|H]. cbn. lia.
    - inversion Hs as [|? ? Hs' Hgt]; subst. rewrite Forall_forall in Hgt.
      assert (Hid : id < cur) by (apply Hlt; left; auto). destruct (Nat.ltb_spec id cur); [|lia].
      destruct (swap_gates_ok id cur c Hl ltac:(lia) ltac:(lia)) as (c1 & E1 & SE1 & SG1 & D1 & P1 & N1 & N1').
      rewrite E1 in E. cbn [bind] in E. intros H'.
      assert (X : cur - 1 - length ids < k <= top); [|cbn [length]; lia].
      eapply (IH (cur - 1) top c1 c'); eauto.
      + rewrite (sg_len_g _ _ SG1), (sg_len_r _ _ SG1). auto.
      + rewrite (sg_len_g _ _ SG1). lia.
      + intros x Hx. specialize (Hgt x Hx). lia.
      + intros x Hx. rewrite (lk_swap id cur c c1 x N1) in Hx. unfold tr in Hx.
        destruct (Nat.eqb_spec x id) as [Ex|N].
        * exfalso. clear Ex. apply Hk in Hx as [[Hx|Hx]|Hx]; [lia| |lia]. specialize (Hgt _ Hx). lia.
        * destruct (Nat.eqb_spec x cur) as [Ex|N']; [right; lia|].
          apply Hk in Hx as [[Hx|Hx]|Hx]; [congruence|auto|right; lia].
      + lia.
  Qed.

  Variable ta : nat.

  (** Lookup gates end in the rows after the range table and the range-checked
      variables, and before the last row. *)
  Definition rear c c' : Prop := forall b, ptype c = Ultra b -> forall k, lk c' k ->
    Nat.max (2 ^ b) (length (range_col c)) <= k /\ k + 2 <= domain c'.

  Theorem finalize_rear c c' : built c -> placed c -> tables_clear c ->
    finalize_for_arithmetization K ta c = (Ok tt, c') ->
    (forall t, In t (table_ids c) -> fst t + snd t + 2 <= domain c' \/ snd t = 0) -> rear c c'.
  Proof.
    intros B P T E Hend b Eb k Hk. pose proof (bt_good _ B) as G. pose proof (gd_wf _ G) as W. pose proof (gd_bd _ G) as Bd.
    unfold finalize_for_arithmetization, is_finalized at 1 in E. rewrite (wf_open _ W) in E. cbn [Nat.eqb negb] in E.
    destruct (radix2_size ta (slots_needed K c)) as [n|] eqn:R; [|discriminate].
    unfold is_finalized in E; cbn [domain set_domain] in E.
    destruct (Nat.eqb_spec n 1); [discriminate|]. cbn [negb] in E.
    destruct (rearrange_gates K (pad_c K (set_domain K n c))) as [c2| |] eqn:E2; try discriminate.
    destruct (compute_wire_permutation K c2) as [p| |] eqn:E3; try discriminate. inversion E; subst c'.
    change (lk c2 k) in Hk. cbn [set_perm domain] in *.
    assert (H2 : 2 <= length (gates c)).
    { assert (1 < length (gates c)) by (apply nth_error_Some; rewrite (gd_g1 _ G); discriminate). lia. }
    pose proof (slots_ge c) as Hs. destruct (radix2_size_spec _ _ _ R ltac:(lia)) as (Hn & Hn2 & _).
    assert (Hsl : Nat.max (2 ^ b) (length (range_col c)) + num_table_elems c + 1 <= n).
    { unfold slots_needed in Hn. rewrite Eb in Hn. lia. }
    destruct (pad_rearrange_ok c n B T ltac:(lia) Hn2) as (c2' & E2' & _ & _ & _ & D2 & _).
    { intros. lia. }
    rewrite E2 in E2'. inversion E2'; subst c2'. rewrite D2 in *. clear E2'.
    set (cp := pad_c K (set_domain K n c)) in *.
    assert (Eg : gates cp = gates c ++ repeat (padding_gate K) (n - length (gates c))).
    { unfold cp, pad_c. destruct (ptype (set_domain K n c)); reflexivity. }
    assert (Er : rows cp = rows c ++ repeat zero_row (n - length (rows c))).
    { rewrite <- vresize_eq by (rewrite (bd_rows _ Bd); lia). unfold cp, pad_c. destruct (ptype (set_domain K n c)); reflexivity. }
    assert (Lg : length (gates cp) = n) by (rewrite Eg, app_length, repeat_length; lia).
    assert (Lr : length (rows cp) = n) by (rewrite Er, app_length, repeat_length, (bd_rows _ Bd); lia).
    assert (Ep : pub_ids cp = pub_ids c) by (unfold cp, pad_c; destruct (ptype (set_domain K n c)); reflexivity).
    assert (Et : table_ids cp = table_ids c) by (unfold cp, pad_c; destruct (ptype (set_domain K n c)); reflexivity).
    assert (Ed : domain cp = n) by (unfold cp, pad_c; destruct (ptype (set_domain K n c)); reflexivity).
    assert (Eq : ptype cp = Ultra b) by (unfold cp, pad_c; destruct (ptype (set_domain K n c)); exact Eb).
    assert (Lk : forall x, lk cp x <-> lk c x).
    { intros x. unfold lk. rewrite Eg. split; intros (g & Hg & Hq).
      - destruct (Nat.lt_ge_cases x (length (gates c))).
        + rewrite nth_error_app1 in Hg by auto. eauto.
        + rewrite nth_error_app2 in Hg by auto. apply nth_error_In, repeat_spec in Hg. subst g. exfalso. apply Hq. reflexivity.
      - exists g. split; auto. rewrite nth_error_app1; auto. apply nth_error_Some; congruence. }
    unfold rearrange_gates in E2. rewrite Ep, Eq in E2.
    destruct (move_io K 0 (pub_ids c) cp) as [r| |] eqn:E4; try discriminate. cbn [bind] in E2.
    assert (Tc : forall x, lk c x -> num_inputs c <= x).
    { intros x Hx. destruct (pl_gates _ P x Hx) as (t & Ht & Hxt). destruct T as [T|T]; [congruence|].
      rewrite Forall_forall in T. destruct (T t Ht); lia. }
    assert (Hni : num_inputs c <= length (gates c)).
    { unfold num_inputs.
      assert (Nd : NoDup (pub_ids c)).
      { pose proof (bt_sorted _ B) as S. clear - S. induction S; constructor; auto. rewrite Forall_forall in H. intros Hi. specialize (H _ Hi). lia. }
      rewrite <- (seq_length (length (gates c)) 0). apply NoDup_incl_length; auto. intros x Hx. apply in_seq.
      pose proof (bd_pub _ Bd) as F. rewrite Forall_forall in F. specialize (F x Hx). lia. }
    destruct (move_io_lk (pub_ids c) 0 cp r) as (L1 & Lr1 & Lr2); auto.
    { lia. }
    { rewrite Lg. eapply Forall_impl; [|exact (bd_pub _ Bd)]. cbn beta; intros; lia. }
    { intros id Hid Hx. apply Lk in Hx as (g & Hg & Hq). rewrite (bt_io _ B id Hid) in Hg. inversion Hg; subst. apply Hq. reflexivity. }
    { intros x Hx Hl. apply Lk, Tc in Hl. unfold num_inputs in Hl. lia. }
    { rewrite Lg. unfold num_inputs in Hni. lia. }
    assert (X : n - 2 - length (table_gate_list K cp) < k <= n - 2).
    { rewrite Ed in E2. eapply (move_tables_lk (table_gate_list K cp) (n - 2) (n - 2)); [..|exact E2|exact Hk]; auto.
      - cbn. rewrite Lr1, Lr2. lia.
      - cbn. rewrite Lr1. lia.
      - unfold table_gate_list. rewrite Et. apply table_list_sorted, (pl_order _ P).
      - unfold table_gate_list. rewrite Et. intros id Hid. apply In_table_list in Hid as (t & Ht & Hid).
        destruct (Hend t Ht); lia.
      - intros x Hx. change (lk (snd r) x) in Hx. apply L1, Lk in Hx. left. unfold table_gate_list. rewrite Et.
        apply In_table_list, (pl_gates _ P x Hx). }
    assert (Hlen : length (table_gate_list K cp) = num_table_elems c).
    { unfold table_gate_list. rewrite Et, table_list_length. symmetry. apply (bt_tabs _ B). }
    lia.
  Qed.
End Layout.

Local Open Scope fld_scope.
Section Vectors.
  Context {K : fld}.
  Variable zval : K -> Z.
  Variable p : Z.
  Variable nb L : nat.
  Hypothesis HF : pfield K zval p nb L.
  Add Field TableK : (fth K).

  Variable ta : nat.
  Variable c c' : circuit K.
  Variable b : nat.
  Hypothesis HB : built c.
  Hypothesis HP : placed c.
  Hypothesis HFF : finalized_from ta c c'.
  Hypothesis HR : rear c c'.
  Hypothesis Ht : ptype c = Ultra b.
  Hypothesis Hb : (1 <= b <= 31)%nat.
  Hypothesis Hbn : (b < nb)%nat.
  Notation n := (domain c').

  Lemma gates_one k g : nth_error (gates c') k = Some g -> q_lookup g = 0 \/ q_lookup g = 1.
  Proof.
    intros E. destruct (feq_dec (q_lookup g) 0) as [|N]; [left; auto|right].
    assert (Hk : (k < length (rows c'))%nat).
    { rewrite (co_rows _ (ff_cols _ _ _ HFF)), <- (ff_gates _ _ _ HFF). apply nth_error_Some. congruence. }
    destruct (nth_error (rows c') k) as [r|] eqn:Er; [|apply nth_error_None in Er; lia].
    destruct (proj1 (ff_has _ _ _ HFF g r) (ex_intro _ k (conj E Er))) as [(j & Ej & _)|(_ & -> & _)].
    - eapply (pl_one _ HP); eauto.
    - exfalso. apply N. reflexivity.
  Qed.
  Lemma row_gate k : (k < n)%nat -> exists g r, nth_error (gates c') k = Some g /\ nth_error (rows c') k = Some r.
  Proof.
    intros Hk. destruct (nth_error (gates c') k) as [g|] eqn:Eg; [|apply nth_error_None in Eg; rewrite (ff_gates _ _ _ HFF) in Eg; lia].
    destruct (nth_error (rows c') k) as [r|] eqn:Er; [|apply nth_error_None in Er; rewrite (co_rows _ (ff_cols _ _ _ HFF)) in Er; lia].
    eauto.
  Qed.
  Lemma n_room : (Nat.max (2 ^ b) (length (range_col c)) + 1 <= n)%nat.
  Proof. pose proof (ff_slots _ _ _ HFF) as S. unfold slots_needed in S. rewrite Ht in S. lia. Qed.

  Variable ws : list K.
  Notation w := (asg ws).
  Notation cw := (with_witness c' ws).

  Lemma range_table_eq : range_table K cw = Ok (vresize n 0 (map (fun i => fnat i) (seq 0 (2 ^ b)))).
  Proof.
    unfold range_table. cbn [with_witness ptype domain]. rewrite (ff_type _ _ _ HFF), Ht.
    unfold is_finalized. cbn [with_witness domain]. pose proof (ff_dom2 _ _ _ HFF). pose proof n_room.
    destruct (Nat.eqb_spec n 1) as [X|X]; [lia|]. cbn [negb]. destruct (Nat.ltb_spec n (2 ^ b)) as [Y|Y]; [lia|]. reflexivity.
  Qed.
  Variable rt : list K.
  Hypothesis Hrt : range_table K cw = Ok rt.
  Lemma rt_lo i : (i < 2 ^ b)%nat -> nth i rt 0 = fnat i.
  Proof.
    intros Hi. rewrite range_table_eq in Hrt. inversion Hrt. pose proof n_room.
    rewrite vresize_eq by (rewrite map_length, seq_length; lia). rewrite app_nth1 by (rewrite map_length, seq_length; lia).
    rewrite (nth_indep _ 0 (fnat 0)) by (rewrite map_length, seq_length; lia). rewrite map_nth, seq_nth by lia. reflexivity.
  Qed.
  Lemma rt_hi i : (2 ^ b <= i)%nat -> nth i rt 0 = 0.
  Proof.
    intros Hi. rewrite range_table_eq in Hrt. inversion Hrt. pose proof n_room.
    rewrite vresize_eq by (rewrite map_length, seq_length; lia). rewrite app_nth2 by (rewrite map_length, seq_length; lia).
    apply nth_repeat.
  Qed.

  Definition ltuple (g : gate K) (r : row) (v5 : K) : list K :=
    [v5; q_lookup g * q_dom_sep g; q_lookup g * w (r0 r); q_lookup g * w (r1 r); q_lookup g * w (r2 r)].
  Definition ttuple (g : gate K) (r : row) (v5 : K) : list K :=
    [v5; q_lookup g * table_dom_sep g; q_lookup g * table_key g; q_lookup g * w (r3 r); q_lookup g * w (r4 r)].

  Lemma lookup_peval k g r tau : nth_error (gates c') k = Some g -> nth_error (rows c') k = Some r ->
    merged_lookup_value K cw tau k = peval (ltuple g r (w (nth k (range_col c') 0%nat))) tau.
  Proof.
    intros Eg Er. unfold merged_lookup_value, gate_at, wire_variable, wit. cbn [with_witness gates rows range_col witness Nat.ltb Nat.leb wire_of].
    rewrite (nth_error_nth _ _ _ Eg), (nth_error_nth _ _ _ Er). unfold ltuple, asg. cbn [peval]. ring.
  Qed.
  Lemma table_peval k g r tau : nth_error (gates c') k = Some g -> nth_error (rows c') k = Some r ->
    merged_table_value K cw tau rt k = peval (ttuple g r (nth k rt 0)) tau.
  Proof.
    intros Eg Er. unfold merged_table_value, gate_at, wire_variable, wit. cbn [with_witness gates rows range_col witness Nat.ltb Nat.leb wire_of].
    rewrite (nth_error_nth _ _ _ Eg), (nth_error_nth _ _ _ Er). unfold ttuple, asg. cbn [peval]. ring.
  Qed.

  Lemma not_lk_zero k g : nth_error (gates c') k = Some g -> (k < Nat.max (2 ^ b) (length (range_col c)))%nat -> q_lookup g = 0.
  Proof.
    intros E Hk. destruct (gates_one k g E) as [|E1]; auto. exfalso.
    assert (lk c' k) as X by (exists g; split; auto; rewrite E1; apply f1_neq_0).
    apply (HR b Ht) in X. lia.
  Qed.
  Lemma range_var k v : nth_error (range_col c) k = Some v -> nth k (range_col c') 0%nat = v.
  Proof.
    intros E. rewrite (ff_range _ _ _ HFF), Ht. pose proof n_room.
    assert (k < length (range_col c))%nat by (apply nth_error_Some; congruence).
    rewrite vresize_eq by lia. rewrite app_nth1 by auto. apply nth_error_nth; auto.
  Qed.
  Lemma range_var_over k : (length (range_col c) <= k)%nat -> nth k (range_col c') 0%nat = 0%nat.
  Proof.
    intros Hk. rewrite (ff_range _ _ _ HFF), Ht. pose proof n_room. rewrite vresize_eq by lia.
    rewrite app_nth2 by auto. apply nth_repeat.
  Qed.


  Theorem lookup_vectors_complete tau : w 0%nat = 0 ->
    (forall v, In v (range_col c) -> rsat zval (Ultra b) w v) -> lookup_ok c' w ->
    incl (lookup_values K cw tau) (merged_table K cw tau rt).
  Proof.
    intros W0 Hrange Hl x Hx. unfold lookup_values, merged_table in *. cbn [with_witness domain] in *.
    apply in_map_iff in Hx as (i & <- & Hi). apply in_seq in Hi. pose proof n_room as HN.
    assert (HT : forall j g r, nth_error (gates c') j = Some g -> nth_error (rows c') j = Some r ->
       peval (ttuple g r (nth j rt 0)) tau = merged_lookup_value K cw tau i ->
       In (merged_lookup_value K cw tau i) (map (merged_table_value K cw tau rt) (seq 0 n))).
    { intros j g r Eg Er E. rewrite <- E, <- (table_peval j g r tau Eg Er). apply in_map, in_seq.
      rewrite <- (ff_gates _ _ _ HFF). assert (j < length (gates c'))%nat by (apply nth_error_Some; congruence). lia. }
    destruct (row_gate i ltac:(lia)) as (g & r & Eg & Er).
    destruct (gates_one i g Eg) as [Hq|Hq].
    - (* a range-checked value *)
      set (v := nth i (range_col c') 0%nat).
      assert (Hz : (zval (w v) < 2 ^ Z.of_nat b)%Z).
      { destruct (nth_error (range_col c) i) as [v'|] eqn:Ev.
        - unfold v. rewrite (range_var i v' Ev). apply (rsat_ultra zval p nb L HF w v' b Hb Hbn). apply Hrange.
          eapply nth_error_In; eauto.
        - unfold v. rewrite range_var_over by now apply nth_error_None. rewrite W0.
          change (0 : K) with (fZ 0 : K). rewrite (pf_zval _ _ _ _ _ HF), Z.mod_0_l; [apply Z.pow_pos_nonneg; lia|].
          pose proof (pf_range _ _ _ _ _ HF 0). lia. }
      pose proof (pf_range _ _ _ _ _ HF (w v)) as Hr0. set (k := Z.to_nat (zval (w v))).
      assert (Hk : (k < 2 ^ b)%nat).
      { unfold k. apply Nat2Z.inj_lt. rewrite Z2Nat.id by lia. rewrite Nat2Z.inj_pow. exact Hz. }
      destruct (row_gate k ltac:(lia)) as (g' & r' & Eg' & Er').
      apply (HT k g' r' Eg' Er'). rewrite (lookup_peval i g r tau Eg Er). unfold ttuple, ltuple. fold v.
      rewrite (not_lk_zero k g' Eg') by lia. rewrite Hq, (rt_lo k Hk).
      replace (w v) with (fnat (K := K) k); [cbn [peval]; ring|].
      rewrite <- fZ_nat. unfold k. rewrite Z2Nat.id by lia. apply (pf_fZ _ _ _ _ _ HF).
    - (* a lookup gate *)
      assert (Hlk : lk c' i) by (exists g; split; auto; rewrite Hq; apply f1_neq_0).
      apply (HR b Ht) in Hlk as [H1 H2].
      rewrite (lookup_peval i g r tau Eg Er) in *. rewrite range_var_over by lia. rewrite W0.
      assert (Hn : q_lookup g <> 0) by (rewrite Hq; apply f1_neq_0).
      destruct (Hl i g r Eg Er Hn) as [E|(j & g' & r' & Eg' & Er' & Hn' & E)].
      + rewrite range_var_over in HT by lia. rewrite W0 in HT.
        assert (H02 : (0 < 2 ^ b)%nat) by (apply Nat.neq_0_lt_0, Nat.pow_nonzero; lia).
        destruct (row_gate 0 ltac:(lia)) as (g' & r' & Eg' & Er').
        apply (HT 0%nat g' r' Eg' Er'). unfold ttuple, ltuple.
        assert (E1 : q_dom_sep g = 0) by congruence. assert (E2 : w (r0 r) = 0) by congruence.
        assert (E3 : w (r1 r) = 0) by congruence. assert (E4 : w (r2 r) = 0) by congruence.
        rewrite (not_lk_zero 0 g' Eg') by lia. rewrite (rt_lo 0) by lia. rewrite E1, E2, E3, E4. cbn [peval fnat]. ring.
      + rewrite range_var_over in HT by lia. rewrite W0 in HT.
        apply (HT j g' r' Eg' Er').
        assert (Hlk' : lk c' j) by (exists g'; split; auto).
        apply (HR b Ht) in Hlk' as [H1' _].
        destruct (gates_one j g' Eg') as [Hq'|Hq']; [contradiction|].
        unfold ttuple, ltuple. rewrite Hq, Hq', (rt_hi j) by lia.
        do 2 f_equal. f_equal; [congruence|]. f_equal; [congruence|]. f_equal; [congruence|]. f_equal. congruence.
  Qed.

  (** Pigeonhole on a classification of challenges. *)
  Lemma pigeon {A} (f : A -> nat -> bool) m k (ts : list A) :
    (forall t, In t ts -> exists j, (j < m)%nat /\ f t j = true) -> (m * k < length ts)%nat ->
    exists j, (j < m)%nat /\ (k < length (filter (fun t => f t j) ts))%nat.
  Proof.
    revert ts. induction m as [|m IH]; intros ts H Hl.
    - destruct ts as [|t ts]; [cbn in Hl; lia|]. destruct (H t (or_introl eq_refl)) as (j & Hj & _). lia.
    - destruct (Nat.lt_ge_cases k (length (filter (fun t => f t m) ts))) as [Hk|Hk]; [exists m; split; auto|].
      destruct (IH (filter (fun t => negb (f t m)) ts)) as (j & Hj & Hc).
      + intros t Hin. apply filter_In in Hin as [Hin Hf]. destruct (H t Hin) as (j & Hj & Hf').
        exists j. split; auto. assert (j <> m) by (intros ->; rewrite Hf' in Hf; discriminate). lia.
      + assert (length ts = length (filter (fun t => f t m) ts) + length (filter (fun t => negb (f t m)) ts))%nat.
        { clear. induction ts as [|t ts IH]; auto. cbn [filter]. destruct (f t m); cbn [negb length]; lia. }
        lia.
      + exists j. split; [lia|]. eapply Nat.lt_le_trans; [exact Hc|]. clear. induction ts as [|t ts IH]; auto.
        cbn [filter]. destruct (f t m); cbn [negb filter]; destruct (f t j); cbn [length]; lia.
  Qed.

  Theorem lookup_vectors_sound (ts : list K) : NoDup ts -> (n * 4 < length ts)%nat ->
    (forall tau, In tau ts -> incl (lookup_values K cw tau) (merged_table K cw tau rt)) ->
    (forall v, In v (range_col c) -> rsat zval (Ultra b) w v) /\ lookup_ok c' w.
  Proof.
    intros Nd Hlen Hincl. pose proof n_room as HN.
    assert (Hrow : forall i g r, (i + 2 <= n)%nat -> nth_error (gates c') i = Some g -> nth_error (rows c') i = Some r ->
      exists j g' r', (j < n)%nat /\ nth_error (gates c') j = Some g' /\ nth_error (rows c') j = Some r' /\
        ltuple g r (w (nth i (range_col c') 0%nat)) = ttuple g' r' (nth j rt 0)).
    { intros i g r Hi Eg Er.
      destruct (pigeon (fun tau j => feqb (merged_table_value K cw tau rt j) (merged_lookup_value K cw tau i)) n 4 ts) as (j & Hj & Hc).
      - intros tau Hin. specialize (Hincl tau Hin (merged_lookup_value K cw tau i)).
        unfold lookup_values, merged_table in Hincl. cbn [with_witness domain] in Hincl.
        specialize (Hincl ltac:(apply in_map, in_seq; lia)). apply in_map_iff in Hincl as (j & E & Hj). apply in_seq in Hj.
        exists j. split; [lia|]. apply feqb_eq. exact E.
      - exact Hlen.
      - destruct (row_gate j Hj) as (g' & r' & Eg' & Er'). exists j, g', r'. do 3 (split; auto).
        assert (Hpq : peq (ltuple g r (w (nth i (range_col c') 0%nat))) (ttuple g' r' (nth j rt 0))).
        { apply (interp_unique K (filter (fun t => feqb (merged_table_value K cw t rt j) (merged_lookup_value K cw t i)) ts));
            [apply NoDup_filter; exact Nd| | |].
          - intros tau Hin. apply filter_In in Hin as [Hin E]. apply feqb_eq in E.
            rewrite (lookup_peval i g r tau Eg Er), (table_peval j g' r' tau Eg' Er') in E. symmetry. exact E.
          - cbn [ltuple length]. lia.
          - cbn [ttuple length]. lia. }
        unfold peq, coef in Hpq. pose proof (Hpq 0%nat) as P0. pose proof (Hpq 1%nat) as P1. pose proof (Hpq 2%nat) as P2.
        pose proof (Hpq 3%nat) as P3. pose proof (Hpq 4%nat) as P4. unfold ltuple, ttuple in *. cbn [nth] in *. congruence. }
    split.
    - intros v Hv. apply In_nth_error in Hv as [i Ei].
      assert (Hi : (i < length (range_col c))%nat) by (apply nth_error_Some; congruence).
      assert (Hi2 : (i + 2 <= n \/ (i + 1 = n))%nat) by lia.
      destruct Hi2 as [Hi2|Hi2]; [|lia].
      destruct (row_gate i ltac:(lia)) as (g & r & Eg & Er).
      destruct (Hrow i g r Hi2 Eg Er) as (j & g' & r' & Hj & _ & _ & E).
      unfold ltuple, ttuple in E. assert (E0 : w (nth i (range_col c') 0%nat) = nth j rt 0) by congruence. rewrite (range_var i v Ei) in E0.
      apply (rsat_ultra zval p nb L HF w v b Hb Hbn). rewrite E0.
      destruct (Nat.lt_ge_cases j (2 ^ b)) as [Hj2|Hj2].
      + rewrite rt_lo by auto. rewrite <- fZ_nat, (pf_zval _ _ _ _ _ HF).
        pose proof (pf_range _ _ _ _ _ HF 0). eapply Z.le_lt_trans; [apply Z.mod_le; lia|].
        apply Nat2Z.inj_lt in Hj2. now rewrite Nat2Z.inj_pow in Hj2.
      + rewrite rt_hi by auto. change (0 : K) with (fZ 0 : K). rewrite (pf_zval _ _ _ _ _ HF), Z.mod_0_l.
        * apply Z.pow_pos_nonneg; lia.
        * pose proof (pf_range _ _ _ _ _ HF 0). lia.
    - intros i g r Eg Er Hq. assert (Hlk : lk c' i) by (exists g; split; auto).
      apply (HR b Ht) in Hlk as [_ H2].
      destruct (Hrow i g r H2 Eg Er) as (j & g' & r' & Hj & Eg' & Er' & E).
      destruct (gates_one i g Eg) as [Hq1|Hq1]; [contradiction|].
      unfold ltuple, ttuple in E. rewrite Hq1 in E.
      assert (H1 : forall x : K, 1 * x = x) by (intros; ring). rewrite !H1 in E.
      destruct (gates_one j g' Eg') as [Hq2|Hq2]; rewrite Hq2 in E.
      + left. assert (H0 : forall x : K, 0 * x = 0) by (intros; ring). rewrite !H0 in E. congruence.
      + right. rewrite !H1 in E. exists j, g', r'. do 2 (split; auto). split; [rewrite Hq2; apply f1_neq_0|].
        congruence.
  Qed.
End Vectors.
