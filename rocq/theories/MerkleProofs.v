(** Proofs about the Merkle tree model: the canonical tree of a map, lookup,
    verification and update. *)
From Coq Require Import List Arith Lia Bool.
From Verif Require Import Base ListAux MerkleModel MerkleSpec.
Import ListNotations.

Definition digit (a pos i : nat) : nat := (pos / a ^ i) mod a.
Definition blk (a pos h : nat) : nat := pos / a ^ h * a ^ h.

Section Arith.
  Variable a : nat.
  Hypothesis Ha : 1 <= a.

  Lemma pow_pos h : 1 <= a ^ h.
  Proof. induction h; simpl; nia. Qed.

  Lemma digit_lt pos i : digit a pos i < a.
  Proof. apply Nat.mod_upper_bound; lia. Qed.

  Lemma path_nth pos H i :
    i < H -> nth_error (to_traversal_path a pos H) i = Some (digit a pos i).
  Proof.
    revert pos i; induction H as [|H IH]; intros pos i Hi; [lia|].
    destruct i as [|i].
    - cbn. unfold digit. rewrite Nat.pow_0_r, Nat.div_1_r. reflexivity.
    - cbn [to_traversal_path nth_error]. rewrite IH by lia.
      unfold digit. rewrite Nat.div_div by (pose proof (pow_pos i); lia).
      rewrite Nat.pow_succ_r'. reflexivity.
  Qed.

  Lemma path_length pos H : length (to_traversal_path a pos H) = H.
  Proof. revert pos; induction H; simpl; auto. Qed.

  Lemma blk_0 pos : blk a pos 0 = pos.
  Proof. clear Ha. unfold blk. rewrite Nat.pow_0_r, Nat.div_1_r. lia. Qed.

  Lemma blk_step pos h : blk a pos (S h) + digit a pos h * a ^ h = blk a pos h.
  Proof.
    unfold blk, digit. rewrite Nat.pow_succ_r'.
    rewrite (Nat.mul_comm a), <- Nat.div_div by (pose proof (pow_pos h); lia).
    pose proof (Nat.div_mod (pos / a ^ h) a ltac:(lia)) as Hd.
    set (q := pos / a ^ h / a) in *. set (r := (pos / a ^ h) mod a) in *.
    set (x := pos / a ^ h) in *. set (P := a ^ h) in *. nia.
  Qed.

  Lemma blk_le pos h : blk a pos h <= pos.
  Proof. unfold blk. rewrite Nat.mul_comm. apply Nat.mul_div_le. pose proof (pow_pos h); lia. Qed.

  Lemma blk_lt pos h : pos < blk a pos h + a ^ h.
  Proof.
    unfold blk. pose proof (pow_pos h).
    pose proof (Nat.div_mod pos (a ^ h) ltac:(lia)).
    pose proof (Nat.mod_upper_bound pos (a ^ h) ltac:(lia)). lia.
  Qed.

  Lemma blk_small pos h : pos < a ^ h -> blk a pos h = 0.
  Proof. intro H. unfold blk. rewrite Nat.div_small by auto. reflexivity. Qed.

  Lemma block_in_range base h i d :
    d < a -> base + d * a ^ h <= i < base + d * a ^ h + a ^ h ->
    base <= i < base + a ^ S h.
  Proof.
    intros Hd Hi. rewrite Nat.pow_succ_r'. pose proof (pow_pos h). nia.
  Qed.

  Lemma block_disjoint base h i d d' :
    base + d * a ^ h <= i < base + d * a ^ h + a ^ h ->
    base + d' * a ^ h <= i < base + d' * a ^ h + a ^ h -> d = d'.
  Proof.
    intros H1 H2. pose proof (pow_pos h). nia.
  Qed.

  Lemma block_split base h i :
    base <= i < base + a ^ S h ->
    exists d, d < a /\ base + d * a ^ h <= i < base + d * a ^ h + a ^ h.
  Proof.
    intros Hi. rewrite Nat.pow_succ_r' in Hi. pose proof (pow_pos h) as Hp.
    exists ((i - base) / a ^ h).
    pose proof (Nat.div_mod (i - base) (a ^ h) ltac:(lia)) as Hd.
    pose proof (Nat.mod_upper_bound (i - base) (a ^ h) ltac:(lia)) as Hm.
    split; [apply Nat.div_lt_upper_bound; nia|]. nia.
  Qed.
End Arith.

Section MerkleProofs.
  Context {E T : Type}.
  Variable Teqb : T -> T -> bool.
  Hypothesis Teqb_eq : forall x y, Teqb x y = true <-> x = y.
  Variable T0 : T.
  Variable digest : list T -> T.
  Variable digest_leaf : nat -> E -> T.
  Variable arity : nat.
  Hypothesis Ha : 1 <= arity.

  Notation node := (node E T).
  Notation canon := (canon T0 digest digest_leaf arity).
  Notation value := (value T0).

  Definition kids (m : kmap E) (h base : nat) : list node :=
    map (fun i => canon m h (base + i * arity ^ h)) (seq 0 arity).

  Lemma canon_S m h base :
    canon m (S h) base =
    if forallb is_empty (kids m h base) then Empty
    else Branch (digest (map value (kids m h base))) (kids m h base).
  Proof. reflexivity. Qed.

  Lemma kids_length m h base : length (kids m h base) = arity.
  Proof. unfold kids. rewrite map_length, seq_length. reflexivity. Qed.

  Lemma kids_nth m h base d :
    nth_error (kids m h base) d =
    if d <? arity then Some (canon m h (base + d * arity ^ h)) else None.
  Proof. apply (nth_error_map_seq (fun i => canon m h (base + i * arity ^ h))). Qed.

  Lemma canon_ext m m' h base :
    (forall i, base <= i < base + arity ^ h -> m i = m' i) ->
    canon m h base = canon m' h base.
  Proof.
    revert base; induction h as [|h IH]; intros base H.
    - simpl. rewrite (H base); [reflexivity | simpl; lia].
    - rewrite !canon_S. replace (kids m' h base) with (kids m h base); [reflexivity|].
      apply list_ext; intro d. rewrite !kids_nth.
      destruct (Nat.ltb_spec d arity); [|reflexivity].
      f_equal. apply IH. intros i Hi. apply H.
      eapply block_in_range; eauto.
  Qed.

  Lemma is_empty_canon m h base :
    is_empty (canon m h base) = true <->
    (forall i, base <= i < base + arity ^ h -> m i = None).
  Proof.
    revert base; induction h as [|h IH]; intros base.
    - simpl. destruct (m base) eqn:Hm; simpl; split; intro H; try discriminate; auto.
      + rewrite (H base) in Hm by lia. discriminate.
      + intros i Hi. replace i with base by lia. auto.
    - rewrite canon_S. destruct (forallb is_empty (kids m h base)) eqn:Hf; simpl.
      + split; [|auto]. intros _ i Hi.
        destruct (block_split arity Ha base h i Hi) as (d & Hd & Hid).
        rewrite forallb_nth in Hf.
        specialize (Hf d (canon m h (base + d * arity ^ h))).
        rewrite kids_nth in Hf. destruct (Nat.ltb_spec d arity); [|lia].
        specialize (Hf eq_refl). rewrite IH in Hf. auto.
      + split; [discriminate|]. intro H. exfalso.
        rewrite (proj2 (forallb_nth _ _)) in Hf; [discriminate|].
        intros d c Hc. rewrite kids_nth in Hc.
        destruct (Nat.ltb_spec d arity); [|discriminate].
        injection Hc as <-. apply IH. intros i Hi. apply H.
        eapply block_in_range; eauto.
  Qed.

  Lemma is_empty_eq (n : node) : is_empty n = true -> n = Empty.
  Proof. destruct n; simpl; congruence. Qed.

  Lemma canon_not_forgotten m h base : is_forgotten (canon m h base) = false.
  Proof.
    destruct h; [simpl; destruct (m base); auto|].
    rewrite canon_S. destruct (forallb _ _); auto.
  Qed.

  (** Children of the canonical tree after changing one block. *)
  Lemma kids_set m m' h base d :
    d < arity ->
    (forall i, base <= i < base + arity ^ S h ->
               ~ (base + d * arity ^ h <= i < base + d * arity ^ h + arity ^ h) -> m i = m' i) ->
    set_nth (kids m h base) d (canon m' h (base + d * arity ^ h)) = kids m' h base.
  Proof.
    intros Hd H. apply list_ext; intro j.
    rewrite nth_error_set_nth, kids_length, !kids_nth.
    destruct (Nat.eqb_spec d j).
    - subst j. destruct (Nat.ltb_spec d arity); [reflexivity|lia].
    - simpl. destruct (Nat.ltb_spec j arity); [|reflexivity].
      f_equal. apply canon_ext. intros i Hi. apply H.
      + eapply block_in_range; eauto.
      + intro Hi'. apply n. eapply block_disjoint; eauto.
  Qed.

  Lemma kids_repeat m h base :
    forallb is_empty (kids m h base) = true -> kids m h base = repeat Empty arity.
  Proof.
    intro H. apply list_ext; intro j. rewrite nth_error_repeat_full.
    rewrite forallb_nth in H. specialize (H j). rewrite kids_nth in *.
    destruct (Nat.ltb_spec j arity); auto.
    f_equal. apply is_empty_eq. eauto.
  Qed.

  Definition delta (old new : option E) : nat * nat :=
    match old, new with
    | None, Some _ => (1, 0)
    | Some _, None => (0, 1)
    | _, _ => (0, 0)
    end.

  Definition old_result (old : option E) : lookup_result E unit unit :=
    match old with Some e => LOk e tt | None => LNotFound tt end.

  Definition good_path (path : list nat) (pos h : nat) : Prop :=
    forall i, i < h -> nth_error path i = Some (digit arity pos i).

  Lemma good_path_top pos h : good_path (to_traversal_path arity pos h) pos h.
  Proof. intros i Hi. apply path_nth; auto. Qed.

  Lemma good_path_S path pos h : good_path path pos (S h) -> good_path path pos h.
  Proof. clear Ha. intros H i Hi; apply H; lia. Qed.

  Lemma kset_agree (m : kmap E) k v h pos base :
    k = pos -> base = blk arity pos (S h) ->
    (forall i, base <= i < base + arity ^ S h ->
               ~ (base + digit arity pos h * arity ^ h <= i
                  < base + digit arity pos h * arity ^ h + arity ^ h) ->
               m i = kset m k v i).
  Proof.
    intros -> -> i Hi Hn. unfold kset. destruct (Nat.eqb_spec i pos); auto. subst i.
    exfalso. apply Hn. rewrite blk_step by auto. split.
    - apply blk_le; auto.
    - apply blk_lt; auto.
  Qed.

  Lemma update_canon m pos f h path :
    good_path path pos h ->
    update_with_internal T0 digest digest_leaf arity h (canon m h (blk arity pos h)) pos path f =
    Ok (canon (kset m pos (f (m pos))) h (blk arity pos h),
        delta (m pos) (f (m pos)), old_result (m pos)).
  Proof.
    induction h as [|h IH]; intros Hp.
    - cbn [update_with_internal MerkleSpec.canon]. rewrite !blk_0. unfold kset.
      rewrite Nat.eqb_refl.
      destruct (m pos) as [e|] eqn:Hm; cbn [update_with_internal].
      + destruct (f (Some e)); reflexivity.
      + destruct (f None); reflexivity.
    - set (base := blk arity pos (S h)).
      set (d := digit arity pos h).
      assert (Hd : d < arity) by (apply digit_lt; auto).
      assert (Hb : base + d * arity ^ h = blk arity pos h) by (apply blk_step; auto).
      assert (Hidx : nth_error path h = Some d) by (apply Hp; lia).
      assert (Hkid : nth_error (kids m h base) d = Some (canon m h (blk arity pos h))).
      { rewrite kids_nth. destruct (Nat.ltb_spec d arity); [|lia]. rewrite Hb; auto. }
      assert (Hset : set_nth (kids m h base) d
                       (canon (kset m pos (f (m pos))) h (blk arity pos h))
                     = kids (kset m pos (f (m pos))) h base).
      { rewrite <- Hb. apply kids_set; auto. apply kset_agree; auto. }
      specialize (IH (good_path_S _ _ _ Hp)).
      set (m' := kset m pos (f (m pos))) in *.
      rewrite !canon_S.
      destruct (forallb is_empty (kids m h base)) eqn:Hf.
      + cbn [update_with_internal]. unfold index. rewrite Hidx. cbn [bind].
        rewrite nth_error_repeat_lt by auto. cbn [bind].
        assert (He : canon m h (blk arity pos h) = Empty).
        { apply is_empty_eq. rewrite forallb_nth in Hf. eauto. }
        rewrite He in IH. rewrite IH. cbn [bind].
        rewrite <- (kids_repeat m h base) by auto. rewrite Hset.
        assert (Hmpos : m pos = None).
        { assert (Hx : is_empty (canon m h (blk arity pos h)) = true) by (rewrite He; auto).
          rewrite is_empty_canon in Hx. apply Hx. split.
          - apply blk_le; auto.
          - apply blk_lt; auto. }
        destruct (is_empty (canon m' h (blk arity pos h))) eqn:He'.
        * assert (Hall : forallb is_empty (kids m' h base) = true).
          { rewrite <- Hset. rewrite forallb_nth. intros i c Hc.
            rewrite nth_error_set_nth in Hc.
            destruct ((d =? i) && (d <? length (kids m h base))).
            - congruence.
            - rewrite forallb_nth in Hf. eauto. }
          rewrite Hall.
          assert (Hn : f (m pos) = None).
          { rewrite is_empty_canon in He'. specialize (He' pos).
            unfold m', kset in He'. rewrite Nat.eqb_refl in He'. apply He'. split.
            - apply blk_le; auto.
            - apply blk_lt; auto. }
          rewrite Hn, Hmpos. reflexivity.
        * assert (Hall : forallb is_empty (kids m' h base) = false).
          { destruct (forallb is_empty (kids m' h base)) eqn:Hx; auto.
            rewrite forallb_nth in Hx. specialize (Hx d (canon m' h (blk arity pos h))).
            rewrite kids_nth, Hb in Hx. destruct (Nat.ltb_spec d arity); [|lia].
            rewrite Hx in He'; auto. }
          rewrite Hall. reflexivity.
      + cbn [update_with_internal]. unfold index. rewrite Hidx. cbn [bind].
        rewrite Hkid. cbn [bind]. rewrite IH. cbn [bind].
        rewrite canon_not_forgotten, Hset.
        destruct (forallb is_empty (kids m' h base)); reflexivity.
  Qed.

  (** ** Lookup on the canonical tree and completeness of verification. *)

  Lemma siblings_split b (cs : list node) :
    siblings T0 b cs = map value (firstn b cs) ++ map value (skipn (S b) cs).
  Proof.
    clear Ha.
    unfold siblings.
    assert (G : forall s (cs : list node), b < s -> map (fun ic => value (snd ic))
              (filter (fun ic => negb (fst ic =? b)) (combine (seq s (length cs)) cs))
              = map value cs).
    { intros s cs0; revert s; induction cs0 as [|c cs0 IH]; intros s Hs; simpl; auto.
      destruct (Nat.eqb_spec s b); [lia|]. simpl. f_equal. apply IH; lia. }
    assert (K : forall s (cs : list node), s <= b -> map (fun ic => value (snd ic))
              (filter (fun ic => negb (fst ic =? b)) (combine (seq s (length cs)) cs))
              = map value (firstn (b - s) cs) ++ map value (skipn (S (b - s)) cs)).
    { intros s cs0; revert s; induction cs0 as [|c cs0 IH]; intros s Hs; simpl.
      - rewrite firstn_nil. reflexivity.
      - destruct (Nat.eqb_spec s b).
        + subst. rewrite Nat.sub_diag. simpl. apply G; lia.
        + replace (b - s) with (S (b - S s)) by lia. simpl. f_equal. apply IH; lia. }
    rewrite K by lia. rewrite Nat.sub_0_r. reflexivity.
  Qed.

  Lemma siblings_length b (cs : list node) :
    b < length cs -> length (siblings T0 b cs) = length cs - 1.
  Proof.
    clear Ha.
    intro H. rewrite siblings_split, app_length, !map_length, firstn_length, skipn_length. lia.
  Qed.

  (** Re-inserting the child's own value gives back all children values. *)
  Lemma siblings_insert b (cs : list node) c :
    nth_error cs b = Some c ->
    firstn b (siblings T0 b cs) ++ value c :: skipn b (siblings T0 b cs) = map value cs.
  Proof.
    clear Ha.
    intro H. assert (Hb : b < length cs) by (apply nth_error_Some; congruence).
    rewrite siblings_split.
    assert (Hl : length (map value (firstn b cs)) = b).
    { rewrite map_length, firstn_length. lia. }
    rewrite firstn_app, skipn_app, Hl, Nat.sub_diag.
    rewrite (firstn_all2 (map value (firstn b cs))) by lia.
    rewrite (skipn_all2 (map value (firstn b cs))) by lia.
    cbn [firstn app skipn]. rewrite app_nil_r.
    rewrite (split_at cs b c H) at 3. rewrite map_app. reflexivity.
  Qed.

  Definition root_from (init : T) (path : list nat) (pf : @proof T) : T :=
    fold_left (verify_step T0 digest) (combine path pf) init.

  Lemma combine_app_l {A B} (l1 : list A) (l2 : list B) y :
    forall x, nth_error l1 (length l2) = Some x ->
    combine l1 (l2 ++ [y]) = combine l1 l2 ++ [(x, y)].
  Proof.
    revert l2; induction l1 as [|a1 l1 IH]; intros [|b2 l2] x H; simpl in *; try discriminate.
    - injection H as ->. destruct l1; reflexivity.
    - f_equal. apply IH; auto.
  Qed.

  Lemma root_from_snoc init path pf b s :
    nth_error path (length pf) = Some b ->
    root_from init path (pf ++ [s]) = verify_step T0 digest (root_from init path pf) (b, s).
  Proof.
    intro H. unfold root_from. rewrite (combine_app_l _ _ _ b) by auto.
    rewrite fold_left_app. reflexivity.
  Qed.

  Lemma root_from_repeat k path :
    root_from T0 path (repeat [] k) = T0.
  Proof.
    unfold root_from. revert path; induction k; intros [|b path]; simpl; auto.
  Qed.

  (** Lookup in a canonical tree: agrees with the map, and the proof recomputes
      the root value. *)
  Lemma lookup_canon m pos h path :
    2 <= arity ->
    good_path path pos h ->
    exists r, lookup_internal T0 h (canon m h (blk arity pos h)) path = Ok r /\
      match r with
      | LOk e p => m pos = Some e /\ length p = h /\
                   Forall (fun v => length v = arity - 1) p /\
                   root_from (digest_leaf pos e) path p = value (canon m h (blk arity pos h))
      | LNotFound p => m pos = None /\ length p = h /\
                   Forall (fun v => length v = arity - 1 \/ length v = 0) p /\
                   root_from T0 path p = value (canon m h (blk arity pos h))
      | LNotInMemory => False
      end.
  Proof.
    intros H2. induction h as [|h IH]; intros Hp.
    - cbn [MerkleSpec.canon]. rewrite blk_0. destruct (m pos) as [e|] eqn:Hm; cbn.
      + eexists; split; [reflexivity|]. simpl. unfold root_from. simpl.
        destruct path; simpl; auto.
      + eexists; split; [reflexivity|]. simpl. unfold root_from.
        destruct path; simpl; auto.
    - set (base := blk arity pos (S h)).
      set (d := digit arity pos h).
      assert (Hd : d < arity) by (apply digit_lt; auto).
      assert (Hb : base + d * arity ^ h = blk arity pos h) by (apply blk_step; auto).
      assert (Hidx : nth_error path h = Some d) by (apply Hp; lia).
      assert (Hkid : nth_error (kids m h base) d = Some (canon m h (blk arity pos h))).
      { rewrite kids_nth. destruct (Nat.ltb_spec d arity); [|lia]. rewrite Hb; auto. }
      specialize (IH (good_path_S _ _ _ Hp)). destruct IH as (r & Hr & Hspec).
      rewrite canon_S. destruct (forallb is_empty (kids m h base)) eqn:Hf.
      + cbn [lookup_internal]. eexists; split; [reflexivity|].
        split; [|split; [apply repeat_length|split]].
        * rewrite forallb_nth in Hf. specialize (Hf _ _ Hkid).
          rewrite is_empty_canon in Hf. apply Hf. split; [apply blk_le|apply blk_lt]; auto.
        * apply Forall_forall. intros x Hx. apply repeat_spec in Hx. subst; auto.
        * apply root_from_repeat.
      + cbn [lookup_internal]. unfold index. rewrite Hidx. cbn [bind].
        rewrite Hkid. cbn [bind]. rewrite Hr. cbn [bind].
        assert (Hsib : length (siblings T0 d (kids m h base)) = arity - 1).
        { rewrite siblings_length; rewrite kids_length; auto. }
        destruct r as [e p| |p]; [|contradiction|].
        * destruct Hspec as (H1 & Hlen & Hall & Hroot).
          eexists; split; [reflexivity|]. repeat split; auto.
          -- rewrite app_length; simpl; lia.
          -- apply Forall_app; split; auto.
          -- rewrite (root_from_snoc _ _ _ d) by (rewrite Hlen; auto).
             rewrite Hroot. unfold verify_step.
             destruct (siblings T0 d (kids m h base)) eqn:Hs; [simpl in Hsib; lia|].
             rewrite <- Hs. rewrite (siblings_insert d (kids m h base)) by auto.
             reflexivity.
        * destruct Hspec as (H1 & Hlen & Hall & Hroot).
          eexists; split; [reflexivity|]. repeat split; auto.
          -- rewrite app_length; simpl; lia.
          -- apply Forall_app; split; auto.
          -- rewrite (root_from_snoc _ _ _ d) by (rewrite Hlen; auto).
             rewrite Hroot. unfold verify_step.
             destruct (siblings T0 d (kids m h base)) eqn:Hs; [simpl in Hsib; lia|].
             rewrite <- Hs. rewrite (siblings_insert d (kids m h base)) by auto.
             reflexivity.
  Qed.
End MerkleProofs.
