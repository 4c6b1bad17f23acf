(** Proofs about the Merkle tree model: counting, iteration and collecting all
    leaves with their proofs. *)
From Coq Require Import List Arith Lia Bool.
From Verif Require Import Base ListAux MerkleModel MerkleSpec MerkleProofs MerklePrune.
Import ListNotations.

(** ** Counting *)
Section Count.
  Context {E : Type}.

  Definition present (m : kmap E) (k : nat) : nat :=
    match m k with Some _ => 1 | None => 0 end.

  Lemma ksize_S (m : kmap E) n : ksize m (S n) = ksize m n + present m n.
  Proof.
    unfold ksize, present. rewrite seq_S, filter_app, app_length. simpl.
    destruct (m n); reflexivity.
  Qed.

  Lemma ksize_ext (m m' : kmap E) n :
    (forall k, k < n -> m k = m' k) -> ksize m n = ksize m' n.
  Proof.
    induction n as [|n IH]; intro H; [reflexivity|].
    rewrite !ksize_S, IH by (intros; apply H; lia). unfold present. rewrite H by lia.
    reflexivity.
  Qed.

  Lemma ksize_ge_present (m : kmap E) k n : k < n -> present m k <= ksize m n.
  Proof.
    induction n as [|n IH]; intro H; [lia|]. rewrite ksize_S.
    destruct (Nat.eq_dec k n) as [->|]; [lia|]. specialize (IH ltac:(lia)). lia.
  Qed.

  Lemma ksize_set (m : kmap E) k v n :
    k < n ->
    ksize (kset m k v) n + present m k
    = ksize m n + match v with Some _ => 1 | None => 0 end.
  Proof.
    induction n as [|n IH]; intro H; [lia|]. rewrite !ksize_S.
    destruct (Nat.eq_dec k n) as [->|Hn].
    - rewrite (ksize_ext (kset m n v) m n).
      + unfold present at 1, kset. rewrite Nat.eqb_refl. lia.
      + intros j Hj. unfold kset. destruct (Nat.eqb_spec j n); auto; lia.
    - specialize (IH ltac:(lia)). unfold present at 1, kset at 2.
      destruct (Nat.eqb_spec n k); [lia|]. fold (present m n). lia.
  Qed.

  Lemma ksize_klist (xs : list E) n : ksize (klist xs) n = Nat.min (length xs) n.
  Proof.
    induction n as [|n IH]; [rewrite Nat.min_0_r; reflexivity|].
    rewrite ksize_S, IH. unfold present, klist.
    destruct (nth_error xs n) eqn:H.
    - assert (n < length xs) by (apply nth_error_Some; congruence). lia.
    - apply nth_error_None in H. lia.
  Qed.

  Lemma ksize_empty n : ksize (@kempty E) n = 0.
  Proof. induction n as [|n IH]; [reflexivity|]. rewrite ksize_S, IH. reflexivity. Qed.

  (** Entries with keys in [base, base + n). *)
  Definition entries_from (m : kmap E) (base n : nat) : list (nat * E) :=
    flat_map (fun k => match m k with Some e => [(k, e)] | None => [] end) (seq base n).

  Lemma entries_app m base n n' :
    entries_from m base (n + n') = entries_from m base n ++ entries_from m (base + n) n'.
  Proof. unfold entries_from. rewrite seq_app, flat_map_app. reflexivity. Qed.

  Lemma entries_blocks m P k : forall base,
    entries_from m base (k * P) =
    flat_map (fun i => entries_from m (base + i * P) P) (seq 0 k).
  Proof.
    induction k as [|k IH]; intro base; [reflexivity|].
    rewrite seq_S, flat_map_app. cbn [flat_map plus]. rewrite app_nil_r, <- IH.
    rewrite <- entries_app. f_equal. lia.
  Qed.

  Lemma entries_empty m base n :
    (forall i, base <= i < base + n -> m i = None) -> entries_from m base n = [].
  Proof.
    unfold entries_from. intro H.
    assert (G : forall k, In k (seq base n) -> m k = None).
    { intros k Hk. apply in_seq in Hk. apply H; lia. }
    induction (seq base n) as [|k l IH]; [reflexivity|]. simpl.
    rewrite (G k) by (left; auto). apply IH. intros; apply G; right; auto.
  Qed.

  Lemma kentries_klist (xs : list E) n :
    length xs <= n -> kentries (klist xs) n = combine (seq 0 (length xs)) xs.
  Proof.
    intro H. change (kentries (klist xs) n) with (entries_from (klist xs) 0 n).
    replace n with (length xs + (n - length xs)) by lia.
    rewrite entries_app, (entries_empty _ (0 + length xs)), app_nil_r.
    - clear H n.
      assert (G : forall s pre, length pre = s ->
                 entries_from (klist (pre ++ xs)) s (length xs) = combine (seq s (length xs)) xs).
      { induction xs as [|x xs IH]; intros s pre Hs; [reflexivity|].
        cbn [length entries_from seq combine]. unfold entries_from. cbn [seq flat_map].
        unfold klist at 1. rewrite nth_error_app2, Hs, Nat.sub_diag by lia. cbn [nth_error app].
        f_equal. specialize (IH (S s) (pre ++ [x])). rewrite <- app_assoc in IH.
        apply IH. rewrite app_length. simpl; lia. }
      apply (G 0 []). reflexivity.
    - intros i Hi. unfold klist. apply nth_error_None. lia.
  Qed.
End Count.

Section Iter.
  Context {E T : Type}.
  Variable T0 : T.
  Variable digest : list T -> T.
  Variable digest_leaf : nat -> E -> T.
  Variable arity : nat.
  Hypothesis Ha : 2 <= arity.

  Lemma Ha1i : 1 <= arity.
  Proof. lia. Qed.
  Hint Resolve Ha1i : core.

  Notation node := (node E T).
  Notation canon := (canon T0 digest digest_leaf arity).
  Notation value := (value T0).
  Notation kids := (kids T0 digest digest_leaf arity).
  Notation good_path := (good_path arity).

  (** ** Iteration *)
  (** All leaves of a node, left to right, and its number of nodes. *)
  Fixpoint leaves (n : node) : list (nat * E) :=
    match n with
    | Leaf _ p e => [(p, e)]
    | Branch _ cs => flat_map leaves cs
    | _ => []
    end.
  Fixpoint nsize (n : node) : nat :=
    match n with
    | Branch _ cs => S (list_sum (map nsize cs))
    | _ => 1
    end.

  Lemma visible_leaves (cs : list node) :
    flat_map leaves (filter visible cs) = flat_map leaves cs.
  Proof.
    clear Ha. induction cs as [|c cs IH]; [reflexivity|]. simpl.
    destruct c; simpl; rewrite ?IH; reflexivity.
  Qed.

  Lemma visible_size (cs : list node) :
    list_sum (map nsize (filter visible cs)) <= list_sum (map nsize cs).
  Proof.
    clear Ha. induction cs as [|c cs IH]; [simpl; lia|]. simpl.
    destruct (visible c); simpl; lia.
  Qed.

  Definition wsize (st : list node) : nat := list_sum (map nsize st).

  Lemma wsize_app st st' : wsize (st ++ st') = wsize st + wsize st'.
  Proof. clear Ha. unfold wsize. rewrite map_app, list_sum_app. reflexivity. Qed.

  Lemma iter_next_ok : forall f (st : list node),
    wsize st < f ->
    (exists x st', iter_next f st = (Some x, st') /\
                   flat_map leaves st = x :: flat_map leaves st' /\ wsize st' < wsize st)
    \/ (iter_next f st = (None, []) /\ flat_map leaves st = []).
  Proof.
    clear Ha.
    induction f as [|f IH]; intros st Hf; [lia|].
    destruct st as [|n st]; [right; split; reflexivity|].
    destruct n as [|v cs|v p e|v].
    - cbn [iter_next]. destruct (IH st) as [(x & st' & H1 & H2 & H3)|[H1 H2]].
      + unfold wsize in *. simpl in *. lia.
      + left. exists x, st'. repeat split; auto. unfold wsize in *; simpl in *; lia.
      + right. auto.
    - cbn [iter_next]. pose proof (visible_size cs) as Hv.
      destruct (IH (filter visible cs ++ st)) as [(x & st' & H1 & H2 & H3)|[H1 H2]].
      + rewrite wsize_app. unfold wsize in *. simpl in *. lia.
      + left. exists x, st'. split; [exact H1|]. split.
        * rewrite <- H2, flat_map_app, visible_leaves. reflexivity.
        * rewrite wsize_app in H3. unfold wsize in *. simpl in *. lia.
      + right. split; [exact H1|]. rewrite <- H2, flat_map_app, visible_leaves. reflexivity.
    - left. exists (p, e), st. split; [reflexivity|]. split; [reflexivity|]. unfold wsize. simpl. lia.
    - cbn [iter_next]. destruct (IH st) as [(x & st' & H1 & H2 & H3)|[H1 H2]].
      + unfold wsize in *. simpl in *. lia.
      + left. exists x, st'. repeat split; auto. unfold wsize in *; simpl in *; lia.
      + right. auto.
  Qed.

  Lemma iter_collect_ok : forall fuel f (st : list node),
    wsize st < fuel -> wsize st < f -> iter_collect fuel f st = flat_map leaves st.
  Proof.
    clear Ha.
    induction fuel as [|fuel IH]; intros f st Hfu Hf; [lia|].
    cbn [iter_collect].
    destruct (iter_next_ok f st Hf) as [(x & st' & H1 & H2 & H3)|[H1 H2]];
      rewrite H1, H2; [|reflexivity].
    f_equal. apply IH; lia.
  Qed.

  Lemma leaves_canon m h base :
    leaves (canon m h base) = entries_from m base (arity ^ h).
  Proof.
    revert base; induction h as [|h IH]; intro base.
    - simpl. unfold entries_from. simpl. destruct (m base); reflexivity.
    - rewrite Nat.pow_succ_r', entries_blocks.
      assert (G : flat_map leaves (kids m h base) =
                  flat_map (fun i => entries_from m (base + i * arity ^ h) (arity ^ h)) (seq 0 arity)).
      { unfold MerkleProofs.kids. rewrite flat_map_concat_map, map_map, <- flat_map_concat_map.
        induction (seq 0 arity) as [|i l IHl]; [reflexivity|]. simpl. rewrite IH, IHl. reflexivity. }
      rewrite <- G, canon_S.
      destruct (forallb is_empty (kids m h base)) eqn:Hf; [|reflexivity].
      rewrite (kids_repeat _ _ _ _ m h base Hf). clear. induction arity; simpl; auto.
  Qed.

  (** ** Collecting all leaves with proofs *)

  (** The inner loop of [collect_all_with_proofs], named. *)
  Fixpoint collect_loop (h : nat) (vals : list T) (i : nat) (rest : list node)
           (cur : @proof T) (acc : list (nat * E * @proof T)) :=
    match rest with
    | [] => Ok (acc, cur)
    | c :: rest' =>
        let cur' := set_nth cur h (firstn i vals ++ skipn (S i) vals) in
        let* r := collect_all_with_proofs T0 h c cur' in
        let '(found, cur'') := r in
        collect_loop h vals (S i) rest' cur'' (acc ++ found)
    end.

  Lemma collect_branch h v cs cur :
    collect_all_with_proofs T0 (S h) (Branch v cs : node) cur =
    collect_loop h (map value cs) 0 cs cur [].
  Proof.
    cbn [collect_all_with_proofs]. generalize 0 at 1 2. generalize (@nil (nat * E * @proof T)).
    generalize (map value cs) as vals. revert cur.
    induction cs as [|c cs IH]; intros cur vals acc i; [reflexivity|].
    cbn [collect_loop]. destruct (collect_all_with_proofs T0 h c _) as [[found cur'']| |];
      [|reflexivity|reflexivity]. cbn [bind]. apply IH.
  Qed.

  Definition collected (m : kmap E) (h base : nat) (cur : @proof T)
             (res : list (nat * E * @proof T)) (cur' : @proof T) : Prop :=
    length cur' = length cur /\
    skipn h cur' = skipn h cur /\
    map fst res = entries_from m base (arity ^ h) /\
    (forall p e pf, In (p, e, pf) res ->
       base <= p < base + arity ^ h /\
       forall path, good_path path p h ->
         exists pf0, lookup_internal T0 h (canon m h base) path = Ok (LOk e pf0) /\
                     pf = pf0 ++ skipn h cur).

  Lemma skipn_set_nth {A} (l : list A) i x n :
    i < n -> skipn n (set_nth l i x) = skipn n l.
  Proof.
    intro H. apply list_ext; intro j. rewrite !nth_error_skipn_full.
    apply nth_error_set_nth_neq. lia.
  Qed.

  Lemma skipn_cons_nth {A} (l : list A) n x :
    nth_error l n = Some x -> skipn n l = x :: skipn (S n) l.
  Proof.
    revert l; induction n; intros [|y l] H; simpl in *; try discriminate.
    - congruence.
    - auto.
  Qed.

  Lemma good_block_digit p h base d :
    base = blk arity base (S h) ->
    d < arity -> base + d * arity ^ h <= p < base + d * arity ^ h + arity ^ h ->
    digit arity p h = d.
  Proof.
    intros Hb Hd Hp.
    assert (Hin : base <= p < base + arity ^ S h) by (eapply block_in_range; eauto).
    assert (HB : blk arity p (S h) = base).
    { unfold blk in *. rewrite Nat.pow_succ_r' in *.
      set (Q := arity * arity ^ h) in *.
      assert (1 <= Q) by (unfold Q; pose proof (pow_pos arity Ha1i h); nia).
      set (q := base / Q) in *. clearbody q. subst base.
      replace p with (p - q * Q + q * Q) by lia.
      rewrite Nat.div_add by lia. rewrite Nat.div_small by lia. lia. }
    pose proof (blk_step arity Ha1i p h) as Hs. rewrite HB in Hs.
    pose proof (blk_le arity Ha1i p h). pose proof (blk_lt arity Ha1i p h).
    eapply (block_disjoint arity Ha1i base h p); [|exact Hp]. lia.
  Qed.

  Lemma block_aligned base h d :
    base = blk arity base (S h) -> base + d * arity ^ h = blk arity (base + d * arity ^ h) h.
  Proof.
    intro Hb. unfold blk in *. pose proof (pow_pos arity Ha1i h).
    rewrite Nat.pow_succ_r' in Hb.
    set (q := base / (arity * arity ^ h)) in *. clearbody q. subst base.
    replace (q * (arity * arity ^ h) + d * arity ^ h) with ((q * arity + d) * arity ^ h) by lia.
    rewrite Nat.div_mul by lia. reflexivity.
  Qed.

  Lemma collect_canon m h :
    forall base cur, base = blk arity base h -> h <= length cur ->
    exists res cur', collect_all_with_proofs T0 h (canon m h base) cur = Ok (res, cur') /\
                     collected m h base cur res cur'.
  Proof.
    induction h as [|h IH]; intros base cur Hb Hcur.
    - cbn [MerkleSpec.canon]. destruct (m base) as [e|] eqn:Hm; cbn [collect_all_with_proofs].
      + exists [(base, e, cur)], cur. split; [reflexivity|]. unfold collected.
        split; [auto|]. split; [auto|]. split.
        * unfold entries_from. simpl. rewrite Hm. reflexivity.
        * intros p e' pf [Hin|[]]. injection Hin as <- <- <-. split; [simpl; lia|].
          intros path _. exists []. simpl. rewrite Hm. auto.
      + exists [], cur. split; [reflexivity|]. unfold collected.
        split; [auto|]. split; [auto|]. split.
        * unfold entries_from. simpl. rewrite Hm. reflexivity.
        * intros p e' pf [].
    - destruct (forallb is_empty (kids m h base)) eqn:Hf.
      + rewrite canon_S, Hf. cbn [collect_all_with_proofs].
        exists [], cur. split; [reflexivity|]. unfold collected.
        split; [auto|]. split; [auto|]. split; [|intros ? ? ? []].
        rewrite <- leaves_canon, canon_S, Hf. reflexivity.
      + assert (Hcan : canon m (S h) base =
                       Branch (digest (map value (kids m h base))) (kids m h base))
          by (rewrite canon_S, Hf; reflexivity).
        rewrite Hcan, collect_branch.
        set (vals := map value (kids m h base)).
        assert (G : forall k i cur1 acc,
          i + k = arity -> length cur1 = length cur -> skipn (S h) cur1 = skipn (S h) cur ->
          map fst acc = entries_from m base (i * arity ^ h) ->
          (forall p e pf, In (p, e, pf) acc ->
             base <= p < base + i * arity ^ h /\
             forall path, good_path path p (S h) ->
             exists pf0, lookup_internal T0 (S h) (canon m (S h) base) path = Ok (LOk e pf0) /\
                         pf = pf0 ++ skipn (S h) cur) ->
          exists res cur',
            collect_loop h vals i (skipn i (kids m h base)) cur1 acc = Ok (res, cur') /\
            collected m (S h) base cur res cur').
        { induction k as [|k IHk]; intros i cur1 acc Hik Hl1 Hs1 Hacc1 Hacc2.
          - assert (i = arity) by lia. subst i.
            rewrite skipn_all2 by (rewrite kids_length; auto). cbn [collect_loop].
            exists acc, cur1. split; [reflexivity|].
            split; [auto|]. split; [auto|]. rewrite Nat.pow_succ_r'. split; [auto|].
            intros p e pf Hin. apply Hacc2 in Hin. auto.
          - assert (Hi : i < arity) by lia.
            assert (Hci : nth_error (kids m h base) i = Some (canon m h (base + i * arity ^ h))).
            { rewrite kids_nth. destruct (Nat.ltb_spec i arity); auto; lia. }
            rewrite (skipn_cons_nth _ _ _ Hci). cbn [collect_loop].
            set (sib := firstn i vals ++ skipn (S i) vals).
            assert (Hsib : sib = siblings T0 i (kids m h base)).
            { unfold sib, vals. rewrite siblings_split, firstn_map, skipn_map. reflexivity. }
            destruct (IH (base + i * arity ^ h) (set_nth cur1 h sib)) as
              (res & cur' & Hres & Hc1 & Hc2 & Hc3 & Hc4).
            { apply block_aligned; auto. }
            { rewrite set_nth_length. lia. }
            rewrite set_nth_length in Hc1.
            rewrite Hres. cbn [bind].
            apply IHk; [lia|congruence| | |].
            + apply (f_equal (skipn 1)) in Hc2. rewrite !skipn_skipn in Hc2.
              change (1 + h) with (S h) in Hc2.
              rewrite Hc2. rewrite skipn_set_nth by lia. auto.
            + rewrite map_app. unfold proof in *. rewrite Hacc1, Hc3, <- entries_app. f_equal. lia.
            + intros p e pf Hin. apply in_app_or in Hin as [Hin|Hin].
              * apply Hacc2 in Hin as [Hp1 Hp2]. split; [nia|auto].
              * apply Hc4 in Hin as [Hp1 Hp2]. split; [nia|].
                intros path Hpath.
                destruct (Hp2 path) as (pf0 & Hl & Hpf);
                  [intros j Hj; apply Hpath; lia|].
                assert (Hdig : digit arity p h = i) by (eapply good_block_digit; eauto).
                exists (pf0 ++ [siblings T0 i (kids m h base)]). split.
                -- rewrite Hcan. cbn [lookup_internal]. unfold index.
                   rewrite (Hpath h) by lia. cbn [bind]. rewrite Hdig, Hci. cbn [bind].
                   rewrite Hl. reflexivity.
                -- rewrite Hpf, <- app_assoc. f_equal.
                   rewrite (skipn_cons_nth _ h sib).
                   ++ rewrite skipn_set_nth by lia. rewrite Hs1, Hsib. reflexivity.
                   ++ apply nth_error_set_nth_eq. lia. }
        apply (G arity 0); auto.
        intros ? ? ? [].
  Qed.
End Iter.
