(** Proofs about the Merkle tree model: soundness of verification, forgetting and
    remembering. *)
From Coq Require Import List Arith Lia Bool.
From Verif Require Import Base ListAux MerkleModel MerkleSpec MerkleProofs.
Import ListNotations.

(** Hash queries: what is fed to the hash function.  [QDefault] stands for the
    default value used for empty subtrees. *)
Inductive hquery (E T : Type) : Type :=
| QLeaf (pos : nat) (e : E)
| QNode (l : list T)
| QDefault.
Arguments QLeaf {E T} pos e.
Arguments QNode {E T} l.
Arguments QDefault {E T}.

Section Queries.
  Context {E T : Type}.
  Variable T0 : T.
  Variable digest : list T -> T.
  Variable digest_leaf : nat -> E -> T.

  Definition hash (q : hquery E T) : T :=
    match q with
    | QLeaf p e => digest_leaf p e
    | QNode l => digest l
    | QDefault => T0
    end.

  (** The queries made when hashing a tree bottom-up. *)
  Inductive tree_query : node E T -> hquery E T -> Prop :=
  | tq_empty : tree_query Empty QDefault
  | tq_leaf v p e : tree_query (Leaf v p e) (QLeaf p e)
  | tq_branch v cs : tree_query (Branch v cs) (QNode (map (value T0) cs))
  | tq_child v cs c q : In c cs -> tree_query c q -> tree_query (Branch v cs) q.

  (** The queries made by a verifier folding a proof. *)
  Fixpoint fold_queries (val : T) (l : list (nat * list T)) : list (hquery E T) :=
    match l with
    | [] => []
    | (b, []) :: rest => QDefault :: fold_queries T0 rest
    | (b, vs) :: rest =>
        let x := firstn b vs ++ val :: skipn b vs in
        QNode x :: fold_queries (digest x) rest
    end.
  Definition verify_queries (arity pos : nat) (elem : option E) (pf : list (list T))
    : list (hquery E T) :=
    let q0 := match elem with Some e => QLeaf pos e | None => QDefault end in
    q0 :: fold_queries (hash q0) (combine (to_traversal_path arity pos (length pf)) pf).

  (** The hash has no collision between a query of the tree and a query of the
      verifier. *)
  Definition no_collision (n : node E T) (qs : list (hquery E T)) : Prop :=
    forall q1 q2, tree_query n q1 -> In q2 qs -> hash q1 = hash q2 -> q1 = q2.
End Queries.

Section Prune.
  Context {E T : Type}.
  Variable Teqb : T -> T -> bool.
  Hypothesis Teqb_eq : forall x y, Teqb x y = true <-> x = y.
  Variable T0 : T.
  Variable digest : list T -> T.
  Variable digest_leaf : nat -> E -> T.
  Variable arity : nat.
  Hypothesis Ha : 2 <= arity.

  Lemma Ha1 : 1 <= arity.
  Proof. lia. Qed.
  Hint Resolve Ha1 : core.

  Notation node := (node E T).
  Notation canon := (canon T0 digest digest_leaf arity).
  Notation value := (value T0).
  Notation kids := (kids T0 digest digest_leaf arity).
  Notation good_path := (good_path arity).
  Notation root_from := (root_from T0 digest).
  Notation hash := (hash T0 digest digest_leaf).
  Notation tree_query := (tree_query T0).
  Notation prunes := (prunes T0).

  (** ** Soundness *)

  (** The query made at the root of a canonical tree. *)
  Definition top_query (n : node) : hquery E T :=
    match n with
    | Empty => QDefault
    | Leaf _ p e => QLeaf p e
    | Branch _ cs => QNode (map value cs)
    | Forgotten _ => QDefault
    end.

  Lemma canon_value_hash m h base :
    value (canon m h base) = hash (top_query (canon m h base)).
  Proof.
    destruct h; simpl.
    - destruct (m base); reflexivity.
    - match goal with |- context [forallb ?f ?l] => destruct (forallb f l) end; reflexivity.
  Qed.

  Lemma canon_top_query m h base : tree_query (canon m h base) (top_query (canon m h base)).
  Proof.
    destruct h; simpl.
    - destruct (m base); constructor.
    - match goal with |- context [forallb ?f ?l] => destruct (forallb f l) end; constructor.
  Qed.

  Lemma fold_queries_app val l1 l2 :
    fold_queries (E := E) T0 digest val (l1 ++ l2) =
    fold_queries T0 digest val l1 ++
    fold_queries T0 digest (fold_left (verify_step T0 digest) l1 val) l2.
  Proof.
    revert val; induction l1 as [|[b vs] l1 IH]; intro val; [reflexivity|].
    cbn [app fold_queries fold_left]. destruct vs as [|v vs].
    - cbn [app]. f_equal. apply IH.
    - cbn [app]. f_equal. apply IH.
  Qed.

  Lemma insert_nth_val (s : list T) d v :
    d <= length s -> nth_error (firstn d s ++ v :: skipn d s) d = Some v.
  Proof.
    intro H. rewrite nth_error_app2; rewrite firstn_length, Nat.min_l by auto; auto.
    rewrite Nat.sub_diag. reflexivity.
  Qed.

  Lemma insert_remove (s : list T) d v (cs : list node) :
    d <= length s -> firstn d s ++ v :: skipn d s = map value cs ->
    siblings T0 d cs = s.
  Proof. clear Ha.
    intros Hd H. rewrite siblings_split, <- firstn_map, <- skipn_map, <- H.
    assert (Hl : length (firstn d s) = d) by (rewrite firstn_length; lia).
    rewrite firstn_app, skipn_app, Hl, Nat.sub_diag.
    rewrite (firstn_all2 (firstn d s)) by lia. rewrite (skipn_all2 (firstn d s)) by lia.
    replace (S d - d) with 1 by lia. simpl. rewrite app_nil_r. apply firstn_skipn.
  Qed.

  (** Membership soundness, stated from the top of a (sub)tree downwards. *)
  Lemma sound_member m pos e :
    forall pf h base path,
    (forall i, i < length pf -> nth_error path i = Some (digit arity pos i)) ->
    Forall (fun v => length v = arity - 1) pf ->
    no_collision T0 digest digest_leaf (canon m h base)
      (QLeaf pos e :: fold_queries T0 digest (digest_leaf pos e) (combine path pf)) ->
    root_from (digest_leaf pos e) path pf = value (canon m h base) ->
    length pf = h /\ m pos = Some e /\
    lookup_internal T0 h (canon m h base) path = Ok (LOk e pf) /\
    base <= pos < base + arity ^ h.
  Proof.
    induction pf as [|s pf IH] using rev_ind; intros h base path Hpath Hlen Hnc Hroot.
    - unfold MerkleProofs.root_from in Hroot. rewrite combine_nil in Hroot. simpl in Hroot.
      assert (Hq : top_query (canon m h base) = QLeaf pos e).
      { apply Hnc; [apply canon_top_query|left; reflexivity|].
        rewrite <- canon_value_hash, <- Hroot. reflexivity. }
      destruct h as [|h].
      + simpl in Hq |- *. destruct (m base) as [e'|] eqn:Hm; simpl in Hq; [|discriminate].
        injection Hq as -> ->. repeat split; auto; lia.
      + exfalso. rewrite canon_S in Hq. destruct (forallb _ _); simpl in Hq; discriminate.
    - apply Forall_app in Hlen as [Hlen Hs]. inversion Hs as [|? ? Hs1 _]; subst.
      set (d := digit arity pos (length pf)).
      assert (Hd : d < arity) by (apply digit_lt; auto).
      assert (Hidx : nth_error path (length pf) = Some d).
      { apply Hpath. rewrite app_length; simpl; lia. }
      rewrite (root_from_snoc _ _ _ _ _ d) in Hroot by auto.
      assert (Hns : s <> []) by (destruct s; simpl in *; [lia|discriminate]).
      set (val := root_from (digest_leaf pos e) path pf) in *.
      assert (Hstep : verify_step T0 digest val (d, s) = digest (firstn d s ++ val :: skipn d s)).
      { destruct s; [congruence|reflexivity]. }
      rewrite Hstep in Hroot.
      assert (Hcomb : combine path (pf ++ [s]) = combine path pf ++ [(d, s)]).
      { apply combine_app_l; auto. }
      assert (Hq : top_query (canon m h base) = QNode (firstn d s ++ val :: skipn d s)).
      { apply Hnc; [apply canon_top_query| |].
        - right. rewrite Hcomb, fold_queries_app. apply in_or_app; right.
          destruct s; [congruence|]. left. reflexivity.
        - rewrite <- canon_value_hash, <- Hroot. reflexivity. }
      destruct h as [|h].
      { simpl in Hq. destruct (m base); simpl in Hq; discriminate. }
      rewrite canon_S in Hq |- *.
      destruct (forallb is_empty (kids m h base)) eqn:Hf; simpl in Hq; [discriminate|].
      injection Hq as Hq.
      assert (Hkid : nth_error (kids m h base) d = Some (canon m h (base + d * arity ^ h))).
      { rewrite kids_nth. destruct (Nat.ltb_spec d arity); [reflexivity|lia]. }
      assert (Hval : val = value (canon m h (base + d * arity ^ h))).
      { pose proof (insert_nth_val s d val ltac:(lia)) as Hn.
        rewrite <- Hq, nth_error_map, Hkid in Hn. simpl in Hn. congruence. }
      destruct (IH h (base + d * arity ^ h) path) as (Hl & Hm & Hlk & Hrange); auto.
      + intros i Hi. apply Hpath. rewrite app_length; simpl; lia.
      + intros q1 q2 H1 H2. apply Hnc.
        * rewrite canon_S, Hf. eapply tq_child; [|eauto]. eapply nth_error_In; eauto.
        * destruct H2 as [H2|H2]; [left; auto|right].
          rewrite Hcomb, fold_queries_app. apply in_or_app; left; auto.
      + split; [rewrite app_length; simpl; lia|]. split; auto. split.
        * cbn [lookup_internal]. unfold index. rewrite <- Hl at 1. rewrite Hidx. cbn [bind].
          rewrite Hkid. cbn [bind]. rewrite Hlk. cbn [bind].
          rewrite (insert_remove s d val); [reflexivity|lia|]. symmetry. exact Hq.
        * eapply block_in_range; eauto.
  Qed.

  (** Non-membership soundness for proofs as long as the tree is high. *)
  Lemma sound_nonmember m pos :
    forall pf path,
    (forall i, i < length pf -> nth_error path i = Some (digit arity pos i)) ->
    Forall (fun v => length v = arity - 1 \/ length v = 0) pf ->
    no_collision T0 digest digest_leaf (canon m (length pf) (blk arity pos (length pf)))
      (QDefault :: fold_queries T0 digest T0 (combine path pf)) ->
    root_from T0 path pf = value (canon m (length pf) (blk arity pos (length pf))) ->
    m pos = None.
  Proof.
    induction pf as [|s pf IH] using rev_ind; intros path Hpath Hlen Hnc Hroot.
    - unfold MerkleProofs.root_from in Hroot. rewrite combine_nil in Hroot.
      cbn [length] in *. rewrite blk_0 in *. cbn [fold_left] in Hroot.
      assert (Hq : top_query (canon m 0 pos) = QDefault).
      { apply Hnc; [apply canon_top_query|left; reflexivity|].
        rewrite <- canon_value_hash, <- Hroot. reflexivity. }
      simpl in Hq. destruct (m pos); [discriminate|reflexivity].
    - rewrite app_length in *. cbn [length] in *. rewrite Nat.add_1_r in *.
      apply Forall_app in Hlen as [Hlen Hs]. inversion Hs as [|? ? Hs1 _]; subst.
      set (h := length pf) in *.
      set (base := blk arity pos (S h)) in *.
      set (d := digit arity pos h).
      assert (Hd : d < arity) by (apply digit_lt; auto).
      assert (Hb : base + d * arity ^ h = blk arity pos h) by (apply blk_step; auto).
      assert (Hidx : nth_error path h = Some d) by (apply Hpath; lia).
      rewrite (root_from_snoc _ _ _ _ _ d) in Hroot by auto.
      set (val := root_from T0 path pf) in *.
      assert (Hcomb : combine path (pf ++ [s]) = combine path pf ++ [(d, s)]).
      { apply combine_app_l; auto. }
      destruct s as [|s0 s'].
      + (* the proof says: this whole subtree is empty *)
        assert (Hq : top_query (canon m (S h) base) = QDefault).
        { apply Hnc; [apply canon_top_query|left; reflexivity|].
          rewrite <- canon_value_hash, <- Hroot. reflexivity. }
        assert (He : is_empty (canon m (S h) base) = true).
        { rewrite canon_S in Hq |- *. destruct (forallb _ _); [reflexivity|discriminate]. }
        rewrite is_empty_canon in He by auto. apply He. split; [apply blk_le|apply blk_lt]; auto.
      + set (s := s0 :: s') in *. cbn [length] in Hs1.
        assert (Hsl : length s = arity - 1) by (unfold s in *; simpl in *; lia).
        assert (Hstep : verify_step T0 digest val (d, s) = digest (firstn d s ++ val :: skipn d s))
          by reflexivity.
        rewrite Hstep in Hroot.
        assert (Hq : top_query (canon m (S h) base) = QNode (firstn d s ++ val :: skipn d s)).
        { apply Hnc; [apply canon_top_query| |].
          - right. rewrite Hcomb, fold_queries_app. apply in_or_app; right.
            left. reflexivity.
          - rewrite <- canon_value_hash, <- Hroot. reflexivity. }
        rewrite canon_S in Hq. 
        destruct (forallb is_empty (kids m h base)) eqn:Hf; cbn [top_query] in Hq; [discriminate|].
        assert (Hq' : map value (kids m h base) = firstn d s ++ val :: skipn d s)
          by (clear - Hq; injection Hq; auto).
        assert (Hkid : nth_error (kids m h base) d = Some (canon m h (blk arity pos h))).
        { rewrite kids_nth, Hb. destruct (Nat.ltb_spec d arity); [reflexivity|lia]. }
        assert (Hval : val = value (canon m h (blk arity pos h))).
        { pose proof (insert_nth_val s d val ltac:(lia)) as Hn.
          rewrite <- Hq', nth_error_map, Hkid in Hn. simpl in Hn. congruence. }
        apply (IH path); auto.
        intros q1 q2 H1 H2. apply Hnc.
        * rewrite canon_S, Hf. eapply tq_child; [|eauto]. eapply nth_error_In; eauto.
        * destruct H2 as [H2|H2]; [left; auto|right].
          rewrite Hcomb, fold_queries_app. apply in_or_app; left; auto.
  Qed.

  (** ** Pruned trees *)

  Lemma prunes_value (n full : node) : prunes n full -> value n = value full.
  Proof. destruct 1; reflexivity. Qed.

  Lemma prunes_values (cs cs' : list node) : Forall2 prunes cs cs' -> map value cs = map value cs'.
  Proof.
    induction 1; simpl; auto. f_equal; auto. apply prunes_value; auto.
  Qed.

  Lemma prunes_siblings b (cs cs' : list node) :
    Forall2 prunes cs cs' -> siblings T0 b cs = siblings T0 b cs'.
  Proof.
    intro H. rewrite !siblings_split, <- !firstn_map, <- !skipn_map.
    rewrite (prunes_values _ _ H). reflexivity.
  Qed.

  Fixpoint prunes_refl (n : node) : prunes n n.
  Proof.
    destruct n as [|v cs|v p e|v].
    - constructor.
    - constructor. induction cs; constructor; [apply prunes_refl|auto].
    - constructor.
    - exact (pr_forgotten T0 (Forgotten v)).
  Qed.

  Lemma canon_shape m h base n :
    prunes n (canon m (S h) base) ->
    (n = Empty /\ canon m (S h) base = Empty) \/
    (exists v, n = Forgotten v) \/
    (exists cs, n = Branch (digest (map value (kids m h base))) cs /\
                canon m (S h) base = Branch (digest (map value (kids m h base))) (kids m h base) /\
                Forall2 prunes cs (kids m h base)).
  Proof.
    rewrite canon_S. destruct (forallb is_empty (kids m h base)); intro H.
    - inversion H; subst; eauto.
    - inversion H; subst; [right; right; eauto | eauto].
  Qed.

  Lemma Forall2_nth_l {A B} (R : A -> B -> Prop) l l' i b :
    Forall2 R l l' -> nth_error l' i = Some b -> exists a, nth_error l i = Some a /\ R a b.
  Proof.
    intros H. revert i; induction H; intros [|i] Hb; simpl in *; try discriminate.
    - injection Hb as <-. eauto.
    - eauto.
  Qed.

  Lemma Forall2_set_nth {A B} (R : A -> B -> Prop) l l' i a b :
    Forall2 R l l' -> nth_error l' i = Some b -> R a b -> Forall2 R (set_nth l i a) l'.
  Proof.
    intros H; revert i; induction H; intros [|i] Hb Hab; simpl in *; try discriminate.
    - injection Hb as <-. constructor; auto.
    - constructor; auto.
  Qed.

  (** A lookup in a pruned tree either misses memory or gives exactly the answer
      of the full tree. *)
  Lemma lookup_pruned m pos h n path :
    good_path path pos h ->
    prunes n (canon m h (blk arity pos h)) ->
    lookup_internal T0 h n path = Ok LNotInMemory \/
    lookup_internal T0 h n path = lookup_internal T0 h (canon m h (blk arity pos h)) path.
  Proof.
    revert n; induction h as [|h IH]; intros n Hp Hn.
    - cbn [MerkleSpec.canon] in *.
      destruct (m (blk arity pos 0)); inversion Hn; subst; simpl; auto.
    - pose proof (canon_shape _ _ _ _ Hn) as [[-> ->]|[[v ->]|(cs & -> & Hc & Hcs)]]; auto.
      rewrite Hc.
      set (base := blk arity pos (S h)) in *.
      set (d := digit arity pos h).
      assert (Hd : d < arity) by (apply digit_lt; auto).
      assert (Hb : base + d * arity ^ h = blk arity pos h) by (apply blk_step; auto).
      assert (Hidx : nth_error path h = Some d) by (apply Hp; lia).
      assert (Hkid : nth_error (kids m h base) d = Some (canon m h (blk arity pos h))).
      { rewrite kids_nth, Hb. destruct (Nat.ltb_spec d arity); [reflexivity|lia]. }
      destruct (Forall2_nth_l _ _ _ _ _ Hcs Hkid) as (c & Hcd & Hcp).
      cbn [lookup_internal]. unfold index. rewrite Hidx. cbn [bind].
      rewrite Hkid, Hcd. cbn [bind].
      destruct (IH c (good_path_S _ _ _ _ Hp) Hcp) as [Hl|Hl]; rewrite Hl; cbn [bind]; auto.
      right. rewrite (prunes_siblings d cs _ Hcs). reflexivity.
  Qed.

  (** Forgetting keeps the tree a pruning of the same full tree, answers like a
      lookup, and afterwards the position is not in memory. *)
  Definition same_answer (r r' : lookup_result E (@proof T) (@proof T)) : Prop :=
    match r, r' with
    | LOk e p, LOk e' p' => e = e' /\ p = p'
    | LNotInMemory, LNotInMemory => True
    | LNotFound _, LNotFound _ => True
    | _, _ => False
    end.

  Lemma forget_pruned m pos h n path :
    good_path path pos h ->
    prunes n (canon m h (blk arity pos h)) ->
    exists n' r r0,
      forget_internal T0 h n path = Ok (n', r) /\
      lookup_internal T0 h n path = Ok r0 /\
      same_answer r r0 /\
      prunes n' (canon m h (blk arity pos h)) /\
      (match r with
       | LOk _ _ => lookup_internal T0 h n' path = Ok LNotInMemory
       | _ => n' = n
       end).
  Proof.
    revert n; induction h as [|h IH]; intros n Hp Hn.
    - cbn [MerkleSpec.canon] in *.
      destruct (m (blk arity pos 0)) as [e|]; inversion Hn; subst; cbn.
      + do 3 eexists. split; [reflexivity|]. split; [reflexivity|]. cbn.
        split; [auto|]. split; [|reflexivity].
        set (b := blk arity pos 0).
        exact (pr_forgotten T0 (Leaf (digest_leaf b e) b e)).
      + do 3 eexists. split; [reflexivity|]. split; [reflexivity|]. cbn. repeat split; auto.
      + do 3 eexists. split; [reflexivity|]. split; [reflexivity|]. cbn. repeat split; auto.
      + do 3 eexists. split; [reflexivity|]. split; [reflexivity|]. cbn. repeat split; auto.
    - pose proof (canon_shape _ _ _ _ Hn) as [[-> Hc]|[[v ->]|(cs & -> & Hc & Hcs)]].
      + do 3 eexists. cbn. repeat split; auto.
      + do 3 eexists. cbn. repeat split; auto.
      + set (base := blk arity pos (S h)) in *.
        set (d := digit arity pos h).
        assert (Hd : d < arity) by (apply digit_lt; auto).
        assert (Hb : base + d * arity ^ h = blk arity pos h) by (apply blk_step; auto).
        assert (Hidx : nth_error path h = Some d) by (apply Hp; lia).
        assert (Hkid : nth_error (kids m h base) d = Some (canon m h (blk arity pos h))).
        { rewrite kids_nth, Hb. destruct (Nat.ltb_spec d arity); [reflexivity|lia]. }
        destruct (Forall2_nth_l _ _ _ _ _ Hcs Hkid) as (c & Hcd & Hcp).
        destruct (IH c (good_path_S _ _ _ _ Hp) Hcp) as (c' & r & r0 & Hfg & Hlk & Hsame & Hpr & Hafter).
        assert (Hlen : length cs = arity).
        { pose proof (proj1 (Forall2_nth _ _ _) Hcs) as [Hl _].
          rewrite kids_length in Hl. exact Hl. }
        cbn [lookup_internal forget_internal]. unfold index. rewrite Hidx. cbn [bind].
        rewrite Hcd. cbn [bind]. rewrite Hfg, Hlk. cbn [bind].
        destruct r as [e p| |p], r0 as [e0 p0| |p0]; try contradiction.
        * destruct Hsame as [<- <-].
          assert (Hset : Forall2 prunes (set_nth cs d c') (kids m h base))
            by (eapply Forall2_set_nth; eauto).
          destruct (forallb (fun c0 => is_empty c0 || is_forgotten c0) (set_nth cs d c')).
          -- do 3 eexists. split; [reflexivity|]. split; [reflexivity|].
             split; [split; reflexivity|]. split.
             ++ rewrite Hc. set (K := kids m h base).
                change (digest (map value K)) with
                  (value (@Branch E T (digest (map value K)) K)) at 1. constructor.
             ++ reflexivity.
          -- do 3 eexists. split; [reflexivity|]. split; [reflexivity|].
             split; [split; reflexivity|]. split.
             ++ rewrite Hc. constructor. exact Hset.
             ++ rewrite nth_error_set_nth_eq by lia. cbn [bind]. rewrite Hafter. reflexivity.
        * do 3 eexists. split; [reflexivity|]. split; [reflexivity|]. simpl. repeat split; auto.
        * do 3 eexists. split; [reflexivity|]. split; [reflexivity|]. simpl. repeat split; auto.
  Qed.

  (** Forgetting a found element gives a pruning of the node itself. *)
  Lemma forget_prunes_old path :
    forall k (nn nn' : node) ee pp,
    forget_internal T0 k nn path = Ok (nn', LOk ee pp) -> prunes nn' nn.
  Proof.
    induction k as [|k IHk]; intros nn nn' ee pp Hf.
    - destruct nn as [|v cs0|v p e|v]; cbn in Hf; try discriminate. injection Hf as <- <- <-.
      exact (pr_forgotten T0 (Leaf v p e)).
    - destruct nn as [|v cs0|v p e|v]; cbn [forget_internal] in Hf; try discriminate.
      + unfold index in Hf. destruct (nth_error path k) as [b|]; cbn [bind] in Hf; [|discriminate].
        destruct (nth_error cs0 b) as [c0|] eqn:Hc0; cbn [bind] in Hf; [|discriminate].
        destruct (forget_internal T0 k c0 path) as [[c0' [e0 p0| |p0]]| |] eqn:Hf0;
          cbn [bind] in Hf; try discriminate.
        apply IHk in Hf0.
        match type of Hf with context [if ?b then _ else _] => destruct b end;
          injection Hf as <- <- <-.
        * exact (pr_forgotten T0 (Branch v cs0)).
        * constructor. eapply Forall2_set_nth; eauto.
          clear. induction cs0; constructor; auto. apply prunes_refl.
      + injection Hf as <- <- <-. exact (pr_forgotten T0 (Leaf v p e)).
  Qed.

  (** Two positions in the same block at height [h] with different digits below
      are different positions. *)
  Lemma forget_other m pos pos' h n path path' n' r e p :
    good_path path pos h -> good_path path' pos' h -> pos <> pos' ->
    blk arity pos h = blk arity pos' h ->
    prunes n (canon m h (blk arity pos h)) ->
    forget_internal T0 h n path = Ok (n', r) ->
    lookup_internal T0 h n path' = Ok (LOk e p) ->
    lookup_internal T0 h n' path' = Ok (LOk e p).
  Proof.
    revert n n' r p; induction h as [|h IH]; intros n n' r p Hp Hp' Hne Hblk Hn Hfg Hlk.
    - rewrite !blk_0 in Hblk. congruence.
    - pose proof (canon_shape _ _ _ _ Hn) as [[-> Hc]|[[v ->]|(cs & -> & Hc & Hcs)]].
      + cbn in Hfg, Hlk. injection Hfg as <- <-. exact Hlk.
      + cbn in Hfg, Hlk. discriminate.
      + set (base := blk arity pos (S h)) in *.
        set (d := digit arity pos h) in *. set (d' := digit arity pos' h).
        assert (Hd : d < arity) by (apply digit_lt; auto).
        assert (Hd' : d' < arity) by (apply digit_lt; auto).
        assert (Hb : base + d * arity ^ h = blk arity pos h) by (apply blk_step; auto).
        assert (Hb' : base + d' * arity ^ h = blk arity pos' h).
        { rewrite Hblk. apply blk_step; auto. }
        assert (Hidx : nth_error path h = Some d) by (apply Hp; lia).
        assert (Hidx' : nth_error path' h = Some d') by (apply Hp'; lia).
        assert (Hkid : nth_error (kids m h base) d = Some (canon m h (blk arity pos h))).
        { rewrite kids_nth, Hb. destruct (Nat.ltb_spec d arity); [reflexivity|lia]. }
        destruct (Forall2_nth_l _ _ _ _ _ Hcs Hkid) as (c & Hcd & Hcp).
        assert (Hkid' : nth_error (kids m h base) d' = Some (canon m h (blk arity pos' h))).
        { rewrite kids_nth, Hb'. destruct (Nat.ltb_spec d' arity); [reflexivity|lia]. }
        destruct (Forall2_nth_l _ _ _ _ _ Hcs Hkid') as (c1 & Hcd' & Hcp').
        assert (Hlen : length cs = arity).
        { pose proof (proj1 (Forall2_nth _ _ _) Hcs) as [Hl _].
          rewrite kids_length in Hl. exact Hl. }
        destruct (forget_pruned m pos h c path (good_path_S _ _ _ _ Hp) Hcp)
          as (c' & rr & r0 & Hfg' & Hlk' & Hsame & Hpr & Hafter).
        cbn [lookup_internal forget_internal] in Hfg, Hlk. unfold index in Hfg, Hlk.
        rewrite Hidx in Hfg. cbn [bind] in Hfg. rewrite Hcd in Hfg. cbn [bind] in Hfg.
        rewrite Hfg' in Hfg. cbn [bind] in Hfg.
        assert (Hsets : Forall2 prunes (set_nth cs d c') cs).
        { apply Forall2_nth. rewrite set_nth_length. split; auto.
          intros i a b Hia Hib. rewrite nth_error_set_nth in Hia.
          destruct ((d =? i) && (d <? length cs)) eqn:Hdi.
          - apply andb_true_iff in Hdi as [Hdi _]. apply Nat.eqb_eq in Hdi. subst i.
            injection Hia as <-. rewrite Hcd in Hib. injection Hib as <-.
            destruct rr; [|subst; apply prunes_refl|subst; apply prunes_refl].
            eapply forget_prunes_old; eauto.
          - rewrite Hia in Hib. injection Hib as <-. apply prunes_refl. }
        destruct rr as [e1 p1| |p1]; [| injection Hfg as <- <-; exact Hlk
                                      | injection Hfg as <- <-; exact Hlk].
        (* lookup of the other position in the old node *)
        rewrite Hidx' in Hlk. cbn [bind] in Hlk. rewrite Hcd' in Hlk. cbn [bind] in Hlk.
        destruct (lookup_internal T0 h c1 path') as [[e2 p2| |p2]| |] eqn:Hlk1;
          cbn [bind] in Hlk; try discriminate.
        injection Hlk as <- <-.
        assert (Hnew : exists c1', nth_error (set_nth cs d c') d' = Some c1' /\
                       lookup_internal T0 h c1' path' = Ok (LOk e2 p2)).
        { destruct (Nat.eq_dec d d') as [Heq|Hneq].
          - subst d'. rewrite <- Heq. rewrite nth_error_set_nth_eq by lia.
            eexists; split; [reflexivity|].
            rewrite <- Heq in Hcd'. rewrite Hcd in Hcd'. injection Hcd' as <-.
            apply (IH c c' (LOk e1 p1) p2); auto.
            + apply good_path_S; auto.
            + apply good_path_S; auto.
            + rewrite <- Hb, <- Hb'. rewrite Heq. reflexivity.
          - rewrite nth_error_set_nth_neq by auto. eauto. }
        destruct Hnew as (c1' & Hn1 & Hn2).
        destruct (forallb (fun c0 => is_empty c0 || is_forgotten c0) (set_nth cs d c')) eqn:Hall.
        * (* impossible: the other leaf is still in memory *)
          exfalso. rewrite forallb_nth in Hall. specialize (Hall _ _ Hn1).
          destruct c1'; cbn in Hall; try discriminate; destruct h; cbn in Hn2; discriminate.
        * injection Hfg as <- <-.
          cbn [lookup_internal]. unfold index. rewrite Hidx'. cbn [bind].
          rewrite Hn1. cbn [bind]. rewrite Hn2. cbn [bind].
          rewrite (prunes_siblings d' _ _ Hsets). reflexivity.
  Qed.

  (** Remembering with the honest proof. *)
  Lemma remember_pruned m pos h n path e pf :
    good_path path pos h ->
    prunes n (canon m h (blk arity pos h)) ->
    forall full_pf,
    (forall i, i < h -> nth_error full_pf i = nth_error pf i) ->
    lookup_internal T0 h (canon m h (blk arity pos h)) path = Ok (LOk e pf) ->
    exists n',
      remember_internal T0 digest digest_leaf h n path pos (Some e) full_pf = Ok n' /\
      prunes n' (canon m h (blk arity pos h)) /\
      lookup_internal T0 h n' path = Ok (LOk e pf).
  Proof.
    revert n pf; induction h as [|h IH]; intros n pf Hp Hn full_pf Hfull Hlk.
    - cbn [MerkleSpec.canon] in *. rewrite blk_0 in *.
      destruct (m pos) as [e'|] eqn:Hm; cbn in Hlk; [|discriminate].
      injection Hlk as <- <-.
      inversion Hn as [|v p e0 Hx| |full Hx]; subst.
      + exists (Leaf (digest_leaf pos e') pos e'). cbn. repeat split; auto.
      + exists (Leaf (digest_leaf pos e') pos e'). cbn. repeat split; auto. constructor.
    - pose proof Hlk as Hlk0.
      set (base := blk arity pos (S h)) in *.
      set (d := digit arity pos h).
      assert (Hd : d < arity) by (apply digit_lt; auto).
      assert (Hb : base + d * arity ^ h = blk arity pos h) by (apply blk_step; auto).
      assert (Hidx : nth_error path h = Some d) by (apply Hp; lia).
      assert (Hkid : nth_error (kids m h base) d = Some (canon m h (blk arity pos h))).
      { rewrite kids_nth, Hb. destruct (Nat.ltb_spec d arity); [reflexivity|lia]. }
      rewrite canon_S in Hlk. destruct (forallb is_empty (kids m h base)) eqn:Hf;
        cbn [lookup_internal] in Hlk; [discriminate|].
      unfold index in Hlk. rewrite Hidx in Hlk. cbn [bind] in Hlk.
      rewrite Hkid in Hlk. cbn [bind] in Hlk.
      destruct (lookup_internal T0 h (canon m h (blk arity pos h)) path) as [[e1 p1| |p1]| |] eqn:Hlk1;
        cbn [bind] in Hlk; try discriminate.
      injection Hlk as -> <-.
      assert (Hlen1 : length p1 = h).
      { destruct (lookup_canon T0 digest digest_leaf arity Ha1 m pos h path Ha
                    (good_path_S _ _ _ _ Hp)) as (r & Hr & Hr').
        rewrite Hlk1 in Hr. injection Hr as <-. tauto. }
      assert (Hc : canon m (S h) base =
                   Branch (digest (map value (kids m h base))) (kids m h base)).
      { rewrite canon_S, Hf. reflexivity. }
      assert (Hfull' : forall i, i < h -> nth_error full_pf i = nth_error p1 i).
      { intros i Hi. rewrite Hfull by lia. rewrite nth_error_app1 by lia. reflexivity. }
      assert (Hsib : nth_error full_pf h = Some (siblings T0 d (kids m h base))).
      { rewrite Hfull by lia. rewrite nth_error_app2 by lia. rewrite Hlen1, Nat.sub_diag. reflexivity. }
      pose proof (canon_shape _ _ _ _ Hn) as [[-> Hc']|[[v ->]|(cs & -> & Hc' & Hcs)]].
      + congruence.
      + cbn [remember_internal]. unfold index. rewrite Hidx. cbn [bind].
        rewrite Hsib. cbn [bind]. unfold vec_insert.
        assert (Hsl : length (siblings T0 d (kids m h base)) = arity - 1).
        { rewrite siblings_length; rewrite kids_length; auto. }
        destruct (Nat.leb_spec d (length (siblings T0 d (kids m h base)))); [|lia].
        cbn [bind].
        set (K := kids m h base) in *.
        set (values := firstn d (siblings T0 d K) ++ v :: skipn d (siblings T0 d K)).
        assert (Hvd : nth_error values d = Some v) by (apply insert_nth_val; auto).
        rewrite nth_error_map, Hvd. cbn [option_map bind].
        assert (Hv : prunes (Forgotten v) (canon m h (blk arity pos h)) \/ True) by auto.
        (* the value [v] is irrelevant on the path: the child is rebuilt *)
        assert (Hrec : exists c', remember_internal T0 digest digest_leaf h (Forgotten v) path pos (Some e) full_pf = Ok c' /\
                        prunes c' (canon m h (blk arity pos h)) /\
                        lookup_internal T0 h c' path = Ok (LOk e p1)).
        { destruct (IH (Forgotten (value (canon m h (blk arity pos h)))) p1
                      (good_path_S _ _ _ _ Hp) (pr_forgotten _ _) full_pf Hfull' eq_refl)
            as (c' & Hc1 & Hc2 & Hc3).
          (* independence of the forgotten value *)
          assert (Hind : forall k w w' pp, remember_internal T0 digest digest_leaf k (Forgotten w) path pos (Some e) pp
                       = remember_internal T0 digest digest_leaf k (Forgotten w') path pos (Some e) pp).
          { clear. induction k as [|k IHk]; intros w w' pp; [reflexivity|].
            cbn [remember_internal]. unfold index.
            destruct (nth_error path k) as [b|]; cbn [bind]; [|reflexivity].
            destruct (nth_error pp k) as [sib|]; cbn [bind]; [|reflexivity].
            unfold vec_insert. destruct (Nat.leb_spec b (length sib)); cbn [bind]; [|reflexivity].
            rewrite !nth_error_map, !insert_nth_val by auto. cbn [option_map bind].
            rewrite (IHk w w').
            destruct (remember_internal T0 digest digest_leaf k (Forgotten w') path pos (Some e) pp);
              cbn [bind]; [|reflexivity|reflexivity].
            assert (Hsn : forall (x : T) y, set_nth (firstn b sib ++ x :: skipn b sib) b y
                        = firstn b sib ++ y :: skipn b sib).
            { intros x y. rewrite set_nth_split.
              - assert (Hl : length (firstn b sib) = b) by (rewrite firstn_length; lia).
                rewrite firstn_app, skipn_app, Hl, Nat.sub_diag.
                rewrite (firstn_all2 (firstn b sib)) by lia.
                rewrite (skipn_all2 (firstn b sib)) by lia.
                replace (S b - b) with 1 by lia. simpl. rewrite app_nil_r. reflexivity.
              - rewrite app_length, firstn_length. simpl. lia. }
            rewrite !Hsn.
            assert (Hmm : forall x, set_nth (map (@Forgotten E T) (firstn b sib ++ x :: skipn b sib)) b a
                       = map (@Forgotten E T) (firstn b sib) ++ a :: map (@Forgotten E T) (skipn b sib)).
            { intro x. rewrite map_app. cbn [map]. rewrite set_nth_split.
              - assert (Hl : length (map (@Forgotten E T) (firstn b sib)) = b)
                  by (rewrite map_length, firstn_length; lia).
                rewrite firstn_app, skipn_app, Hl, Nat.sub_diag.
                rewrite (firstn_all2 (map _ (firstn b sib))) by lia.
                rewrite (skipn_all2 (map _ (firstn b sib))) by lia.
                replace (S b - b) with 1 by lia. simpl. rewrite app_nil_r. reflexivity.
              - rewrite app_length, map_length, firstn_length. simpl. lia. }
            rewrite !Hmm. reflexivity. }
          exists c'. rewrite (Hind h v (value (canon m h (blk arity pos h))) full_pf). auto. }
        destruct Hrec as (c' & Hc1 & Hc2 & Hc3). rewrite Hc1. cbn [bind].
        assert (Hvals : set_nth values d (value c') = map value K).
        { rewrite (prunes_value _ _ Hc2).
          rewrite <- (siblings_insert T0 d K _ Hkid).
          unfold values. rewrite set_nth_split.
          - assert (Hl : length (firstn d (siblings T0 d K)) = d) by (rewrite firstn_length; lia).
            rewrite firstn_app, skipn_app, Hl, Nat.sub_diag.
            rewrite (firstn_all2 (firstn d _)) by lia. rewrite (skipn_all2 (firstn d _)) by lia.
            replace (S d - d) with 1 by lia. simpl. rewrite app_nil_r. reflexivity.
          - rewrite app_length, firstn_length. simpl. lia. }
        rewrite Hvals.
        assert (Hprune : Forall2 prunes (set_nth (map (@Forgotten E T) values) d c') K).
        { apply Forall2_nth. rewrite set_nth_length, map_length.
          assert (Hlv : length values = length K).
          { transitivity (length (map value K)); [rewrite <- Hvals, set_nth_length; auto|apply map_length]. }
          assert (HK : length K = arity) by apply kids_length.
          split; [auto|].
          intros i x y Hx Hy. rewrite nth_error_set_nth, map_length in Hx.
          destruct (Nat.eqb_spec d i).
          - subst i. destruct (Nat.ltb_spec d (length values)); [|lia].
            simpl in Hx. injection Hx as <-. rewrite Hkid in Hy. injection Hy as <-. auto.
          - simpl in Hx. rewrite nth_error_map in Hx.
            assert (Hvi : nth_error values i = Some (value y)).
            { transitivity (nth_error (set_nth values d (value c')) i).
              - rewrite nth_error_set_nth_neq; auto.
              - rewrite Hvals, nth_error_map, Hy. reflexivity. }
            rewrite Hvi in Hx. simpl in Hx. injection Hx as <-. constructor. }
        eexists. split; [reflexivity|]. split.
        * rewrite Hc. constructor. exact Hprune.
        * cbn [lookup_internal]. unfold index. rewrite Hidx. cbn [bind].
          rewrite nth_error_set_nth_eq.
          2:{ rewrite map_length. apply nth_error_Some. congruence. }
          cbn [bind]. rewrite Hc3. cbn [bind].
          rewrite (prunes_siblings d _ _ Hprune). reflexivity.
      + destruct (Forall2_nth_l _ _ _ _ _ Hcs Hkid) as (c & Hcd & Hcp).
        destruct (IH c p1 (good_path_S _ _ _ _ Hp) Hcp full_pf Hfull' eq_refl)
          as (c' & Hc1 & Hc2 & Hc3).
        cbn [remember_internal]. unfold index. rewrite Hidx. cbn [bind].
        rewrite Hcd. cbn [bind]. rewrite Hc1. cbn [bind].
        assert (Hprune : Forall2 prunes (set_nth cs d c') (kids m h base)).
        { eapply Forall2_set_nth; eauto. }
        eexists. split; [reflexivity|]. split.
        * rewrite Hc. constructor. exact Hprune.
        * cbn [lookup_internal]. unfold index. rewrite Hidx. cbn [bind].
          rewrite nth_error_set_nth_eq.
          2:{ apply nth_error_Some. congruence. }
          cbn [bind]. rewrite Hc3. cbn [bind].
          rewrite (prunes_siblings d _ _ Hprune). reflexivity.
  Qed.
End Prune.
