(** What the relation enforced by the Merkle gadgets says about Rescue Merkle trees. *)

From Coq Require Import List Arith NArith ZArith Bool Lia.
From Verif Require Import Base ListAux Alg RescueModel CircuitModel MerkleModel MerkleSpec MerkleProofs MerklePrune MerkleHist MerkleApi
  MerkleGadgetModel MerkleGadgetProofs.
Import ListNotations.
Local Open Scope fld_scope.

(** Inputs of the Rescue hash: [KLeaf x e] is the leaf with position [x] (as a field
    element) and value [e]; [KDefault] stands for the default value of an empty subtree. *)
Inductive kquery (K : fld) : Type :=
| KLeaf (x e : K)
| KNode (l : list K)
| KDefault.
Arguments KLeaf {K}. Arguments KNode {K}. Arguments KDefault {K}.

(** A block of a map is empty or holds something. *)
Lemma ksome {E} (m : kmap E) b n : (exists j, (b <= j < b + n)%nat /\ m j <> None) \/ (forall j, (b <= j < b + n)%nat -> m j = None).
Proof.
  induction n as [|n [(j & Hj & Hm)|IH]]; [right; lia|left; exists j; split; [lia|auto]|].
  destruct (m (b + n)%nat) eqn:E0.
  - left. exists (b + n)%nat. split; [lia|congruence].
  - right. intros j Hj. destruct (Nat.eq_dec j (b + n)) as [-> |]; auto. apply IH. lia.
Qed.

Section Tree.
  Context {K : fld}.
  Variable P : rescue_params K.
  Notation canon := (canon 0 (rescue_node P) (rescue_leaf P) 3).
  Notation kids := (kids 0 (rescue_node P) (rescue_leaf P) 3).
  Notation value := (@value K K 0).
  Notation vstep := (verify_step 0 (rescue_node P)).
  Notation nmstep := (nm_step P).

  Definition khash (q : kquery K) : K :=
    match q with KLeaf x e => rescue_leaf_at P x e | KNode l => rescue_node P l | KDefault => 0 end.
  Definition kq_of (q : hquery K K) : kquery K :=
    match q with QLeaf p e => KLeaf (fZ (Z.of_nat p)) e | QNode l => KNode l | QDefault => KDefault end.
  (** The inputs hashed by the circuit for the levels [l] above the label [v]. *)
  Fixpoint mqueries (v : K) (l : list (nat * list K)) : list (kquery K) :=
    match l with [] => [] | bs :: l' => KNode (place v bs) :: mqueries (vstep v bs) l' end.
  Fixpoint nqueries (v : K) (l : list (nat * list K)) : list (kquery K) :=
    match l with
    | [] => []
    | bs :: l' => (if zeros (place v bs) then KDefault else KNode (place v bs)) :: nqueries (nmstep v bs) l'
    end.
  (** No collision between an input hashed in the tree and one of [qs]. *)
  Definition kfree (n : node K K) (qs : list (kquery K)) : Prop :=
    forall q1 q2, tree_query 0 n q1 -> In q2 qs -> khash (kq_of q1) = khash q2 -> kq_of q1 = q2.

  Lemma good_vstep (v : K) bs : good_step bs -> vstep v bs = rescue_node P (place v bs).
  Proof. destruct bs as [b [|x l]]; [intros [_ H]; discriminate H|reflexivity]. Qed.
  Lemma mqueries_app l1 : forall v l2, mqueries v (l1 ++ l2) = mqueries v l1 ++ mqueries (fold_left vstep l1 v) l2.
  Proof. induction l1 as [|bs l1 IH]; intros v l2; [reflexivity|]. cbn [app mqueries fold_left]. now rewrite IH. Qed.
  Lemma nqueries_app l1 : forall v l2, nqueries v (l1 ++ l2) = nqueries v l1 ++ nqueries (fold_left nmstep l1 v) l2.
  Proof. induction l1 as [|bs l1 IH]; intros v l2; [reflexivity|]. cbn [app nqueries fold_left]. now rewrite IH. Qed.
  Lemma pos_of_snoc ds d : pos_of (ds ++ [d]) = (pos_of ds + d * 3 ^ length ds)%nat.
  Proof. induction ds as [|e ds IH]; cbn [app pos_of length Nat.pow]; [lia|]. rewrite IH. nia. Qed.
  Lemma pos_of_lt ds : Forall (fun d => d < 3)%nat ds -> (pos_of ds < 3 ^ length ds)%nat.
  Proof. induction 1; cbn [pos_of length Nat.pow]; lia. Qed.
  Lemma pos_of_path pos h : (pos < 3 ^ h)%nat -> pos_of (to_traversal_path 3 pos h) = pos.
  Proof.
    revert pos. induction h as [|h IH]; intros pos Hp; cbn [to_traversal_path pos_of Nat.pow] in *; [lia|].
    rewrite IH by (apply Nat.div_lt_upper_bound; lia). pose proof (Nat.div_mod pos 3). lia.
  Qed.
  Lemma canon_khash m h base : value (canon m h base) = khash (kq_of (top_query 0 (canon m h base))).
  Proof.
    rewrite (canon_value_hash 0 (rescue_node P) (rescue_leaf P) 3).
    destruct (top_query 0 (canon m h base)); reflexivity.
  Qed.
  Lemma place_nth (v : K) bs : good_step bs -> nth_error (place v bs) (fst bs) = Some v.
  Proof. destruct bs as [b s]. intros [Hb Hs]. cbn [fst snd] in *. unfold place. cbn [fst snd]. apply insert_nth_val. lia. Qed.

  (** An accepted membership statement for the root of a tree names a stored pair. *)
  Lemma sound_member_g m x e : forall l h base,
    Forall good_step l ->
    kfree (canon m h base) (KLeaf x e :: mqueries (rescue_leaf_at P x e) l) ->
    member_root P x e l = value (canon m h base) ->
    length l = h /\ x = fZ (Z.of_nat (base + pos_of (map fst l))) /\ m (base + pos_of (map fst l))%nat = Some e.
  Proof.
    induction l as [|bs l IH] using rev_ind; intros h base Hl Hnc Hroot.
    - unfold member_root in Hroot. cbn [fold_left] in Hroot. cbn [map pos_of length]. rewrite Nat.add_0_r.
      assert (Hq : kq_of (top_query 0 (canon m h base)) = KLeaf x e).
      { apply Hnc; [apply canon_top_query|left; reflexivity|]. rewrite <- canon_khash, <- Hroot. reflexivity. }
      destruct h as [|h].
      + cbn [MerkleSpec.canon] in Hq. destruct (m base) as [e'|] eqn:Hm; cbn in Hq; [|discriminate].
        injection Hq as <- <-. auto.
      + exfalso. rewrite canon_S in Hq. destruct (forallb _ _); cbn in Hq; discriminate.
    - apply Forall_app in Hl as [Hl Hb]. inversion_clear Hb as [|? ? Hg _].
      unfold member_root in Hroot. rewrite fold_left_app in Hroot. cbn [fold_left] in Hroot. rewrite good_vstep in Hroot by exact Hg.
      fold (member_root P x e l) in Hroot. set (val := member_root P x e l) in *.
      rewrite mqueries_app in Hnc. fold (member_root P x e l) in Hnc. fold val in Hnc. cbn [mqueries] in Hnc.
      assert (Hq : kq_of (top_query 0 (canon m h base)) = KNode (place val bs)).
      { apply Hnc; [apply canon_top_query|right; apply in_or_app; right; left; reflexivity|]. rewrite <- canon_khash, <- Hroot. reflexivity. }
      destruct h as [|h].
      { cbn [MerkleSpec.canon] in Hq. destruct (m base); cbn in Hq; discriminate. }
      rewrite canon_S in Hq. destruct (forallb is_empty (kids m h base)) eqn:Hf; cbn [top_query kq_of] in Hq; [discriminate|]. apply (f_equal (fun k => match k with KNode l => l | _ => [] end)) in Hq.
      pose proof Hg as [Hd _].
      assert (Hkid : nth_error (kids m h base) (fst bs) = Some (canon m h (base + fst bs * 3 ^ h))).
      { rewrite kids_nth. destruct (Nat.ltb_spec (fst bs) 3); [reflexivity|lia]. }
      assert (Hval : val = value (canon m h (base + fst bs * 3 ^ h))).
      { pose proof (place_nth val bs Hg) as Hn. rewrite <- Hq, nth_error_map in Hn. fold (kids m h base) in Hn. rewrite Hkid in Hn. cbn in Hn. congruence. }
      destruct (IH h (base + fst bs * 3 ^ h)%nat) as (E1 & E2 & E3); auto.
      + intros q1 q2 H1 H2. apply Hnc.
        * rewrite canon_S, Hf. eapply tq_child; [|eauto]. eapply nth_error_In; eauto.
        * destruct H2 as [H2|H2]; [left; auto|right]. apply in_or_app; left; auto.
      + rewrite app_length, Nat.add_comm. cbn [length Nat.add]. split; [congruence|].
        rewrite map_app. cbn [map]. rewrite pos_of_snoc, map_length, E1.
        replace (base + (pos_of (map fst l) + fst bs * 3 ^ h))%nat with (base + fst bs * 3 ^ h + pos_of (map fst l))%nat by lia. auto.
  Qed.

  (** An accepted non-membership statement of the tree's height names an absent key. *)
  Lemma sound_nonmember_g m : forall l base,
    Forall good_step l ->
    kfree (canon m (length l) base) (KDefault :: nqueries 0 l) ->
    fold_left nmstep l 0 = value (canon m (length l) base) ->
    m (base + pos_of (map fst l))%nat = None.
  Proof.
    induction l as [|bs l IH] using rev_ind; intros base Hl Hnc Hroot.
    - cbn [fold_left length map pos_of] in *. rewrite Nat.add_0_r.
      assert (Hq : kq_of (top_query 0 (canon m 0 base)) = KDefault).
      { apply Hnc; [apply canon_top_query|left; reflexivity|]. rewrite <- canon_khash, <- Hroot. reflexivity. }
      cbn [MerkleSpec.canon] in Hq. destruct (m base); cbn in Hq; [discriminate|reflexivity].
    - apply Forall_app in Hl as [Hl Hb]. inversion_clear Hb as [|? ? Hg _]. pose proof Hg as [Hd _].
      replace (length (l ++ [bs])) with (S (length l)) in * by (rewrite app_length; cbn [length]; lia). set (h := length l) in *.
      rewrite fold_left_app in Hroot. cbn [fold_left] in Hroot. set (val := fold_left nmstep l 0) in *.
      rewrite nqueries_app in Hnc. fold val in Hnc. cbn [nqueries] in Hnc.
      rewrite map_app. cbn [map]. rewrite pos_of_snoc, map_length. fold h.
      replace (base + (pos_of (map fst l) + fst bs * 3 ^ h))%nat with (base + fst bs * 3 ^ h + pos_of (map fst l))%nat by lia.
      assert (Hlt : (pos_of (map fst l) < 3 ^ h)%nat).
      { unfold h. rewrite <- (map_length fst l). apply pos_of_lt. clear -Hl. induction Hl as [|? ? [? _]]; cbn [map]; constructor; auto. }
      unfold nm_step in Hroot. destruct (zeros (place val bs)) eqn:Hz.
      + assert (Hq : kq_of (top_query 0 (canon m (S h) base)) = KDefault).
        { apply Hnc; [apply canon_top_query|left; reflexivity|]. rewrite <- canon_khash, <- Hroot. reflexivity. }
        assert (He : is_empty (canon m (S h) base) = true).
        { rewrite canon_S in Hq |- *. destruct (forallb _ _); [reflexivity|discriminate]. }
        rewrite is_empty_canon in He by lia. apply He. cbn [Nat.pow]. nia.
      + assert (Hq : kq_of (top_query 0 (canon m (S h) base)) = KNode (place val bs)).
        { apply Hnc; [apply canon_top_query|right; apply in_or_app; right; left; reflexivity|]. rewrite <- canon_khash, <- Hroot. reflexivity. }
        rewrite canon_S in Hq. destruct (forallb is_empty (kids m h base)) eqn:Hf; cbn [top_query kq_of] in Hq; [discriminate|]. apply (f_equal (fun k => match k with KNode l => l | _ => [] end)) in Hq.
        assert (Hkid : nth_error (kids m h base) (fst bs) = Some (canon m h (base + fst bs * 3 ^ h))).
        { rewrite kids_nth. destruct (Nat.ltb_spec (fst bs) 3); [reflexivity|lia]. }
        assert (Hval : val = value (canon m h (base + fst bs * 3 ^ h))).
        { pose proof (place_nth val bs Hg) as Hn. rewrite <- Hq, nth_error_map in Hn. fold (kids m h base) in Hn. rewrite Hkid in Hn. cbn in Hn. congruence. }
        apply IH; auto. intros q1 q2 H1 H2. apply Hnc.
        * rewrite canon_S, Hf. eapply tq_child; [|eauto]. eapply nth_error_In; eauto.
        * destruct H2 as [H2|H2]; [left; auto|right]. apply in_or_app; left; auto.
  Qed.

  (** ** Honest proofs *)
  (** A lookup in a tree with parts dropped is the lookup in the whole tree. *)
  Lemma prunes_lookup path : forall h (n full : node K K) r, prunes 0 n full -> lookup_internal 0 h n path = Ok r -> r <> LNotInMemory ->
    lookup_internal 0 h full path = Ok r.
  Proof.
    induction h as [|h IH]; intros n full r Hp Hl Hr; inversion Hp as [|v p e|v cs cs' Hc|f]; subst; auto;
      try (cbn in Hl; injection Hl as <-; congruence); try discriminate.
    cbn [lookup_internal] in *. destruct (index path h) as [b| |]; try discriminate. cbn [bind] in *.
    unfold index in *. destruct (nth_error cs b) as [c|] eqn:Ec; [|discriminate]. cbn [bind] in Hl.
    pose proof Hc as Hc'. apply Forall2_nth in Hc' as [Hlen Hnth].
    destruct (nth_error cs' b) as [c'|] eqn:Ec'.
    2:{ apply nth_error_None in Ec'. assert (b < length cs)%nat by (apply nth_error_Some; congruence). lia. }
    pose proof (Hnth _ _ _ Ec Ec') as Hcc. cbn [bind].
    rewrite <- (prunes_siblings 0 b cs cs' Hc).
    destruct (lookup_internal 0 h c path) as [r0| |] eqn:E0; try discriminate. cbn [bind] in Hl.
    rewrite (IH c c' r0 Hcc E0); [exact Hl|]. intros ->. injection Hl as <-. now apply Hr.
  Qed.

  (** No node of the tree hashes to zero, the label of an empty subtree. *)
  Definition hash_nonzero (n : node K K) : Prop :=
    forall q, tree_query 0 n q -> q <> QDefault -> khash (kq_of q) <> 0.
  Lemma hash_nonzero_kid m h base d c : hash_nonzero (canon m (S h) base) -> forallb is_empty (kids m h base) = false ->
    nth_error (kids m h base) d = Some c -> hash_nonzero c.
  Proof.
    intros H Hf Hd q Hq. apply H. rewrite canon_S, Hf. eapply tq_child; [|eauto]. eapply nth_error_In; eauto.
  Qed.
  Lemma value_zero m h base : hash_nonzero (canon m h base) -> (value (canon m h base) = 0 <-> is_empty (canon m h base) = true).
  Proof.
    intros H. rewrite canon_khash. pose proof (H _ (canon_top_query 0 (rescue_node P) (rescue_leaf P) 3 m h base)) as Hn.
    destruct h as [|h].
    - cbn [MerkleSpec.canon] in *. destruct (m base); cbn in *; split; auto; try discriminate. intros E. exfalso. apply Hn; auto. discriminate.
    - rewrite canon_S in *. destruct (forallb is_empty (kids m h base)); cbn [is_empty top_query] in *; split; auto; try discriminate.
      intros E. exfalso. apply Hn; auto. discriminate.
  Qed.
  Lemma lefts_ok_snoc l : forall v bs, lefts_ok P v (l ++ [bs]) <-> lefts_ok P v l /\ hd 0 (place (fold_left vstep l v) bs) <> 0.
  Proof.
    induction l as [|b l IH]; intros v bs; cbn [app lefts_ok fold_left]; [tauto|]. rewrite IH. tauto.
  Qed.
  (** In the block of every level the leftmost sub-block holds something. *)
  Definition left_full (m : kmap K) (pos h : nat) : Prop :=
    forall i, (i < h)%nat -> exists j, (blk 3 pos (S i) <= j < blk 3 pos (S i) + 3 ^ i)%nat /\ m j <> None.
  Lemma honest_lefts m pos path : forall h e pf, good_path 3 path pos h -> hash_nonzero (canon m h (blk 3 pos h)) ->
    lookup_internal 0 h (canon m h (blk 3 pos h)) path = Ok (LOk e pf) ->
    (lefts_ok P (rescue_leaf P pos e) (combine path pf) <-> left_full m pos h).
  Proof.
    induction h as [|h IH]; intros e pf Hp Hz Hl.
    - cbn [MerkleSpec.canon] in Hl. destruct (m (blk 3 pos 0)); cbn in Hl; [|discriminate]. injection Hl as <- <-.
      rewrite combine_nil. cbn. split; [|auto]. intros _ i Hi. lia.
    - rewrite canon_S in Hl. destruct (forallb is_empty (kids m h (blk 3 pos (S h)))) eqn:Hf; [discriminate|].
      cbn [lookup_internal] in Hl. unfold index in Hl. set (d := digit 3 pos h).
      assert (Hidx : nth_error path h = Some d) by (apply Hp; lia). rewrite Hidx in Hl. cbn [bind] in Hl.
      assert (Hd : (d < 3)%nat) by (apply digit_lt; lia).
      assert (Hb : (blk 3 pos (S h) + d * 3 ^ h = blk 3 pos h)%nat) by (apply blk_step; lia).
      assert (Hkid : nth_error (kids m h (blk 3 pos (S h))) d = Some (canon m h (blk 3 pos h))).
      { rewrite kids_nth. destruct (Nat.ltb_spec d 3); [|lia]. rewrite Hb; auto. }
      rewrite Hkid in Hl. cbn [bind] in Hl.
      destruct (lookup_canon 0 (rescue_node P) (rescue_leaf P) 3 ltac:(lia) m pos h path ltac:(lia) (good_path_S _ _ _ _ Hp)) as (r & Hr & Hspec).
      rewrite Hr in Hl. cbn [bind] in Hl. destruct r as [e' p| |p]; try discriminate. injection Hl as -> <-.
      destruct Hspec as (_ & Hlen & _ & Hroot).
      rewrite (combine_app_l _ _ _ d) by (rewrite Hlen; auto). rewrite lefts_ok_snoc.
      rewrite (IH e p (good_path_S _ _ _ _ Hp) (hash_nonzero_kid _ _ _ _ _ Hz Hf Hkid) Hr).
      unfold root_from in Hroot. rewrite Hroot. unfold place. cbn [fst snd].
      rewrite (siblings_insert 0 d (kids m h (blk 3 pos (S h)))) by exact Hkid.
      assert (Hh : hd 0 (map value (kids m h (blk 3 pos (S h)))) = value (canon m h (blk 3 pos (S h)))).
      { unfold MerkleProofs.kids. cbn [seq map hd]. now rewrite Nat.mul_0_l, Nat.add_0_r. }
      rewrite Hh.
      assert (H0 : hash_nonzero (canon m h (blk 3 pos (S h)))).
      { apply (hash_nonzero_kid m h (blk 3 pos (S h)) 0 _ Hz Hf). rewrite kids_nth. cbn [Nat.ltb Nat.leb]. now rewrite Nat.mul_0_l, Nat.add_0_r. }
      pose proof (value_zero m h _ H0) as Hv. rewrite is_empty_canon in Hv by lia.
      split.
      + intros [H1 H2] i Hi. destruct (Nat.eq_dec i h) as [-> |Hne]; [|apply H1; lia].
        destruct (ksome m (blk 3 pos (S h)) (3 ^ h)) as [(j & Hj & Hm)|Hall]; [eauto|].
        exfalso. apply H2, Hv. exact Hall.
      + intros H1. split; [intros i Hi; apply H1; lia|]. intros E. destruct (H1 h ltac:(lia)) as (j & Hj & Hm). apply Hm. now apply (proj1 Hv).
  Qed.

  Lemma honest_nonmember m pos path : forall h pf, good_path 3 path pos h -> hash_nonzero (canon m h (blk 3 pos h)) ->
    lookup_internal 0 h (canon m h (blk 3 pos h)) path = Ok (LNotFound pf) ->
    fold_left nmstep (map fill (combine path pf)) 0 = value (canon m h (blk 3 pos h)).
  Proof.
    induction h as [|h IH]; intros pf Hp Hz Hl.
    - cbn [MerkleSpec.canon] in *. destruct (m (blk 3 pos 0)); cbn in Hl; [discriminate|]. injection Hl as <-.
      rewrite combine_nil. reflexivity.
    - rewrite canon_S in Hl |- *. destruct (forallb is_empty (kids m h (blk 3 pos (S h)))) eqn:Hf.
      { cbn [lookup_internal] in Hl. injection Hl as <-. cbn [MerkleModel.value]. clear -K.
        assert (Hs : forall b, nm_step P 0 (fill (b, [])) = (0 : K)).
        { intros b. unfold nm_step, fill, place, zeros. cbn [fst snd].
          destruct b as [|[|b]]; cbn [firstn skipn app forallb]; rewrite ?(feqb_refl K 0); try reflexivity.
          rewrite firstn_nil, skipn_nil. cbn [firstn skipn app forallb]. rewrite ?(feqb_refl K 0). reflexivity. }
        change ([] :: repeat [] h) with (repeat (@nil K) (S h)). generalize (S h). intros n. revert path. induction n as [|n IHn]; intros path.
        - cbn [repeat]. rewrite combine_nil. reflexivity.
        - destruct path as [|b path]; [reflexivity|]. cbn [repeat combine map fold_left]. rewrite Hs. apply IHn. }
      cbn [lookup_internal] in Hl. unfold index in Hl. set (d := digit 3 pos h).
      assert (Hidx : nth_error path h = Some d) by (apply Hp; lia). rewrite Hidx in Hl. cbn [bind] in Hl.
      assert (Hd : (d < 3)%nat) by (apply digit_lt; lia).
      assert (Hb : (blk 3 pos (S h) + d * 3 ^ h = blk 3 pos h)%nat) by (apply blk_step; lia).
      assert (Hkid : nth_error (kids m h (blk 3 pos (S h))) d = Some (canon m h (blk 3 pos h))).
      { rewrite kids_nth. destruct (Nat.ltb_spec d 3); [|lia]. rewrite Hb; auto. }
      rewrite Hkid in Hl. cbn [bind] in Hl.
      destruct (lookup_canon 0 (rescue_node P) (rescue_leaf P) 3 ltac:(lia) m pos h path ltac:(lia) (good_path_S _ _ _ _ Hp)) as (r & Hr & Hspec).
      rewrite Hr in Hl. cbn [bind] in Hl. destruct r as [e' p| |p]; try discriminate. injection Hl as <-.
      destruct Hspec as (_ & Hlen & _ & _).
      rewrite (combine_app_l _ _ _ d) by (rewrite Hlen; auto). rewrite map_app, fold_left_app. cbn [map fold_left].
      rewrite (IH p (good_path_S _ _ _ _ Hp) (hash_nonzero_kid _ _ _ _ _ Hz Hf Hkid) Hr).
      assert (Hsib : length (siblings 0 d (kids m h (blk 3 pos (S h)))) = 2%nat).
      { rewrite siblings_length; rewrite kids_length; auto. }
      assert (Hfill : fill (d, siblings 0 d (kids m h (blk 3 pos (S h)))) = (d, siblings 0 d (kids m h (blk 3 pos (S h))))).
      { unfold fill. cbn [fst snd]. destruct (siblings 0 d (kids m h (blk 3 pos (S h)))); [discriminate Hsib|reflexivity]. }
      rewrite Hfill. unfold nm_step, place. cbn [fst snd].
      rewrite (siblings_insert 0 d (kids m h (blk 3 pos (S h)))) by exact Hkid.
      cbn [MerkleModel.value].
      destruct (zeros (map value (kids m h (blk 3 pos (S h))))) eqn:Ez; [|reflexivity].
      exfalso. assert (X : forallb is_empty (kids m h (blk 3 pos (S h))) = true); [|congruence].
      apply forallb_nth. intros i c Hi. pose proof (hash_nonzero_kid _ _ _ _ _ Hz Hf Hi) as Hzc.
      unfold zeros in Ez. rewrite forallb_nth in Ez. specialize (Ez i (value c)).
      rewrite nth_error_map, Hi in Ez. specialize (Ez eq_refl). apply feqb_eq in Ez.
      rewrite kids_nth in Hi. destruct (Nat.ltb_spec i 3); [|discriminate]. injection Hi as <-. apply value_zero; auto.
  Qed.

  (** An accepted statement has no empty leftmost block on its path. *)
  Lemma sound_member_left m x e : forall l h base, (base mod 3 ^ h = 0)%nat ->
    Forall good_step l ->
    kfree (canon m h base) (KLeaf x e :: mqueries (rescue_leaf_at P x e) l) ->
    member_root P x e l = value (canon m h base) -> lefts_ok P (rescue_leaf_at P x e) l ->
    left_full m (base + pos_of (map fst l)) h.
  Proof.
    induction l as [|bs l IH] using rev_ind; intros h base Hbase Hl Hnc Hroot Hlo.
    - destruct (sound_member_g m x e [] h base Hl Hnc Hroot) as (<- & _). intros i Hi. cbn in Hi. lia.
    - destruct (sound_member_g m x e (l ++ [bs]) h base Hl Hnc Hroot) as (Hlen & _ & _).
      apply Forall_app in Hl as [Hl Hb]. inversion_clear Hb as [|? ? Hg _].
      unfold member_root in Hroot. rewrite fold_left_app in Hroot. cbn [fold_left] in Hroot. rewrite good_vstep in Hroot by exact Hg.
      fold (member_root P x e l) in Hroot.
      apply lefts_ok_snoc in Hlo as [Hlo Hhd]. fold (member_root P x e l) in Hhd. set (val := member_root P x e l) in *.
      rewrite mqueries_app in Hnc. fold (member_root P x e l) in Hnc. fold val in Hnc. cbn [mqueries] in Hnc.
      destruct h as [|h]; [rewrite app_length in Hlen; cbn in Hlen; lia|]. rewrite app_length, Nat.add_comm in Hlen. cbn [length Nat.add] in Hlen. injection Hlen as Hlen.
      assert (Hq : kq_of (top_query 0 (canon m (S h) base)) = KNode (place val bs)).
      { apply Hnc; [apply canon_top_query|right; apply in_or_app; right; left; reflexivity|]. rewrite <- canon_khash, <- Hroot. reflexivity. }
      rewrite canon_S in Hq. destruct (forallb is_empty (kids m h base)) eqn:Hf; cbn [top_query kq_of] in Hq; [discriminate|]. apply (f_equal (fun k => match k with KNode l => l | _ => [] end)) in Hq.
      pose proof Hg as [Hd _].
      assert (Hkid : nth_error (kids m h base) (fst bs) = Some (canon m h (base + fst bs * 3 ^ h))).
      { rewrite kids_nth. destruct (Nat.ltb_spec (fst bs) 3); [reflexivity|lia]. }
      assert (Hval : val = value (canon m h (base + fst bs * 3 ^ h))).
      { pose proof (place_nth val bs Hg) as Hn. rewrite <- Hq, nth_error_map in Hn. fold (kids m h base) in Hn. rewrite Hkid in Hn. cbn in Hn. congruence. }
      assert (Hpos : (3 ^ h <> 0)%nat) by (apply Nat.pow_nonzero; lia).
      assert (Hlt : (pos_of (map fst l) < 3 ^ h)%nat).
      { rewrite <- Hlen, <- (map_length fst l). apply pos_of_lt. clear -Hl. induction Hl as [|? ? [? _]]; cbn [map]; constructor; auto. }
      rewrite map_app. cbn [map]. rewrite pos_of_snoc, map_length, Hlen.
      apply Nat.mod_divide in Hbase; [|apply Nat.pow_nonzero; lia]. destruct Hbase as [k Hbase].
      intros i Hi. destruct (Nat.eq_dec i h) as [-> |Hne].
      + assert (Eb : blk 3 (base + (pos_of (map fst l) + fst bs * 3 ^ h)) (S h) = base).
        { unfold blk. rewrite Hbase. rewrite Nat.add_comm, Nat.div_add by (apply Nat.pow_nonzero; lia). rewrite Nat.div_small by (cbn [Nat.pow]; nia). lia. }
        rewrite Eb. destruct (ksome m base (3 ^ h)) as [(j & Hj & Hm)|Hall]; [eauto|]. exfalso. apply Hhd.
        rewrite <- Hq. unfold MerkleProofs.kids. cbn [seq map hd]. rewrite Nat.mul_0_l, Nat.add_0_r.
        assert (Ee : is_empty (canon m h base) = true) by (apply is_empty_canon; [lia|exact Hall]).
        destruct (canon m h base); try discriminate. reflexivity.
      + replace (base + (pos_of (map fst l) + fst bs * 3 ^ h))%nat with (base + fst bs * 3 ^ h + pos_of (map fst l))%nat by lia.
        apply (IH h (base + fst bs * 3 ^ h)%nat); auto; [| |lia].
        * rewrite Hbase. cbn [Nat.pow]. replace (k * (3 * 3 ^ h) + fst bs * 3 ^ h)%nat with ((k * 3 + fst bs) * 3 ^ h)%nat by lia. apply Nat.mod_mul. lia.
        * intros q1 q2 H1 H2. apply Hnc.
          -- rewrite canon_S, Hf. eapply tq_child; [|eauto]. eapply nth_error_In; eauto.
          -- destruct H2 as [H2|H2]; [left; auto|right]. apply in_or_app; left; auto.
  Qed.
End Tree.
