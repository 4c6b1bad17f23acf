(** The Merkle tree properties (C01-C16 and followers), stated about the public
    operations of the model and histories of calls.  The hash functions, the
    element and node types are arbitrary; the arity is any number from 2 up. *)
From Coq Require Import List Arith Lia Bool.
From Verif Require Import Base ListAux MerkleModel MerkleSpec MerkleProofs MerklePrune
     MerkleAppend MerkleIter MerkleRange MerkleHist MerkleHistory MerkleApi.
Import ListNotations.

Section Props.
  Context {E T : Type}.
  Variable Teqb : T -> T -> bool.
  Hypothesis Teqb_eq : forall x y, Teqb x y = true <-> x = y.
  Variable T0 : T.
  Variable digest : list T -> T.
  Variable digest_leaf : nat -> E -> T.
  Variable arity : nat.
  Hypothesis Ha : 2 <= arity.

  Notation tree := (@tree E T).
  Notation canon := (canon T0 digest digest_leaf arity).
  Notation uhist := (uhist T0 digest digest_leaf arity).
  Notation uhist_full := (uhist_full T0 digest digest_leaf arity).
  Notation uhist_rem := (uhist_rem Teqb T0 digest digest_leaf arity).
  Notation ahist := (ahist Teqb T0 digest digest_leaf arity).
  Notation ahist_full := (ahist_full T0 digest digest_leaf arity).
  Notation verify := (verify Teqb T0 digest digest_leaf arity).
  Notation non_membership_verify := (non_membership_verify Teqb T0 digest digest_leaf arity).
  Notation collision_free := (collision_free T0 digest digest_leaf arity).
  Notation ext := (ext T0 digest digest_leaf arity).
  Notation build := (build T0 digest digest_leaf arity).
  Notation commitment := (commitment T0).
  Notation lookup := (lookup T0 arity).
  Notation universal_lookup := (universal_lookup T0 arity).
  Notation forget := (forget T0 arity).
  Notation universal_forget := (universal_forget T0 arity).
  Notation remember := (remember Teqb T0 digest digest_leaf arity).
  Notation non_membership_remember := (non_membership_remember Teqb T0 digest digest_leaf arity).
  Notation update_with := (update_with T0 digest digest_leaf arity).
  Notation persistent_update_with := (persistent_update_with T0 digest digest_leaf arity).
  Notation cap t := (arity ^ height t).

  (** Shared: what a lookup in a tree with mixed history returns. *)
  Lemma rem_lookup t m k : uhist_rem t m -> k < cap t ->
    exists r, universal_lookup t k = Ok r /\
      match r with
      | LOk e pf => m k = Some e /\ length pf = height t /\ verify (commitment t) k e pf = Ok true
      | LNotFound pf => m k = None /\ length pf = height t /\
                        non_membership_verify (commitment t) k pf = Ok true
      | LNotInMemory => True
      end.
  Proof.
    intros Ht Hk. apply (uhist_rem_inv Teqb Teqb_eq T0 digest digest_leaf arity Ha) in Ht as [Hc _].
    rewrite <- (blk_small arity k (height t) Hk) in Hc.
    destruct (lookup_consistent T0 digest digest_leaf arity Ha m k (height t) _ (gp arity Ha k (height t)) _ Hc)
      as (r & Hr & Hres).
    exists r. split; [exact Hr|]. destruct r as [e pf| |pf]; auto.
    - destruct Hres as (Hm & Hl & Hf & Hroot). split; [auto|]. split; [auto|].
      apply (verify_eq Teqb Teqb_eq). rewrite Hl. auto.
    - destruct Hres as (Hm & Hl & Hf & Hroot). split; [auto|]. split; [auto|].
      apply (nm_verify_eq Teqb Teqb_eq). rewrite Hl. auto.
  Qed.

  (** What a lookup in an append-only or light-weight tree returns. *)
  Lemma app_lookup lw t xs k : ahist lw t xs -> k < cap t ->
    exists r, lookup t k = Ok r /\
      match r with
      | LOk e pf => nth_error xs k = Some e /\ length pf = height t /\
                    verify (commitment t) k e pf = Ok true
      | LNotFound _ => nth_error xs k = None
      | LNotInMemory => True
      end.
  Proof.
    intros Ht Hk. apply (ahist_inv Teqb Teqb_eq T0 digest digest_leaf arity Ha) in Ht.
    pose proof (klist_prunes _ _ _ _ _ _ Ht) as Hp.
    rewrite <- (blk_small arity k (height t) Hk) in Hp.
    apply (prunes_consistent T0 digest digest_leaf arity Ha) in Hp.
    destruct (lookup_consistent T0 digest digest_leaf arity Ha _ k (height t) _ (gp arity Ha k (height t)) _ Hp)
      as (r & Hr & Hres).
    unfold MerkleModel.lookup. rewrite Hr. eexists. split; [reflexivity|].
    destruct r as [e pf| |pf]; auto.
    - destruct Hres as (Hm & Hl & Hf & Hroot). split; [auto|]. split; [auto|].
      apply (verify_eq Teqb Teqb_eq). rewrite Hl. auto.
    - tauto.
  Qed.

  (** *** C01: membership proofs produced by lookup always verify. *)
  Theorem C01_lookup_verifies_universal t m k e pf :
    uhist_rem t m -> k < cap t -> lookup t k = Ok (LOk e pf) ->
    verify (commitment t) k e pf = Ok true.
  Proof.
    intros Ht Hk Hl. destruct (rem_lookup t m k Ht Hk) as (r & Hr & Hres).
    unfold MerkleModel.lookup in Hl. unfold MerkleModel.universal_lookup in Hr. rewrite Hr in Hl.
    cbn [bind] in Hl. destruct r; try discriminate. injection Hl as -> ->. tauto.
  Qed.

  Theorem C01_lookup_verifies_append lw t xs k e pf :
    ahist lw t xs -> k < cap t -> lookup t k = Ok (LOk e pf) ->
    verify (commitment t) k e pf = Ok true.
  Proof.
    intros Ht Hk Hl. destruct (app_lookup lw t xs k Ht Hk) as (r & Hr & Hres).
    rewrite Hr in Hl. injection Hl as ->. tauto.
  Qed.

  (** *** C02: an accepted membership proof implies presence; it is then the
      honest proof, of the tree's height, and the index is in range. *)
  Theorem C02_membership_sound_universal t m k e pf :
    uhist t m ->
    collision_free (canon m (height t) 0) k (Some e) pf ->
    verify (commitment t) k e pf = Ok true ->
    m k = Some e /\ k < cap t /\ length pf = height t.
  Proof.
    intros Ht Hc Hv. apply (uhist_inv T0 digest digest_leaf arity Ha) in Ht as [Hs _].
    unfold MerkleModel.commitment in Hv. rewrite (sprunes_value T0 _ _ Hs) in Hv.
    destruct (verified_is_lookup Teqb Teqb_eq T0 digest digest_leaf arity Ha _ _ _ _ _ Hc Hv)
      as (H1 & H2 & H3 & _). auto.
  Qed.

  Theorem C02_membership_sound_append lw t xs k e pf :
    ahist lw t xs ->
    collision_free (canon (klist xs) (height t) 0) k (Some e) pf ->
    verify (commitment t) k e pf = Ok true ->
    nth_error xs k = Some e /\ length pf = height t.
  Proof.
    intros Ht Hc Hv. apply (ahist_inv Teqb Teqb_eq T0 digest digest_leaf arity Ha) in Ht as (Hs & _).
    unfold MerkleModel.commitment in Hv. rewrite (rel_value T0 _ _ _ Hs) in Hv.
    destruct (verified_is_lookup Teqb Teqb_eq T0 digest digest_leaf arity Ha _ _ _ _ _ Hc Hv)
      as (H1 & H2 & H3 & _). auto.
  Qed.

  (** *** C03: the universal tree behaves as a key/value map.  [uhist_rem] tracks
      the map next to the tree; lookups agree with it whenever the key is in
      memory, and always when nothing was forgotten. *)
  Theorem C03_lookup_is_map t m k :
    uhist_rem t m -> k < cap t ->
    exists r, universal_lookup t k = Ok r /\
      match r with
      | LOk e _ => m k = Some e
      | LNotFound _ => m k = None
      | LNotInMemory => True
      end.
  Proof.
    intros Ht Hk. destruct (rem_lookup t m k Ht Hk) as (r & Hr & Hres). exists r.
    split; [exact Hr|]. destruct r; tauto.
  Qed.

  Theorem C03_lookup_is_map_in_memory t m k :
    uhist_full t m -> k < cap t ->
    match m k with
    | Some e => exists pf, universal_lookup t k = Ok (LOk e pf)
    | None => exists pf, universal_lookup t k = Ok (LNotFound pf)
    end.
  Proof.
    intros Ht Hk. apply (uhist_full_inv T0 digest digest_leaf arity Ha) in Ht as [Hr _].
    unfold MerkleModel.universal_lookup. rewrite Hr.
    rewrite <- (blk_small arity k (height t) Hk).
    destruct (lookup_canon T0 digest digest_leaf arity (Ha1a arity Ha) m k (height t) _ Ha (gp arity Ha k (height t)))
      as (r & Hl & Hres). rewrite Hl.
    destruct r as [e pf| |pf]; [|tauto|].
    - destruct Hres as [-> _]. eauto.
    - destruct Hres as [-> _]. eauto.
  Qed.

  (** Updates never fail when nothing was forgotten, and report the old value. *)
  Theorem C03_update_total t m k f :
    uhist_full t m -> k < cap t ->
    exists t', update_with t k f =
      Ok (t', match m k with Some e => LOk e tt | None => LNotFound tt end).
  Proof.
    intros Ht Hk. apply (uhist_full_inv T0 digest digest_leaf arity Ha) in Ht as [Hr _].
    rewrite <- (blk_small arity k (height t) Hk) in Hr. unfold MerkleModel.update_with. rewrite Hr.
    rewrite update_canon by first [lia|apply gp; auto]. cbn [bind].
    destruct (delta (m k) (f (m k))). eexists. reflexivity.
  Qed.

  (** With forgotten parts an update either works as on the map (see [uhist_rem])
      or fails with [ForgottenLeaf]; it never panics. *)
  Theorem C03_update_forgotten t m k f :
    uhist_rem t m -> k < cap t ->
    update_with t k f = Err ForgottenLeaf \/
    exists t', update_with t k f =
      Ok (t', match m k with Some e => LOk e tt | None => LNotFound tt end).
  Proof.
    intros Ht Hk. apply (uhist_rem_inv Teqb Teqb_eq T0 digest digest_leaf arity Ha) in Ht as [Hc _].
    rewrite <- (blk_small arity k (height t) Hk) in Hc. unfold MerkleModel.update_with.
    destruct (update_consistent T0 digest digest_leaf arity Ha m k f (height t) _ (gp arity Ha k (height t)) _ Hc)
      as [Herr|(n' & Hn' & _)].
    - left. rewrite Herr. reflexivity.
    - right. rewrite Hn'. cbn [bind]. destruct (delta (m k) (f (m k))). eexists. reflexivity.
  Qed.

  (** *** C04: the commitment depends only on contents (updates, deletions and
      forgetting in any order). *)
  Theorem C04_commitment_of_contents t m t' m' :
    uhist t m -> uhist t' m' -> height t = height t' ->
    (forall k, k < cap t -> m k = m' k) ->
    commitment t = commitment t'.
  Proof.
    intros Ht Ht' Hh Hm.
    apply (uhist_inv T0 digest digest_leaf arity Ha) in Ht as [H _].
    apply (uhist_inv T0 digest digest_leaf arity Ha) in Ht' as [H' _].
    unfold MerkleModel.commitment. rewrite (sprunes_value T0 _ _ H), (sprunes_value T0 _ _ H').
    rewrite <- Hh. f_equal. apply canon_ext; [lia|]. intros i Hi. apply Hm. lia.
  Qed.

  (** *** C05: num_leaves counts the present keys. *)
  Theorem C05_num_leaves t m :
    uhist_rem t m ->
    num_leaves t = length (filter (fun k => match m k with Some _ => true | None => false end)
                                  (seq 0 (cap t))).
  Proof. intro Ht. apply (uhist_rem_inv Teqb Teqb_eq T0 digest digest_leaf arity Ha) in Ht. apply Ht. Qed.

  (** *** C06: persistent update agrees with in-place update. *)
  Theorem C06_persistent_update t k f :
    match update_with t k f with
    | Ok (t', _) => persistent_update_with t k f = Ok t'
    | Err x => persistent_update_with t k f = Err x
    | Panic => persistent_update_with t k f = Panic
    end.
  Proof.
    clear Ha. unfold MerkleModel.update_with, MerkleModel.persistent_update_with.
    destruct (update_with_internal _ _ _ _ _ _ _ _ _) as [[[n [a d]] r]| |]; reflexivity.
  Qed.

  (** *** C07/C09: the commitment and the leaf count of an append-only or
      light-weight tree are determined by the sequence of elements. *)
  Theorem C07_append_order_determines lw t xs lw' t' :
    ahist lw t xs -> ahist lw' t' xs -> height t = height t' ->
    commitment t = commitment t' /\ num_leaves t = num_leaves t'.
  Proof.
    intros Ht Ht' Hh.
    apply (ahist_inv Teqb Teqb_eq T0 digest digest_leaf arity Ha) in Ht as (H & Hn & _).
    apply (ahist_inv Teqb Teqb_eq T0 digest digest_leaf arity Ha) in Ht' as (H' & Hn' & _).
    unfold MerkleModel.commitment. rewrite (rel_value T0 _ _ _ H), (rel_value T0 _ _ _ H'), Hh.
    split; congruence.
  Qed.

  (** Splitting into batches does not matter at all: the resulting tree is the
      same object as the one built at once. *)
  Theorem C07_batches_equal_build h (bs : list (list E)) t :
    build false (Some h) (concat bs) = Ok t ->
    fold_left (fun t b => fst (ext false t b)) bs (tree_new h) = t.
  Proof.
    intro Hb. pose proof (build_inv T0 digest digest_leaf arity Ha false (Some h) (concat bs)) as G.
    cbn [the_height] in G.
    destruct (Nat.ltb_spec (arity ^ h) (length (concat bs))) as [|Hcap]; [congruence|].
    destruct G as (t1 & Hb1 & Hinv & Hh). rewrite Hb in Hb1. injection Hb1 as <-.
    assert (K : forall bs xs0 t0, ainvf T0 digest digest_leaf arity false t0 xs0 -> height t0 = h ->
               length (xs0 ++ concat bs) <= arity ^ h ->
               ainvf T0 digest digest_leaf arity false
                 (fold_left (fun t b => fst (ext false t b)) bs t0) (xs0 ++ concat bs) /\
               height (fold_left (fun t b => fst (ext false t b)) bs t0) = h).
    { clear - Ha. induction bs as [|b bs IH]; intros xs0 t0 H0 Hh Hl.
      - simpl. rewrite app_nil_r. auto.
      - cbn [fold_left concat]. destruct (ext false t0 b) as [t1 r] eqn:He. cbn [fst].
        destruct (ext_inv_full T0 digest digest_leaf arity Ha false t0 xs0 b t1 r H0 He)
          as (Hh1 & H1 & Hcase).
        simpl in Hl. rewrite !app_length in Hl. rewrite Hh in Hcase.
        assert (r = Ok tt).
        { destruct Hcase as [[-> _]|[[_ Hc]|(_ & _ & Hne & Hc)]]; [auto|lia|].
          destruct b; [congruence|]. simpl in Hl. lia. }
        subst r. cbn [after_extend] in H1. rewrite Hh in H1.
        rewrite firstn_all2 in H1 by lia.
        rewrite app_assoc. apply IH; [auto|congruence|]. rewrite !app_length. lia. }
    destruct (K bs [] (tree_new h)) as [(HA & HB & _) HC]; auto.
    { apply new_inv; auto. }
    destruct Hinv as (HA' & HB' & _). cbn [app] in *.
    apply rel_false_eq in HA. apply rel_false_eq in HA'.
    destruct (fold_left _ bs (tree_new h)) as [r1 h1 n1], t as [r2 h2 n2]. cbn [root height num_leaves] in *.
    congruence.
  Qed.

  (** Index [i] holds the [i]-th element. *)
  Theorem C07_lookup_by_position t xs k :
    ahist_full false t xs -> k < cap t ->
    match nth_error xs k with
    | Some e => exists pf, lookup t k = Ok (LOk e pf)
    | None => lookup t k = Ok (LNotFound tt)
    end.
  Proof.
    intros Ht Hk. apply (ahist_full_inv T0 digest digest_leaf arity Ha) in Ht as (Hr & _).
    apply rel_false_eq in Hr. unfold MerkleModel.lookup. rewrite Hr.
    rewrite <- (blk_small arity k (height t) Hk).
    destruct (lookup_canon T0 digest digest_leaf arity (Ha1a arity Ha) (klist xs) k (height t) _ Ha (gp arity Ha k (height t)))
      as (r & Hl & Hres). rewrite Hl. unfold klist in Hres.
    destruct r as [e pf| |pf]; [|tauto|].
    - destruct Hres as [-> _]. eexists. reflexivity.
    - destruct Hres as [-> _]. reflexivity.
  Qed.

  (** *** C08: capacity is enforced exactly. *)
  Theorem C08_extend_exact lw t xs es t' r :
    ahist_full lw t xs -> ext lw t es = (t', r) ->
    ahist_full lw t' (after_extend (cap t) xs es r) /\ height t' = height t /\
    (r = Ok tt <-> length xs + length es <= cap t) /\
    (length xs < cap t < length xs + length es -> r = Err ExceedCapacity) /\
    (length xs = cap t -> es <> [] ->
       t' = t /\ (r = Err ExistingLeaf \/ lw = true /\ r = Err ForgottenLeaf)).
  Proof.
    intros Ht He. split; [eapply af_extend; eauto|].
    apply (ahist_full_inv T0 digest digest_leaf arity Ha) in Ht.
    destruct (ext_inv_full T0 digest digest_leaf arity Ha lw t xs es t' r Ht He) as (Hh & _ & Hcase).
    split; [auto|]. destruct Hcase as [[-> Hc]|[[-> Hc]|(Href & -> & Hne & Hc)]].
    - split; [split; auto|]. split; [intros; lia|].
      intros Hx Hne. destruct es; [congruence|]. simpl in Hc. lia.
    - split; [split; [discriminate|lia]|]. split; [auto|]. intros; lia.
    - split.
      + split; [destruct Href as [->|[_ ->]]; discriminate|]. destruct es; [congruence|]. simpl. lia.
      + split; [intros; lia|]. intros _ _. split; [auto|exact Href].
  Qed.

  (** Construction with an explicit height succeeds exactly when the elements
      fit; without one it always succeeds, with the least sufficient height. *)
  Theorem C08_build_exact lw h xs :
    (length xs <= arity ^ h -> exists t, build lw (Some h) xs = Ok t /\ height t = h) /\
    (arity ^ h < length xs -> build lw (Some h) xs = Err ExceedCapacity).
  Proof.
    pose proof (build_inv T0 digest digest_leaf arity Ha lw (Some h) xs) as G. cbn [the_height] in G.
    destruct (Nat.ltb_spec (arity ^ h) (length xs)) as [Hlt|Hge].
    - split; [lia|auto].
    - split; [|lia]. intros _. destruct G as (t & Hb & _ & Hh). eauto.
  Qed.

  Theorem C08_build_auto_height lw xs :
    exists t, build lw None xs = Ok t /\ length xs <= cap t /\
              forall h, length xs <= arity ^ h -> height t <= h.
  Proof.
    pose proof (build_inv T0 digest digest_leaf arity Ha lw None xs) as G. cbn [the_height] in G.
    pose proof (min_height_ok arity Ha (length xs) (length xs) 0) as M.
    cbn [Nat.pow] in M. specialize (M ltac:(lia)). cbv zeta in M. destruct M as (M1 & _ & M3).
    destruct (Nat.ltb_spec (arity ^ min_height arity (length xs) 0 1 (length xs)) (length xs)) as [Hlt|_]; [lia|].
    destruct G as (t & Hb & _ & Hh). exists t. split; [auto|]. rewrite Hh. split; [auto|].
    intros h Hl. destruct (Nat.le_gt_cases (min_height arity (length xs) 0 1 (length xs)) h) as [|Hx]; auto.
    specialize (M3 h ltac:(lia)). lia.
  Qed.

  (** *** C09: the light-weight tree commits like the full tree. *)
  Theorem C09_light_weight_commitment oh xs t t' :
    build false oh xs = Ok t -> build true oh xs = Ok t' ->
    commitment t = commitment t' /\ num_leaves t = num_leaves t' /\ height t = height t'.
  Proof.
    intros Hb Hb'.
    pose proof (build_inv T0 digest digest_leaf arity Ha false oh xs) as G.
    pose proof (build_inv T0 digest digest_leaf arity Ha true oh xs) as G'.
    destruct (_ <? _); [congruence|]. destruct G as (t1 & H1 & _ & Hh1), G' as (t2 & H2 & _ & Hh2).
    rewrite Hb in H1. rewrite Hb' in H2. injection H1 as <-. injection H2 as <-.
    assert (Hh : height t = height t') by congruence.
    destruct (C07_append_order_determines false t xs true t') as [Hc Hn]; auto.
    - eapply ah_build; eauto.
    - eapply ah_build; eauto.
  Qed.

  (** *** C10: forgetting. *)
  Theorem C10_forget_append lw t xs k :
    ahist lw t xs -> k < cap t ->
    exists t' r, forget t k = Ok (t', r) /\
      commitment t' = commitment t /\ num_leaves t' = num_leaves t /\ height t' = height t /\
      (forall k' e' p', k' < cap t -> k' <> k ->
         lookup t k' = Ok (LOk e' p') -> lookup t' k' = Ok (LOk e' p')) /\
      match r with
      | LOk e pf => nth_error xs k = Some e /\ verify (commitment t) k e pf = Ok true /\
                    lookup t' k = Ok LNotInMemory /\
                    exists t'', remember t' k e pf = Ok t'' /\ lookup t'' k = Ok (LOk e pf)
      | _ => t' = t
      end.
  Proof.
    intros Ht Hk. pose proof (ahist_inv Teqb Teqb_eq T0 digest digest_leaf arity Ha _ _ _ Ht) as Hinv.
    pose proof (klist_prunes _ _ _ _ _ _ Hinv) as Hp.
    rewrite <- (blk_small arity k (height t) Hk) in Hp.
    destruct (forget_pruned T0 digest digest_leaf arity Ha _ k _ _ _ (gp arity Ha k (height t)) Hp)
      as (n' & r & r0 & Hf & Hl0 & Hsame & Hp' & Hres).
    unfold MerkleModel.forget, MerkleModel.universal_forget. rewrite Hf. cbn [bind fst snd].
    eexists. eexists. split; [reflexivity|]. cbn [height num_leaves].
    assert (Hcom : value T0 n' = value T0 (root t)).
    { rewrite (prunes_value T0 _ _ Hp'), (prunes_value T0 _ _ Hp). reflexivity. }
    split; [exact Hcom|]. split; [reflexivity|]. split; [reflexivity|]. split.
    - intros k' e' p' Hk' Hne Hl. unfold MerkleModel.lookup in *. cbn [root height].
      destruct (lookup_internal T0 (height t) (root t) (to_traversal_path arity k' (height t)))
        as [r'| |] eqn:Hlk; try discriminate. cbn [bind] in Hl. destruct r'; try discriminate.
      injection Hl as -> ->.
      erewrite (forget_other T0 digest digest_leaf arity Ha _ k k' (height t) (root t));
        [reflexivity|apply gp; auto|apply gp; auto|auto| |exact Hp|exact Hf|exact Hlk].
      rewrite !blk_small by auto. reflexivity.
    - destruct r as [e pf| |p].
      + destruct r0 as [e0 pf0| |]; try contradiction. destruct Hsame as [<- <-].
        destruct (app_lookup lw t xs k Ht Hk) as (r1 & Hr1 & Hres1).
        unfold MerkleModel.lookup in Hr1. rewrite Hl0 in Hr1. cbn [bind] in Hr1. injection Hr1 as <-.
        destruct Hres1 as (Hm & Hlen & Hv). split; [auto|]. split; [auto|]. split.
        { unfold MerkleModel.lookup. cbn [root height]. rewrite Hres. reflexivity. }
        unfold MerkleModel.remember, MerkleModel.commitment. cbn [root height num_leaves].
        rewrite Hcom. unfold MerkleModel.commitment in Hv. rewrite Hv. cbn [bind].
        destruct (lookup_pruned T0 digest digest_leaf arity Ha _ k (height t) (root t) _ (gp arity Ha k (height t)) Hp)
          as [Hx|Hx]; [congruence|]. rewrite Hl0 in Hx. symmetry in Hx.
        destruct (remember_pruned T0 digest digest_leaf arity Ha _ k (height t) n' _ e pf
                    (gp arity Ha k (height t)) Hp' pf) as (n'' & Hr & _ & Hlk); auto.
        rewrite Hr. cbn [bind]. eexists. split; [reflexivity|].
        unfold MerkleModel.lookup. cbn [root height]. rewrite Hlk. reflexivity.
      + subst n'. destruct t; reflexivity.
      + subst n'. destruct t; reflexivity.
  Qed.

  Theorem C10_forget_universal t m k t' r :
    uhist_rem t m -> k < cap t -> universal_forget t k = Ok (t', r) ->
    commitment t' = commitment t /\ num_leaves t' = num_leaves t /\ height t' = height t /\
    uhist_rem t' m.
  Proof.
    intros Ht Hk Hf. assert (Ht' : uhist_rem t' m) by (eapply ur_forget; eauto).
    apply (uhist_rem_inv Teqb Teqb_eq T0 digest digest_leaf arity Ha) in Ht as [Hc _].
    unfold MerkleModel.universal_forget in Hf.
    destruct (forget_internal T0 (height t) (root t) _) as [[n' r']| |] eqn:Hfi; try discriminate.
    cbn [bind fst snd] in Hf. injection Hf as <- <-.
    eapply (forget_consistent T0 digest digest_leaf arity) in Hfi; [|exact Hc].
    unfold MerkleModel.commitment. cbn [root height num_leaves]. tauto.
  Qed.

  (** *** C11: remembering.  Restoring what [forget] returned is part of
      [C10_forget_append]; here: any accepted [remember] keeps the commitment, and
      rejected proofs are refused. *)
  Theorem C11_remember_universal t m k e pf t' :
    uhist_rem t m -> k < cap t -> m k = Some e -> length pf = height t ->
    collision_free (root t) k (Some e) pf ->
    remember t k e pf = Ok t' ->
    commitment t' = commitment t /\ num_leaves t' = num_leaves t /\
    lookup t' k = Ok (LOk e pf).
  Proof.
    intros Ht Hk Hm Hl Hc Hr.
    apply (uhist_rem_inv Teqb Teqb_eq T0 digest digest_leaf arity Ha) in Ht as [IH _].
    unfold MerkleModel.remember in Hr.
    destruct (verify (commitment t) k e pf) as [[]| |] eqn:Hv; try discriminate.
    cbn [bind] in Hr. apply (verify_eq Teqb Teqb_eq) in Hv as [Hlen Hroot].
    rewrite <- (blk_small arity k (height t) Hk) in IH. rewrite <- Hl in IH, Hr, Hk.
    destruct (remember_consistent T0 digest digest_leaf arity Ha m k (Some e) Hm pf
                (to_traversal_path arity k (length pf)) pf (root t))
      as (n' & r' & Hr' & Hv' & Hcon & Hlk & Hans); auto.
    { apply gp; auto. }
    { intros q1 q2 H1 H2. apply Hc; auto. right. exact H2. }
    rewrite Hr' in Hr. cbn [bind] in Hr. injection Hr as <-. cbn in Hans. subst r'.
    unfold MerkleModel.commitment, MerkleModel.lookup. cbn [root height num_leaves].
    rewrite Hlk. auto.
  Qed.

  Theorem C11_remember_append lw t xs k e pf t' :
    ahist lw t xs -> k < cap t ->
    collision_free (canon (klist xs) (height t) 0) k (Some e) pf ->
    remember t k e pf = Ok t' ->
    nth_error xs k = Some e /\ commitment t' = commitment t /\ num_leaves t' = num_leaves t /\
    lookup t' k = Ok (LOk e pf).
  Proof.
    intros Ht Hk Hc Hr. apply (ahist_inv Teqb Teqb_eq T0 digest digest_leaf arity Ha) in Ht.
    destruct (remember_inv Teqb Teqb_eq T0 digest digest_leaf arity Ha t xs k e pf t' Ht Hk Hr Hc)
      as (Hinv & Hh & Hm & Hl).
    split; [auto|]. destruct Ht as (H1 & H2 & _), Hinv as (H3 & H4 & _).
    unfold MerkleModel.commitment. rewrite (rel_value T0 _ _ _ H1), (rel_value T0 _ _ _ H3), Hh.
    split; [auto|]. split; [congruence|auto].
  Qed.

  Theorem C11_remember_rejects t k e pf :
    verify (commitment t) k e pf <> Ok true -> forall t', remember t k e pf <> Ok t'.
  Proof.
    clear Ha. intros Hv t' Hr. unfold MerkleModel.remember in Hr.
    destruct (verify (commitment t) k e pf) as [[]| |]; try discriminate. congruence.
  Qed.

  (** *** C12: non-membership proofs produced by universal_lookup verify. *)
  Theorem C12_non_membership_complete t m k pf :
    uhist_rem t m -> k < cap t -> universal_lookup t k = Ok (LNotFound pf) ->
    m k = None /\ non_membership_verify (commitment t) k pf = Ok true.
  Proof.
    intros Ht Hk Hl. destruct (rem_lookup t m k Ht Hk) as (r & Hr & Hres).
    rewrite Hl in Hr. injection Hr as <-. tauto.
  Qed.

  (** *** C13: an accepted non-membership proof of the tree's height implies
      absence.  The code does not check the length; see
      [MerkleFindings.C13_any_length_refuted]. *)
  Theorem C13_non_membership_sound_partial t m k pf :
    uhist t m -> k < cap t -> length pf = height t ->
    collision_free (canon m (height t) 0) k None pf ->
    non_membership_verify (commitment t) k pf = Ok true ->
    m k = None.
  Proof.
    intros Ht Hk Hl Hc Hv. apply (uhist_inv T0 digest digest_leaf arity Ha) in Ht as [Hs _].
    unfold MerkleModel.commitment in Hv. rewrite (sprunes_value T0 _ _ Hs) in Hv.
    apply (nm_verify_eq Teqb Teqb_eq) in Hv as [Hf Hroot].
    rewrite <- (blk_small arity k (height t) Hk) in Hroot, Hc. rewrite <- Hl in Hroot, Hc.
    eapply (sound_nonmember T0 digest digest_leaf arity Ha m k pf); eauto.
    intros i Hi. apply gp; auto.
  Qed.

  (** *** C14: restoring an absent key keeps the commitment, if every level of the
      proof is full.  Honest proofs may contain empty levels; then the claim is
      false, see [MerkleFindings.C14_empty_level_refuted]. *)
  Theorem C14_non_membership_remember_partial t m k pf :
    uhist_rem t m -> k < cap t -> m k = None -> length pf = height t ->
    Forall (fun s => length s = arity - 1) pf ->
    collision_free (root t) k None pf ->
    non_membership_verify (commitment t) k pf = Ok true ->
    exists t', non_membership_remember t k pf = Ok t' /\
      commitment t' = commitment t /\ num_leaves t' = num_leaves t /\
      exists p, universal_lookup t' k = Ok (LNotFound p).
  Proof.
    intros Ht Hk Hm Hl Hfull Hc Hv.
    apply (uhist_rem_inv Teqb Teqb_eq T0 digest digest_leaf arity Ha) in Ht as [IH _].
    unfold MerkleModel.non_membership_remember. rewrite Hv. cbn [bind].
    apply (nm_verify_eq Teqb Teqb_eq) in Hv as [Hlen Hroot].
    unfold MerkleModel.universal_lookup. cbn [root height num_leaves].
    rewrite <- (blk_small arity k (height t) Hk) in IH. rewrite <- Hl in IH, Hk |- *.
    destruct (remember_consistent T0 digest digest_leaf arity Ha m k None Hm pf
                (to_traversal_path arity k (length pf)) pf (root t))
      as (n' & r' & Hr' & Hv' & Hcon & Hlk & Hans); auto.
    { apply gp; auto. }
    { intros q1 q2 H1 H2. apply Hc; auto. right. exact H2. }
    rewrite Hr'. cbn [bind]. eexists. split; [reflexivity|]. split; [exact Hv'|]. split; [reflexivity|].
    cbn [root height]. destruct Hans as [p ->]. exists p. exact Hlk.
  Qed.

  (** A successful call certifies that the key was absent: a proof that does not
      verify against the tree is refused. *)
  Theorem C14_success_certifies_absence t m k pf t' :
    uhist t m -> k < cap t -> length pf = height t ->
    collision_free (canon m (height t) 0) k None pf ->
    non_membership_remember t k pf = Ok t' -> m k = None.
  Proof.
    intros Ht Hk Hl Hc H. unfold MerkleModel.non_membership_remember in H.
    destruct (non_membership_verify (commitment t) k pf) as [[|]| |] eqn:Hv; cbn [bind] in H; try discriminate.
    eapply C13_non_membership_sound_partial; eauto.
  Qed.

  (** *** C15: iteration enumerates the contents in index order. *)
  Theorem C15_iterate_append t xs :
    ahist_full false t xs ->
    exists fuel0, forall fuel f, fuel0 <= fuel -> fuel0 <= f ->
      iter_collect fuel f [root t] = combine (seq 0 (length xs)) xs.
  Proof.
    intros Ht. apply (ahist_full_inv T0 digest digest_leaf arity Ha) in Ht as (Hr & _ & Hl & _).
    apply rel_false_eq in Hr. exists (S (wsize [root t])). intros fuel f H1 H2.
    rewrite iter_collect_ok by lia. cbn [flat_map]. rewrite app_nil_r, Hr, leaves_canon.
    apply (kentries_klist xs). auto.
  Qed.

  Theorem C15_iterate_universal t m :
    uhist_full t m ->
    exists fuel0, forall fuel f, fuel0 <= fuel -> fuel0 <= f ->
      iter_collect fuel f [root t] = kentries m (cap t).
  Proof.
    intros Ht. apply (uhist_full_inv T0 digest digest_leaf arity Ha) in Ht as (Hr & _).
    exists (S (wsize [root t])). intros fuel f H1 H2.
    rewrite iter_collect_ok by lia. cbn [flat_map]. rewrite app_nil_r, Hr, leaves_canon.
    reflexivity.
  Qed.

  Theorem C15_collect_proofs_verify t xs :
    ahist_full false t xs ->
    exists res, collect_leaves_with_proofs T0 arity t = Ok res /\
      map fst res = combine (seq 0 (length xs)) xs /\
      forall k e pf, In (k, e, pf) res -> verify (commitment t) k e pf = Ok true.
  Proof.
    intros Ht. pose proof (ahist_full_hist Teqb T0 digest digest_leaf arity _ _ _ Ht) as Hh.
    apply (ahist_full_inv T0 digest digest_leaf arity Ha) in Ht as (Hr & _ & Hl & _).
    apply rel_false_eq in Hr. unfold collect_leaves_with_proofs.
    assert (H0 : 0 = blk arity 0 (height t)).
    { unfold blk. rewrite Nat.div_0_l; [reflexivity|]. apply Nat.pow_nonzero. lia. }
    destruct (collect_canon T0 digest digest_leaf arity Ha (klist xs) (height t) 0
                (repeat (repeat T0 (arity - 1)) (height t)) H0) as (res & cur' & Hc & HH).
    { rewrite repeat_length. auto. }
    rewrite Hr, Hc. cbn [bind fst]. exists res. split; [reflexivity|].
    destruct HH as (_ & _ & Hf & Hall). split.
    { rewrite Hf. apply (kentries_klist xs). auto. }
    intros k e pf Hin. destruct (Hall _ _ _ Hin) as (Hk & Hlk).
    destruct (Hlk _ (gp arity Ha k (height t))) as (pf0 & Hlk0 & Hpf).
    assert (pf = pf0) as ->.
    { rewrite Hpf. rewrite skipn_all2 by (rewrite repeat_length; auto). apply app_nil_r. }
    eapply C01_lookup_verifies_append; [exact Hh|lia|].
    unfold MerkleModel.lookup. rewrite Hr, Hlk0. reflexivity.
  Qed.

  (** *** C16: range proofs are complete. *)
  Theorem C16_range_complete t xs lo hi :
    ahist_full false t xs -> lo <= hi -> hi < length xs ->
    exists es pf,
      range_lookup T0 arity t lo hi = Ok (LOk (seq lo (S hi - lo), es) pf) /\
      es = firstn (S hi - lo) (skipn lo xs) /\
      verify_merkle_range_proof Teqb digest digest_leaf arity (commitment t)
        (seq lo (S hi - lo)) es pf = Ok true.
  Proof.
    intros Ht Hlo Hhi. apply (ahist_full_inv T0 digest digest_leaf arity Ha) in Ht as (Hr & _ & Hl & _).
    apply rel_false_eq in Hr. unfold range_lookup, MerkleModel.commitment. rewrite Hr.
    destruct (range_top Teqb Teqb_eq T0 digest digest_leaf arity Ha (klist xs) lo hi (height t) Hlo ltac:(lia))
      as (r & Hrl & [(Hall & es & Hes & pf & -> & Hv)|((k & Hk & Hm) & _)]).
    - exists es, pf. split; [exact Hrl|]. split; [|exact Hv].
      assert (K : map Some es = map Some (firstn (S hi - lo) (skipn lo xs))).
      { rewrite Hes. apply list_ext. intro i. rewrite !nth_error_map.
        destruct (Nat.ltb_spec i (S hi - lo)) as [Hi|Hi].
        - rewrite nth_error_seq. destruct (Nat.ltb_spec i (S hi - lo)); [|lia]. cbn [option_map].
          rewrite nth_error_firstn_full, nth_error_skipn_full.
          destruct (Nat.ltb_spec i (S hi - lo)); [|lia]. unfold klist.
          destruct (nth_error xs (lo + i)) eqn:Hx; [reflexivity|].
          apply nth_error_None in Hx. lia.
        - rewrite (proj2 (nth_error_None _ _)) by (rewrite seq_length; lia).
          rewrite (proj2 (nth_error_None (firstn (S hi - lo) (skipn lo xs)) i))
            by (rewrite firstn_length; lia). reflexivity. }
      clear - K. revert K. generalize (firstn (S hi - lo) (skipn lo xs)).
      induction es as [|e es IH]; intros [|e' l] K; simpl in K; try discriminate; auto.
      injection K as -> K. f_equal. auto.
    - exfalso. unfold klist in Hm. apply nth_error_None in Hm. lia.
  Qed.

  (** *** C62: an accepted range proof tells the truth: the indices are
      consecutive and every element is the one stored at its index. *)
  Theorem C62_range_sound_append lw t xs indices elements pf :
    ahist lw t xs ->
    (forall q1 q2, tree_query T0 (canon (klist xs) (height t) 0) q1 ->
       In q2 (verify_range_queries digest digest_leaf arity indices elements pf) ->
       hash T0 digest digest_leaf q1 = hash T0 digest digest_leaf q2 -> q1 = q2) ->
    verify_merkle_range_proof Teqb digest digest_leaf arity (commitment t) indices elements pf = Ok true ->
    exists s, indices = seq s (length elements) /\ elements = firstn (length elements) (skipn s xs).
  Proof.
    intros Ht Hnc Hv.
    assert (Hlen : length indices = length elements).
    { unfold verify_merkle_range_proof in Hv. destruct (Nat.eqb_spec (length indices) (length elements)); auto.
      discriminate. }
    apply (ahist_inv Teqb Teqb_eq T0 digest digest_leaf arity Ha) in Ht as (H & _ & _).
    unfold MerkleModel.commitment in Hv. rewrite (rel_value T0 _ _ _ H) in Hv.
    destruct (range_sound Teqb Teqb_eq T0 digest digest_leaf arity Ha _ _ _ _ _ Hnc Hv) as (s & Hs & Hm).
    exists s. rewrite <- Hlen. split; [exact Hs|].
    assert (K : forall i e, nth_error elements i = Some e -> nth_error xs (s + i) = Some e).
    { intros i e He. pose proof (f_equal (fun l => nth_error l i) Hm) as Hn. cbv beta in Hn.
      rewrite !nth_error_map, He in Hn. rewrite Hs in Hn. rewrite nth_error_seq in Hn.
      destruct (Nat.ltb_spec i (length indices)) as [|Hge].
      - cbn [option_map] in Hn. unfold klist in Hn. congruence.
      - discriminate. }
    apply list_ext. intro i. rewrite nth_error_firstn_full, nth_error_skipn_full.
    destruct (Nat.ltb_spec i (length indices)) as [Hi|Hi].
    - destruct (nth_error elements i) as [e|] eqn:He.
      + symmetry. auto.
      + apply nth_error_None in He. lia.
    - apply nth_error_None. lia.
  Qed.

  (** *** C63: the commitment binds the contents. *)
  Theorem C63_commitment_binds t m t' m' :
    uhist t m -> uhist t' m' -> height t = height t' ->
    (forall q1 q2, tree_query T0 (canon m (height t) 0) q1 ->
       tree_query T0 (canon m' (height t) 0) q2 ->
       hash T0 digest digest_leaf q1 = hash T0 digest digest_leaf q2 -> q1 = q2) ->
    commitment t = commitment t' ->
    forall k, k < cap t -> m k = m' k.
  Proof.
    intros Ht Ht' Hh Hnc Hcom k Hk.
    apply (uhist_inv T0 digest digest_leaf arity Ha) in Ht as [H _].
    apply (uhist_inv T0 digest digest_leaf arity Ha) in Ht' as [H' _].
    unfold MerkleModel.commitment in Hcom.
    rewrite (sprunes_value T0 _ _ H), (sprunes_value T0 _ _ H'), <- Hh in Hcom.
    eapply (binding_canon T0 digest digest_leaf arity Ha m m' (height t) 0); eauto. lia.
  Qed.
End Props.

Print Assumptions C01_lookup_verifies_universal.
Print Assumptions C02_membership_sound_append.
Print Assumptions C07_batches_equal_build.
Print Assumptions C10_forget_append.
Print Assumptions C14_success_certifies_absence.
Print Assumptions C15_collect_proofs_verify.
Print Assumptions C62_range_sound_append.
Print Assumptions C63_commitment_binds.
