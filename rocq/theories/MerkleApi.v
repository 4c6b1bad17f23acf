(** Invariants of the histories of [MerkleHistory], used by [MerkleProps]. *)
From Coq Require Import List Arith Lia Bool.
From Verif Require Import Base ListAux MerkleModel MerkleSpec MerkleProofs MerklePrune
     MerkleAppend MerkleIter MerkleRange MerkleHist MerkleHistory.
Import ListNotations.

Section Api.
  Context {E T : Type}.
  Variable Teqb : T -> T -> bool.
  Hypothesis Teqb_eq : forall x y, Teqb x y = true <-> x = y.
  Variable T0 : T.
  Variable digest : list T -> T.
  Variable digest_leaf : nat -> E -> T.
  Variable arity : nat.
  Hypothesis Ha : 2 <= arity.

  Lemma Ha1a : 1 <= arity.
  Proof. lia. Qed.
  Hint Resolve Ha1a : core.

  Notation node := (node E T).
  Notation tree := (@tree E T).
  Notation canon := (canon T0 digest digest_leaf arity).
  Notation value := (value T0).
  Notation rel := (rel T0).
  Notation prunes := (prunes T0).
  Notation sprunes := (sprunes T0).
  Notation consistent := (consistent T0 digest digest_leaf arity).
  Notation path := (to_traversal_path arity).
  Notation uhist := (uhist T0 digest digest_leaf arity).
  Notation uhist_full := (uhist_full T0 digest digest_leaf arity).
  Notation uhist_rem := (uhist_rem Teqb T0 digest digest_leaf arity).
  Notation ahist := (ahist Teqb T0 digest digest_leaf arity).
  Notation ahist_full := (ahist_full T0 digest digest_leaf arity).
  Notation verify := (verify Teqb T0 digest digest_leaf arity).
  Notation non_membership_verify := (non_membership_verify Teqb T0 digest digest_leaf arity).
  Notation collision_free := (collision_free T0 digest digest_leaf arity).
  Notation ext := (ext T0 digest digest_leaf arity).
  Notation build := (build T0 digest digest_leaf arity).

  Lemma gp pos h : good_path arity (path pos h) pos h.
  Proof. apply good_path_top. auto. Qed.

  (** ** Verification in terms of [root_from] *)
  Lemma verify_eq c pos e pf :
    verify c pos e pf = Ok true <->
    Forall (fun v => length v = arity - 1) pf /\
    root_from T0 digest (digest_leaf pos e) (path pos (length pf)) pf = c.
  Proof.
    clear Ha. unfold MerkleModel.verify, verify_merkle_proof, root_from.
    assert (G : forallb (fun v : list T => length v =? arity - 1) pf = true <->
                Forall (fun v => length v = arity - 1) pf).
    { rewrite forallb_forall, Forall_forall.
      split; intros H x Hx; specialize (H x Hx); apply Nat.eqb_eq; auto. }
    destruct (forallb _ pf).
    - split.
      + intros [= H]. apply Teqb_eq in H. tauto.
      + intros [_ H]. f_equal. apply Teqb_eq. auto.
    - split; [discriminate|]. intros [H _]. apply G in H. discriminate.
  Qed.

  Lemma nm_verify_eq c pos pf :
    non_membership_verify c pos pf = Ok true <->
    Forall (fun v => length v = arity - 1 \/ length v = 0) pf /\
    root_from T0 digest T0 (path pos (length pf)) pf = c.
  Proof.
    clear Ha. unfold MerkleModel.non_membership_verify, verify_merkle_proof, root_from.
    assert (G : forallb (fun v : list T => (length v =? arity - 1) || (length v =? 0)) pf = true <->
                Forall (fun v => length v = arity - 1 \/ length v = 0) pf).
    { rewrite forallb_forall, Forall_forall.
      split; intros H x Hx; specialize (H x Hx).
      - apply orb_prop in H. rewrite !Nat.eqb_eq in H. auto.
      - rewrite <- !Nat.eqb_eq in H. apply orb_true_iff. auto. }
    destruct (forallb _ pf).
    - split.
      + intros [= H]. apply Teqb_eq in H. tauto.
      + intros [_ H]. f_equal. apply Teqb_eq. auto.
    - split; [discriminate|]. intros [H _]. apply G in H. discriminate.
  Qed.

  (** ** Universal trees *)
  Lemma size_delta (m : kmap E) k v n :
    k < n ->
    ksize (kset m k v) n = ksize m n + fst (delta (m k) v) - snd (delta (m k) v).
  Proof.
    clear Ha. intro Hk. pose proof (ksize_set m k v n Hk) as H. pose proof (ksize_ge_present m k n Hk) as G.
    unfold present in *. destruct (m k), v; simpl in *; lia.
  Qed.

  Lemma uhist_inv t m : uhist t m ->
    sprunes (root t) (canon m (height t) 0) /\ num_leaves t = ksize m (arity ^ height t).
  Proof.
    induction 1 as [h|t m k f t' r _ [IH IHn] Hk Hu|t m k t' r _ [IH IHn] Hk Hf].
    - simpl. split; [|rewrite ksize_empty; auto].
      replace (canon kempty h 0) with (@Empty E T); [constructor|].
      symmetry. apply is_empty_eq. apply is_empty_canon; auto.
    - unfold update_with in Hu.
      rewrite <- (blk_small arity k (height t) Hk) in IH.
      destruct (update_pruned T0 digest digest_leaf arity Ha m k f (height t) _ (gp k (height t)) _ IH)
        as [Herr|(n' & Hn' & Hs & _)].
      + rewrite Herr in Hu. discriminate.
      + rewrite Hn' in Hu. cbn [bind] in Hu. rewrite (blk_small arity k _ Hk) in Hs.
        destruct (delta (m k) (f (m k))) as [a d] eqn:Hd. injection Hu as <- <-. cbn [root height num_leaves].
        split; [auto|]. rewrite size_delta by auto. rewrite Hd. simpl. lia.
    - unfold universal_forget in Hf.
      rewrite <- (blk_small arity k (height t) Hk) in IH.
      destruct (forget_internal T0 (height t) (root t) (path k (height t))) as [[n' r']| |] eqn:Hfi;
        try discriminate.
      cbn [bind fst snd] in Hf. injection Hf as <- <-. cbn [root height num_leaves]. split; auto.
      rewrite <- (blk_small arity k (height t) Hk).
      eapply (forget_spruned T0 digest digest_leaf arity Ha m k (height t) _ (gp k (height t))); eauto.
  Qed.

  Lemma uhist_full_inv t m : uhist_full t m ->
    root t = canon m (height t) 0 /\ num_leaves t = ksize m (arity ^ height t).
  Proof.
    induction 1 as [h|t m k f t' r _ [IH IHn] Hk Hu].
    - simpl. split; [|rewrite ksize_empty; auto].
      symmetry. apply is_empty_eq. apply is_empty_canon; auto.
    - unfold update_with in Hu.
      rewrite <- (blk_small arity k (height t) Hk) in IH. rewrite IH in Hu.
      rewrite update_canon in Hu by (auto; apply gp). cbn [bind] in Hu.
      rewrite (blk_small arity k _ Hk) in Hu.
      destruct (delta (m k) (f (m k))) as [a d] eqn:Hd. injection Hu as <- <-. cbn [root height num_leaves].
      split; [auto|]. rewrite size_delta by auto. rewrite Hd. simpl. lia.
  Qed.

  Lemma uhist_full_hist t m : uhist_full t m -> uhist t m.
  Proof. clear Ha. induction 1; econstructor; eauto. Qed.

  Lemma uhist_hist_rem t m : uhist t m -> uhist_rem t m.
  Proof.
    clear Ha. induction 1; [constructor| |].
    - eapply ur_update; eauto.
    - eapply ur_forget; eauto.
  Qed.

  Lemma uhist_rem_inv t m : uhist_rem t m ->
    consistent m (height t) 0 (root t) /\ num_leaves t = ksize m (arity ^ height t).
  Proof.
    induction 1 as [h|t m k f t' r _ [IH IHn] Hk Hu|t m k t' r _ [IH IHn] Hk Hf
                   |t m k e pf t' _ [IH IHn] Hk Hm Hl Hc Hr].
    - split; [apply consistent_new|simpl; rewrite ksize_empty; auto].
    - unfold update_with in Hu.
      rewrite <- (blk_small arity k (height t) Hk) in IH.
      destruct (update_consistent T0 digest digest_leaf arity Ha m k f (height t) _ (gp k (height t)) _ IH)
        as [Herr|(n' & Hn' & Hs & _)].
      + rewrite Herr in Hu. discriminate.
      + rewrite Hn' in Hu. cbn [bind] in Hu. rewrite (blk_small arity k _ Hk) in Hs.
        destruct (delta (m k) (f (m k))) as [a d] eqn:Hd. injection Hu as <- <-. cbn [root height num_leaves].
        split; [auto|]. rewrite size_delta by auto. rewrite Hd. simpl. lia.
    - unfold universal_forget in Hf.
      destruct (forget_internal T0 (height t) (root t) (path k (height t))) as [[n' r']| |] eqn:Hfi;
        try discriminate.
      cbn [bind fst snd] in Hf. injection Hf as <- <-. cbn [root height num_leaves]. split; auto.
      eapply (forget_consistent T0 digest digest_leaf arity) in Hfi; [|exact IH]. tauto.
    - unfold remember in Hr.
      destruct (verify (commitment T0 t) k e pf) as [[]| |] eqn:Hv; try discriminate.
      cbn [bind] in Hr. apply verify_eq in Hv as [Hlen Hroot].
      rewrite <- (blk_small arity k (height t) Hk) in IH. rewrite <- Hl in IH, Hr, Hk.
      destruct (remember_consistent T0 digest digest_leaf arity Ha m k (Some e) Hm pf (path k (length pf)) pf (root t))
        as (n' & r' & Hr' & Hv' & Hcon & _); auto.
      { apply gp. }
      { intros q1 q2 H1 H2. apply Hc; auto. right. exact H2. }
      rewrite Hr' in Hr. cbn [bind] in Hr. injection Hr as <-. cbn [root height num_leaves].
      rewrite (blk_small arity k _ Hk) in Hcon. rewrite Hl in *. auto.
  Qed.

  (** ** Append-only and light-weight trees *)
  Definition ainv (t : tree) (xs : list E) : Prop :=
    rel true (root t) (canon (klist xs) (height t) 0) /\ num_leaves t = length xs /\
    length xs <= arity ^ height t.
  Definition ainvf (lw : bool) (t : tree) (xs : list E) : Prop :=
    rel lw (root t) (canon (klist xs) (height t) 0) /\ num_leaves t = length xs /\
    length xs <= arity ^ height t /\ opn arity (height t) 0 (length xs) (root t).

  Definition touch_of (lw : bool) : list node -> nat -> list node :=
    if lw then forget_left T0 else fun cs _ => cs.
  Lemma touch_of_ok lw : touch_ok T0 lw (touch_of lw).
  Proof. destruct lw; [apply touch_ok_forget_left|apply touch_ok_id]. Qed.
  Lemma touch_of_0 lw cs : touch_of lw cs 0 = cs.
  Proof. destruct lw; reflexivity. Qed.
  Lemma touch_of_true lw : touch_ok T0 true (touch_of lw).
  Proof. destruct lw; [apply touch_ok_forget_left|apply touch_ok_id]. Qed.

  Lemma ext_eq lw t es :
    ext lw t es =
    extend_with arity (extend_gen T0 digest digest_leaf arity (touch_of lw)) t es.
  Proof. destruct lw; reflexivity. Qed.

  Lemma rel_empty_canon b h : rel b Empty (canon (klist []) h 0).
  Proof.
    rewrite (canon_above T0 digest digest_leaf arity Ha [] h 0) by (simpl; lia). constructor.
  Qed.

  Lemma build_inv lw oh xs :
    if arity ^ the_height arity oh (length xs) <? length xs
    then build lw oh xs = Err ExceedCapacity
    else exists t, build lw oh xs = Ok t /\ ainvf lw t xs /\
                   height t = the_height arity oh (length xs).
  Proof.
    assert (G : let mk := if lw then (fun p e => if p <? length xs - 1 then Forgotten (digest_leaf p e)
                                                 else mk_leaf digest_leaf p e)
                          else mk_leaf digest_leaf in
                let post := if lw then forget_inner T0 else fun l => l in
                (mk_ok T0 digest_leaf lw mk /\ post_ok T0 lw post) /\
                build lw oh xs = of_build (build_gen T0 digest digest_leaf arity mk post oh xs)).
    { destruct lw; (split; [split|reflexivity]).
      - apply mk_ok_forget.
      - apply post_ok_forget.
      - apply mk_ok_leaf.
      - apply post_ok_id. }
    cbv zeta in G. destruct G as [[Hmk Hpost] ->].
    pose proof (build_gen_ok T0 digest digest_leaf arity Ha lw _ _ oh xs Hmk Hpost) as G.
    destruct (Nat.ltb_spec (arity ^ the_height arity oh (length xs)) (length xs)) as [|Hc].
    - rewrite G. reflexivity.
    - destruct G as (n & -> & Hr & Ho). eexists. split; [reflexivity|].
      unfold ainvf. cbn [root height num_leaves]. auto.
  Qed.

  Lemma ainvf_ainv lw t xs : ainvf lw t xs -> ainv t xs.
  Proof.
    clear Ha. intros (H1 & H2 & H3 & _). split; [|auto].
    apply prunes_rel. eapply rel_prunes; eauto.
  Qed.

  Lemma rel_bool b (n m : node) : rel b n m -> rel true n m.
  Proof. clear Ha. intro H. apply prunes_rel. eapply rel_prunes; eauto. Qed.

  Definition refused (lw : bool) (r : outcome merr unit) : Prop :=
    r = Err ExistingLeaf \/ lw = true /\ r = Err ForgottenLeaf.

  Lemma ext_full lw t xs es t' r :
    rel lw (root t) (canon (klist xs) (height t) 0) -> num_leaves t = length xs ->
    length xs = arity ^ height t -> es <> [] ->
    forall lw', ext lw' t es = (t', r) -> t' = t /\ refused lw r.
  Proof.
    intros Hr Hn Hl Hes lw' He. rewrite ext_eq in He. unfold extend_with in He.
    destruct es as [|e es]; [congruence|].
    destruct (extend_gen_full T0 digest digest_leaf arity Ha lw (touch_of lw')
               (path (num_leaves t) (height t)) xs (touch_of_0 lw') (height t) 0 (root t)
               (num_leaves t) e es) as [H|[Hb H]]; auto.
    - lia.
    - intros i Hi. rewrite Hn, Hl. rewrite (gp _ _ i) by lia. f_equal. apply full_path_zero; auto.
    - rewrite H in He. injection He as <- <-. unfold refused. auto.
    - rewrite H in He. injection He as <- <-. unfold refused. auto.
  Qed.

  Lemma ext_inv_full lw t xs es t' r :
    ainvf lw t xs -> ext lw t es = (t', r) ->
    height t' = height t /\ ainvf lw t' (after_extend (arity ^ height t) xs es r) /\
    (r = Ok tt /\ length xs + length es <= arity ^ height t \/
     r = Err ExceedCapacity /\ length xs < arity ^ height t < length xs + length es \/
     refused lw r /\ t' = t /\ es <> [] /\ length xs = arity ^ height t).
  Proof.
    intros Hinv He. pose proof Hinv as (Hr & Hn & Hl & Ho).
    destruct (Nat.eq_dec (length xs) (arity ^ height t)) as [Hfull|Hroom].
    - destruct es as [|e es].
      + rewrite ext_eq in He. unfold extend_with in He.
        assert (G : extend_gen T0 digest digest_leaf arity (touch_of lw) (height t) (root t)
                  (num_leaves t) (path (num_leaves t) (height t)) true [] = Ok (root t, 0, []))
          by (destruct (height t), (root t); reflexivity).
        rewrite G in He. injection He as <- <-.
        split; [reflexivity|]. split.
        * cbn [after_extend]. rewrite firstn_nil, app_nil_r.
          unfold ainvf in *. cbn [root height num_leaves]. rewrite Nat.add_0_r. auto.
        * left. split; auto. simpl. lia.
      + edestruct (ext_full lw t xs (e :: es) t' r) as [-> Href]; eauto; [discriminate|].
        split; [reflexivity|]. split; [|right; right; split; [auto|split; [auto|split; [discriminate|auto]]]].
        assert (G : after_extend (arity ^ height t) xs (e :: es) r = xs).
        { destruct Href as [->|[_ ->]]; reflexivity. }
        rewrite G. auto.
    - rewrite ext_eq in He. unfold extend_with in He. rewrite Hn in He.
      assert (Hlt : length xs < arity ^ height t) by lia.
      destruct (extend_gen_ok T0 digest digest_leaf arity Ha lw (touch_of lw) (path (length xs) (height t))
                  (touch_of_ok lw) (height t) 0 xs (root t) true es) as (n' & k & rest & Hx & Hk & Hrest & Hrel & Hopn);
        auto.
      { simpl. lia. }
      { rewrite path_length. auto. }
      { intros _. split; [apply gp|]. symmetry. apply blk_small. auto. }
      { intro; discriminate. }
      rewrite Hx in He. injection He as <- <-. cbn [root height num_leaves] in *.
      split; [reflexivity|]. rewrite Nat.add_0_l in Hk.
      destruct (Nat.le_gt_cases (length es) (arity ^ height t - length xs)) as [Hfit|Hover].
      + assert (k = length es) by lia. clear Hk; subst k.
        assert (rest = []) as -> by (rewrite Hrest; apply skipn_all2; lia).
        split; [|left; split; [auto|lia]].
        cbn [after_extend]. rewrite firstn_all2 in * by lia.
        unfold ainvf. cbn [root height num_leaves]. rewrite app_length.
        split; [auto|]. split; [lia|]. split; [lia|]. auto.
      + assert (k = arity ^ height t - length xs) by lia. clear Hk; subst k.
        destruct rest as [|e0 rest].
        { exfalso. assert (length (skipn (arity ^ height t - length xs) es) = 0)
            by (rewrite <- Hrest; reflexivity).
          rewrite skipn_length in H. lia. }
        split; [|right; left; split; [auto|lia]].
        cbn [after_extend]. unfold ainvf. cbn [root height num_leaves].
        rewrite app_length, firstn_length.
        split; [auto|]. split; [lia|]. split; [lia|].
        replace (Nat.min (arity ^ height t - length xs) (length es)) with (arity ^ height t - length xs) by lia.
        auto.
  Qed.

  Lemma ext_inv lw t xs es t' r :
    ainv t xs -> ext lw t es = (t', r) ->
    height t' = height t /\ ainv t' (after_extend (arity ^ height t) xs es r) /\
    (r = Ok tt /\ length xs + length es <= arity ^ height t \/
     r = Err ExceedCapacity /\ length xs < arity ^ height t < length xs + length es \/
     r = Err ExistingLeaf /\ t' = t /\ es <> [] /\ length xs = arity ^ height t \/
     r = Err ForgottenLeaf /\ t' = t /\ es <> []).
  Proof.
    intros Hinv He. pose proof Hinv as (Hr & Hn & Hl).
    destruct es as [|e es].
    { rewrite ext_eq in He. unfold extend_with in He.
      assert (G : extend_gen T0 digest digest_leaf arity (touch_of lw) (height t) (root t)
                  (num_leaves t) (path (num_leaves t) (height t)) true [] = Ok (root t, 0, []))
        by (destruct (height t), (root t); reflexivity).
      rewrite G in He. injection He as <- <-.
      split; [reflexivity|]. split.
      - cbn [after_extend]. rewrite firstn_nil, app_nil_r.
        unfold ainv in *. cbn [root height num_leaves]. rewrite Nat.add_0_r. auto.
      - left. split; auto. simpl. lia. }
    destruct (Nat.eq_dec (length xs) (arity ^ height t)) as [Hfull|Hroom].
    - destruct (ext_full true t xs (e :: es) t' r Hr Hn Hfull ltac:(discriminate) lw He) as [-> Href].
      split; [reflexivity|].
      assert (G : after_extend (arity ^ height t) xs (e :: es) r = xs).
      { destruct Href as [->|[_ ->]]; reflexivity. }
      rewrite G. split; [auto|]. right; right.
      destruct Href as [->|[_ ->]]; [left|right]; repeat split; auto; discriminate.
    - rewrite ext_eq in He. unfold extend_with in He. rewrite Hn in He.
      assert (Hlt : length xs < arity ^ height t) by lia.
      destruct (extend_gen_p T0 digest digest_leaf arity Ha true (touch_of lw) (path (length xs) (height t))
                  (touch_of_true lw) (height t) 0 xs (root t) true (e :: es))
        as [Hx|(n' & k & rest & Hx & Hk & Hrest & Hrel)]; auto.
      { simpl. lia. }
      { rewrite path_length. auto. }
      { intros _. split; [apply gp|]. symmetry. apply blk_small. auto. }
      { intro; discriminate. }
      { rewrite Hx in He. injection He as <- <-. split; [reflexivity|]. split; [exact Hinv|].
        right. right. right. split; [reflexivity|]. split; [reflexivity|discriminate]. }
      rewrite Hx in He. injection He as <- <-. cbn [root height num_leaves] in *.
      split; [reflexivity|]. rewrite Nat.add_0_l in Hk. set (es' := e :: es) in *.
      destruct (Nat.le_gt_cases (length es') (arity ^ height t - length xs)) as [Hfit|Hover].
      + assert (k = length es') by lia. clear Hk; subst k.
        assert (rest = []) as -> by (rewrite Hrest; apply skipn_all2; lia).
        split; [|left; split; [auto|lia]].
        cbn [after_extend]. rewrite firstn_all2 in * by lia.
        unfold ainv. cbn [root height num_leaves]. rewrite app_length.
        split; [auto|]. split; lia.
      + assert (k = arity ^ height t - length xs) by lia. clear Hk; subst k.
        destruct rest as [|e0 rest].
        { exfalso. assert (length (skipn (arity ^ height t - length xs) es') = 0)
            by (rewrite <- Hrest; reflexivity).
          rewrite skipn_length in H. lia. }
        split; [|right; left; split; [auto|lia]].
        cbn [after_extend]. unfold ainv. cbn [root height num_leaves].
        rewrite app_length, firstn_length.
        split; [auto|]. split; lia.
  Qed.

  Lemma new_inv lw h : ainvf lw (tree_new h) [].
  Proof.
    unfold ainvf, tree_new. cbn [root height num_leaves]. split; [apply rel_empty_canon|].
    split; [reflexivity|]. split; [simpl; lia|]. apply opn_free; auto.
  Qed.

  Lemma ahist_full_inv lw t xs : ahist_full lw t xs -> ainvf lw t xs.
  Proof.
    induction 1 as [h|oh xs t Hb|t xs es t' r _ IH He].
    - apply new_inv.
    - pose proof (build_inv lw oh xs) as G. destruct (_ <? _).
      + congruence.
      + destruct G as (t' & Hb' & G & _). congruence.
    - eapply ext_inv_full in He; eauto. tauto.
  Qed.

  Lemma klist_prunes t xs : ainv t xs -> prunes (root t) (canon (klist xs) (height t) 0).
  Proof. clear Ha. intros (H & _). eapply rel_prunes; eauto. Qed.

  Lemma forget_inv t xs k t' r :
    ainv t xs -> k < arity ^ height t -> forget T0 arity t k = Ok (t', r) ->
    ainv t' xs /\ height t' = height t.
  Proof.
    intros Hinv Hk Hf. pose proof Hinv as (_ & Hn & Hl). unfold forget, universal_forget in Hf.
    destruct (forget_internal T0 (height t) (root t) (path k (height t))) as [[n' r']| |] eqn:Hfi;
      try discriminate.
    cbn [bind fst snd] in Hf. injection Hf as <- <-.
    pose proof (klist_prunes _ _ Hinv) as Hp. rewrite <- (blk_small arity k (height t) Hk) in Hp.
    destruct (forget_pruned T0 digest digest_leaf arity Ha _ k _ _ _ (gp k (height t)) Hp)
      as (n2 & r2 & r3 & Hf2 & _ & _ & Hp2 & _).
    rewrite Hfi in Hf2. injection Hf2 as <- <-. rewrite (blk_small arity k (height t) Hk) in Hp2.
    split; [|reflexivity]. split; [|auto]. apply prunes_rel. exact Hp2.
  Qed.

  (** A verified proof that exhibits no collision is the lookup proof. *)
  Lemma verified_is_lookup m h pos e pf :
    collision_free (canon m h 0) pos (Some e) pf ->
    verify (value (canon m h 0)) pos e pf = Ok true ->
    length pf = h /\ m pos = Some e /\ pos < arity ^ h /\
    lookup_internal T0 h (canon m h 0) (path pos h) = Ok (LOk e pf).
  Proof.
    intros Hc Hv. apply verify_eq in Hv as [Hlen Hroot].
    destruct (sound_member T0 digest digest_leaf arity Ha m pos e pf h 0 (path pos (length pf)))
      as (H1 & H2 & H3 & H4); auto.
    { intros i Hi. apply gp. auto. }
    subst h. repeat split; auto; lia.
  Qed.

  Lemma remember_inv t xs k e pf t' :
    ainv t xs -> k < arity ^ height t ->
    remember Teqb T0 digest digest_leaf arity t k e pf = Ok t' ->
    collision_free (canon (klist xs) (height t) 0) k (Some e) pf ->
    ainv t' xs /\ height t' = height t /\ nth_error xs k = Some e /\
    lookup T0 arity t' k = Ok (LOk e pf).
  Proof.
    intros Hinv Hk Hr Hc. pose proof Hinv as (_ & Hn & Hl). unfold remember in Hr.
    destruct (verify (commitment T0 t) k e pf) as [[]| |] eqn:Hv; try discriminate.
    cbn [bind] in Hr. pose proof (klist_prunes _ _ Hinv) as Hp.
    unfold commitment in Hv. rewrite (prunes_value T0 _ _ Hp) in Hv.
    destruct (verified_is_lookup _ _ _ _ _ Hc Hv) as (Hlen & Hm & _ & Hlk).
    rewrite <- (blk_small arity k (height t) Hk) in Hp, Hlk.
    destruct (remember_pruned T0 digest digest_leaf arity Ha _ k _ _ _ e pf (gp k (height t)) Hp pf)
      as (n' & Hr' & Hp' & Hlk'); auto.
    rewrite Hr' in Hr. cbn [bind] in Hr. injection Hr as <-.
    rewrite (blk_small arity k (height t) Hk) in Hp'.
    split; [|split; [reflexivity|]].
    - split; [|auto]. apply prunes_rel. exact Hp'.
    - split; [exact Hm|]. unfold lookup. cbn [root height]. rewrite Hlk'. reflexivity.
  Qed.

  Lemma ahist_inv lw t xs : ahist lw t xs -> ainv t xs.
  Proof.
    induction 1 as [h|oh xs t Hb|t xs es t' r _ IH He|t xs k t' r _ IH Hk Hf|t xs k e pf t' _ IH Hk Hr Hc].
    - eapply ainvf_ainv, (new_inv lw).
    - pose proof (build_inv lw oh xs) as G. destruct (_ <? _).
      + congruence.
      + destruct G as (t' & Hb' & G & _). eapply ainvf_ainv. rewrite Hb in Hb'. injection Hb' as ->. eauto.
    - eapply ext_inv in He; eauto. tauto.
    - eapply forget_inv in Hf; eauto. tauto.
    - eapply remember_inv in Hr; eauto. tauto.
  Qed.

  Lemma ahist_full_hist lw t xs : ahist_full lw t xs -> ahist lw t xs.
  Proof.
    clear Ha. induction 1; [constructor| |].
    - eapply ah_build; eauto.
    - eapply ah_extend; eauto.
  Qed.
End Api.
