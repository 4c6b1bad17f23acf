(** Proofs about the Merkle tree model: appending to and updating trees from
    which parts were forgotten, and the invariant that survives any mix of
    update, forget and remember. *)
From Coq Require Import List Arith Lia Bool.
From Verif Require Import Base ListAux MerkleModel MerkleSpec MerkleProofs MerklePrune
     MerkleAppend MerkleIter.
Import ListNotations.

Section Hist.
  Context {E T : Type}.
  Variable Teqb : T -> T -> bool.
  Hypothesis Teqb_eq : forall x y, Teqb x y = true <-> x = y.
  Variable T0 : T.
  Variable digest : list T -> T.
  Variable digest_leaf : nat -> E -> T.
  Variable arity : nat.
  Hypothesis Ha : 2 <= arity.

  Lemma Ha1h : 1 <= arity.
  Proof. lia. Qed.
  Hint Resolve Ha1h : core.

  Notation node := (node E T).
  Notation canon := (canon T0 digest digest_leaf arity).
  Notation value := (value T0).
  Notation kids := (kids T0 digest digest_leaf arity).
  Notation good_path := (good_path arity).
  Notation prunes := (prunes T0).
  Notation rel := (rel T0).
  Notation touch_ok := (touch_ok T0).
  Notation extend_gen := (extend_gen T0 digest digest_leaf arity).
  Notation canon_above := (canon_above T0 digest digest_leaf arity Ha).
  Notation canon_nonempty := (canon_nonempty T0 digest digest_leaf arity Ha).

  (** ** Appending to a tree from which parts were forgotten *)

  Definition extend_spec_p (b : bool) (touch : list node -> nat -> list node)
             (path : list nat) (h : nat) : Prop :=
    forall base xs n af data,
      rel b n (canon (klist xs) h base) ->
      base <= length xs < base + arity ^ h ->
      h <= length path ->
      (af = true -> good_path path (length xs) h /\ base = blk arity (length xs) h) ->
      (af = false -> length xs = base) ->
      extend_gen touch h n (length xs) path af data = Err ForgottenLeaf \/
      exists n' k rest,
        extend_gen touch h n (length xs) path af data = Ok (n', k, rest) /\
        k = Nat.min (base + arity ^ h - length xs) (length data) /\
        rest = skipn k data /\
        rel b n' (canon (klist (xs ++ firstn k data)) h base).

  Lemma extend_loop_p b touch path h :
    touch_ok b touch -> extend_spec_p b touch path h -> h <= length path ->
    forall base af tp data fuel fr xs cs cnt,
      fuel + fr = arity ->
      Forall2 (rel b) cs (kids (klist xs) h base) ->
      (fr < arity /\ base + fr * arity ^ h <= length xs < base + fr * arity ^ h + arity ^ h \/
       length xs = base + fr * arity ^ h) ->
      (af = true -> tp <= fr) ->
      (af && (fr =? tp) = true ->
         good_path path (length xs) h /\ base + fr * arity ^ h = blk arity (length xs) h) ->
      (af && (fr =? tp) = false -> length xs = base + fr * arity ^ h) ->
      extend_loop (fun c p af d => extend_gen touch h c p path af d) touch af tp
                    fuel fr cs (length xs) cnt data = Err ForgottenLeaf \/
      exists cs' k,
        extend_loop (fun c p af d => extend_gen touch h c p path af d) touch af tp
                    fuel fr cs (length xs) cnt data = Ok (cs', cnt + k, skipn k data) /\
        k = Nat.min (base + arity ^ S h - length xs) (length data) /\
        Forall2 (rel b) cs' (kids (klist (xs ++ firstn k data)) h base).
  Proof.
    intros Ht Hrec Hpath base af tp data fuel.
    pose proof (pow_pos arity Ha1h h) as HP.
    revert data. induction fuel as [|fuel IH]; intros data fr xs cs cnt Hfu Hrel Hpos Htp Haf Hnaf.
    - (* no child left *)
      right. assert (fr = arity) by lia. subst fr.
      assert (HL : length xs = base + arity ^ S h).
      { rewrite Nat.pow_succ_r'. lia. }
      exists cs, 0. rewrite HL, Nat.sub_diag. simpl Nat.min. rewrite !Nat.add_0_r.
      split; [destruct data; reflexivity|].
      split; [reflexivity|]. simpl firstn. rewrite app_nil_r. auto.
    - destruct data as [|e data].
      { right. exists cs, 0. rewrite Nat.min_0_r, !Nat.add_0_r. simpl firstn. rewrite app_nil_r.
        split; [reflexivity|]. auto. }
      set (D := e :: data) in *.
      assert (Hfr : fr < arity) by lia.
      unfold D at 1 2. rewrite extend_loop_cons by lia. fold D. cbv zeta.
      replace (S fuel - 1) with fuel by lia.
      assert (Hlk : length cs = arity).
      { apply Forall2_nth in Hrel as [Hl _]. rewrite kids_length in Hl. auto. }
      destruct (Ht cs fr) as [Hl1 Hj1].
      pose proof (touch_rel T0 b touch cs _ fr Ht Hrel) as Hrel1.
      set (cs1 := touch cs fr) in *.
      destruct (nth_error cs1 fr) as [c|] eqn:Hc;
        [|apply nth_error_None in Hc; lia].
      unfold index. rewrite Hc. cbn [bind].
      assert (Hrc : rel b c (canon (klist xs) h (base + fr * arity ^ h))).
      { apply Forall2_nth in Hrel1 as [_ Hr]. eapply Hr; eauto.
        rewrite kids_nth. destruct (Nat.ltb_spec fr arity); auto; lia. }
      destruct (Hrec (base + fr * arity ^ h) xs c (af && (fr =? tp)) D) as
        [Herr|(c' & k & rest & Hex & Hk & Hrest & Hrel')].
      + auto.
      + lia.
      + auto.
      + auto.
      + auto.
      + left. rewrite Herr. reflexivity.
      + rewrite Hex. cbn [bind].
        set (xs1 := xs ++ firstn k D) in *.
        assert (Hlen1 : length xs1 = length xs + k).
        { unfold xs1. rewrite app_length, firstn_length. lia. }
        rewrite <- Hlen1.
        assert (HkS : k = length (firstn k D)) by (rewrite firstn_length; lia).
        assert (HrelN : Forall2 (rel b) (set_nth cs1 fr c') (kids (klist xs1) h base)).
        { (* related to the new canonical children *)
          apply Forall2_nth. split; [rewrite set_nth_length, kids_length; lia|].
          intros i x y Hx Hy. rewrite kids_nth in Hy.
          destruct (Nat.ltb_spec i arity); [|discriminate]. injection Hy as <-.
          rewrite nth_error_set_nth in Hx.
          destruct (Nat.eqb_spec fr i) as [<-|Hne].
          { destruct (Nat.ltb_spec fr (length cs1)); [|lia]. simpl in Hx.
            injection Hx as <-. auto. }
          simpl in Hx. apply Forall2_nth in Hrel1 as [_ Hr].
          replace (canon (klist xs1) h (base + i * arity ^ h))
            with (canon (klist xs) h (base + i * arity ^ h)).
          { eapply Hr; eauto. rewrite kids_nth. destruct (Nat.ltb_spec i arity); auto; lia. }
          apply canon_ext; auto. intros q Hq. apply klist_app_agree.
          rewrite <- HkS.
          assert (i < fr \/ fr < i) as [Hi|Hi] by lia; [left|right]; nia. }
        destruct (Nat.le_gt_cases (length D) (base + fr * arity ^ h + arity ^ h - length xs)) as [Hd|Hd].
        * (* the data is exhausted *)
          right. assert (HkD : k = length D) by lia.
          assert (Hr0 : rest = []) by (rewrite Hrest, HkD; apply skipn_all).
          exists (set_nth cs1 fr c'), k. subst rest. rewrite Hr0.
          split; [destruct fuel; reflexivity|].
          split; [rewrite Nat.pow_succ_r'; nia|]. exact HrelN.
        * (* this child is now full *)
          destruct (IH rest (S fr) xs1 (set_nth cs1 fr c') (cnt + k)) as
            [Herr|(cs' & k' & Hl' & Hk' & Hrel'')]; auto.
          -- lia.
          -- right. rewrite Hlen1. simpl. lia.
          -- intro Hb. apply andb_prop in Hb as [Hb1 Hb2]. apply Nat.eqb_eq in Hb2.
             specialize (Htp Hb1). lia.
          -- intros _. rewrite Hlen1. simpl. lia.
          -- right. assert (Hrl : length rest = length D - k) by (rewrite Hrest, skipn_length; auto).
             exists cs', (k + k'). rewrite Hl'.
             rewrite Hrest, skipn_skipn, (Nat.add_comm k' k), !Nat.add_assoc.
             split; [reflexivity|].
             split; [rewrite Nat.pow_succ_r' in *; nia|].
             replace (xs ++ firstn (k + k') D) with (xs1 ++ firstn k' rest); [exact Hrel''|].
             unfold xs1. rewrite <- app_assoc. f_equal.
             rewrite Hrest. rewrite <- (firstn_skipn k D) at 3.
             rewrite firstn_app. rewrite <- HkS.
             replace (k + k' - k) with k' by lia. f_equal.
             rewrite firstn_firstn. f_equal. lia.
  Qed.

  Lemma extend_gen_p b touch path : touch_ok b touch -> forall h, extend_spec_p b touch path h.
  Proof.
    intros Ht. induction h as [|h IH];
      intros base xs n af data Hrel HL Hpath Haf Hnaf.
    - assert (Hb : length xs = base) by (simpl in HL; lia).
      assert (Hn : n = Empty \/ n = Forgotten T0).
      { rewrite canon_above in Hrel by lia. inversion Hrel; subst; auto. }
      destruct data as [|e data]; cbn [MerkleModel.extend_gen].
      + right. exists n, 0, []. split; [reflexivity|].
        rewrite Nat.min_0_r. simpl firstn. rewrite app_nil_r. auto.
      + destruct Hn as [->| ->]; [right|left; reflexivity].
        exists (Leaf (digest_leaf (length xs) e) (length xs) e), 1, data.
        split; [reflexivity|].
        split; [simpl; lia|]. split; [reflexivity|].
        simpl. unfold klist. rewrite nth_error_app2 by lia.
        rewrite Hb, Nat.sub_diag. simpl. constructor.
    - destruct data as [|e data].
      { right. exists n, 0, []. split; [destruct n; reflexivity|].
        rewrite Nat.min_0_r. simpl firstn. rewrite app_nil_r. auto. }
      set (D := e :: data).
      assert (Hn : (exists v, n = Forgotten v) \/
                   exists cs, (n = Empty /\ cs = repeat Empty arity \/ exists v, n = Branch v cs) /\
                   Forall2 (rel b) cs (kids (klist xs) h base)).
      { rewrite canon_S in Hrel.
        destruct (forallb is_empty (kids (klist xs) h base)) eqn:Hf; inversion Hrel; subst;
          try (left; eauto; fail); right.
        - exists (repeat Empty arity). split; [auto|].
          rewrite (kids_repeat _ _ _ _ _ _ _ Hf). clear.
          induction arity; simpl; constructor; auto. constructor.
        - eauto. }
      destruct Hn as [[v ->]|(cs & Hn & Hrel')]; [left; reflexivity|].
      assert (Htp : exists tp, nth_error path h = Some tp).
      { destruct (nth_error path h) eqn:Hp; eauto. apply nth_error_None in Hp. lia. }
      destruct Htp as [tp Htp].
      assert (Hdig : af = true -> tp = digit arity (length xs) h).
      { intro Hf. destruct (Haf Hf) as [Hg _]. specialize (Hg h ltac:(lia)). congruence. }
      destruct (extend_loop_p b touch path h Ht IH ltac:(lia) base af tp D
                  (arity - (if af then tp else 0)) (if af then tp else 0) xs cs 0) as
        [Herr|(cs' & k & Hex & Hk & Hr)]; auto.
      + destruct af; [|lia]. rewrite Hdig by auto.
        pose proof (digit_lt arity Ha1h (length xs) h). lia.
      + destruct af.
        * left. destruct (Haf eq_refl) as [_ Hb]. rewrite Hdig by auto.
          pose proof (digit_lt arity Ha1h (length xs) h).
          pose proof (blk_step arity Ha1h (length xs) h).
          pose proof (blk_le arity Ha1h (length xs) h).
          pose proof (blk_lt arity Ha1h (length xs) h). lia.
        * right. rewrite Hnaf by auto. lia.
      + intro; subst af; auto.
      + intro Hb. apply andb_prop in Hb as [Hb1 _]. subst af.
        destruct (Haf eq_refl) as [Hg Hb]. split; [apply good_path_S; auto|].
        rewrite Hdig, Hb by auto. apply blk_step; auto.
      + destruct af; simpl.
        * rewrite Nat.eqb_refl. discriminate.
        * intros _. rewrite Hnaf by auto. lia.
      + left. destruct Hn as [[-> ->]|[v ->]]; cbn [MerkleModel.extend_gen];
            unfold D; unfold index; rewrite Htp; cbn [bind]; fold D; rewrite Herr; reflexivity.
      + right. exists (Branch (digest_branch T0 digest cs') cs'), k, (skipn k D).
        split.
        * destruct Hn as [[-> ->]|[v ->]]; cbn [MerkleModel.extend_gen];
            unfold D; unfold index; rewrite Htp; cbn [bind]; fold D; rewrite Hex; reflexivity.
        * split; [auto|]. split; [auto|].
          assert (Hk1 : 1 <= k) by (rewrite Hk; unfold D; simpl length; lia).
          assert (Hlen : length (xs ++ firstn k D) = length xs + k).
          { rewrite app_length, firstn_length. lia. }
          rewrite canon_nonempty by lia. unfold digest_branch.
          rewrite (rel_values _ _ _ _ Hr). constructor. auto.
  Qed.

  (** ** Universal trees: forgotten subtrees are never empty as long as nothing
      is remembered *)
  Inductive sprunes : node -> node -> Prop :=
  | sp_empty : sprunes Empty Empty
  | sp_leaf v p e : sprunes (Leaf v p e) (Leaf v p e)
  | sp_branch v cs cs' : Forall2 sprunes cs cs' -> sprunes (Branch v cs) (Branch v cs')
  | sp_forgotten full : is_empty full = false -> sprunes (Forgotten (value full)) full.

  Fixpoint sprunes_prunes (n m : node) (H : sprunes n m) {struct H} : prunes n m.
  Proof.
    destruct H as [|v p e|v cs cs' Hf|full Hb]; try constructor.
    induction Hf; constructor; auto.
  Qed.

  Lemma sprunes_refl m h : forall base, sprunes (canon m h base) (canon m h base).
  Proof.
    induction h as [|h IH]; intro base.
    - simpl. destruct (m base); constructor.
    - rewrite canon_S. destruct (forallb is_empty (kids m h base)); constructor.
      unfold MerkleProofs.kids. induction (seq 0 arity); simpl; constructor; auto.
  Qed.

  Lemma sprunes_value n m : sprunes n m -> value n = value m.
  Proof. destruct 1; reflexivity. Qed.

  Lemma sprunes_values cs cs' : Forall2 sprunes cs cs' -> map value cs = map value cs'.
  Proof. induction 1; simpl; auto. f_equal; auto. apply sprunes_value; auto. Qed.

  Lemma sprunes_empty n m : sprunes n m -> is_empty n = is_empty m.
  Proof. destruct 1; auto. Qed.

  Lemma sprunes_all_empty cs cs' :
    Forall2 sprunes cs cs' -> forallb is_empty cs = forallb is_empty cs'.
  Proof. induction 1; simpl; auto. f_equal; auto. apply sprunes_empty; auto. Qed.

  Lemma update_pruned m pos f h path :
    good_path path pos h ->
    forall n, sprunes n (canon m h (blk arity pos h)) ->
    update_with_internal T0 digest digest_leaf arity h n pos path f = Err ForgottenLeaf \/
    exists n', update_with_internal T0 digest digest_leaf arity h n pos path f
               = Ok (n', delta (m pos) (f (m pos)), old_result (m pos)) /\
               sprunes n' (canon (kset m pos (f (m pos))) h (blk arity pos h)) /\
               is_forgotten n' = false.
  Proof.
    induction h as [|h IH]; intros Hp n Hn.
    - assert (Hf : (exists v, n = Forgotten v) \/ n = canon m 0 (blk arity pos 0)).
      { cbn [MerkleSpec.canon] in *. destruct (m (blk arity pos 0)); inversion Hn; subst; eauto. }
      destruct Hf as [[v ->]| ->]; [left; reflexivity|right].
      rewrite update_canon by auto. eexists. split; [reflexivity|].
      split; [apply sprunes_refl|]. apply canon_not_forgotten.
    - set (base := blk arity pos (S h)) in *. set (d := digit arity pos h).
      assert (Hd : d < arity) by (apply digit_lt; auto).
      assert (Hbd : base + d * arity ^ h = blk arity pos h) by (apply blk_step; auto).
      set (m' := kset m pos (f (m pos))).
      assert (Hpath : nth_error path h = Some d) by (apply Hp; lia).
      assert (Hset : set_nth (kids m h base) d (canon m' h (blk arity pos h)) = kids m' h base).
      { rewrite <- Hbd. apply kids_set; auto. apply kset_agree; auto. }
      assert (Hmiss : is_empty n = true -> n = Empty /\ canon m (S h) base = Empty).
      { intro He. rewrite (sprunes_empty _ _ Hn) in He.
        apply is_empty_eq in He. rewrite He in *. inversion Hn; subst; auto. discriminate. }
      destruct n as [|v cs|v p e|v].
      + (* Empty: as in the full tree *)
        right. destruct (Hmiss eq_refl) as [_ He].
        pose proof (update_canon T0 digest digest_leaf arity Ha1h m pos f (S h) path Hp) as Hu.
        fold base in Hu. rewrite He in Hu. rewrite Hu.
        eexists. split; [reflexivity|]. split; [apply sprunes_refl|]. apply canon_not_forgotten.
      + (* Branch *)
        rewrite canon_S in Hn. destruct (forallb is_empty (kids m h base)) eqn:Hfe;
          inversion Hn as [| |? ? ? Hcs|]; subst.
        cbn [update_with_internal]. unfold index. rewrite Hpath. cbn [bind].
        assert (Hk : nth_error (kids m h base) d = Some (canon m h (blk arity pos h))).
        { rewrite kids_nth. destruct (Nat.ltb_spec d arity); [|lia]. rewrite Hbd. reflexivity. }
        destruct (Forall2_nth_l _ _ _ _ _ Hcs Hk) as (c & Hc & Hcr).
        rewrite Hc. cbn [bind].
        destruct (IH (good_path_S _ _ _ _ Hp) c Hcr) as [Herr|(c' & Hu & Hc' & Hnf)].
        { left. rewrite Herr. reflexivity. }
        right. rewrite Hu. cbn [bind]. rewrite Hnf.
        assert (Hcs' : Forall2 sprunes (set_nth cs d c') (kids m' h base)).
        { rewrite <- Hset. apply Forall2_nth. apply Forall2_nth in Hcs as [Hlen Hcs].
          split; [rewrite !set_nth_length; auto|].
          intros i x y Hx Hy. rewrite nth_error_set_nth in Hx, Hy.
          rewrite <- Hlen in Hy. destruct ((d =? i) && (d <? length cs)); [|eauto].
          injection Hx as <-. injection Hy as <-. auto. }
        rewrite canon_S. rewrite (sprunes_all_empty _ _ Hcs').
        destruct (forallb is_empty (kids m' h base)).
        * eexists. split; [reflexivity|]. split; [constructor|reflexivity].
        * eexists. split; [reflexivity|]. unfold digest_branch.
          rewrite (sprunes_values _ _ Hcs'). split; [constructor; auto|reflexivity].
      + (* a leaf above height 0 is impossible *)
        rewrite canon_S in Hn. destruct (forallb is_empty (kids m h base)); inversion Hn.
      + left. reflexivity.
  Qed.

  Lemma forget_spruned m pos h path :
    good_path path pos h ->
    forall n n' r, sprunes n (canon m h (blk arity pos h)) ->
    forget_internal T0 h n path = Ok (n', r) ->
    sprunes n' (canon m h (blk arity pos h)) /\
    (match r with LOk _ _ => is_empty (canon m h (blk arity pos h)) = false | _ => True end).
  Proof.
    induction h as [|h IH]; intros Hp n n' r Hn Hf.
    - cbn [MerkleSpec.canon] in *. destruct (m (blk arity pos 0)); inversion Hn; subst;
        cbn [forget_internal] in Hf; injection Hf as <- <-.
      + split; [|reflexivity].
        match goal with |- sprunes _ ?f => exact (sp_forgotten f eq_refl) end.
      + split; [auto|exact I].
      + split; [auto|exact I].
      + discriminate.
    - set (base := blk arity pos (S h)) in *. set (d := digit arity pos h).
      assert (Hd : d < arity) by (apply digit_lt; auto).
      assert (Hbd : base + d * arity ^ h = blk arity pos h) by (apply blk_step; auto).
      assert (Hpath : nth_error path h = Some d) by (apply Hp; lia).
      destruct n as [|v cs|v p e|v].
      + cbn [forget_internal] in Hf. injection Hf as <- <-. auto.
      + rewrite canon_S in Hn |- *. destruct (forallb is_empty (kids m h base)) eqn:Hfe;
          inversion Hn as [| |? ? ? Hcs|]; subst.
        cbn [forget_internal] in Hf. unfold index in Hf. rewrite Hpath in Hf. cbn [bind] in Hf.
        assert (Hk : nth_error (kids m h base) d = Some (canon m h (blk arity pos h))).
        { rewrite kids_nth. destruct (Nat.ltb_spec d arity); [|lia]. rewrite Hbd. reflexivity. }
        destruct (Forall2_nth_l _ _ _ _ _ Hcs Hk) as (c & Hc & Hcr).
        rewrite Hc in Hf. cbn [bind] in Hf.
        destruct (forget_internal T0 h c path) as [[c' rc]| |] eqn:Hfc;
          [|discriminate|discriminate]. cbn [bind] in Hf.
        destruct (IH (good_path_S _ _ _ _ Hp) _ _ _ Hcr Hfc) as [Hc' Hrc].
        destruct rc as [e p| |p].
        * assert (Hcs' : Forall2 sprunes (set_nth cs d c') (kids m h base)).
          { eapply Forall2_set_nth; eauto. }
          destruct (forallb _ (set_nth cs d c')).
          -- injection Hf as <- <-. split; [|reflexivity].
             match goal with |- sprunes _ ?f => exact (sp_forgotten f eq_refl) end.
          -- injection Hf as <- <-. split; [|reflexivity]. constructor. auto.
        * injection Hf as <- <-. split; [constructor; auto|exact I].
        * injection Hf as <- <-. split; [constructor; auto|exact I].
      + rewrite canon_S in Hn. destruct (forallb is_empty (kids m h base)); inversion Hn.
      + cbn [forget_internal] in Hf. injection Hf as <- <-. auto.
  Qed.

  (** ** The invariant that survives update, forget and remember together:
      [consistent m h base n] says that every visible part of [n] agrees with the
      map and that stored hashes are right. *)
  Fixpoint consistent (m : kmap E) (h base : nat) (n : node) : Prop :=
    match n with
    | Empty => forall i, base <= i < base + arity ^ h -> m i = None
    | Forgotten _ => True
    | Leaf v p e => h = 0 /\ p = base /\ m base = Some e /\ v = digest_leaf base e
    | Branch v cs =>
        match h with
        | 0 => False
        | S h' => length cs = arity /\ v = digest (map value cs) /\
                  forall d c, nth_error cs d = Some c -> consistent m h' (base + d * arity ^ h') c
        end
    end.

  Lemma consistent_empty m h base : consistent m h base Empty ->
    forall i, base <= i < base + arity ^ h -> m i = None.
  Proof. clear Ha. destruct h; simpl; auto. Qed.

  Lemma consistent_ext m m' h : forall base n,
    (forall i, base <= i < base + arity ^ h -> m i = m' i) ->
    consistent m h base n -> consistent m' h base n.
  Proof.
    induction h as [|h IH]; intros base n Hmm Hc; destruct n as [|v cs|v p e|v]; simpl in *; auto.
    - intros i Hi. rewrite <- Hmm by lia. auto.
    - rewrite <- Hmm by lia. auto.
    - intros i Hi. rewrite <- Hmm by lia. auto.
    - destruct Hc as (Hl & Hv & Hd). split; [auto|]. split; [auto|].
      intros d c Hdc. apply IH; auto. intros i Hi. apply Hmm.
      assert (d < arity) by (rewrite <- Hl; apply nth_error_Some; congruence).
      eapply (block_in_range arity Ha1h base h i d); eauto.
    - destruct Hc; discriminate.
  Qed.

  Lemma consistent_new h : consistent kempty h 0 Empty.
  Proof. destruct h; simpl; reflexivity. Qed.

  Lemma lookup_consistent m pos h path :
    good_path path pos h ->
    forall n, consistent m h (blk arity pos h) n ->
    exists r, lookup_internal T0 h n path = Ok r /\
      match r with
      | LOk e p => m pos = Some e /\ length p = h /\
                   Forall (fun v => length v = arity - 1) p /\
                   root_from T0 digest (digest_leaf pos e) path p = value n
      | LNotFound p => m pos = None /\ length p = h /\
                   Forall (fun v => length v = arity - 1 \/ length v = 0) p /\
                   root_from T0 digest T0 path p = value n
      | LNotInMemory => True
      end.
  Proof.
    induction h as [|h IH]; intros Hp n Hn; destruct n as [|v cs|v p e|v].
    - eexists. split; [reflexivity|]. simpl. split.
      { apply Hn. rewrite blk_0. simpl. lia. }
      split; [auto|]. split; [auto|]. unfold root_from. rewrite combine_nil. reflexivity.
    - destruct Hn.
    - eexists. split; [reflexivity|]. destruct Hn as (_ & _ & Hm & ->).
      rewrite blk_0 in *. simpl. unfold root_from. rewrite combine_nil. auto.
    - eexists. split; [reflexivity|]. exact I.
    - eexists. split; [reflexivity|]. split.
      + apply Hn. pose proof (blk_le arity Ha1h pos (S h)). pose proof (blk_lt arity Ha1h pos (S h)). lia.
      + split; [apply repeat_length|]. split.
        * apply Forall_forall. intros x Hx. apply repeat_spec in Hx. subst. auto.
        * apply root_from_repeat.
    - cbn [lookup_internal consistent] in *. destruct Hn as (Hl & Hv & Hd).
      set (d := digit arity pos h). unfold index.
      rewrite (Hp h) by lia. cbn [bind]. fold d.
      assert (Hda : d < arity) by (apply digit_lt; auto).
      destruct (nth_error cs d) as [c|] eqn:Hc; [|apply nth_error_None in Hc; lia].
      cbn [bind]. specialize (Hd _ _ Hc). unfold d in Hd. rewrite blk_step in Hd by auto.
      destruct (IH (good_path_S _ _ _ _ Hp) c Hd) as (r & Hr & Hres).
      rewrite Hr. cbn [bind]. destruct r as [e p| |p].
      + eexists. split; [reflexivity|]. destruct Hres as (Hm & Hlp & Hfp & Hroot).
        split; [auto|]. split; [rewrite app_length; simpl; lia|]. split.
        * apply Forall_app. split; [auto|]. constructor; [|constructor].
          rewrite siblings_length by (rewrite Hl; auto). rewrite Hl. lia.
        * rewrite (root_from_snoc _ _ _ _ _ d) by (rewrite Hlp; apply Hp; lia).
          rewrite Hroot. cbn [MerkleModel.value]. rewrite Hv. unfold verify_step.
          assert (Hsib : length (siblings T0 d cs) = arity - 1).
          { rewrite siblings_length by (rewrite Hl; auto). rewrite Hl. lia. }
          destruct (siblings T0 d cs) eqn:Hs; [simpl in Hsib; lia|].
          rewrite <- Hs. rewrite (siblings_insert T0 d cs c) by auto. reflexivity.
      + eexists. split; [reflexivity|]. exact I.
      + eexists. split; [reflexivity|]. destruct Hres as (Hm & Hlp & Hfp & Hroot).
        split; [auto|]. split; [rewrite app_length; simpl; lia|]. split.
        * apply Forall_app. split; [auto|]. constructor; [|constructor].
          left. rewrite siblings_length by (rewrite Hl; auto). rewrite Hl. lia.
        * rewrite (root_from_snoc _ _ _ _ _ d) by (rewrite Hlp; apply Hp; lia).
          rewrite Hroot. cbn [MerkleModel.value]. rewrite Hv. unfold verify_step.
          assert (Hsib : length (siblings T0 d cs) = arity - 1).
          { rewrite siblings_length by (rewrite Hl; auto). rewrite Hl. lia. }
          destruct (siblings T0 d cs) eqn:Hs; [simpl in Hsib; lia|].
          rewrite <- Hs. rewrite (siblings_insert T0 d cs c) by auto. reflexivity.
    - destruct Hn; discriminate.
    - eexists. split; [reflexivity|]. exact I.
  Qed.

  Lemma update_consistent m pos f h path :
    good_path path pos h ->
    forall n, consistent m h (blk arity pos h) n ->
    update_with_internal T0 digest digest_leaf arity h n pos path f = Err ForgottenLeaf \/
    exists n', update_with_internal T0 digest digest_leaf arity h n pos path f
               = Ok (n', delta (m pos) (f (m pos)), old_result (m pos)) /\
               consistent (kset m pos (f (m pos))) h (blk arity pos h) n' /\
               is_forgotten n' = false.
  Proof.
    set (m' := kset m pos (f (m pos))).
    assert (Hm'pos : m' pos = f (m pos)) by (unfold m', kset; rewrite Nat.eqb_refl; auto).
    assert (Hm'o : forall i, i <> pos -> m' i = m i).
    { intros i Hi. unfold m', kset. destruct (Nat.eqb_spec i pos); auto; lia. }
    induction h as [|h IH]; intros Hp n Hn.
    - destruct n as [|v cs|v p e|v].
      + assert (Hm : m pos = None) by (apply Hn; rewrite blk_0; simpl; lia).
        right. cbn [update_with_internal]. rewrite Hm in *. cbn [delta old_result].
        destruct (f None) as [x|] eqn:Hfx.
        * eexists. split; [reflexivity|]. split; [|reflexivity].
          simpl. rewrite blk_0. auto.
        * eexists. split; [reflexivity|]. split; [|reflexivity].
          simpl. rewrite blk_0. intros i Hi. replace i with pos by lia. auto.
      + destruct Hn.
      + destruct Hn as (_ & -> & Hm & ->). rewrite blk_0 in *.
        right. cbn [update_with_internal]. rewrite Hm in *. cbn [delta old_result].
        destruct (f (Some e)) as [x|] eqn:Hfx.
        * eexists. split; [reflexivity|]. split; [|reflexivity]. simpl. auto.
        * eexists. split; [reflexivity|]. split; [|reflexivity].
          simpl. intros i Hi. replace i with pos by lia. auto.
      + left. reflexivity.
    - set (base := blk arity pos (S h)) in *. set (d := digit arity pos h).
      assert (Hd : d < arity) by (apply digit_lt; auto).
      assert (Hbd : base + d * arity ^ h = blk arity pos h) by (apply blk_step; auto).
      assert (Hpath : nth_error path h = Some d) by (apply Hp; lia).
      assert (Hother : forall i c, i < arity -> i <> d ->
                consistent m h (base + i * arity ^ h) c -> consistent m' h (base + i * arity ^ h) c).
      { intros i c Hi Hid. apply consistent_ext. intros k Hk. symmetry. apply Hm'o. intros ->.
        apply Hid. eapply (block_disjoint arity Ha1h base h pos); eauto.
        rewrite Hbd. split; [apply blk_le|apply blk_lt]; auto. }
      destruct n as [|v cs|v p e|v].
      + (* Empty *)
        right. cbn [update_with_internal]. unfold index. rewrite Hpath. cbn [bind].
        rewrite nth_error_repeat_lt by auto. cbn [bind].
        assert (Hall : forall i, base <= i < base + arity ^ S h -> m i = None) by exact Hn.
        assert (Hsub : consistent m h (blk arity pos h) Empty).
        { assert (forall i, blk arity pos h <= i < blk arity pos h + arity ^ h -> m i = None).
          { intros i Hi. apply Hall. rewrite <- Hbd in Hi.
            eapply (block_in_range arity Ha1h base h i d); eauto. }
          destruct h; simpl; auto. }
        destruct (IH (good_path_S _ _ _ _ Hp) Empty Hsub) as [Herr|(c' & Hu & Hc' & Hnf)].
        { exfalso. clear - Herr Hp. revert Herr. clear Hp.
          (* the path below an empty node never meets a forgotten subtree *)
          revert path. induction h as [|h IH]; intros path.
          - cbn. destruct (f None); discriminate.
          - cbn [update_with_internal]. unfold index.
            destruct (nth_error path h) as [b|]; [|discriminate]. cbn [bind].
            destruct (nth_error (repeat Empty arity) b) as [c|] eqn:Hc; [|discriminate].
            apply nth_error_In, repeat_spec in Hc. subst c. cbn [bind].
            specialize (IH path).
            destruct (update_with_internal T0 digest digest_leaf arity h Empty pos path f)
              as [[[c' dl] rs]| |]; cbn [bind]; [|congruence|discriminate].
            destruct (is_empty c'); discriminate. }
        rewrite Hu. cbn [bind].
        assert (Hm : m pos = None).
        { apply (consistent_empty _ _ _ Hsub). split; [apply blk_le|apply blk_lt]; auto. }
        assert (Hc'e : is_empty c' = true -> delta (m pos) (f (m pos)) = (0, 0)).
        { intro He. apply is_empty_eq in He. subst c'.
          assert (Hx : m' pos = None).
          { destruct h; apply Hc'; (split; [apply blk_le|apply blk_lt]; auto). }
          rewrite Hm'pos in Hx. rewrite Hm in *. rewrite Hx. reflexivity. }
        destruct (is_empty c') eqn:He.
        * eexists. split; [rewrite Hc'e by auto; reflexivity|]. split; [|reflexivity].
          simpl. intros i Hi. destruct (Nat.eq_dec i pos) as [->|Hne].
          -- apply is_empty_eq in He. subst c'.
             destruct h; apply Hc'; (split; [apply blk_le|apply blk_lt]; auto).
          -- rewrite Hm'o by auto. apply Hall. auto.
        * eexists. split; [reflexivity|]. split; [|reflexivity].
          simpl. split; [rewrite set_nth_length, repeat_length; auto|]. split; [reflexivity|].
          intros i c Hic. rewrite nth_error_set_nth in Hic.
          destruct (Nat.eqb_spec d i) as [<-|Hne].
          -- rewrite repeat_length in Hic. destruct (Nat.ltb_spec d arity); [|lia].
             simpl in Hic. injection Hic as <-. rewrite Hbd. auto.
          -- simpl in Hic. rewrite nth_error_repeat_full in Hic.
             destruct (Nat.ltb_spec i arity); [|discriminate]. injection Hic as <-.
             apply Hother; auto.
             assert (forall k, base + i * arity ^ h <= k < base + i * arity ^ h + arity ^ h -> m k = None).
             { intros k Hk. apply Hall. eapply (block_in_range arity Ha1h base h k i); eauto. }
             destruct h; simpl; auto.
      + (* Branch *)
        cbn [consistent] in Hn. destruct Hn as (Hl & Hv & Hcs).
        cbn [update_with_internal]. unfold index. rewrite Hpath. cbn [bind].
        destruct (nth_error cs d) as [c|] eqn:Hc; [|apply nth_error_None in Hc; lia].
        cbn [bind]. pose proof (Hcs _ _ Hc) as Hcc. rewrite Hbd in Hcc.
        destruct (IH (good_path_S _ _ _ _ Hp) c Hcc) as [Herr|(c' & Hu & Hc' & Hnf)].
        { left. rewrite Herr. reflexivity. }
        right. rewrite Hu. cbn [bind]. rewrite Hnf.
        assert (Hcs' : forall i x, nth_error (set_nth cs d c') i = Some x ->
                       consistent m' h (base + i * arity ^ h) x).
        { intros i x Hx. rewrite nth_error_set_nth in Hx.
          destruct (Nat.eqb_spec d i) as [<-|Hne].
          - destruct (Nat.ltb_spec d (length cs)); [|lia]. simpl in Hx. injection Hx as <-.
            rewrite Hbd. auto.
          - simpl in Hx. apply Hother; auto.
            rewrite <- Hl. apply nth_error_Some. congruence. }
        destruct (forallb is_empty (set_nth cs d c')) eqn:Hfe.
        * eexists. split; [reflexivity|]. split; [|reflexivity].
          simpl. intros i Hi. destruct (block_split arity Ha1h base h i Hi) as (j & Hj & Hij).
          rewrite forallb_nth in Hfe.
          destruct (nth_error (set_nth cs d c') j) as [x|] eqn:Hx.
          -- specialize (Hfe _ _ Hx). apply is_empty_eq in Hfe. subst x.
             specialize (Hcs' _ _ Hx). destruct h; apply Hcs'; auto.
          -- apply nth_error_None in Hx. rewrite set_nth_length in Hx. lia.
        * eexists. split; [reflexivity|]. split; [|reflexivity].
          cbn [consistent]. rewrite set_nth_length. auto.
      + destruct Hn; discriminate.
      + left. reflexivity.
  Qed.

  Lemma forget_consistent m h path : forall base n n' r,
    consistent m h base n -> forget_internal T0 h n path = Ok (n', r) ->
    consistent m h base n' /\ value n' = value n.
  Proof.
    induction h as [|h IH]; intros base n n' r Hn Hf; destruct n as [|v cs|v p e|v];
      cbn [forget_internal] in Hf; try (injection Hf as <- <-; simpl; auto; fail).
    - destruct Hn.
    - cbn [consistent] in Hn. destruct Hn as (Hl & Hv & Hcs).
      unfold index in Hf. destruct (nth_error path h) as [b|] eqn:Hb; [|discriminate].
      cbn [bind] in Hf. destruct (nth_error cs b) as [c|] eqn:Hc; [|discriminate].
      cbn [bind] in Hf.
      destruct (forget_internal T0 h c path) as [[c' rc]| |] eqn:Hfc; [|discriminate|discriminate].
      cbn [bind] in Hf. destruct (IH _ _ _ _ (Hcs _ _ Hc) Hfc) as [Hc' Hv'].
      assert (Hbr : consistent m (S h) base (Branch v cs)) by (cbn [consistent]; auto).
      destruct rc as [e p| |p].
      + destruct (forallb _ (set_nth cs b c')); injection Hf as <- <-.
        * split; [exact I|reflexivity].
        * split; [|reflexivity]. cbn [consistent]. rewrite set_nth_length. split; [auto|]. split.
          -- rewrite map_set_nth, Hv'. rewrite set_nth_same; [auto|].
             rewrite nth_error_map, Hc. reflexivity.
          -- intros d x Hx. rewrite nth_error_set_nth in Hx.
             destruct (Nat.eqb_spec b d) as [<-|]; [|simpl in Hx; eauto].
             destruct (b <? length cs); simpl in Hx; [injection Hx as <-; auto|eauto].
      + injection Hf as <- <-. auto.
      + injection Hf as <- <-. auto.
  Qed.

  (** Remembering below a forgotten node rebuilds the path from the proof.  [el]
      is the element restored, or [None] for an absent key (every level of the
      proof must then be full). *)
  Definition start (pos : nat) (el : option E) : T :=
    match el with Some e => digest_leaf pos e | None => T0 end.
  Definition answers (el : option E) (pf : @proof T) (r : lookup_result E (@proof T) (@proof T)) : Prop :=
    match el with Some e => r = LOk e pf | None => exists p, r = LNotFound p end.

  Lemma remember_forgotten m pos el :
    m pos = el ->
    forall pf path full_pf v,
    good_path path pos (length pf) ->
    Forall (fun s => length s = arity - 1) pf ->
    (forall i, i < length pf -> nth_error full_pf i = nth_error pf i) ->
    exists n' r,
      remember_internal T0 digest digest_leaf (length pf) (Forgotten v) path pos el full_pf = Ok n' /\
      value n' = root_from T0 digest (start pos el) path pf /\
      consistent m (length pf) (blk arity pos (length pf)) n' /\
      lookup_internal T0 (length pf) n' path = Ok r /\ answers el pf r.
  Proof.
    intro Hm. induction pf as [|s pf IH] using rev_ind; intros path full_pf v Hp Hlen Hpf.
    - destruct el as [e|].
      + exists (Leaf (digest_leaf pos e) pos e), (LOk e []). split; [reflexivity|].
        split; [unfold root_from; rewrite combine_nil; reflexivity|].
        split; [simpl; rewrite blk_0; auto|split; reflexivity].
      + exists Empty, (LNotFound []). split; [reflexivity|].
        split; [unfold root_from; rewrite combine_nil; reflexivity|].
        split; [simpl; rewrite blk_0; intros i Hi; replace i with pos by lia; auto|].
        split; [reflexivity|]. eexists; reflexivity.
    - rewrite app_length in *. cbn [length] in *. rewrite Nat.add_1_r in *.
      set (h := length pf) in *. set (d := digit arity pos h).
      apply Forall_app in Hlen as [Hlen Hs]. inversion_clear Hs as [|? ? Hs' _].
      assert (Hd : d < arity) by (apply digit_lt; auto).
      assert (Hpath : nth_error path h = Some d) by (apply Hp; lia).
      assert (Hfs : nth_error full_pf h = Some s).
      { rewrite Hpf by lia. rewrite nth_error_app2 by (fold h; lia). fold h. rewrite Nat.sub_diag. reflexivity. }
      cbn [remember_internal]. unfold index. rewrite Hpath, Hfs. cbn [bind].
      unfold vec_insert. destruct (Nat.leb_spec d (length s)); [|lia]. cbn [bind].
      set (values := firstn d s ++ v :: skipn d s).
      assert (Hvl : length values = arity).
      { unfold values. rewrite app_length, firstn_length. cbn [length]. rewrite skipn_length. lia. }
      assert (Hvd : nth_error values d = Some v) by (apply insert_nth_val; auto).
      rewrite nth_error_map, Hvd. cbn [option_map bind].
      destruct (IH path full_pf v) as (c' & r & Hr & Hv & Hcon & Hlk & Hans).
      { intros i Hi. apply Hp. lia. }
      { auto. }
      { intros i Hi. rewrite Hpf by lia. apply nth_error_app1. auto. }
      rewrite Hr. cbn [bind].
      assert (Hset : set_nth values d (value c') = firstn d s ++ value c' :: skipn d s).
      { assert (Hfl : length (firstn d s) = d) by (rewrite firstn_length; lia).
        rewrite set_nth_split by lia. unfold values.
        rewrite firstn_app, skipn_app, Hfl, Nat.sub_diag.
        rewrite (firstn_all2 (firstn d s)) by lia. rewrite (skipn_all2 (firstn d s)) by lia.
        replace (S d - d) with 1 by lia. cbn [firstn skipn app]. rewrite app_nil_r. reflexivity. }
      set (ch := set_nth (map Forgotten values) d c').
      assert (Hmv : map value ch = set_nth values d (value c')).
      { unfold ch. rewrite map_set_nth, map_map. cbn [MerkleModel.value]. rewrite map_id. reflexivity. }
      assert (Hsib : siblings T0 d ch = s).
      { apply (insert_remove T0 s d (value c') ch); [lia|]. rewrite Hmv, Hset. reflexivity. }
      eexists. exists (match el with Some e => LOk e (pf ++ [s])
                               | None => match r with LNotFound p => LNotFound (p ++ [s]) | x => x end end).
      split; [reflexivity|]. split; [|split; [|split]].
      + cbn [MerkleModel.value]. rewrite (root_from_snoc _ _ _ _ _ d) by (fold h; auto).
        rewrite Hset, Hv. unfold verify_step. destruct s as [|s0 s1]; [simpl in Hs'; lia|reflexivity].
      + cbn [consistent]. split; [unfold ch; rewrite set_nth_length, map_length; auto|].
        split; [rewrite Hmv; reflexivity|].
        intros i c Hc. unfold ch in Hc. rewrite nth_error_set_nth in Hc.
        destruct (Nat.eqb_spec d i) as [<-|].
        * rewrite map_length in Hc. destruct (Nat.ltb_spec d (length values)); [|lia].
          simpl in Hc. injection Hc as <-. unfold d. rewrite blk_step by auto. exact Hcon.
        * simpl in Hc. rewrite nth_error_map in Hc. destruct (nth_error values i); [|discriminate].
          injection Hc as <-. destruct h; exact I.
      + cbn [lookup_internal]. unfold index. rewrite Hpath. cbn [bind]. unfold ch at 1.
        rewrite nth_error_set_nth_eq by (rewrite map_length; lia). cbn [bind].
        rewrite Hlk. cbn [bind]. fold ch. rewrite Hsib.
        destruct el; [cbn in Hans; subst r; reflexivity|]. destruct Hans as [p ->]. reflexivity.
      + destruct el; [reflexivity|]. destruct Hans as [p ->]. eexists; reflexivity.
  Qed.

  Lemma remember_consistent m pos el :
    m pos = el ->
    forall pf path full_pf n,
    good_path path pos (length pf) ->
    Forall (fun s => length s = arity - 1) pf ->
    (forall i, i < length pf -> nth_error full_pf i = nth_error pf i) ->
    consistent m (length pf) (blk arity pos (length pf)) n ->
    root_from T0 digest (start pos el) path pf = value n ->
    no_collision T0 digest digest_leaf n (fold_queries T0 digest (start pos el) (combine path pf)) ->
    exists n' r,
      remember_internal T0 digest digest_leaf (length pf) n path pos el full_pf = Ok n' /\
      value n' = value n /\
      consistent m (length pf) (blk arity pos (length pf)) n' /\
      lookup_internal T0 (length pf) n' path = Ok r /\ answers el pf r.
  Proof.
    intro Hm. induction pf as [|s pf IH] using rev_ind; intros path full_pf n Hp Hlen Hpf Hn Hroot Hnc.
    - destruct n as [|v cs|v p x|v].
      + destruct el as [e|].
        * exfalso. cbn [length consistent] in Hn. rewrite (Hn pos) in Hm; [discriminate|].
          rewrite blk_0. simpl. lia.
        * exists Empty, (LNotFound []). split; [reflexivity|]. split; [reflexivity|]. split; [auto|].
          split; [reflexivity|]. eexists; reflexivity.
      + destruct Hn.
      + cbn [length consistent] in Hn. destruct Hn as (_ & -> & Hx & ->). rewrite blk_0 in *.
        rewrite Hm in Hx. destruct el as [e|]; [|discriminate]. injection Hx as <-.
        eexists. eexists. split; [reflexivity|]. split; [reflexivity|]. split; [|split; reflexivity].
        cbn [length consistent]. rewrite blk_0. auto.
      + destruct (remember_forgotten m pos el Hm [] path full_pf v) as (n' & r & H1 & H2 & H3 & H4); auto.
        exists n', r. split; [exact H1|]. split; [|auto]. rewrite H2. exact Hroot.
    - destruct n as [|v cs|v p x|v].
      + assert (Hnone : m pos = None).
        { apply (consistent_empty _ _ _ Hn). split; [apply blk_le|apply blk_lt]; auto. }
        rewrite Hm in Hnone. rewrite Hnone in *.
        exists Empty, (LNotFound (repeat [] (length (pf ++ [s])))).
        destruct (length (pf ++ [s])); (split; [reflexivity|]; split; [reflexivity|]; split; [exact Hn|];
          split; [reflexivity|eexists; reflexivity]).
      + rewrite app_length in *. cbn [length] in *. rewrite Nat.add_1_r in *.
        set (h := length pf) in *. set (d := digit arity pos h).
        apply Forall_app in Hlen as [Hlen Hs]. inversion_clear Hs as [|? ? Hs' _].
        assert (Hd : d < arity) by (apply digit_lt; auto).
        assert (Hpath : nth_error path h = Some d) by (apply Hp; lia).
        cbn [consistent] in Hn. destruct Hn as (Hl & Hv & Hcs).
        rewrite (root_from_snoc _ _ _ _ _ d) in Hroot by (fold h; auto).
        set (w := root_from T0 digest (start pos el) path pf) in *.
        cbn [MerkleModel.value] in Hroot.
        assert (Hstep : verify_step T0 digest w (d, s) = digest (firstn d s ++ w :: skipn d s)).
        { unfold verify_step. destruct s; [simpl in Hs'; lia|reflexivity]. }
        rewrite Hstep in Hroot.
        assert (Hfq : fold_queries (E:=E) T0 digest (start pos el) (combine path (pf ++ [s])) =
                fold_queries T0 digest (start pos el) (combine path pf) ++
                [QNode (firstn d s ++ w :: skipn d s)]).
        { rewrite (combine_app_l _ _ _ d) by (fold h; auto). rewrite fold_queries_app. f_equal.
          cbn [fold_queries]. destruct s; [simpl in Hs'; lia|reflexivity]. }
        rewrite Hfq in Hnc.
        assert (Hq : QNode (map value cs) = @QNode E T (firstn d s ++ w :: skipn d s)).
        { apply Hnc.
          - constructor.
          - apply in_or_app. right. left. reflexivity.
          - cbn [hash]. congruence. }
        injection Hq as Hq.
        destruct (nth_error cs d) as [c|] eqn:Hc; [|apply nth_error_None in Hc; lia].
        assert (Hw : w = value c).
        { pose proof (insert_nth_val s d w ltac:(lia)) as Hx. rewrite <- Hq in Hx.
          rewrite nth_error_map, Hc in Hx. injection Hx as Hx. auto. }
        pose proof (Hcs _ _ Hc) as Hcc. unfold d in Hcc. rewrite blk_step in Hcc by auto.
        destruct (IH path full_pf c) as (c' & r & Hr & Hv' & Hcon & Hlk & Hans).
        { intros i Hi. apply Hp. lia. }
        { auto. }
        { intros i Hi. rewrite Hpf by lia. apply nth_error_app1. auto. }
        { exact Hcc. }
        { exact Hw. }
        { intros q1 q2 H1 H2. apply Hnc.
          - eapply tq_child; [eapply nth_error_In; eauto|exact H1].
          - apply in_or_app; auto. }
        assert (Hmv : map value (set_nth cs d c') = map value cs).
        { rewrite map_set_nth, Hv', set_nth_same; [reflexivity|].
          rewrite nth_error_map, Hc. reflexivity. }
        assert (Hsib : siblings T0 d (set_nth cs d c') = s).
        { apply (insert_remove T0 s d w (set_nth cs d c')); [lia|]. rewrite Hmv, Hq. reflexivity. }
        cbn [remember_internal]. unfold index. rewrite Hpath. cbn [bind]. rewrite Hc. cbn [bind].
        rewrite Hr. cbn [bind]. eexists.
        exists (match el with Some e => LOk e (pf ++ [s])
                         | None => match r with LNotFound p => LNotFound (p ++ [s]) | x => x end end).
        split; [reflexivity|]. split; [reflexivity|]. split; [|split].
        * cbn [consistent]. rewrite set_nth_length, Hmv. split; [auto|]. split; [auto|].
          intros i x Hx. rewrite nth_error_set_nth in Hx.
          destruct (Nat.eqb_spec d i) as [<-|]; [|simpl in Hx; eauto].
          destruct (Nat.ltb_spec d (length cs)); [|lia]. simpl in Hx. injection Hx as <-.
          unfold d. rewrite blk_step by auto. exact Hcon.
        * cbn [lookup_internal]. unfold index. rewrite Hpath. cbn [bind].
          rewrite nth_error_set_nth_eq by lia. cbn [bind]. rewrite Hlk. cbn [bind]. rewrite Hsib.
          destruct el; [cbn in Hans; subst r; reflexivity|]. destruct Hans as [p ->]. reflexivity.
        * destruct el; [reflexivity|]. destruct Hans as [p ->]. eexists; reflexivity.
      + rewrite app_length in Hn. cbn [length] in Hn. rewrite Nat.add_1_r in Hn.
        cbn [consistent] in Hn. destruct Hn as (Hn & _). discriminate.
      + destruct (remember_forgotten m pos el Hm (pf ++ [s]) path full_pf v) as (n' & r & H1 & H2 & H3 & H4); auto.
        exists n', r. split; [exact H1|]. split; [|auto]. rewrite H2. exact Hroot.
  Qed.

  (** ** Binding: equal roots and no collision between two trees give equal maps *)
  Lemma binding_canon m m' h : forall base,
    (forall q1 q2, tree_query T0 (canon m h base) q1 -> tree_query T0 (canon m' h base) q2 ->
       hash T0 digest digest_leaf q1 = hash T0 digest digest_leaf q2 -> q1 = q2) ->
    value (canon m h base) = value (canon m' h base) ->
    forall k, base <= k < base + arity ^ h -> m k = m' k.
  Proof.
    induction h as [|h IH]; intros base Hnc Hv k Hk.
    - assert (k = base) as -> by (simpl in Hk; lia). simpl in *.
      destruct (m base) as [e|], (m' base) as [e'|]; cbn [MerkleModel.value] in Hv; auto.
      + specialize (Hnc _ _ (tq_leaf _ _ _ _) (tq_leaf _ _ _ _) Hv). congruence.
      + specialize (Hnc _ _ (tq_leaf _ _ _ _) (tq_empty _) Hv). congruence.
      + specialize (Hnc _ _ (tq_empty _) (tq_leaf _ _ _ _) Hv). congruence.
    - destruct (is_empty (canon m (S h) base)) eqn:He1, (is_empty (canon m' (S h) base)) eqn:He2.
      + rewrite is_empty_canon in He1, He2 by auto. rewrite He1, He2; auto.
      + exfalso. pose proof (is_empty_eq _ He1) as G1. rewrite G1 in Hnc, Hv.
        rewrite canon_S in Hnc, Hv, He2. destruct (forallb is_empty (kids m' h base)); [discriminate|].
        specialize (Hnc _ _ (tq_empty _) (tq_branch _ _ _) Hv). discriminate.
      + exfalso. pose proof (is_empty_eq _ He2) as G1. rewrite G1 in Hnc, Hv.
        rewrite canon_S in Hnc, Hv, He1. destruct (forallb is_empty (kids m h base)); [discriminate|].
        specialize (Hnc _ _ (tq_branch _ _ _) (tq_empty _) Hv). discriminate.
      + rewrite canon_S in Hnc, Hv, He1. destruct (forallb is_empty (kids m h base)); [discriminate|].
        rewrite canon_S in Hnc, Hv, He2. destruct (forallb is_empty (kids m' h base)); [discriminate|].
        pose proof (Hnc _ _ (tq_branch _ _ _) (tq_branch _ _ _) Hv) as Hq. injection Hq as Hq.
        destruct (block_split arity Ha1h base h k Hk) as (d & Hd & Hkd).
        assert (K : forall mm, nth_error (kids mm h base) d = Some (canon mm h (base + d * arity ^ h))).
        { intro mm. rewrite kids_nth. destruct (Nat.ltb_spec d arity); [reflexivity|lia]. }
        eapply (IH (base + d * arity ^ h)); eauto.
        * intros q1 q2 H1 H2. apply Hnc.
          -- eapply tq_child; [|exact H1]. eapply nth_error_In, K.
          -- eapply tq_child; [|exact H2]. eapply nth_error_In, K.
        * pose proof (f_equal (fun l => nth_error l d) Hq) as Hn. cbv beta in Hn.
          rewrite !nth_error_map, !K in Hn. injection Hn as Hn. exact Hn.
  Qed.

  (** A canonical tree (possibly pruned) is consistent. *)
  Lemma prunes_consistent m h : forall base n,
    prunes n (canon m h base) -> consistent m h base n.
  Proof.
    induction h as [|h IH]; intros base n Hn.
    - cbn [MerkleSpec.canon] in Hn. destruct (m base) as [e|] eqn:Hm; inversion Hn; subst; simpl; auto.
      intros i Hi. replace i with base by lia. auto.
    - rewrite canon_S in Hn. destruct (forallb is_empty (kids m h base)) eqn:Hf;
        inversion Hn as [| |? ? ? Hcs|]; subst; cbn [consistent]; auto.
      + intros i Hi. assert (G : is_empty (canon m (S h) base) = true)
          by (rewrite canon_S, Hf; reflexivity).
        rewrite is_empty_canon in G by auto. auto.
      + pose proof Hcs as Hcs'. apply Forall2_nth in Hcs' as [Hl Hc].
        rewrite kids_length in Hl. split; [auto|].
        split; [rewrite (prunes_values T0 _ _ Hcs); reflexivity|].
        intros d c Hd. apply IH. apply (Hc d); [auto|]. rewrite kids_nth.
        destruct (Nat.ltb_spec d arity); [reflexivity|].
        assert (d < length cs) by (apply nth_error_Some; congruence). lia.
  Qed.
End Hist.
