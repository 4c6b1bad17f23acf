(** Proofs about the Merkle tree model: appending (with and without forgetting)
    and bulk construction. *)
From Coq Require Import List Arith Lia Bool.
From Verif Require Import Base ListAux MerkleModel MerkleSpec MerkleProofs MerklePrune.
Import ListNotations.

Section Append.
  Context {E T : Type}.
  Variable T0 : T.
  Variable digest : list T -> T.
  Variable digest_leaf : nat -> E -> T.
  Variable arity : nat.
  Hypothesis Ha : 2 <= arity.

  Notation node := (node E T).
  Notation canon := (canon T0 digest digest_leaf arity).
  Notation value := (value T0).
  Notation kids := (kids T0 digest digest_leaf arity).
  Notation good_path := (good_path arity).
  Notation prunes := (prunes T0).

  Lemma Ha1' : 1 <= arity.
  Proof. lia. Qed.
  Hint Resolve Ha1' : core.

  (** [rel false] is equality, [rel true] is [prunes]. *)
  Inductive rel (b : bool) : node -> node -> Prop :=
  | rel_empty : rel b Empty Empty
  | rel_leaf v p e : rel b (Leaf v p e) (Leaf v p e)
  | rel_branch v cs cs' : Forall2 (rel b) cs cs' -> rel b (Branch v cs) (Branch v cs')
  | rel_forgotten full : b = true -> rel b (Forgotten (value full)) full.

  Fixpoint rel_false_eq (n m : node) (H : rel false n m) {struct H} : n = m.
  Proof.
    destruct H as [|v p e|v cs cs' Hf|full Hb]; try reflexivity; [|discriminate].
    f_equal. induction Hf; [reflexivity|]. f_equal; auto.
  Qed.

  Fixpoint rel_prunes (b : bool) (n m : node) (H : rel b n m) {struct H} : prunes n m.
  Proof.
    destruct H as [|v p e|v cs cs' Hf|full Hb]; try constructor.
    induction Hf; constructor; auto. eapply rel_prunes; eauto.
  Qed.

  Fixpoint prunes_rel (n m : node) (H : prunes n m) {struct H} : rel true n m.
  Proof.
    destruct H as [|v p e|v cs cs' Hf|full]; try constructor; auto.
    induction Hf; constructor; auto.
  Qed.

  Lemma rel_value b n m : rel b n m -> value n = value m.
  Proof. destruct 1; reflexivity. Qed.

  Lemma rel_values b cs cs' : Forall2 (rel b) cs cs' -> map value cs = map value cs'.
  Proof. induction 1; simpl; auto. f_equal; auto. eapply rel_value; eauto. Qed.

  (** [rel_canon]: the canonical tree is related to itself without forgetting. *)
  Fixpoint rel_refl_noforget (b : bool) m h base : rel b (canon m h base) (canon m h base).
  Proof.
    destruct h as [|h].
    - simpl. destruct (m base); constructor.
    - rewrite canon_S. destruct (forallb is_empty (kids m h base)); constructor.
      unfold MerkleProofs.kids. induction (seq 0 arity); simpl; constructor; auto.
  Qed.

  (** [opn h base L n]: in the block [base, base + arity^h) of a tree that stores
      the keys below [L], all free slots can be reached without meeting a
      forgotten subtree. *)
  Fixpoint opn (h base L : nat) (n : node) : Prop :=
    if base + arity ^ h <=? L then True
    else if L <=? base then n = Empty
    else match h with
         | 0 => False
         | S h' => exists v cs, n = Branch v cs /\ length cs = arity /\
                   forall d, d < arity -> exists c, nth_error cs d = Some c /\
                             opn h' (base + d * arity ^ h') L c
         end.

  Lemma opn_eq h base L n :
    opn h base L n =
    if base + arity ^ h <=? L then True
    else if L <=? base then n = Empty
    else match h with
         | 0 => False
         | S h' => exists v cs, n = Branch v cs /\ length cs = arity /\
                   forall d, d < arity -> exists c, nth_error cs d = Some c /\
                             opn h' (base + d * arity ^ h') L c
         end.
  Proof. destruct h; reflexivity. Qed.

  Lemma opn_full h base L n : base + arity ^ h <= L -> opn h base L n.
  Proof.
    intro H. rewrite opn_eq. destruct (Nat.leb_spec (base + arity ^ h) L); auto; lia.
  Qed.

  Lemma opn_free h base L n : L <= base -> opn h base L n <-> n = Empty.
  Proof.
    intro H. rewrite opn_eq. pose proof (pow_pos arity Ha1' h).
    destruct (Nat.leb_spec (base + arity ^ h) L); [lia|].
    destruct (Nat.leb_spec L base); [tauto|lia].
  Qed.

  Lemma opn_branch h base L n :
    base < L < base + arity ^ S h ->
    opn (S h) base L n <->
    exists v cs, n = Branch v cs /\ length cs = arity /\
                 forall d, d < arity -> exists c, nth_error cs d = Some c /\
                           opn h (base + d * arity ^ h) L c.
  Proof.
    intro H. rewrite opn_eq.
    destruct (Nat.leb_spec (base + arity ^ S h) L); [lia|].
    destruct (Nat.leb_spec L base); [lia|]. tauto.
  Qed.

  Lemma opn_branch_intro h base L v cs :
    base < L -> length cs = arity ->
    (forall d c, nth_error cs d = Some c -> opn h (base + d * arity ^ h) L c) ->
    opn (S h) base L (Branch v cs).
  Proof.
    intros HL Hlen H.
    destruct (Nat.le_gt_cases (base + arity ^ S h) L); [apply opn_full; auto|].
    apply opn_branch; [lia|]. exists v, cs. split; [auto|split; [auto|]].
    intros d Hd. destruct (nth_error cs d) as [c|] eqn:Hc.
    - exists c; split; auto.
    - apply nth_error_None in Hc. lia.
  Qed.

  Lemma canon_above xs h base :
    length xs <= base -> canon (klist xs) h base = Empty.
  Proof.
    intro H. apply is_empty_eq. apply is_empty_canon; auto.
    intros i Hi. unfold klist. apply nth_error_None. lia.
  Qed.

  Lemma canon_nonempty xs h base :
    base < length xs ->
    canon (klist xs) (S h) base =
    Branch (digest (map value (kids (klist xs) h base))) (kids (klist xs) h base).
  Proof.
    intro H. rewrite canon_S.
    destruct (forallb is_empty (kids (klist xs) h base)) eqn:Hf; [|reflexivity].
    exfalso. assert (G : is_empty (canon (klist xs) (S h) base) = true)
      by (rewrite canon_S, Hf; reflexivity).
    rewrite is_empty_canon in G by auto. specialize (G base).
    pose proof (pow_pos arity Ha1' (S h)).
    unfold klist in G. rewrite nth_error_None in G. lia.
  Qed.

  (** The canonical tree of a list is open. *)
  Lemma canon_opn xs h base : opn h base (length xs) (canon (klist xs) h base).
  Proof.
    revert base; induction h as [|h IH]; intro base.
    - destruct (Nat.le_gt_cases (length xs) base).
      + apply opn_free; auto. apply canon_above; auto.
      + apply opn_full. simpl; lia.
    - destruct (Nat.le_gt_cases (length xs) base).
      + apply opn_free; auto. apply canon_above; auto.
      + rewrite canon_nonempty by auto.
        apply opn_branch_intro; auto; [apply kids_length|].
        intros d c Hc. rewrite kids_nth in Hc.
        destruct (d <? arity); [|discriminate]. injection Hc as <-. apply IH.
  Qed.

  (** ** Appending *)

  (** What the preparation step before each child may do: it may forget children
      left of the frontier (when [b] is set) and nothing else. *)
  Definition touch_ok (b : bool) (touch : list node -> nat -> list node) : Prop :=
    forall cs f, length (touch cs f) = length cs /\
      forall j, nth_error (touch cs f) j = nth_error cs j \/
                (b = true /\ j < f /\ exists c, nth_error cs j = Some c /\
                 is_forgotten c = false /\ nth_error (touch cs f) j = Some (Forgotten (value c))).

  Lemma touch_ok_id b : touch_ok b (fun cs _ => cs).
  Proof. intros cs f; split; auto. Qed.

  Lemma touch_ok_forget_left : touch_ok true (forget_left T0).
  Proof. clear Ha.
    intros cs [|f]; simpl; [split; auto|].
    destruct (nth_error cs f) as [c|] eqn:Hc; [|split; auto].
    destruct (is_forgotten c) eqn:Hf; [split; auto|].
    split; [apply set_nth_length|]. intro j.
    destruct (Nat.eq_dec f j) as [<-|Hn].
    - right. split; [auto|split; [lia|]]. exists c. split; [auto|split; [auto|]].
      apply nth_error_set_nth_eq. apply nth_error_Some. congruence.
    - left. apply nth_error_set_nth_neq; auto.
  Qed.

  Lemma touch_rel b touch cs cs' f :
    touch_ok b touch -> Forall2 (rel b) cs cs' -> Forall2 (rel b) (touch cs f) cs'.
  Proof.
    intros Ht H. destruct (Ht cs f) as [Hl Hj].
    apply Forall2_nth in H as [Hl' H]. apply Forall2_nth. split; [congruence|].
    intros i x y Hx Hy. destruct (Hj i) as [Hi|(Hb & Hi & c & Hc & _ & Hx')].
    - rewrite Hi in Hx. eauto.
    - rewrite Hx' in Hx. injection Hx as <-.
      specialize (H _ _ _ Hc Hy). rewrite (rel_value _ _ _ H). constructor; auto.
  Qed.

  Lemma klist_app_agree (xs ys : list E) i :
    i < length xs \/ length xs + length ys <= i ->
    klist xs i = klist (xs ++ ys) i.
  Proof. clear Ha.
    unfold klist. intros [H|H].
    - rewrite nth_error_app1; auto.
    - rewrite (proj2 (nth_error_None _ _)) by lia.
      symmetry. apply nth_error_None. rewrite app_length. lia.
  Qed.

  Notation extend_gen := (extend_gen T0 digest digest_leaf arity).

  Definition extend_post (b : bool) (h base : nat) (xs data : list E)
             (n' : node) (k : nat) (rest : list E) : Prop :=
    k = Nat.min (base + arity ^ h - length xs) (length data) /\
    rest = skipn k data /\
    rel b n' (canon (klist (xs ++ firstn k data)) h base) /\
    opn h base (length xs + k) n'.

  Definition extend_spec (b : bool) (touch : list node -> nat -> list node)
             (path : list nat) (h : nat) : Prop :=
    forall base xs n af data,
      rel b n (canon (klist xs) h base) ->
      opn h base (length xs) n ->
      base <= length xs < base + arity ^ h ->
      h <= length path ->
      (af = true -> good_path path (length xs) h /\ base = blk arity (length xs) h) ->
      (af = false -> length xs = base) ->
      exists n' k rest,
        extend_gen touch h n (length xs) path af data = Ok (n', k, rest) /\
        extend_post b h base xs data n' k rest.

  Lemma extend_loop_ok b touch path h :
    touch_ok b touch -> extend_spec b touch path h -> h <= length path ->
    forall base af tp data fuel fr xs cs cnt,
      fuel + fr = arity ->
      Forall2 (rel b) cs (kids (klist xs) h base) ->
      (forall d c, nth_error cs d = Some c -> opn h (base + d * arity ^ h) (length xs) c) ->
      (fr < arity /\ base + fr * arity ^ h <= length xs < base + fr * arity ^ h + arity ^ h \/
       length xs = base + fr * arity ^ h) ->
      (af = true -> tp <= fr) ->
      (af && (fr =? tp) = true ->
         good_path path (length xs) h /\ base + fr * arity ^ h = blk arity (length xs) h) ->
      (af && (fr =? tp) = false -> length xs = base + fr * arity ^ h) ->
      exists cs' k,
        extend_loop (fun c p af d => extend_gen touch h c p path af d) touch af tp
                    fuel fr cs (length xs) cnt data = Ok (cs', cnt + k, skipn k data) /\
        k = Nat.min (base + arity ^ S h - length xs) (length data) /\
        Forall2 (rel b) cs' (kids (klist (xs ++ firstn k data)) h base) /\
        (forall d c, nth_error cs' d = Some c ->
                     opn h (base + d * arity ^ h) (length xs + k) c).
  Proof.
    intros Ht Hrec Hpath base af tp data fuel.
    pose proof (pow_pos arity Ha1' h) as HP.
    revert data. induction fuel as [|fuel IH]; intros data fr xs cs cnt Hfu Hrel Hopn Hpos Htp Haf Hnaf.
    - (* no child left *)
      assert (fr = arity) by lia. subst fr.
      assert (HL : length xs = base + arity ^ S h).
      { rewrite Nat.pow_succ_r'. lia. }
      exists cs, 0. rewrite HL, Nat.sub_diag. simpl Nat.min. rewrite !Nat.add_0_r.
      split; [destruct data; reflexivity|].
      split; [reflexivity|]. simpl firstn. rewrite app_nil_r. split; auto.
      rewrite <- HL. auto.
    - destruct data as [|e data].
      { exists cs, 0. rewrite Nat.min_0_r, !Nat.add_0_r. simpl firstn. rewrite app_nil_r.
        split; [reflexivity|]. auto. }
      set (D := e :: data) in *.
      assert (Hfr : fr < arity) by lia.
      cbn [extend_loop].
      change (match D with [] => Ok (cs, cnt, D) | _ :: _ => _ end) with
        (let cs1 := touch cs fr in
         let* c := index cs1 fr in
         let* r := extend_gen touch h c (length xs) path (af && (fr =? tp)) D in
         let '(c', inc, data') := r in
         @extend_loop E T (fun c p af d => extend_gen touch h c p path af d) touch af tp fuel (S fr)
                      (set_nth cs1 fr c') (length xs + inc) (cnt + inc) data').
      cbv zeta.
      assert (Hlk : length cs = arity).
      { apply Forall2_nth in Hrel as [Hl _]. rewrite kids_length in Hl. auto. }
      destruct (Ht cs fr) as [Hl1 Hj1].
      pose proof (touch_rel b touch cs _ fr Ht Hrel) as Hrel1.
      set (cs1 := touch cs fr) in *.
      destruct (nth_error cs1 fr) as [c|] eqn:Hc;
        [|apply nth_error_None in Hc; lia].
      unfold index. rewrite Hc. cbn [bind].
      assert (Hc0 : nth_error cs fr = Some c).
      { destruct (Hj1 fr) as [Hi|(_ & Hi & _)]; [congruence|lia]. }
      assert (Hrc : rel b c (canon (klist xs) h (base + fr * arity ^ h))).
      { apply Forall2_nth in Hrel1 as [_ Hr]. eapply Hr; eauto.
        rewrite kids_nth. destruct (Nat.ltb_spec fr arity); auto; lia. }
      destruct (Hrec (base + fr * arity ^ h) xs c (af && (fr =? tp)) D) as
        (c' & k & rest & Hex & Hk & Hrest & Hrel' & Hopn').
      + auto.
      + apply Hopn; auto.
      + lia.
      + auto.
      + auto.
      + auto.
      + rewrite Hex. cbn [bind].
        set (xs1 := xs ++ firstn k D) in *.
        assert (Hlen1 : length xs1 = length xs + k).
        { unfold xs1. rewrite app_length, firstn_length. lia. }
        rewrite <- Hlen1.
        assert (HkS : k = length (firstn k D)) by (rewrite firstn_length; lia).
        assert (HrelN : Forall2 (rel b) (set_nth cs1 fr c') (kids (klist xs1) h base)).
        { (* related to the new canonical children *)
          apply Forall2_nth. split; [rewrite set_nth_length, kids_length; lia|].
          intros i x y Hx Hy. rewrite kids_nth in Hy.
          destruct (Nat.ltb_spec i arity); [|discriminate]. injection Hy as <-.
          rewrite nth_error_set_nth in Hx.
          destruct (Nat.eqb_spec fr i) as [<-|Hne].
          { destruct (Nat.ltb_spec fr (length cs1)); [|lia]. simpl in Hx.
            injection Hx as <-. auto. }
          simpl in Hx. apply Forall2_nth in Hrel1 as [_ Hr].
          replace (canon (klist xs1) h (base + i * arity ^ h))
            with (canon (klist xs) h (base + i * arity ^ h)).
          { eapply Hr; eauto. rewrite kids_nth. destruct (Nat.ltb_spec i arity); auto; lia. }
          apply canon_ext; auto. intros q Hq. apply klist_app_agree.
          rewrite <- HkS.
          assert (i < fr \/ fr < i) as [Hi|Hi] by lia; [left|right]; nia. }
        assert (HopnN : forall d x, nth_error (set_nth cs1 fr c') d = Some x ->
                        opn h (base + d * arity ^ h) (length xs1) x).
        { intros d x Hx. rewrite Hlen1. rewrite nth_error_set_nth in Hx.
          destruct (Nat.eqb_spec fr d) as [<-|Hne].
          { destruct (Nat.ltb_spec fr (length cs1)); [|lia]. simpl in Hx.
            injection Hx as <-. auto. }
          simpl in Hx.
          assert (d < fr \/ fr < d) as [Hi|Hi] by lia.
          { apply opn_full. nia. }
          destruct (Hj1 d) as [Hd|(_ & Hd & _)]; [|lia].
          rewrite Hd in Hx. specialize (Hopn _ _ Hx).
          rewrite opn_free in Hopn by nia. apply opn_free; [nia|auto]. }
        destruct (Nat.le_gt_cases (length D) (base + fr * arity ^ h + arity ^ h - length xs)) as [Hd|Hd].
        * (* the data is exhausted *)
          assert (HkD : k = length D) by lia.
          assert (Hr0 : rest = []) by (rewrite Hrest, HkD; apply skipn_all).
          exists (set_nth cs1 fr c'), k. subst rest. rewrite Hr0.
          split; [destruct fuel; reflexivity|].
          split; [rewrite Nat.pow_succ_r'; nia|].
          split; [exact HrelN|]. rewrite <- Hlen1. exact HopnN.
        * (* this child is now full *)
          destruct (IH rest (S fr) xs1 (set_nth cs1 fr c') (cnt + k)) as
            (cs' & k' & Hl' & Hk' & Hrel'' & Hopn''); auto.
          -- lia.
          -- right. rewrite Hlen1. simpl. lia.
          -- intro Hb. apply andb_prop in Hb as [Hb1 Hb2]. apply Nat.eqb_eq in Hb2.
             specialize (Htp Hb1). lia.
          -- intros _. rewrite Hlen1. simpl. lia.
          -- assert (Hrl : length rest = length D - k) by (rewrite Hrest, skipn_length; auto).
             exists cs', (k + k'). rewrite Hl'.
             rewrite Hrest, skipn_skipn, (Nat.add_comm k' k), !Nat.add_assoc.
             split; [reflexivity|].
             split; [rewrite Nat.pow_succ_r' in *; nia|].
             replace (xs ++ firstn (k + k') D) with (xs1 ++ firstn k' rest).
             ++ split; [exact Hrel''|]. rewrite <- Hlen1. exact Hopn''.
             ++ unfold xs1. rewrite <- app_assoc. f_equal.
                rewrite Hrest. rewrite <- (firstn_skipn k D) at 3.
                rewrite firstn_app. rewrite <- HkS.
                replace (k + k' - k) with k' by lia. f_equal.
                rewrite firstn_firstn. f_equal. lia.
  Qed.

  Lemma extend_gen_ok b touch path : touch_ok b touch -> forall h, extend_spec b touch path h.
  Proof.
    intros Ht. induction h as [|h IH];
      intros base xs n af data Hrel Hopn HL Hpath Haf Hnaf.
    - assert (Hb : length xs = base) by (simpl in HL; lia).
      apply opn_free in Hopn; [|lia]. subst n.
      destruct data as [|e data]; cbn [MerkleModel.extend_gen].
      + exists Empty, 0, []. split; [reflexivity|]. unfold extend_post.
        rewrite Nat.min_0_r. simpl firstn. rewrite app_nil_r, Nat.add_0_r.
        split; [auto|split; [auto|split; [auto|]]]. apply opn_free; auto; lia.
      + exists (Leaf (digest_leaf (length xs) e) (length xs) e), 1, data.
        split; [reflexivity|]. unfold extend_post.
        split; [simpl; lia|]. split; [reflexivity|]. split.
        * simpl. unfold klist. rewrite nth_error_app2 by lia.
          rewrite Hb, Nat.sub_diag. simpl. constructor.
        * apply opn_full. simpl; lia.
    - destruct data as [|e data].
      { exists n, 0, []. split; [destruct n; reflexivity|]. unfold extend_post.
        rewrite Nat.min_0_r. simpl firstn. rewrite app_nil_r, Nat.add_0_r. auto. }
      set (D := e :: data).
      assert (Hn : exists cs, (n = Empty /\ cs = repeat Empty arity \/ exists v, n = Branch v cs) /\
                   Forall2 (rel b) cs (kids (klist xs) h base) /\
                   (forall d c, nth_error cs d = Some c -> opn h (base + d * arity ^ h) (length xs) c)).
      { destruct (Nat.eq_dec (length xs) base) as [Hb|Hb].
        - apply opn_free in Hopn; [|lia]. subst n. exists (repeat Empty arity).
          split; [auto|]. split.
          + rewrite kids_repeat.
            * clear. induction arity; simpl; constructor; auto. constructor.
            * rewrite canon_above in Hrel by lia. rewrite forallb_nth.
              intros i x Hx. rewrite kids_nth in Hx. destruct (i <? arity); [|discriminate].
              injection Hx as <-. rewrite canon_above by lia. reflexivity.
          + intros d c Hc. rewrite nth_error_repeat_full in Hc.
            destruct (d <? arity); [|discriminate]. injection Hc as <-.
            apply opn_free; auto; lia.
        - apply opn_branch in Hopn; [|lia]. destruct Hopn as (v & cs & -> & Hl & Hd).
          exists cs. split; [eauto|]. split.
          + rewrite canon_nonempty in Hrel by lia. inversion Hrel; auto.
          + intros d c Hc. assert (Hda : d < arity).
            { rewrite <- Hl. apply nth_error_Some. congruence. }
            destruct (Hd d Hda) as (c1 & Hc1 & Ho). congruence. }
      destruct Hn as (cs & Hn & Hrel' & Hopn').
      assert (Htp : exists tp, nth_error path h = Some tp).
      { destruct (nth_error path h) eqn:Hp; eauto. apply nth_error_None in Hp. lia. }
      destruct Htp as [tp Htp].
      assert (Hdig : af = true -> tp = digit arity (length xs) h).
      { intro Hf. destruct (Haf Hf) as [Hg _]. specialize (Hg h ltac:(lia)). congruence. }
      destruct (extend_loop_ok b touch path h Ht IH ltac:(lia) base af tp D
                  (arity - (if af then tp else 0)) (if af then tp else 0) xs cs 0) as
        (cs' & k & Hex & Hk & Hr & Ho); auto.
      + destruct af; [|lia]. rewrite Hdig by auto.
        pose proof (digit_lt arity Ha1' (length xs) h). lia.
      + destruct af.
        * left. destruct (Haf eq_refl) as [_ Hb]. rewrite Hdig by auto.
          pose proof (digit_lt arity Ha1' (length xs) h).
          pose proof (blk_step arity Ha1' (length xs) h).
          pose proof (blk_le arity Ha1' (length xs) h).
          pose proof (blk_lt arity Ha1' (length xs) h). lia.
        * right. rewrite Hnaf by auto. lia.
      + intro; subst af; auto.
      + intro Hb. apply andb_prop in Hb as [Hb1 _]. subst af.
        destruct (Haf eq_refl) as [Hg Hb]. split; [apply good_path_S; auto|].
        rewrite Hdig, Hb by auto. apply blk_step; auto.
      + destruct af; simpl.
        * rewrite Nat.eqb_refl. discriminate.
        * intros _. rewrite Hnaf by auto. lia.
      + exists (Branch (digest_branch T0 digest cs') cs'), k, (skipn k D).
        split.
        * destruct Hn as [[-> ->]|[v ->]]; cbn [MerkleModel.extend_gen];
            unfold D; unfold index; rewrite Htp; cbn [bind]; fold D; rewrite Hex; reflexivity.
        * split; [auto|]. split; [auto|].
          assert (Hk1 : 1 <= k) by (rewrite Hk; unfold D; simpl length; lia).
          assert (Hlen : length (xs ++ firstn k D) = length xs + k).
          { rewrite app_length, firstn_length. lia. }
          split.
          -- rewrite canon_nonempty by lia. unfold digest_branch.
             rewrite (rel_values _ _ _ Hr). constructor. auto.
          -- apply opn_branch_intro; auto; [lia|].
             apply Forall2_nth in Hr as [Hl _]. rewrite kids_length in Hl. auto.
  Qed.

  Lemma extend_loop_cons rec touch af tp fuel fr (cs : list node) pos cnt e data :
    1 <= fuel ->
    @extend_loop E T rec touch af tp fuel fr cs pos cnt (e :: data) =
    let cs1 := touch cs fr in
    let* c := index cs1 fr in
    let* r := rec c pos (af && (fr =? tp)) (e :: data) in
    let '(c', inc, data') := r in
    extend_loop rec touch af tp (fuel - 1) (S fr) (set_nth cs1 fr c') (pos + inc) (cnt + inc) data'.
  Proof. clear Ha. intro H. destruct fuel; [lia|]. simpl Nat.sub. rewrite Nat.sub_0_r. reflexivity. Qed.

  (** Appending to a full tree: the frontier path wraps around to the first leaf
      (or to a forgotten subtree on the way), nothing is written. *)
  Lemma extend_gen_full b touch path xs :
    (forall cs, touch cs 0 = cs) ->
    forall h base n pos e data,
      rel b n (canon (klist xs) h base) ->
      base + arity ^ h <= length xs ->
      (forall i, i < h -> nth_error path i = Some 0) ->
      extend_gen touch h n pos path true (e :: data) = Err ExistingLeaf \/
      (b = true /\ extend_gen touch h n pos path true (e :: data) = Err ForgottenLeaf).
  Proof.
    intro Ht. induction h as [|h IH]; intros base n pos e data Hrel HL Hp.
    - assert (Hk : exists x, klist xs base = Some x).
      { unfold klist. destruct (nth_error xs base) eqn:Hx; eauto.
        apply nth_error_None in Hx. simpl in HL. lia. }
      destruct Hk as [x Hx]. cbn [MerkleSpec.canon] in Hrel. rewrite Hx in Hrel.
      inversion Hrel; subst; [left; reflexivity|]. right. split; reflexivity.
    - pose proof (pow_pos arity Ha1' (S h)) as HP. rewrite canon_nonempty in Hrel by lia.
      inversion Hrel; subst; [|right; split; reflexivity].
      cbn [MerkleModel.extend_gen]. unfold index. rewrite (Hp h) by lia. cbn [bind].
      rewrite Nat.sub_0_r. rewrite extend_loop_cons by lia. cbv zeta. rewrite Ht.
      match goal with H : Forall2 (rel b) ?cs _ |- _ => rename H into HF; set (l := cs) in * end.
      pose proof HF as HF'. apply Forall2_nth in HF' as [Hl Hf]. rewrite kids_length in Hl.
      destruct (nth_error l 0) as [c|] eqn:Hc; [|apply nth_error_None in Hc; lia].
      unfold index. rewrite Hc. cbn [bind andb]. rewrite Nat.eqb_refl. cbv beta.
      change (MerkleModel.extend_gen T0 digest digest_leaf arity touch h c pos path true (e :: data))
        with (extend_gen touch h c pos path true (e :: data)).
      destruct (IH base c pos e data) as [He|[Hb He]].
      + specialize (Hf 0 c (canon (klist xs) h (base + 0 * arity ^ h)) Hc).
        rewrite kids_nth in Hf. destruct (Nat.ltb_spec 0 arity); [|lia].
        specialize (Hf eq_refl). rewrite Nat.mul_0_l, Nat.add_0_r in Hf. auto.
      + rewrite Nat.pow_succ_r' in HL. pose proof (pow_pos arity Ha1' h). nia.
      + intros; apply Hp; lia.
      + left. rewrite He. reflexivity.
      + right. split; auto. rewrite He. reflexivity.
  Qed.

  Lemma full_path_zero h i : i < h -> digit arity (arity ^ h) i = 0.
  Proof.
    intro Hi. unfold digit. replace h with (i + S (h - i - 1)) by lia.
    rewrite Nat.pow_add_r, Nat.mul_comm, Nat.div_mul by (pose proof (pow_pos arity Ha1' i); lia).
    rewrite Nat.pow_succ_r', Nat.mul_comm. apply Nat.mod_mul. lia.
  Qed.

  (** ** Bulk construction *)

  Definition mk_ok (b : bool) (mk : nat -> E -> node) : Prop :=
    forall p e, rel b (mk p e) (Leaf (digest_leaf p e) p e).
  Definition post_ok (b : bool) (post : list node -> list node) : Prop :=
    forall l, length (post l) = length l /\
      forall j, nth_error (post l) j = nth_error l j \/
                (b = true /\ S j < length l /\ exists c, nth_error l j = Some c /\
                 nth_error (post l) j = Some (Forgotten (value c))).

  (** All nodes of one level of the tree under construction. *)
  Definition level (b : bool) (xs : list E) (j : nat) (cur : list node) : Prop :=
    (forall i c, nth_error cur i = Some c ->
                 i * arity ^ j < length xs /\
                 rel b c (canon (klist xs) j (i * arity ^ j)) /\
                 opn j (i * arity ^ j) (length xs) c) /\
    (forall i, i * arity ^ j < length xs -> i < length cur).

  Lemma level_post b post xs j cur :
    post_ok b post -> level b xs j cur -> level b xs j (post cur).
  Proof.
    intros Hp [H1 H2]. destruct (Hp cur) as [Hl Hj]. split.
    - intros i c Hc. destruct (Hj i) as [Hi|(Hb & Hi & c0 & Hc0 & Hc')].
      + rewrite Hi in Hc. eauto.
      + rewrite Hc' in Hc. injection Hc as <-. destruct (H1 _ _ Hc0) as (Ha0 & Hr & Ho).
        split; auto. split.
        * rewrite (rel_value _ _ _ Hr). constructor; auto.
        * apply opn_full.
          destruct (nth_error cur (S i)) as [c1|] eqn:Hc1;
            [|apply nth_error_None in Hc1; lia].
          apply H1 in Hc1 as (Hlt & _). nia.
    - intros i Hi. rewrite Hl. auto.
  Qed.

  Lemma chunk_nth {A} (l : list A) n i d :
    d < n -> nth_error (firstn n (skipn (i * n) l)) d = nth_error l (i * n + d).
  Proof.
    intro H. rewrite nth_error_firstn_full, nth_error_skipn_full.
    destruct (Nat.ltb_spec d n); auto; lia.
  Qed.

  Lemma pad_nth (l : list node) d :
    length l <= arity -> d < arity ->
    nth_error (pad_empty arity l) d =
    match nth_error l d with Some c => Some c | None => Some Empty end.
  Proof.
    intros Hl Hd. unfold pad_empty. destruct (nth_error l d) eqn:Hc.
    - rewrite nth_error_app1; auto. apply nth_error_Some; congruence.
    - apply nth_error_None in Hc. rewrite nth_error_app2 by auto.
      apply nth_error_repeat_lt. lia.
  Qed.

  Lemma pad_length (l : list node) : length l <= arity -> length (pad_empty arity l) = arity.
  Proof. intro H. unfold pad_empty. rewrite app_length, repeat_length. lia. Qed.

  Lemma level_up b xs j cur :
    level b xs j cur ->
    level b xs (S j) (map (branch_of T0 digest arity) (chunks arity cur)).
  Proof.
    intros [H1 H2]. pose proof (pow_pos arity Ha1' j) as HP.
    assert (HB : forall i, i * arity ^ S j = (i * arity) * arity ^ j)
      by (intro i; rewrite Nat.pow_succ_r'; lia).
    split.
    - intros i c Hc. rewrite nth_error_map, chunks_nth in Hc by auto.
      destruct (Nat.ltb_spec (i * arity) (length cur)) as [Hi|]; [|discriminate].
      injection Hc as <-.
      destruct (nth_error cur (i * arity)) as [c0|] eqn:Hc0;
        [|apply nth_error_None in Hc0; lia].
      pose proof (proj1 (H1 _ _ Hc0)) as Hlt. rewrite <- HB in Hlt.
      split; [auto|].
      set (ch := firstn arity (skipn (i * arity) cur)).
      assert (Hch : length ch <= arity) by (unfold ch; rewrite firstn_length; lia).
      assert (Hpad : forall d c, nth_error (pad_empty arity ch) d = Some c ->
                d < arity /\
                rel b c (canon (klist xs) j (i * arity ^ S j + d * arity ^ j)) /\
                opn j (i * arity ^ S j + d * arity ^ j) (length xs) c).
      { intros d c Hc. assert (Hd : d < arity).
        { rewrite <- (pad_length ch Hch). apply nth_error_Some. congruence. }
        split; [auto|].
        rewrite pad_nth in Hc by auto. unfold ch in Hc. rewrite chunk_nth in Hc by auto.
        rewrite HB, <- Nat.mul_add_distr_r.
        destruct (nth_error cur (i * arity + d)) as [c1|] eqn:Hc1.
        - injection Hc as <-. apply H1 in Hc1. tauto.
        - injection Hc as <-. apply nth_error_None in Hc1.
          assert (length xs <= (i * arity + d) * arity ^ j).
          { destruct (Nat.le_gt_cases (length xs) ((i * arity + d) * arity ^ j)); auto.
            specialize (H2 _ H). lia. }
          split; [rewrite canon_above by auto; constructor|].
          apply opn_free; auto. }
      assert (HF : Forall2 (rel b) (pad_empty arity ch) (kids (klist xs) j (i * arity ^ S j))).
      { apply Forall2_nth. split; [rewrite pad_length, kids_length; auto|].
        intros d x y Hx Hy. apply Hpad in Hx as (Hd & Hr & _).
        rewrite kids_nth in Hy. destruct (Nat.ltb_spec d arity); [|lia].
        injection Hy as <-. auto. }
      unfold branch_of. split.
      + rewrite canon_nonempty by auto. unfold digest_branch.
        rewrite (rel_values _ _ _ HF). constructor. auto.
      + apply opn_branch_intro; auto; [apply pad_length; auto|].
        intros d c Hc. apply Hpad in Hc. tauto.
    - intros i Hi. rewrite map_length. apply nth_error_Some.
      rewrite chunks_nth by auto. rewrite HB in Hi. apply H2 in Hi.
      destruct (Nat.ltb_spec (i * arity) (length cur)); [discriminate|lia].
  Qed.

  Lemma chunks_map {A B} (f : A -> B) n (l : list A) :
    1 <= n -> chunks n (map f l) = map (map f) (chunks n l).
  Proof.
    intro Hn. apply list_ext; intro i. rewrite nth_error_map, !chunks_nth by auto.
    rewrite map_length. destruct (_ <? _); auto. simpl. f_equal.
    rewrite skipn_map, firstn_map. reflexivity.
  Qed.

  Lemma level_first b mk xs :
    mk_ok b mk -> level b xs 1 (first_level T0 digest arity mk xs).
  Proof.
    intro Hmk. unfold first_level.
    rewrite <- (map_map (map (fun pe => mk (fst pe) (snd pe))) (branch_of T0 digest arity)).
    rewrite <- chunks_map by auto. apply level_up. unfold enumerate. split.
    - intros i c Hc. rewrite nth_error_map, combine_seq_nth in Hc.
      destruct (nth_error xs i) as [x|] eqn:Hx; [|discriminate].
      injection Hc as <-. simpl. rewrite Nat.mul_1_r.
      assert (i < length xs) by (apply nth_error_Some; congruence).
      split; [auto|]. split.
      + unfold klist. rewrite Hx. apply Hmk.
      + apply (opn_full 0). simpl. lia.
    - intros i Hi. simpl in Hi. rewrite map_length, combine_length, seq_length. lia.
  Qed.

  Lemma level_levels b post xs :
    post_ok b post ->
    forall r j cur, level b xs j cur ->
                    level b xs (r + j) (up_levels T0 digest arity post r cur).
  Proof.
    intro Hp. induction r as [|r IH]; intros j cur H; simpl; auto.
    replace (S (r + j)) with (r + S j) by lia. apply IH.
    apply level_post; auto. apply level_up; auto.
  Qed.

  Lemma min_height_ok n : forall fuel h,
    n <= fuel + arity ^ h ->
    let H := min_height arity fuel h (arity ^ h) n in
    n <= arity ^ H /\ h <= H /\ (forall h', h <= h' < H -> arity ^ h' < n).
  Proof.
    induction fuel as [|fuel IH]; intros h Hf; simpl.
    - split; [auto|]. split; [auto|]. intros; lia.
    - destruct (Nat.ltb_spec (arity ^ h) n) as [Hlt|Hge].
      + rewrite (Nat.mul_comm (arity ^ h)), <- Nat.pow_succ_r'.
        destruct (IH (S h)) as (H1 & H2 & H3).
        { rewrite Nat.pow_succ_r'. pose proof (pow_pos arity Ha1' h). nia. }
        split; [auto|]. split; [lia|]. intros h' Hh'.
        destruct (Nat.eq_dec h h') as [<-|]; auto. apply H3. lia.
      + split; [auto|]. split; [auto|]. intros; lia.
  Qed.

  Definition the_height (oh : option nat) (n : nat) : nat :=
    match oh with Some h => h | None => min_height arity n 0 1 n end.

  Lemma build_gen_ok b mk post oh xs :
    mk_ok b mk -> post_ok b post ->
    if arity ^ the_height oh (length xs) <? length xs
    then build_gen T0 digest digest_leaf arity mk post oh xs = Err ExceedCapacity
    else exists n, build_gen T0 digest digest_leaf arity mk post oh xs
                   = Ok (n, the_height oh (length xs), length xs) /\
                   rel b n (canon (klist xs) (the_height oh (length xs)) 0) /\
                   opn (the_height oh (length xs)) 0 (length xs) n.
  Proof.
    intros Hmk Hpost. unfold build_gen. fold (the_height oh (length xs)).
    set (H := the_height oh (length xs)).
    destruct (Nat.ltb_spec (arity ^ H) (length xs)) as [|Hcap]; [reflexivity|].
    destruct xs as [|e xs].
    { exists Empty. split; [reflexivity|]. split.
      - rewrite canon_above by (simpl; lia). constructor.
      - apply opn_free; simpl; auto. }
    set (l := e :: xs) in *. destruct H as [|r].
    { exists (Leaf (digest_leaf 0 e) 0 e). simpl in Hcap.
      split; [destruct xs; [reflexivity|unfold l in Hcap; simpl in Hcap; lia]|]. split.
      - simpl. constructor.
      - apply opn_full. simpl. lia. }
    assert (HL : level b l (S r) (up_levels T0 digest arity post r
                                    (post (first_level T0 digest arity mk l)))).
    { replace (S r) with (r + 1) by lia. apply level_levels; auto.
      apply level_post; auto. apply level_first; auto. }
    destruct HL as [HL1 HL2]. specialize (HL2 0).
    destruct (nth_error (up_levels T0 digest arity post r
                                    (post (first_level T0 digest arity mk l))) 0) as [n|] eqn:Hn.
    - unfold index. rewrite Hn. exists n. split; [reflexivity|].
      apply HL1 in Hn. tauto.
    - apply nth_error_None in Hn. assert (G : 0 * arity ^ S r < length l) by (simpl length; lia).
      specialize (HL2 G). lia.
  Qed.

  Lemma mk_ok_leaf : mk_ok false (@mk_leaf E T digest_leaf).
  Proof. intros p e. constructor. Qed.

  Lemma mk_ok_forget k :
    mk_ok true (fun p e => if p <? k then Forgotten (digest_leaf p e) else mk_leaf digest_leaf p e).
  Proof. clear Ha.
    intros p e. destruct (p <? k); [|constructor].
    apply (rel_forgotten true (Leaf (digest_leaf p e) p e)). reflexivity.
  Qed.

  Lemma post_ok_id b : post_ok b (fun l => l).
  Proof. intro l; split; auto. Qed.

  Lemma post_ok_forget : post_ok true (forget_inner T0).
  Proof. clear Ha.
    intro l. unfold forget_inner, enumerate. split.
    - rewrite map_length, combine_length, seq_length. lia.
    - intro j. rewrite nth_error_map, combine_seq_nth.
      destruct (nth_error l j) as [c|] eqn:Hc; [|left; reflexivity].
      cbn [option_map]. change (0 + j) with j.
      destruct ((1 <=? j) && (j <? length l - 1)) eqn:Hj; [|left; reflexivity].
      right. apply andb_prop in Hj as [_ Hj]. apply Nat.ltb_lt in Hj.
      split; [reflexivity|]. split; [lia|]. exists c. split; reflexivity.
  Qed.
End Append.
