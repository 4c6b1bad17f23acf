(** Refinement of the Reed-Solomon model: decoding is polynomial interpolation. *)
From Coq Require Import List Arith Lia Bool Field Permutation.
From Verif Require Import Base ListAux Alg Poly RSModel.
Import ListNotations.

Section RSProofs.
  Variable K : fld.
  Local Open Scope fld_scope.
  Add Field KfieldRS : (fth K).

  Lemma nth_set_nth {A} (l : list A) i j a d : nth j (set_nth l i a) d =
    if (i =? j) && (j <? length l) then a else nth j l d.
  Proof.
    revert i j. induction l as [|x l IH]; intros i j; [destruct i, j; simpl; rewrite ?andb_false_r; auto|].
    destruct i, j; simpl; auto. rewrite IH.
    destruct (i =? j); simpl; auto.
  Qed.

  (** *** Products of linear factors *)
  Lemma coef_pmul_lin z (q : list K) k : coef (pmul [- z; 1] q) k =
    match k with O => 0 | S k' => coef q k' end - z * coef q k.
  Proof.
    cbn [pmul]. rewrite coef_padd, coef_pscale. destruct k.
    - unfold coef at 2. simpl. ring.
    - rewrite coef_cons_S, coef_padd, coef_pscale. destruct k.
      + unfold coef at 3. simpl. ring.
      + rewrite coef_cons_S, coef_nil. ring.
  Qed.
  Lemma pvanish_perm l l' : Permutation l l' -> peq (@pvanish K l) (pvanish l').
  Proof.
    induction 1.
    - apply peq_refl.
    - intro i. cbn [pvanish]. rewrite !coef_pmul_lin. destruct i; rewrite !IHPermutation; reflexivity.
    - intro i. cbn [pvanish]. rewrite !coef_pmul_lin.
      destruct i as [|[|i]]; rewrite ?coef_pmul_lin; ring.
    - eapply peq_trans; eauto.
  Qed.
  Lemma coef_pvanish_top zs : coef (@pvanish K zs) (length zs) = 1.
  Proof.
    induction zs as [|z zs IH]; [reflexivity|]. cbn [pvanish length]. rewrite coef_pmul_lin, IH.
    rewrite coef_over by (rewrite length_pvanish; lia). ring.
  Qed.

  (** Synthetic division recovers the cofactor. *)
  Lemma coef_pdiv (p : list K) z : forall i, coef (pdiv p z) i = coef p (S i) + z * coef (pdiv p z) (S i).
  Proof.
    induction p as [|c p IH]; intro i; [simpl; rewrite !coef_nil; ring|].
    destruct p as [|d p]; [simpl; rewrite !coef_nil, coef_cons_S, coef_nil; ring|].
    change (pdiv (c :: d :: p) z) with (peval (d :: p) z :: pdiv (d :: p) z).
    rewrite !coef_cons_S. destruct i; [|rewrite !coef_cons_S in *; apply IH].
    unfold coef at 1 2. cbn [nth peval].
    assert (E : forall p, coef (pdiv (d :: p) z) 0 = peval p z).
    { intros [|e p']; [reflexivity|reflexivity]. }
    rewrite E. ring.
  Qed.
  Lemma pdiv_unique (p q : list K) z : peq p (pmul [- z; 1] q) -> peq (pdiv p z) q.
  Proof.
    intros H.
    set (N := max (length p) (length q)).
    assert (G : forall m i, (N <= i + m)%nat -> coef (pdiv p z) i = coef q i).
    { induction m as [|m IH]; intros i Hi.
      - rewrite !coef_over; [reflexivity|lia|rewrite length_pdiv; lia].
      - rewrite coef_pdiv, (IH (S i)) by lia. rewrite H, coef_pmul_lin. ring. }
    intro i. apply (G N). lia.
  Qed.

  (** *** The in-place loops *)
  Lemma l_inner_loop xi m : forall (l : list K) k, (m < length l)%nat ->
    nth k (fold_left (l_inner xi) (rev (seq 1 m)) l) 0 =
    if (1 <=? k) && (k <=? m) then nth (k - 1) l 0 - xi * nth k l 0 else nth k l 0.
  Proof.
    induction m as [|m IH]; intros l k Hm.
    - simpl. destruct k; reflexivity.
    - rewrite seq_S, rev_app_distr. cbn [rev app fold_left Nat.add].
      rewrite IH by (unfold l_inner; rewrite set_nth_length; lia).
      unfold l_inner. rewrite !nth_set_nth.
      repeat match goal with |- context [?a =? ?b] => destruct (Nat.eqb_spec a b) end;
      repeat match goal with |- context [?a <=? ?b] => destruct (Nat.leb_spec a b) end;
      repeat match goal with |- context [?a <? ?b] => destruct (Nat.ltb_spec a b) end;
      simpl; try lia; try reflexivity; subst; reflexivity.
  Qed.
  Lemma l_inner_loop_length xi m : forall (l : list K),
    length (fold_left (l_inner xi) m l) = length l.
  Proof. induction m as [|j m IH]; intro l; simpl; auto. rewrite IH. apply set_nth_length. Qed.

  Lemma l_step_length x (l : list K) i : length (l_step x l i) = length l.
  Proof. unfold l_step. rewrite set_nth_length, l_inner_loop_length, set_nth_length. reflexivity. Qed.

  Lemma l_step_spec x (l q : list K) i : (1 <= i)%nat -> (i < length l)%nat ->
    length q = i -> coef q (i - 1) = 1 ->
    (forall k, nth k l 0 = coef q k) ->
    forall k, nth k (l_step x l i) 0 = coef (pmul [- nth (i - 1) x 0; 1] q) k.
  Proof.
    intros Hi Hl Hq Htop Heq k. unfold l_step. set (xi := nth (i - 1) x 0).
    rewrite coef_pmul_lin, nth_set_nth, l_inner_loop_length, set_nth_length.
    rewrite !l_inner_loop by (rewrite set_nth_length; lia).
    destruct (Nat.eqb_spec 0 k) as [<-|Hk].
    - replace (0 <? length l) with true by (symmetry; apply Nat.ltb_lt; lia). simpl.
      rewrite nth_set_nth. destruct (Nat.eqb_spec i 0); [lia|]. simpl. rewrite Heq. ring.
    - simpl. destruct k as [|k]; [lia|]. replace (1 <=? S k) with true by reflexivity. cbn [andb].
      rewrite !nth_set_nth. rewrite !Heq. replace (S k - 1)%nat with k by lia.
      destruct (Nat.leb_spec (S k) (i - 1)).
      + destruct (Nat.eqb_spec i k); [lia|]. destruct (Nat.eqb_spec i (S k)); [lia|].
        simpl. reflexivity.
      + destruct (Nat.eqb_spec i (S k)) as [E|E]; cbn [andb].
        * replace (S k <? length l) with true by (symmetry; apply Nat.ltb_lt; lia).
          replace k with (i - 1)%nat by lia. rewrite Htop.
          rewrite (coef_over _ q (S (i - 1))) by lia. ring.
        * rewrite (coef_over _ q (S k)), (coef_over _ q k) by lia. ring.
  Qed.

  Lemma l_poly_spec x n : (n <= length x)%nat ->
    peq (l_poly x n) (@pvanish K (firstn n x)) /\ length (l_poly x n) = S n.
  Proof.
    intro Hn. unfold l_poly.
    assert (G : forall m, (m <= n)%nat ->
       let l := fold_left (l_step x) (seq 1 m) (set_nth (repeat 0 (n + 1)) 0 1) in
       length l = S n /\ forall k, nth k l 0 = coef (pvanish (rev (firstn m x))) k).
    { induction m as [|m IH]; intro Hm.
      - simpl. split; [rewrite set_nth_length, repeat_length; lia|].
        intro k. rewrite nth_set_nth, repeat_length. unfold coef. cbn [pvanish].
        destruct k as [|k]; simpl.
        + destruct (Nat.ltb_spec 0 (n + 1)); [reflexivity|lia].
        + rewrite nth_repeat. destruct k; reflexivity.
      - rewrite seq_S, fold_left_app. cbn [fold_left]. destruct (IH ltac:(lia)) as [IHl IHc].
        split; [rewrite l_step_length; auto|].
        intro k. rewrite (l_step_spec x _ (pvanish (rev (firstn m x)))); auto; try lia.
        + replace (1 + m - 1)%nat with m by lia. f_equal.
          assert (E : firstn (S m) x = firstn m x ++ [nth m x 0]).
          { clear -Hm Hn. assert (Hl : (m < length x)%nat) by lia. clear Hm Hn. revert x Hl.
            induction m as [|m IH]; intros [|a x] Hl; simpl in *; try lia; auto.
            rewrite (IH x) at 1 by lia. reflexivity. }
          rewrite E, rev_app_distr. reflexivity.
        + rewrite length_pvanish, rev_length, firstn_length. lia.
        + replace (1 + m - 1)%nat with (length (rev (firstn m x))).
          * apply coef_pvanish_top.
          * rewrite rev_length, firstn_length. lia. }
    destruct (G n ltac:(lia)) as [Gl Gc]. split; [|exact Gl].
    eapply peq_trans; [|apply pvanish_perm; symmetry; apply Permutation_rev].
    intro k. apply Gc.
  Qed.

  Lemma li_loop (l : list K) xi m : forall li k, (m < length li)%nat ->
    nth k (fold_left (fun li j => set_nth li j (nth (j + 1) l 0 + xi * nth (j + 1) li 0))
      (rev (seq 0 m)) li) 0 =
    if (k <? m)%nat then
      nth (k + 1) l 0 + xi * nth (k + 1) (fold_left (fun li j => set_nth li j (nth (j + 1) l 0 + xi * nth (j + 1) li 0))
      (rev (seq 0 m)) li) 0
    else nth k li 0.
  Proof.
    induction m as [|m IH]; intros li k Hm; [reflexivity|].
    rewrite seq_S, rev_app_distr. cbn [rev app fold_left Nat.add].
    set (li' := set_nth li m _).
    assert (Hl : (m < length li')%nat) by (unfold li'; rewrite set_nth_length; lia).
    rewrite (IH li' k Hl).
    destruct (Nat.ltb_spec k m).
    - destruct (Nat.ltb_spec k (S m)); [reflexivity|lia].
    - destruct (Nat.ltb_spec k (S m)).
      + assert (k = m) by lia. subst k. rewrite (IH li' (m + 1)%nat Hl).
        destruct (Nat.ltb_spec (m + 1) m); [lia|].
        unfold li'. rewrite !nth_set_nth, Nat.eqb_refl. destruct (Nat.ltb_spec m (length li)); [|lia].
        cbn [andb]. destruct (Nat.eqb_spec m (m + 1)); [lia|]. reflexivity.
      + unfold li'. rewrite nth_set_nth. destruct (Nat.eqb_spec m k); [lia|]. reflexivity.
  Qed.
  Lemma li_loop_length (l : list K) xi js : forall li,
    length (fold_left (fun li j => set_nth li j (nth (j + 1) l 0 + xi * nth (j + 1) li 0)) js li) = length li.
  Proof. induction js; intro li; simpl; auto. rewrite IHjs. apply set_nth_length. Qed.
  Lemma length_li_poly (l : list K) xi n : length (li_poly l xi n) = n.
  Proof. unfold li_poly. rewrite li_loop_length, set_nth_length, repeat_length. reflexivity. Qed.

  (** The inner loop of the accumulation is synthetic division. *)
  Lemma li_poly_spec (l : list K) xi n : (1 <= n)%nat -> length l = S n -> coef l n = 1 ->
    peq (li_poly l xi n) (pdiv l xi).
  Proof.
    intros Hn Hl Htop.
    assert (G : forall m i, (n <= i + m)%nat -> coef (li_poly l xi n) i = coef (pdiv l xi) i).
    { induction m as [|m IH]; intros i Hi.
      - rewrite !coef_over; [reflexivity|rewrite length_pdiv; lia|rewrite length_li_poly; lia].
      - rewrite coef_pdiv, <- (IH (S i)) by lia. unfold coef at 1. unfold li_poly at 1.
        rewrite li_loop by (rewrite set_nth_length, repeat_length; lia).
        destruct (Nat.ltb_spec i (n - 1)).
        + replace (i + 1)%nat with (S i) by lia. reflexivity.
        + rewrite nth_set_nth, repeat_length, nth_repeat.
          rewrite (coef_over _ (li_poly l xi n) (S i)) by (rewrite length_li_poly; lia).
          destruct (Nat.eqb_spec (n - 1) i); cbn [andb].
          * destruct (Nat.ltb_spec i n); [|lia]. replace (S i) with n by lia. rewrite Htop. ring.
          * rewrite coef_over by lia. ring. }
    intro i. apply (G n). lia.
  Qed.

  (** *** Weights *)
  Lemma weight_loop_ok (x : list K) i js : forall ret,
    (forall j, In j js -> j <> i -> nth i x 0 <> nth j x 0) ->
    weight_loop x i js ret =
    Ok (ret / fprod (map (fun j => if i =? j then 1 else nth i x 0 - nth j x 0) js)).
  Proof.
    induction js as [|j js IH]; intros ret Hd; cbn [weight_loop map].
    - f_equal. unfold fprod. simpl. field. apply f1_neq_0.
    - rewrite fprod_cons. destruct (Nat.eqb_spec i j) as [E|E].
      + rewrite IH by (intros; apply Hd; [right|]; auto). f_equal.
        replace (1 * fprod (map (fun j0 => if i =? j0 then 1 else nth i x 0 - nth j0 x 0) js))
          with (fprod (map (fun j0 => if i =? j0 then 1 else nth i x 0 - nth j0 x 0) js)) by ring.
        reflexivity.
      + assert (Hn : nth i x 0 <> nth j x 0) by (apply Hd; [left|]; auto).
        assert (Hn' : nth i x 0 - nth j x 0 <> 0) by (intro G; apply fsub_0_eq in G; auto).
        replace (feqb (nth i x 0 - nth j x 0) 0) with false by (symmetry; apply feqb_neq; auto).
        rewrite IH by (intros; apply Hd; [right|]; auto). f_equal.
        assert (Hp : fprod (map (fun j0 => if i =? j0 then 1 else nth i x 0 - nth j0 x 0) js) <> 0).
        { apply fprod_neq_0. intros y Hy. apply in_map_iff in Hy as (j0 & <- & Hj0).
          destruct (Nat.eqb_spec i j0) as [E'|E']; [apply f1_neq_0|].
          intro G. apply fsub_0_eq in G. apply (Hd j0); [right|..]; auto. }
        field. auto.
  Qed.
  Lemma weight_loop_dup (x : list K) i j js : forall ret,
    In j js -> i <> j -> nth i x 0 = nth j x 0 ->
    exists j', weight_loop x i js ret = Err (Duplicate i j').
  Proof.
    induction js as [|k js IH]; intros ret Hin Hij He; [destruct Hin|]. cbn [weight_loop].
    destruct (Nat.eqb_spec i k) as [E|E].
    - destruct Hin as [Hin|Hin]; [congruence|]. eapply IH; eauto.
    - destruct (feqb (nth i x 0 - nth k x 0) 0) eqn:Hz; [eauto|].
      destruct Hin as [<-|Hin]; [|eapply IH; eauto].
      exfalso. apply feqb_neq in Hz. apply Hz. rewrite He. ring.
  Qed.
  Lemma weight_loop_result (x : list K) i js : forall ret,
    (exists w, weight_loop x i js ret = Ok w) \/
    (exists j, weight_loop x i js ret = Err (Duplicate i j) /\ i <> j /\ In j js /\ nth i x 0 = nth j x 0).
  Proof.
    induction js as [|k js IH]; intros ret; cbn [weight_loop]; [eauto|].
    destruct (Nat.eqb_spec i k) as [E|E].
    - destruct (IH ret) as [?|(j & H & Hj & Hin & Hx)]; [auto|right; exists j; simpl; auto].
    - destruct (feqb (nth i x 0 - nth k x 0) 0) eqn:Hz.
      + right. exists k. apply feqb_eq in Hz. apply fsub_0_eq in Hz. simpl; auto.
      + destruct (IH (ret / (nth i x 0 - nth k x 0))) as [?|(j & H & Hj & Hin & Hx)];
          [auto|right; exists j; simpl; auto].
  Qed.

  Definition weight (x : list K) (n i : nat) : K :=
    1 / fprod (map (fun j => if i =? j then 1 else nth i x 0 - nth j x 0) (seq 0 n)).

  Lemma map_res_ok {X A B} (f : A -> outcome X B) (g : A -> B) l :
    (forall a, In a l -> f a = Ok (g a)) -> map_res f l = Ok (map g l).
  Proof.
    induction l as [|a l IH]; intro H; [reflexivity|]. cbn [map_res map].
    rewrite (H a) by (left; auto). cbn [bind]. rewrite IH by (intros; apply H; right; auto). reflexivity.
  Qed.
  Lemma weights_ok (x : list K) n : NoDup (firstn n x) -> (n <= length x)%nat ->
    weights x n = Ok (map (weight x n) (seq 0 n)).
  Proof.
    intros Hnd Hn. apply map_res_ok. intros i Hi. apply in_seq in Hi.
    rewrite weight_loop_ok; [reflexivity|]. intros j Hj Hji E. apply in_seq in Hj. apply Hji.
    apply (proj1 (NoDup_nth (firstn n x) 0) Hnd); rewrite ?firstn_length; try lia.
    rewrite <- (firstn_skipn n x) in E. rewrite !app_nth1 in E by (rewrite firstn_length; lia). auto.
  Qed.
  Lemma map_res_err {X A B} (f : A -> outcome X B) l :
    (forall a, In a l -> (exists b, f a = Ok b) \/ (exists e, f a = Err e)) ->
    (exists a e, In a l /\ f a = Err e) -> exists a e, In a l /\ f a = Err e /\ map_res f l = Err e.
  Proof.
    induction l as [|a l IH]; intros Ht (a0 & e0 & Hin & He); [destruct Hin|]. cbn [map_res].
    destruct (Ht a (or_introl eq_refl)) as [[b Hb]|[e Hb]].
    - destruct Hin as [->|Hin]; [congruence|].
      destruct (IH ltac:(intros; apply Ht; right; auto) (ex_intro _ a0 (ex_intro _ e0 (conj Hin He))))
        as (a' & e' & Hin' & Hf & Hm).
      exists a', e'. rewrite Hb. cbn [bind]. rewrite Hm. simpl. auto.
    - exists a, e. rewrite Hb. simpl; auto.
  Qed.

  (** *** Decoding *)
  Lemma fprod_skip (f : nat -> K) n i : (i < n)%nat ->
    fprod (map (fun j => if i =? j then 1 else f j) (seq 0 n)) =
    fprod (map f (seq 0 i)) * fprod (map f (seq (S i) (n - S i))).
  Proof.
    intro Hi. replace n with (i + (1 + (n - S i)))%nat at 1 by lia.
    rewrite !seq_app, !map_app, !fprod_app. cbn [seq map Nat.add]. rewrite Nat.eqb_refl.
    rewrite (fprod_map_ext K (fun j => if i =? j then 1 else f j) f (seq 0 i)).
    2: { intros j Hj. apply in_seq in Hj. destruct (Nat.eqb_spec i j); [lia|reflexivity]. }
    rewrite (fprod_map_ext K (fun j => if i =? j then 1 else f j) f (seq (i + 1) (n - S i))).
    2: { intros j Hj. apply in_seq in Hj. destruct (Nat.eqb_spec i j); [lia|reflexivity]. }
    replace (i + 1)%nat with (S i) by lia. unfold fprod at 2. simpl. ring.
  Qed.
  Lemma map_nth_seq (x : list K) s m : (s + m <= length x)%nat ->
    map (fun j => nth j x 0) (seq s m) = firstn m (skipn s x).
  Proof.
    intro H. apply list_ext. intro i.
    destruct (Nat.lt_ge_cases i m) as [Hi|Hi].
    - rewrite nth_error_firstn_full. replace (i <? m) with true by (symmetry; apply Nat.ltb_lt; auto).
      rewrite nth_error_skipn_full. erewrite map_nth_error.
      2: { rewrite nth_error_seq. replace (i <? m) with true by (symmetry; apply Nat.ltb_lt; auto). reflexivity. }
      symmetry. apply nth_error_nth'. lia.
    - rewrite !(proj2 (nth_error_None _ _)); auto; rewrite ?map_length, ?seq_length, ?firstn_length; lia.
  Qed.

  Lemma weight_lag (x : list K) n i : (i < n)%nat -> length x = n ->
    weight x n i = 1 / lag_den x i.
  Proof.
    intros Hi Hx. unfold weight, lag_den, lag_num. f_equal.
    rewrite peval_pvanish, map_app, fprod_app.
    rewrite (fprod_skip (fun j => nth i x 0 - nth j x 0)) by auto.
    rewrite <- (map_map (fun j => nth j x 0) (fun z => nth i x 0 - z) (seq 0 i)).
    rewrite <- (map_map (fun j => nth j x 0) (fun z => nth i x 0 - z) (seq (S i) _)).
    rewrite !map_nth_seq by lia.
    rewrite (firstn_all2 (skipn (S i) x)) by (rewrite skipn_length; lia). reflexivity.
  Qed.

  Lemma split_nth (x : list K) i : (i < length x)%nat ->
    x = firstn i x ++ nth i x 0 :: skipn (S i) x.
  Proof.
    revert i. induction x as [|a x IH]; intros i Hi; [simpl in Hi; lia|].
    destruct i; [reflexivity|]. simpl. f_equal. apply IH. simpl in Hi. lia.
  Qed.

  (** Each share contributes its Lagrange basis polynomial. *)
  Lemma li_lag (x : list K) n i : (i < n)%nat -> length x = n ->
    peq (li_poly (l_poly x n) (nth i x 0) n) (lag_num x i).
  Proof.
    intros Hi Hx. destruct (l_poly_spec x n ltac:(lia)) as [Hl Hlen].
    rewrite firstn_all2 in Hl by lia.
    eapply peq_trans; [apply li_poly_spec; auto; try lia|].
    - rewrite Hl. rewrite <- Hx. apply coef_pvanish_top.
    - apply pdiv_unique. eapply peq_trans; [exact Hl|].
      apply (pvanish_perm x (nth i x 0 :: (firstn i x ++ skipn (S i) x))).
      rewrite (split_nth x i) at 1 by lia. symmetry. apply Permutation_middle.
  Qed.

  Lemma f_loop (x l w : list K) n : forall iss f, length f = n ->
    length (fold_left (f_step x l w n) iss f) = n /\
    forall k, (k < n)%nat -> nth k (fold_left (f_step x l w n) iss f) 0 =
      nth k f 0 + fsum (map (fun is => nth (fst is) w 0 * snd (snd is) *
                                  nth k (li_poly l (nth (fst is) x 0) n) 0) iss).
  Proof.
    induction iss as [|[i [sx y]] iss IH]; intros f Hf; cbn [fold_left map].
    - split; [auto|]. intros k Hk. unfold fsum. simpl. ring.
    - destruct (IH (f_step x l w n f (i, (sx, y)))) as [IHl IHc].
      { unfold f_step. rewrite map_length, seq_length. reflexivity. }
      split; [exact IHl|]. intros k Hk. rewrite IHc by auto. rewrite fsum_cons. cbn [fst snd].
      unfold f_step at 1.
      rewrite (nth_indep _ 0 (nth 0 f 0 + nth i w 0 * y * nth 0 (li_poly l (nth i x 0) n) 0))
        by (rewrite map_length, seq_length; auto).
      rewrite map_nth with (f := fun j => nth j f 0 + nth i w 0 * y * nth j (li_poly l (nth i x 0) n) 0) (d := 0%nat).
      rewrite seq_nth by auto. cbn [Nat.add]. ring.
  Qed.

  Lemma combine_seq_map {B} (f : nat -> K * K -> B) (l : list (K * K)) :
    map (fun is => f (fst is) (snd is)) (combine (seq 0 (length l)) l) =
    map (fun i => f i (nth i l (0, 0))) (seq 0 (length l)).
  Proof.
    assert (G : forall s l, map (fun is => f (fst is) (snd is)) (combine (seq s (length l)) l) =
      map (fun i => f i (nth (i - s) l (0, 0))) (seq s (length l))).
    { intros s l'. revert s. induction l' as [|a l' IH]; intro s; [reflexivity|].
      cbn [length seq combine map]. rewrite Nat.sub_diag. cbn [nth fst snd]. f_equal.
      rewrite IH. apply map_ext_in. intros i Hi. apply in_seq in Hi.
      replace (i - s)%nat with (S (i - S s)) by lia. reflexivity. }
    rewrite G. apply map_ext_in. intros i Hi. rewrite Nat.sub_0_r. reflexivity.
  Qed.

  Theorem rs_decode_interp (shares : list (K * K)) n :
    (n <= length shares)%nat -> NoDup (map fst (firstn n shares)) ->
    exists f, rs_decode shares n = Ok f /\ length f = n /\
      peq f (interp (map fst (firstn n shares)) (map snd (firstn n shares))).
  Proof.
    intros Hn Hnd. set (sh := firstn n shares) in *. set (x := map fst sh) in *.
    assert (Hsh : length sh = n) by (unfold sh; rewrite firstn_length; lia).
    assert (Hx : length x = n) by (unfold x; rewrite map_length; auto).
    unfold rs_decode. fold sh. fold x. rewrite Hsh, Nat.ltb_irrefl.
    rewrite weights_ok by (rewrite ?firstn_all2 by lia; auto; lia). cbn [bind].
    eexists. split; [reflexivity|].
    destruct (f_loop x (l_poly x n) (map (weight x n) (seq 0 n)) n (combine (seq 0 n) sh) (repeat 0 n))
      as [Hlen Hc]; [apply repeat_length|].
    split; [exact Hlen|]. intro k. destruct (Nat.lt_ge_cases k n) as [Hk|Hk].
    2: { rewrite !coef_over; auto; [|lia]. etransitivity; [apply length_interp|lia]. }
    unfold coef at 1. rewrite Hc, nth_repeat by auto.
    replace (combine (seq 0 n) sh) with (combine (seq 0 (length sh)) sh) by (rewrite Hsh; reflexivity).
    rewrite (combine_seq_map (fun i s => nth i (map (weight x n) (seq 0 n)) 0 * snd s *
       nth k (li_poly (l_poly x n) (nth i x 0) n) 0)). rewrite Hsh.
    unfold interp. rewrite Hx, coef_psum, map_map.
    match goal with |- 0 + ?a = ?b => transitivity a; [ring|] end.
    apply fsum_map_ext. intros i Hi. apply in_seq in Hi.
    rewrite coef_pscale. rewrite <- (li_lag x n i) by (auto; lia). unfold coef.
    replace (nth i (map (weight x n) (seq 0 n)) 0) with (1 / lag_den x i).
    2: { symmetry. rewrite <- (weight_lag x n i) by (auto; lia).
         rewrite (nth_indep _ 0 (weight x n 0)) by (rewrite map_length, seq_length; lia).
         rewrite map_nth, seq_nth by lia. reflexivity. }
    replace (snd (nth i sh (0, 0))) with (nth i (map snd sh) 0).
    2: { change 0 with (snd ((0, 0) : K * K)) at 1. apply map_nth. }
    field. apply lag_den_neq_0; auto. lia.
  Qed.

  Lemma rs_decode_dup (shares : list (K * K)) n :
    (n <= length shares)%nat -> ~ NoDup (map fst (firstn n shares)) ->
    exists i j, rs_decode shares n = Err (Duplicate i j) /\ (i < n)%nat /\ (j < n)%nat /\ i <> j /\
      nth i (map fst shares) 0 = nth j (map fst shares) 0.
  Proof.
    intros Hn Hnd. set (sh := firstn n shares) in *. set (x := map fst sh) in *.
    assert (Hsh : length sh = n) by (unfold sh; rewrite firstn_length; lia).
    assert (Hx : length x = n) by (unfold x; rewrite map_length; auto).
    unfold rs_decode. fold sh. fold x. rewrite Hsh, Nat.ltb_irrefl.
    assert (Hd : exists i j, (i < n)%nat /\ (j < n)%nat /\ i <> j /\ nth i x 0 = nth j x 0).
    { rewrite <- Hx. clear -Hnd. revert Hnd. generalize x as l. clear. intro l.
      induction l as [|a l IH]; intro Hnd; [exfalso; apply Hnd; constructor|].
      destruct (in_dec feq_dec a l) as [Hin|Hin].
      - apply In_nth with (d := 0) in Hin as (k & Hk & E).
        exists 0%nat, (S k). simpl. repeat split; auto; lia.
      - destruct IH as (i & j & Hi & Hj & Hij & E).
        { intro H. apply Hnd. constructor; auto. }
        exists (S i), (S j). simpl. repeat split; auto; lia. }
    destruct Hd as (i & j & Hi & Hj & Hij & E).
    destruct (map_res_err (fun i => weight_loop x i (seq 0 n) 1) (seq 0 n)) as (a & e & Ha & Hf & Hm).
    - intros a Ha. destruct (weight_loop_result x a (seq 0 n) 1) as [?|(k & H & _)]; [auto|right; eauto].
    - destruct (weight_loop_dup x i j (seq 0 n) 1) as [j' Hj']; auto; [apply in_seq; lia|].
      exists i. eexists. split; [apply in_seq; lia|eauto].
    - unfold weights. rewrite Hm. cbn [bind]. apply in_seq in Ha.
      destruct (weight_loop_result x a (seq 0 n) 1) as [[w Hw]|(k & H & Hak & Hk & Hn')]; [congruence|].
      rewrite H in Hf. injection Hf as <-. apply in_seq in Hk. exists a, k.
      repeat split; auto; try lia.
      assert (E' : forall m, (m < n)%nat -> nth m x 0 = nth m (map fst shares) 0).
      { intros m Hm'. unfold x, sh. rewrite <- (firstn_skipn n shares) at 2. rewrite map_app.
        rewrite app_nth1; [reflexivity|]. rewrite map_length, firstn_length. lia. }
      rewrite <- !E' by lia. exact Hn'.
  Qed.

  (** *** Encoding *)
  Lemma share_loop data idx : forall v x,
    fst (fold_left (fun '(value, x) coef => (value + x * coef, x * @fnat K idx)) data (v, x)) =
    v + x * peval data (fnat idx).
  Proof.
    induction data as [|c data IH]; intros v x; cbn [fold_left peval]; [simpl; ring|].
    rewrite IH. ring.
  Qed.
  Lemma share_at_eval (data : list K) idx : share_at data idx = peval data (fnat idx).
  Proof. unfold share_at. rewrite share_loop. ring. Qed.
  Lemma rs_encode_length (data : list K) m : length (rs_encode data m) = (length data + m)%nat.
  Proof. unfold rs_encode. rewrite map_length, seq_length. reflexivity. Qed.
  Lemma rs_encode_nth (data : list K) m i : (1 <= i <= length data + m)%nat ->
    nth (i - 1) (rs_encode data m) 0 = peval data (fnat i).
  Proof.
    intro Hi. unfold rs_encode.
    rewrite (nth_indep _ 0 (share_at data 0)) by (rewrite map_length, seq_length; lia).
    rewrite map_nth, seq_nth by lia. rewrite share_at_eval. f_equal. f_equal. lia.
  Qed.

  (** Decoding recovers the polynomial any distinct-point evaluations come from. *)
  Theorem rs_decode_evals (data : list K) (shares : list (K * K)) :
    (length data <= length shares)%nat ->
    NoDup (map fst (firstn (length data) shares)) ->
    (forall s, In s (firstn (length data) shares) -> snd s = peval data (fst s)) ->
    rs_decode shares (length data) = Ok data.
  Proof.
    intros Hn Hnd He. destruct (rs_decode_interp shares (length data) Hn Hnd) as (f & Hf & Hl & Hp).
    rewrite Hf. f_equal. apply peq_length; [auto|]. eapply peq_trans; [exact Hp|].
    set (sh := firstn (length data) shares) in *.
    assert (Hsh : length sh = length data) by (unfold sh; rewrite firstn_length; lia).
    apply (interp_unique K (map fst sh)); auto.
    - intros r Hr. apply In_nth with (d := 0) in Hr as (k & Hk & <-).
      rewrite interp_spec by auto. rewrite map_length in Hk.
      change (0 : K) with (snd ((0, 0) : K * K)) at 1. rewrite map_nth.
      rewrite He by (apply nth_In; auto).
      change (0 : K) with (fst ((0, 0) : K * K)) at 3. rewrite map_nth. reflexivity.
    - apply length_interp.
    - rewrite map_length. lia.
  Qed.
End RSProofs.
