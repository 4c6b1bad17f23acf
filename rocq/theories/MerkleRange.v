(** Proofs about the Merkle tree model: range lookups and range proofs. *)
From Coq Require Import List Arith Lia Bool.
From Verif Require Import Base ListAux MerkleModel MerkleSpec MerkleProofs MerklePrune MerkleIter.
Import ListNotations.

Section Range.
  Context {E T : Type}.
  Variable Teqb : T -> T -> bool.
  Hypothesis Teqb_eq : forall x y, Teqb x y = true <-> x = y.
  Variable T0 : T.
  Variable digest : list T -> T.
  Variable digest_leaf : nat -> E -> T.
  Variable arity : nat.
  Hypothesis Ha : 2 <= arity.

  Lemma Ha1r : 1 <= arity.
  Proof. lia. Qed.
  Hint Resolve Ha1r : core.

  Notation node := (node E T).
  Notation canon := (canon T0 digest digest_leaf arity).
  Notation value := (value T0).
  Notation kids := (kids T0 digest digest_leaf arity).
  Notation good_path := (good_path arity).
  Notation pow_pos := (pow_pos arity Ha1r).

  (** Value of the [i]-th node of level [j]. *)
  Definition vat (m : kmap E) (j i : nat) : T := value (canon m j (i * arity ^ j)).

  Definition Lside (m : kmap E) (lo j : nat) : list T :=
    map (vat m j) (seq (lo / arity ^ S j * arity) (digit arity lo j)).
  Definition Rside (m : kmap E) (hi j : nat) : list T :=
    map (vat m j) (seq (hi / arity ^ j + 1) (arity - 1 - digit arity hi j)).
  Definition Vrow (m : kmap E) (lo hi j : nat) : list T :=
    map (vat m j) (seq (lo / arity ^ j) (hi / arity ^ j - lo / arity ^ j + 1)).

  Lemma div_digit p j : p / arity ^ j = p / arity ^ S j * arity + digit arity p j.
  Proof.
    unfold digit. rewrite Nat.pow_succ_r', (Nat.mul_comm arity).
    pose proof (pow_pos j). rewrite <- Nat.div_div by lia.
    rewrite (Nat.div_mod (p / arity ^ j) arity) at 1 by lia. lia.
  Qed.

  Lemma kids_values m h i :
    map value (kids m h (i * arity ^ S h)) = map (vat m h) (seq (i * arity) arity).
  Proof.
    unfold MerkleProofs.kids. rewrite map_map.
    replace (seq (i * arity) arity) with (map (fun d => i * arity + d) (seq 0 arity)).
    - rewrite map_map. apply map_ext. intro d. unfold vat. f_equal. f_equal.
      rewrite Nat.pow_succ_r'. lia.
    - apply list_ext. intro k. rewrite nth_error_map_seq.
      destruct (Nat.ltb_spec k arity).
      + rewrite (nth_error_nth' _ 0) by (rewrite seq_length; auto).
        rewrite seq_nth by auto. reflexivity.
      + symmetry. apply nth_error_None. rewrite seq_length. auto.
  Qed.

  Lemma vat_S m h i :
    (exists k, i * arity ^ S h <= k < i * arity ^ S h + arity ^ S h /\ m k <> None) ->
    vat m (S h) i = digest (map (vat m h) (seq (i * arity) arity)).
  Proof.
    intros (k & Hk & Hm). unfold vat at 1. rewrite canon_S.
    destruct (forallb is_empty (kids m h (i * arity ^ S h))) eqn:Hf.
    - exfalso. apply Hm.
      assert (G : is_empty (canon m (S h) (i * arity ^ S h)) = true)
        by (rewrite canon_S, Hf; reflexivity).
      rewrite is_empty_canon in G by auto. auto.
    - cbn [MerkleModel.value]. rewrite kids_values. reflexivity.
  Qed.

  Lemma chunks_map_seq {A} (f : nat -> A) k : forall s,
    chunks arity (map f (seq (s * arity) (k * arity))) =
    map (fun i => map f (seq (i * arity) arity)) (seq s k).
  Proof.
    induction k as [|k IH]; intro s; [reflexivity|].
    replace (S k * arity) with (arity + k * arity) by lia.
    rewrite seq_app, map_app, chunks_app; auto; [|rewrite map_length, seq_length; auto].
    cbn [seq map]. f_equal.
    replace (s * arity + arity) with (S s * arity) by lia. apply IH.
  Qed.

  Lemma div_mono lo hi j : lo <= hi -> lo / arity ^ j <= hi / arity ^ j.
  Proof. intro H. pose proof (pow_pos j). apply Nat.div_le_mono; lia. Qed.

  Lemma row_join m lo hi j :
    lo <= hi ->
    Lside m lo j ++ Vrow m lo hi j ++ Rside m hi j =
    map (vat m j) (seq (lo / arity ^ S j * arity)
                       ((hi / arity ^ S j - lo / arity ^ S j + 1) * arity)).
  Proof.
    intro H. unfold Lside, Vrow, Rside. rewrite <- !map_app. f_equal.
    pose proof (div_mono lo hi j H). pose proof (div_mono lo hi (S j) H).
    pose proof (div_digit lo j) as Hlo. pose proof (div_digit hi j) as Hhi.
    pose proof (digit_lt arity Ha1r lo j). pose proof (digit_lt arity Ha1r hi j).
    rewrite Hlo.
    replace (hi / arity ^ j + 1) with
      (lo / arity ^ S j * arity + digit arity lo j +
       (hi / arity ^ j - (lo / arity ^ S j * arity + digit arity lo j) + 1)) by lia.
    rewrite <- seq_app, <- seq_app. f_equal. nia.
  Qed.

  Lemma range_fold_row m lo hi :
    lo <= hi -> (forall k, lo <= k <= hi -> m k <> None) ->
    forall n j,
    range_fold digest arity
      (combine (map (Lside m lo) (seq j n)) (map (Rside m hi) (seq j n))) (Vrow m lo hi j)
    = Ok (Vrow m lo hi (n + j)).
  Proof.
    intros Hle Hm. induction n as [|n IH]; intro j; [reflexivity|].
    cbn [seq map combine range_fold]. rewrite row_join by auto.
    rewrite map_length, seq_length, Nat.mod_mul by lia. rewrite Nat.eqb_refl.
    rewrite chunks_map_seq, map_map.
    replace (S n + j) with (n + S j) by lia. rewrite <- IH. f_equal.
    unfold Vrow. apply map_ext_in. intros i Hi. apply in_seq in Hi.
    symmetry. apply vat_S.
    pose proof (div_mono lo hi (S j) Hle).
    pose proof (pow_pos (S j)) as HP. set (P := arity ^ S j) in *.
    assert (Hlo : lo / P <= i <= hi / P) by lia.
    pose proof (Nat.div_mod lo P ltac:(lia)). pose proof (Nat.mod_upper_bound lo P ltac:(lia)).
    pose proof (Nat.div_mod hi P ltac:(lia)). pose proof (Nat.mod_upper_bound hi P ltac:(lia)).
    destruct (Nat.eq_dec i (lo / P)) as [->|].
    - exists lo. split; [lia|]. apply Hm; lia.
    - exists (i * P). split; [lia|]. apply Hm. nia.
  Qed.

  (** ** range_lookup on a canonical tree *)
  Definition start_of (lo base : nat) := Nat.max lo base.
  Definition stop_of (hi last : nat) := Nat.min hi last.

  Definition vals_of (m : kmap E) (ks : list nat) (es : list E) : Prop :=
    map Some es = map m ks.

  Lemma seq_join s n1 n2 e : s + n1 = e -> seq s n1 ++ seq e n2 = seq s (n1 + n2).
  Proof. intros <-. symmetry. apply seq_app. Qed.

  (** Specification of the answer for one block. *)
  Definition range_ans (m : kmap E) (h lo hi base : nat) (lb rb : bool) (r : @rres E T) : Prop :=
    let s := start_of lo base in
    let e := stop_of hi (base + arity ^ h - 1) in
    let ks := seq s (S e - s) in
    ((forall k, In k ks -> m k <> None) /\
     exists es, vals_of m ks es /\
     r = LOk (ks, es) (mk_range_proof (if lb then map (Lside m lo) (seq 0 h) else [])
                                      (if rb then map (Rside m hi) (seq 0 h) else [])))
    \/ ((exists k, In k ks /\ m k = None) /\ r = LNotFound tt).

  Lemma range_canon m lo hi lpath rpath H :
    lo <= hi ->
    good_path lpath lo H -> good_path rpath hi H ->
    forall h base lb rb,
      h <= H -> base = blk arity base h ->
      (lb = true -> base = blk arity lo h) -> (lb = false -> lo <= base) ->
      (rb = true -> base = blk arity hi h) -> (rb = false -> base + arity ^ h - 1 <= hi) ->
      exists r, range_lookup_internal T0 h (canon m h base) lpath rpath lb rb = Ok r /\
                range_ans m h lo hi base lb rb r.
  Proof.
    intros Hle Hlp Hrp. induction h as [|h IH]; intros base lb rb HhH Hb Hlb Hlb' Hrb Hrb'.
    - assert (Hks : start_of lo base = base /\ stop_of hi (base + arity ^ 0 - 1) = base).
      { unfold start_of, stop_of. 
        assert (lo <= base).
        { destruct lb; [rewrite (Hlb eq_refl), blk_0; lia|auto]. }
        assert (base <= hi).
        { destruct rb; [rewrite (Hrb eq_refl), blk_0; lia|specialize (Hrb' eq_refl); simpl in *; lia]. }
        simpl. lia. }
      destruct Hks as [Hs He]. unfold range_ans. rewrite Hs, He.
      replace (S base - base) with 1 by lia. cbn [seq].
      cbn [MerkleSpec.canon]. destruct (m base) as [e|] eqn:Hm; cbn [range_lookup_internal].
      + eexists. split; [reflexivity|]. left. split.
        * intros k [<-|[]]. congruence.
        * exists [e]. split; [unfold vals_of; simpl; congruence|].
          destruct lb, rb; reflexivity.
      + eexists. split; [reflexivity|]. right. split; [|reflexivity].
        exists base. split; [left; auto|auto].
    - pose proof (pow_pos h) as HP. pose proof (pow_pos (S h)) as HPS.
      pose proof (Nat.pow_succ_r' arity h) as HPe.
      assert (Hne : start_of lo base <= stop_of hi (base + arity ^ S h - 1)).
      { unfold start_of, stop_of.
        pose proof (blk_le arity Ha1r lo (S h)). pose proof (blk_lt arity Ha1r lo (S h)).
        pose proof (blk_le arity Ha1r hi (S h)). pose proof (blk_lt arity Ha1r hi (S h)).
        destruct lb, rb; try specialize (Hlb eq_refl); try specialize (Hrb eq_refl);
          try specialize (Hlb' eq_refl); try specialize (Hrb' eq_refl); lia. }
      rewrite canon_S. destruct (forallb is_empty (kids m h base)) eqn:Hf.
      { cbn [range_lookup_internal]. eexists. split; [reflexivity|]. right. split; [|reflexivity].
        exists (start_of lo base). split; [apply in_seq; lia|].
        assert (G : is_empty (canon m (S h) base) = true) by (rewrite canon_S, Hf; reflexivity).
        rewrite is_empty_canon in G by auto. apply G.
        unfold start_of, stop_of in *. lia. }
      cbn [range_lookup_internal].
      set (l := if lb then digit arity lo h else 0).
      set (r := if rb then digit arity hi h else arity - 1).
      assert (Hl : (if lb then index lpath h else Ok 0) = @Ok merr nat l).
      { unfold l, index. destruct lb; [|reflexivity]. rewrite (Hlp h) by lia. reflexivity. }
      assert (Hr : (if rb then index rpath h
                    else match length (kids m h base) with 0 => Panic | S k => Ok k end)
                   = @Ok merr nat r).
      { unfold r, index. rewrite kids_length. destruct rb.
        - rewrite (Hrp h) by lia. reflexivity.
        - destruct arity; [lia|]. simpl. rewrite Nat.sub_0_r. reflexivity. }
      rewrite Hl, Hr. cbn [bind].
      assert (Hla : l < arity).
      { unfold l. destruct lb; [apply digit_lt; auto|lia]. }
      assert (Hra : r < arity).
      { unfold r. destruct rb; [apply digit_lt; auto|lia]. }
      (* position of the boundary blocks *)
      assert (HlB : lb = true -> base + l * arity ^ h = blk arity lo h).
      { intro Hx. unfold l. rewrite Hx, (Hlb Hx). apply blk_step; auto. }
      assert (HrB : rb = true -> base + r * arity ^ h = blk arity hi h).
      { intro Hx. unfold r. rewrite Hx, (Hrb Hx). apply blk_step; auto. }
      pose proof (blk_le arity Ha1r lo h). pose proof (blk_lt arity Ha1r lo h).
      pose proof (blk_le arity Ha1r hi h). pose proof (blk_lt arity Ha1r hi h).
      assert (Hstart : base + l * arity ^ h <= start_of lo base < base + l * arity ^ h + arity ^ h).
      { unfold start_of. destruct lb eqn:Hx.
        - rewrite HlB by auto. rewrite (Hlb eq_refl) in *.
          pose proof (blk_le arity Ha1r lo (S h)). lia.
        - unfold l. specialize (Hlb' eq_refl). lia. }
      assert (Hstop : base + r * arity ^ h <= stop_of hi (base + arity ^ S h - 1)
                      < base + r * arity ^ h + arity ^ h).
      { unfold stop_of. destruct rb eqn:Hx.
        - pose proof (blk_lt arity Ha1r hi (S h)). rewrite HrB by auto.
          rewrite <- (Hrb eq_refl) in *. lia.
        - unfold r. specialize (Hrb' eq_refl). nia. }
      assert (Hlr : l <= r) by nia.
      (* the loop *)
      set (rec := fun i => let* c := index (kids m h base) i in
                     range_lookup_internal T0 h c lpath rpath (lb && (i =? l)) (rb && (i =? r))).
      assert (Hrec : forall i, l <= i <= r ->
                exists a, rec i = Ok a /\
                range_ans m h lo hi (base + i * arity ^ h) (lb && (i =? l)) (rb && (i =? r)) a).
      { intros i Hi. unfold rec, index. rewrite kids_nth.
        destruct (Nat.ltb_spec i arity); [|lia]. cbn [bind].
        apply IH.
        - lia.
        - apply block_aligned; auto.
        - intro Hx. apply andb_prop in Hx as [Hx1 Hx2]. apply Nat.eqb_eq in Hx2. subst i. auto.
        - intro Hx. unfold start_of in Hstart.
          destruct lb; [|specialize (Hlb' eq_refl); lia].
          simpl in Hx. apply Nat.eqb_neq in Hx. specialize (HlB eq_refl). nia.
        - intro Hx. apply andb_prop in Hx as [Hx1 Hx2]. apply Nat.eqb_eq in Hx2. subst i. auto.
        - intro Hx. destruct rb; [|specialize (Hrb' eq_refl); nia].
          simpl in Hx. apply Nat.eqb_neq in Hx. specialize (HrB eq_refl). nia. }
      set (s := start_of lo base). set (e := stop_of hi (base + arity ^ S h - 1)).
      set (nxt := fun i => if i <=? l then s else if r <? i then S e else base + i * arity ^ h).
      assert (HstartI : forall i, l <= i <= r -> start_of lo (base + i * arity ^ h) = nxt i).
      { intros i Hi. unfold nxt. destruct (Nat.leb_spec i l).
        - assert (i = l) by lia. subst i. unfold s, start_of in *.
          destruct lb; [specialize (HlB eq_refl); nia|specialize (Hlb' eq_refl); unfold l; lia].
        - destruct (Nat.ltb_spec r i); [lia|]. unfold start_of in *.
          destruct lb; [specialize (HlB eq_refl); nia|specialize (Hlb' eq_refl); nia]. }
      assert (HstopI : forall i, l <= i <= r ->
                S (stop_of hi (base + i * arity ^ h + arity ^ h - 1)) = nxt (S i)).
      { intros i Hi. unfold nxt. destruct (Nat.leb_spec (S i) l); [lia|].
        destruct (Nat.ltb_spec r (S i)).
        - assert (i = r) by lia. subst i. unfold e, stop_of in *.
          destruct rb; [specialize (HrB eq_refl); nia|specialize (Hrb' eq_refl); unfold r; nia].
        - unfold stop_of in *.
          destruct rb; [specialize (HrB eq_refl); nia|specialize (Hrb' eq_refl); nia]. }
      assert (Hmono : forall i, l <= i <= r -> s <= nxt i /\ nxt i <= nxt (S i) /\ nxt (S i) <= S e).
      { intros i Hi. rewrite <- HstartI, <- HstopI by auto. unfold s, e, start_of, stop_of in *.
        destruct lb, rb; try specialize (HlB eq_refl); try specialize (HrB eq_refl);
          try specialize (Hlb' eq_refl); try specialize (Hrb' eq_refl); nia. }
      (* loop invariant *)
      assert (Loop : forall k i acc_i acc_e pf,
        i + k = S r -> l <= i ->
        acc_i = seq s (nxt i - s) -> vals_of m acc_i acc_e ->
        (forall q, In q acc_i -> m q <> None) ->
        lbound pf = (if lb && (l <? i) then map (Lside m lo) (seq 0 h) else []) ->
        rbound pf = (if rb && (r <? i) then map (Rside m hi) (seq 0 h) else []) ->
        exists res, range_loop rec l r lb rb (seq i k) acc_i acc_e pf = Ok res /\
         (((forall q, In q (seq s (S e - s)) -> m q <> None) /\
           exists es, vals_of m (seq s (S e - s)) es /\
           res = LOk (seq s (S e - s), es)
                     (mk_range_proof (if lb then map (Lside m lo) (seq 0 h) else [])
                                     (if rb then map (Rside m hi) (seq 0 h) else [])))
          \/ ((exists q, In q (seq s (S e - s)) /\ m q = None) /\ res = LNotFound tt))).
      { induction k as [|k IHk]; intros i acc_i acc_e pf Hik Hli Hai Hae Hap Hlbd Hrbd.
        - (* finished *)
          cbn [seq range_loop]. eexists. split; [reflexivity|]. left.
          assert (Hi : i = S r) by lia. subst i.
          assert (Hn : nxt (S r) = S e).
          { unfold nxt. destruct (Nat.leb_spec (S r) l); [lia|].
            destruct (Nat.ltb_spec r (S r)); lia. }
          rewrite Hn in Hai. rewrite <- Hai. split; [auto|].
          exists acc_e. split; [auto|]. f_equal.
          destruct pf as [pl pr]. cbn [lbound rbound] in *. subst pl pr.
          destruct (Nat.ltb_spec l (S r)); [|lia]. destruct (Nat.ltb_spec r (S r)); [|lia].
          rewrite !andb_true_r. reflexivity.
        - assert (Hi : l <= i <= r) by lia.
          cbn [seq range_loop].
          destruct (Hrec i Hi) as (a & Hra' & Hans). rewrite Hra'. cbn [bind].
          specialize (HstartI i Hi). specialize (HstopI i Hi). specialize (Hmono i Hi).
          destruct Hans as [[Hall (es & Hes & ->)]|[(q & Hq & Hqm) ->]].
          + unfold start_of in HstartI. unfold stop_of in HstopI.
            unfold start_of, stop_of in Hall, Hes |- *. rewrite HstartI, HstopI in *.
            apply IHk; [lia|lia| | | | |].
            * rewrite Hai. rewrite seq_join by lia. f_equal. lia.
            * unfold vals_of in *. rewrite !map_app, Hae, Hes. reflexivity.
            * intros q Hq. apply in_app_or in Hq as [Hq|Hq]; auto.
            * destruct pf as [pl pr]. cbn [lbound rbound] in *.
              destruct (Nat.ltb_spec l (S i)); [|lia]. rewrite andb_true_r.
              destruct lb; cbn [andb] in *; [|destruct (rb && (i =? r)); cbn [lbound]; auto].
              destruct (Nat.eqb_spec i l) as [->|Hil].
              -- destruct (rb && (l =? r)); reflexivity.
              -- destruct (Nat.ltb_spec l i); [|lia].
                 destruct (rb && (i =? r)); cbn [lbound]; auto.
            * destruct pf as [pl pr]. cbn [lbound rbound] in *.
              destruct rb; cbn [andb] in *;
                [|destruct (lb && (i =? l)); cbn [rbound]; auto].
              destruct (Nat.eqb_spec i r) as [->|Hir].
              -- cbn [rbound]. destruct (Nat.ltb_spec r (S r)); [|lia]. reflexivity.
              -- destruct (Nat.ltb_spec r (S i)); [lia|].
                 destruct (Nat.ltb_spec r i); [lia|].
                 destruct (lb && (i =? l)); cbn [rbound]; auto.
          + eexists. split; [reflexivity|]. right. split; [|reflexivity].
            exists q. split; [|auto].
            unfold start_of in HstartI. unfold stop_of in HstopI.
            unfold start_of, stop_of in Hq. rewrite HstartI, HstopI in Hq.
            apply in_seq in Hq. apply in_seq. lia. }
      destruct (Loop (S r - l) l [] [] (mk_range_proof [] [])) as (res & Hres & Hcase).
      { lia. }
      { lia. }
      { unfold nxt. rewrite Nat.leb_refl, Nat.sub_diag. reflexivity. }
      { reflexivity. }
      { intros q []. }
      { cbn [lbound]. rewrite Nat.ltb_irrefl, andb_false_r. reflexivity. }
      { cbn [rbound]. destruct (Nat.ltb_spec r l); [lia|]. rewrite andb_false_r. reflexivity. }
      fold rec. rewrite Hres. cbn [bind]. unfold range_ans. fold s. fold e.
      destruct Hcase as [[Hall (es & Hes & ->)]|[Hmiss ->]];
        [|eexists; split; [reflexivity|]; right; auto].
      eexists. split; [reflexivity|]. left. split; [auto|]. exists es. split; [auto|].
      f_equal. rewrite !seq_S, !map_app. cbn [map plus].
      assert (Hbase : exists q, base = q * arity ^ S h).
      { unfold blk in Hb. eauto. }
      destruct Hbase as [q Hq].
      assert (HLs : lb = true -> map value (firstn l (kids m h base)) = Lside m lo h).
      { intro Hx. rewrite <- firstn_map, Hq, kids_values. unfold Lside.
        replace (lo / arity ^ S h) with q.
        - rewrite firstn_map. f_equal. unfold l. rewrite Hx.
          pose proof (digit_lt arity Ha1r lo h).
          rewrite firstn_seq. f_equal. lia.
        - specialize (Hlb Hx). unfold blk in Hlb. rewrite Hq in Hlb.
          apply Nat.mul_cancel_r in Hlb; lia. }
      assert (HRs : rb = true -> map value (skipn (S r) (kids m h base)) = Rside m hi h).
      { intro Hx. rewrite <- skipn_map, Hq, kids_values. unfold Rside.
        rewrite (div_digit hi h).
        replace (hi / arity ^ S h) with q.
        - rewrite skipn_map. f_equal. unfold r. rewrite Hx.
          pose proof (digit_lt arity Ha1r hi h).
          rewrite skipn_seq. f_equal; lia.
        - specialize (Hrb Hx). unfold blk in Hrb. rewrite Hq in Hrb.
          apply Nat.mul_cancel_r in Hrb; lia. }
      destruct lb, rb; cbn [lbound rbound]; rewrite ?HLs, ?HRs by reflexivity; reflexivity.
  Qed.

  (** Completeness at the top. *)
  Lemma range_top m lo hi H :
    lo <= hi -> hi < arity ^ H ->
    exists r, range_lookup_internal T0 H (canon m H 0) (to_traversal_path arity lo H)
                (to_traversal_path arity hi H) true true = Ok r /\
      (((forall k, lo <= k <= hi -> m k <> None) /\
        exists es, map Some es = map m (seq lo (S hi - lo)) /\
        exists pf, r = LOk (seq lo (S hi - lo), es) pf /\
        verify_merkle_range_proof Teqb digest digest_leaf arity (value (canon m H 0))
          (seq lo (S hi - lo)) es pf = Ok true)
       \/ ((exists k, lo <= k <= hi /\ m k = None) /\ r = LNotFound tt)).
  Proof.
    intros Hle Hhi.
    destruct (range_canon m lo hi (to_traversal_path arity lo H) (to_traversal_path arity hi H) H
                Hle (good_path_top _ Ha1r lo H) (good_path_top _ Ha1r hi H) H 0 true true)
      as (r & Hr & Hans); auto; try discriminate.
    - unfold blk. rewrite Nat.div_0_l by (pose proof (pow_pos H); lia). reflexivity.
    - intros _. rewrite blk_small; auto; lia.
    - intros _. rewrite blk_small; auto.
    - exists r. split; [exact Hr|].
      unfold range_ans in Hans. unfold start_of, stop_of in Hans.
      rewrite Nat.max_0_r, Nat.min_l in Hans by lia.
      destruct Hans as [[Hall (es & Hes & ->)]|[(k & Hk & Hm) ->]].
      + left. assert (Hall' : forall k, lo <= k <= hi -> m k <> None).
        { intros k Hk. apply Hall. apply in_seq. lia. }
        split; [exact Hall'|]. exists es. split; [exact Hes|]. eexists. split; [reflexivity|].
        unfold vals_of in Hes.
        assert (Hlen : length es = S hi - lo).
        { rewrite <- (map_length Some), Hes, map_length, seq_length. reflexivity. }
        unfold verify_merkle_range_proof. rewrite seq_length, Hlen, Nat.eqb_refl. cbn [negb lbound rbound].
        replace (map (fun ie => digest_leaf (fst ie) (snd ie)) (combine (seq lo (S hi - lo)) es))
          with (Vrow m lo hi 0).
        * rewrite (range_fold_row m lo hi Hle Hall'). cbn [bind].
          rewrite Nat.add_0_r. unfold Vrow. rewrite !Nat.div_small by lia.
          cbn [minus plus seq map]. unfold vat. rewrite Nat.mul_0_l.
          f_equal. apply Teqb_eq. reflexivity.
        * unfold Vrow. rewrite Nat.pow_0_r, !Nat.div_1_r.
          replace (hi - lo + 1) with (S hi - lo) by lia.
          apply list_ext. intro i. rewrite !nth_error_map.
          assert (Hc : forall (A B : Type) (l1 : list A) (l2 : list B) i,
                     nth_error (combine l1 l2) i =
                     match nth_error l1 i, nth_error l2 i with
                     | Some x, Some y => Some (x, y) | _, _ => None end).
          { clear. intros A B. induction l1 as [|x l1 IH]; intros l2 i.
            - destruct i; reflexivity.
            - destruct l2 as [|y l2].
              + destruct i; simpl; [reflexivity|]. destruct (nth_error l1 i); reflexivity.
              + destruct i; simpl; auto. }
          rewrite Hc. apply (f_equal (fun l => nth_error l i)) in Hes. rewrite !nth_error_map in Hes.
          destruct (nth_error (seq lo (S hi - lo)) i) as [k|] eqn:Hk; [|reflexivity].
          cbn [option_map] in *. destruct (nth_error es i) as [x|]; [|discriminate].
          cbn [option_map fst snd] in *. injection Hes as Hes.
          unfold vat. rewrite Nat.pow_0_r, Nat.mul_1_r. cbn [MerkleSpec.canon].
          rewrite <- Hes. reflexivity.
      + right. split; [|reflexivity]. apply in_seq in Hk. exists k. split; [lia|auto].
  Qed.

  (** ** Soundness of range proofs *)

  (** Hash queries made by the range verifier. *)
  Fixpoint range_queries (lr : list (list T * list T)) (values : list T) : list (hquery E T) :=
    match lr with
    | [] => []
    | (l, r) :: rest =>
        let ch := chunks arity (l ++ values ++ r) in
        map QNode ch ++ range_queries rest (map digest ch)
    end.
  Definition leaf_queries (indices : list nat) (elements : list E) : list (hquery E T) :=
    map (fun ie => QLeaf (fst ie) (snd ie)) (combine indices elements).
  Definition verify_range_queries (indices : list nat) (elements : list E)
             (pf : @range_proof T) : list (hquery E T) :=
    leaf_queries indices elements ++
    range_queries (combine (lbound pf) (rbound pf))
                  (map (fun ie => digest_leaf (fst ie) (snd ie)) (combine indices elements)).

  Notation tree_query := (tree_query T0).
  Notation hash := (hash T0 digest digest_leaf).

  (** A row of consecutive nodes of one level of the tree with root [rt]. *)
  Definition is_row (m : kmap E) (rt : node) (row : list T) : Prop :=
    exists level s, row = map (vat m level) (seq s (length row)) /\
      forall i q, s <= i < s + length row ->
                  tree_query (canon m level (i * arity ^ level)) q -> tree_query rt q.

  Lemma concat_chunks {A} n (l : list A) : 1 <= n -> concat (chunks n l) = l.
  Proof.
    intro Hn. assert (G : forall k (l : list A), length l <= k -> concat (chunks n l) = l).
    { induction k as [|k IH]; intros l0 Hk.
      - destruct l0; [reflexivity|simpl in Hk; lia].
      - destruct l0 as [|x l0]; [reflexivity|].
        rewrite chunks_cons by (auto; discriminate). cbn [concat].
        rewrite IH; [apply firstn_skipn|]. rewrite skipn_length. simpl length in *. lia. }
    apply (G (length l)); auto.
  Qed.

  Lemma concat_blocks {A} (f : nat -> A) n : forall s,
    concat (map (fun i => map f (seq (i * arity) arity)) (seq s n)) =
    map f (seq (s * arity) (n * arity)).
  Proof.
    induction n as [|n IH]; intro s; [reflexivity|].
    cbn [seq map concat]. rewrite IH, <- map_app. f_equal.
    replace (S n * arity) with (arity + n * arity) by lia. rewrite seq_app. f_equal. f_equal. lia.
  Qed.

  Lemma row_infix m rt l row r :
    is_row m rt (l ++ row ++ r) -> is_row m rt row.
  Proof.
    intros (level & s & Heq & Hq). exists level, (s + length l). split.
    - apply (f_equal (fun x => firstn (length row) (skipn (length l) x))) in Heq.
      rewrite skipn_app, skipn_all, Nat.sub_diag in Heq. cbn [skipn app] in Heq.
      rewrite firstn_app, firstn_all, Nat.sub_diag in Heq. cbn [firstn] in Heq.
      rewrite app_nil_r in Heq. rewrite Heq at 1.
      rewrite skipn_map, firstn_map, skipn_seq, firstn_seq. f_equal. f_equal.
      rewrite !app_length. lia.
    - intros i q Hi. apply Hq. rewrite !app_length. lia.
  Qed.

  Lemma fold_down m rt :
    forall lr values final,
      (forall q1 q2, tree_query rt q1 -> In q2 (range_queries lr values) ->
                     hash q1 = hash q2 -> q1 = q2) ->
      range_fold digest arity lr values = Ok final ->
      is_row m rt final -> is_row m rt values.
  Proof.
    induction lr as [|[l r] lr IH]; intros values final Hnc Hf Hrow.
    - injection Hf as <-. auto.
    - cbn [range_fold] in Hf.
      destruct (length (l ++ values ++ r) mod arity =? 0) eqn:Hmod; [|discriminate].
      cbn [range_queries] in Hnc.
      set (ch := chunks arity (l ++ values ++ r)) in *.
      assert (Hup : is_row m rt (map digest ch)).
      { eapply IH; eauto. intros q1 q2 H1 H2. apply Hnc; auto. apply in_or_app. auto. }
      apply row_infix with l r.
      destruct ch as [|c0 ch0] eqn:Hch.
      { assert (Hnil : l ++ values ++ r = []).
        { rewrite <- (concat_chunks arity (l ++ values ++ r)) by auto. fold ch. rewrite Hch. reflexivity. }
        rewrite Hnil. exists 0, 0. split; [reflexivity|]. simpl. intros; lia. }
      rewrite <- Hch in *.
      destruct Hup as (level & s & Heq & Hq). rewrite map_length in *.
      assert (Hch_i : forall i x, nth_error ch i = Some x ->
                exists lv, level = S lv /\ x = map (vat m lv) (seq ((s + i) * arity) arity) /\
                forall d q, d < arity ->
                  tree_query (canon m lv (((s + i) * arity + d) * arity ^ lv)) q -> tree_query rt q).
      { intros i x Hx.
        assert (Hi : i < length ch) by (apply nth_error_Some; congruence).
        pose proof (f_equal (fun z => nth_error z i) Heq) as Hi'. cbv beta in Hi'.
        rewrite !nth_error_map, Hx in Hi'. cbn [option_map] in Hi'.
        rewrite (nth_error_nth' _ 0) in Hi' by (rewrite seq_length; auto).
        rewrite seq_nth in Hi' by auto. cbn [option_map] in Hi'. injection Hi' as Hi'.
        unfold vat in Hi'. rewrite canon_value_hash in Hi'.
        set (nd := canon m level ((s + i) * arity ^ level)) in *.
        assert (Htop : top_query T0 nd = QNode x).
        { apply Hnc.
          - apply (Hq (s + i)); [lia|]. fold nd. unfold nd. apply canon_top_query.
          - apply in_or_app. left. apply in_map. eapply nth_error_In; eauto.
          - symmetry. exact Hi'. }
        destruct level as [|lv].
        { unfold nd in Htop. cbn [MerkleSpec.canon] in Htop.
          destruct (m _); discriminate. }
        exists lv. split; [reflexivity|].
        unfold nd in *. rewrite canon_S in Htop, Hi'.
        destruct (forallb is_empty (kids m lv ((s + i) * arity ^ S lv))) eqn:Hfe; [discriminate|].
        cbn [top_query] in Htop. rewrite kids_values in Htop. split; [congruence|].
        intros d q Hd Htq. apply (Hq (s + i)); [lia|].
        rewrite canon_S, Hfe. eapply tq_child; [|exact Htq].
        apply (nth_error_In _ d). rewrite kids_nth.
        destruct (Nat.ltb_spec d arity); [|lia]. f_equal. f_equal.
        rewrite Nat.pow_succ_r'. lia. }
      destruct (Hch_i 0 c0) as (lv & Hlv & _); [rewrite Hch; reflexivity|].
      assert (Hcc : l ++ values ++ r = map (vat m lv) (seq (s * arity) (length ch * arity))).
      { rewrite <- (concat_chunks arity (l ++ values ++ r)) by auto. fold ch.
        rewrite <- concat_blocks. f_equal. apply list_ext. intro i.
        rewrite nth_error_map. destruct (nth_error ch i) as [x|] eqn:Hx.
        - assert (Hi : i < length ch) by (apply nth_error_Some; congruence).
          rewrite (nth_error_nth' _ 0) by (rewrite seq_length; auto).
          rewrite seq_nth by auto. cbn [option_map].
          destruct (Hch_i i x Hx) as (lv' & Hlv' & -> & _).
          assert (lv' = lv) by lia. subst lv'. reflexivity.
        - apply nth_error_None in Hx.
          rewrite (proj2 (nth_error_None (seq s (length ch)) i)) by (rewrite seq_length; auto).
          reflexivity. }
      exists lv, (s * arity). rewrite Hcc, map_length, seq_length. split; [reflexivity|].
      intros i q Hi Htq.
      set (d := i - s * arity) in *.
      pose proof (Nat.div_mod d arity ltac:(lia)) as Hdm.
      pose proof (Nat.mod_upper_bound d arity ltac:(lia)) as Hmu.
      assert (Hdl : d / arity < length ch) by (apply Nat.div_lt_upper_bound; lia).
      destruct (nth_error ch (d / arity)) as [x|] eqn:Hx;
        [|apply nth_error_None in Hx; lia].
      destruct (Hch_i _ _ Hx) as (lv' & Hlv' & _ & Hsub).
      assert (lv' = lv) by lia. subst lv'.
      apply (Hsub (d mod arity)); [lia|].
      replace ((s + d / arity) * arity + d mod arity) with i by lia. exact Htq.
  Qed.

  Lemma range_sound m H indices elements pf :
    (forall q1 q2, tree_query (canon m H 0) q1 ->
                   In q2 (verify_range_queries indices elements pf) ->
                   hash q1 = hash q2 -> q1 = q2) ->
    verify_merkle_range_proof Teqb digest digest_leaf arity (value (canon m H 0))
      indices elements pf = Ok true ->
    exists s, indices = seq s (length indices) /\ map m indices = map Some elements.
  Proof.
    intros Hnc Hv. unfold verify_merkle_range_proof in Hv.
    destruct (Nat.eqb_spec (length indices) (length elements)) as [Hlen|]; [|discriminate].
    cbn [negb] in Hv.
    set (vals := map (fun ie => digest_leaf (fst ie) (snd ie)) (combine indices elements)) in *.
    destruct (range_fold digest arity (combine (lbound pf) (rbound pf)) vals) as [vs| |] eqn:Hf;
      [|discriminate|discriminate]. cbn [bind] in Hv.
    destruct vs as [|v [|]]; try discriminate. injection Hv as Hv. apply Teqb_eq in Hv. subst v.
    assert (Hrow : is_row m (canon m H 0) vals).
    { eapply fold_down; eauto.
      - intros q1 q2 H1 H2. apply Hnc; auto. apply in_or_app. right. exact H2.
      - exists H, 0. cbn [length seq map]. unfold vat. rewrite Nat.mul_0_l. split; [reflexivity|].
        intros i q Hi. replace i with 0 by lia. rewrite Nat.mul_0_l. auto. }
    destruct Hrow as (level & s & Heq & Hq).
    assert (Hvl : length vals = length indices).
    { unfold vals. rewrite map_length, combine_length. lia. }
    assert (Hpt : forall i p e, nth_error indices i = Some p -> nth_error elements i = Some e ->
                  p = s + i /\ m p = Some e).
    { intros i p e Hp He.
      assert (Hi : i < length indices) by (apply nth_error_Some; congruence).
      assert (Hc : nth_error (combine indices elements) i = Some (p, e)).
      { clear - Hp He. revert elements i Hp He. induction indices as [|x l IH]; intros [|y l'] [|i] Hp He;
          simpl in *; try discriminate; [congruence|eauto]. }
      pose proof (f_equal (fun z => nth_error z i) Heq) as Hi'. cbv beta in Hi'.
      unfold vals in Hi' at 1. rewrite !nth_error_map, Hc in Hi'. cbn [option_map fst snd] in Hi'.
      rewrite (nth_error_nth' _ 0) in Hi' by (rewrite seq_length; lia).
      rewrite seq_nth in Hi' by lia. cbn [option_map] in Hi'. injection Hi' as Hi'.
      unfold vat in Hi'. rewrite canon_value_hash in Hi'.
      assert (Htop : top_query T0 (canon m level ((s + i) * arity ^ level)) = QLeaf p e).
      { apply Hnc.
        - apply (Hq (s + i)); [lia|]. apply canon_top_query.
        - apply in_or_app. left. unfold leaf_queries.
          change (QLeaf p e) with ((fun ie : nat * E => @QLeaf E T (fst ie) (snd ie)) (p, e)).
          apply in_map. eapply nth_error_In; eauto.
        - symmetry. exact Hi'. }
      destruct level as [|lv].
      - cbn [MerkleSpec.canon] in Htop. rewrite Nat.pow_0_r, Nat.mul_1_r in Htop.
        destruct (m (s + i)) as [x|] eqn:Hm; [|discriminate].
        cbn [top_query] in Htop. injection Htop as <- <-. auto.
      - rewrite canon_S in Htop.
        destruct (forallb is_empty _); discriminate. }
    exists s. split.
    - apply list_ext. intro i.
      destruct (nth_error indices i) as [p|] eqn:Hp.
      + assert (Hi : i < length indices) by (apply nth_error_Some; congruence).
        destruct (nth_error elements i) as [e|] eqn:He; [|apply nth_error_None in He; lia].
        destruct (Hpt _ _ _ Hp He) as [-> _].
        rewrite (nth_error_nth' _ 0) by (rewrite seq_length; auto).
        rewrite seq_nth by auto. reflexivity.
      + symmetry. apply nth_error_None. rewrite seq_length. apply nth_error_None; auto.
    - apply list_ext. intro i. rewrite !nth_error_map.
      destruct (nth_error indices i) as [p|] eqn:Hp.
      + assert (Hi : i < length indices) by (apply nth_error_Some; congruence).
        destruct (nth_error elements i) as [e|] eqn:He; [|apply nth_error_None in He; lia].
        destruct (Hpt _ _ _ Hp He) as [_ Hm]. cbn. congruence.
      + apply nth_error_None in Hp. rewrite (proj2 (nth_error_None elements i)) by lia. reflexivity.
  Qed.
End Range.
