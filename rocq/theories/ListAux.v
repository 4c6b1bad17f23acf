(** List lemmas used by several developments. *)
From Coq Require Import List Arith Lia Bool.
From Verif Require Import Base.
Import ListNotations.

Lemma list_ext {A} (l l' : list A) :
  (forall i, nth_error l i = nth_error l' i) -> l = l'.
Proof.
  revert l'; induction l as [|x l IH]; intros [|y l'] H; auto.
  - specialize (H 0); discriminate.
  - specialize (H 0); discriminate.
  - f_equal.
    + specialize (H 0); simpl in H; congruence.
    + apply IH; intro i; apply (H (S i)).
Qed.

Lemma set_nth_length {A} (l : list A) i a : length (set_nth l i a) = length l.
Proof. revert i; induction l; destruct i; simpl; auto. Qed.

Lemma nth_error_set_nth {A} (l : list A) i j a :
  nth_error (set_nth l i a) j =
  if (i =? j) && (i <? length l) then Some a else nth_error l j.
Proof.
  revert i j; induction l as [|x l IH]; intros i j; simpl.
  - destruct i; simpl; rewrite andb_false_r; auto.
  - destruct i, j; simpl; auto.
    rewrite IH. simpl. destruct (i =? j); simpl; auto.
Qed.

Lemma nth_error_set_nth_eq {A} (l : list A) i a :
  i < length l -> nth_error (set_nth l i a) i = Some a.
Proof.
  intro H. rewrite nth_error_set_nth, Nat.eqb_refl. simpl.
  destruct (Nat.ltb_spec i (length l)); auto; lia.
Qed.

Lemma nth_error_set_nth_neq {A} (l : list A) i j a :
  i <> j -> nth_error (set_nth l i a) j = nth_error l j.
Proof.
  intro H. rewrite nth_error_set_nth.
  destruct (Nat.eqb_spec i j); [lia|auto].
Qed.

Lemma set_nth_split {A} (l : list A) i a :
  i < length l -> set_nth l i a = firstn i l ++ a :: skipn (S i) l.
Proof.
  revert i; induction l as [|x l IH]; intros i H; simpl in *; [lia|].
  destruct i; simpl; auto. f_equal. apply IH; lia.
Qed.

Lemma set_nth_same {A} (l : list A) i a :
  nth_error l i = Some a -> set_nth l i a = l.
Proof.
  revert i; induction l as [|x l IH]; intros [|i] H; simpl in *; try discriminate.
  - congruence.
  - f_equal; auto.
Qed.

Lemma map_set_nth {A B} (f : A -> B) l i a :
  map f (set_nth l i a) = set_nth (map f l) i (f a).
Proof. revert i; induction l; destruct i; simpl; auto. f_equal; auto. Qed.

Lemma nth_error_map_seq {B} (f : nat -> B) n i :
  nth_error (map f (seq 0 n)) i = if i <? n then Some (f i) else None.
Proof.
  rewrite nth_error_map.
  destruct (Nat.ltb_spec i n).
  - rewrite (nth_error_nth' _ 0) by (rewrite seq_length; auto).
    rewrite seq_nth by auto. reflexivity.
  - rewrite (proj2 (nth_error_None _ _)) by (rewrite seq_length; auto). reflexivity.
Qed.

Lemma nth_error_repeat_lt {A} (x : A) n i :
  i < n -> nth_error (repeat x n) i = Some x.
Proof. revert i; induction n; destruct i; simpl; intros; try lia; auto. apply IHn; lia. Qed.

Lemma nth_error_repeat_full {A} (x : A) n i :
  nth_error (repeat x n) i = if i <? n then Some x else None.
Proof.
  destruct (Nat.ltb_spec i n); [apply nth_error_repeat_lt; auto|].
  apply nth_error_None. rewrite repeat_length. auto.
Qed.

Lemma nth_error_firstn_full {A} (l : list A) n i :
  nth_error (firstn n l) i = if i <? n then nth_error l i else None.
Proof.
  revert n i; induction l as [|x l IH]; intros n i.
  - rewrite firstn_nil. destruct i; simpl; destruct (_ <? _); auto.
  - destruct n; simpl.
    + destruct i; reflexivity.
    + destruct i; [reflexivity|]. cbn [nth_error]. rewrite IH. reflexivity.
Qed.

Lemma nth_error_skipn_full {A} (l : list A) n i :
  nth_error (skipn n l) i = nth_error l (n + i).
Proof.
  revert l; induction n; intros l; simpl; auto.
  destruct l; simpl; auto. destruct i; auto.
Qed.

Lemma split_at {A} (l : list A) i a :
  nth_error l i = Some a -> l = firstn i l ++ a :: skipn (S i) l.
Proof.
  revert i; induction l as [|x l IH]; intros [|i] H; simpl in *; try discriminate.
  - congruence.
  - f_equal; auto.
Qed.

Lemma forallb_nth {A} (f : A -> bool) l :
  forallb f l = true <-> (forall i a, nth_error l i = Some a -> f a = true).
Proof.
  rewrite forallb_forall. split; intros H.
  - intros i a Hi. apply H. eapply nth_error_In; eauto.
  - intros a Ha. apply In_nth_error in Ha as [i Hi]. eauto.
Qed.

Lemma Forall2_nth {A B} (R : A -> B -> Prop) l l' :
  Forall2 R l l' <->
  length l = length l' /\
  forall i a b, nth_error l i = Some a -> nth_error l' i = Some b -> R a b.
Proof.
  split.
  - intro H; split; [induction H; simpl; auto|].
    induction H; intros [|i] a b Ha Hb; simpl in *; try discriminate.
    + congruence.
    + eauto.
  - intros [Hl H]. revert l' Hl H; induction l as [|x l IH]; intros [|y l'] Hl H;
      simpl in *; try discriminate; constructor.
    + apply (H 0); auto.
    + apply IH; [lia|]. intros i a b Ha Hb. apply (H (S i)); auto.
Qed.

Lemma skipn_skipn {A} (l : list A) n m : skipn n (skipn m l) = skipn (n + m) l.
Proof.
  apply list_ext; intro i. rewrite !nth_error_skipn_full. f_equal. lia.
Qed.

(** [chunks] *)
Lemma chunks_aux_more {A} n (l : list A) f1 f2 :
  1 <= n -> length l <= f1 -> length l <= f2 ->
  chunks_aux f1 n l = chunks_aux f2 n l.
Proof.
  intro Hn. revert l f2; induction f1 as [|f1 IH]; intros l f2 H1 H2.
  - destruct l; simpl in *; [|lia]. destruct f2; auto.
  - destruct f2 as [|f2].
    + destruct l; simpl in *; [auto|lia].
    + destruct l as [|x l]; [auto|]. cbn [chunks_aux]. f_equal.
      apply IH; rewrite skipn_length; simpl length in *; lia.
Qed.

Lemma chunks_nil {A} n : @chunks A n [] = [].
Proof. reflexivity. Qed.

Lemma chunks_cons {A} n (l : list A) :
  1 <= n -> l <> [] -> chunks n l = firstn n l :: chunks n (skipn n l).
Proof.
  intros Hn Hl. unfold chunks. destruct l as [|x l]; [congruence|].
  simpl length at 1. cbn [chunks_aux]. f_equal.
  apply chunks_aux_more; auto; rewrite skipn_length; simpl length; lia.
Qed.

Lemma chunks_app {A} n (l l' : list A) :
  1 <= n -> length l = n -> chunks n (l ++ l') = l :: chunks n l'.
Proof.
  intros Hn Hl. rewrite chunks_cons; auto.
  - rewrite firstn_app, skipn_app, Hl, Nat.sub_diag. simpl.
    rewrite firstn_all2, skipn_all2 by lia. rewrite app_nil_r. reflexivity.
  - destruct l; simpl in *; [lia|]. discriminate.
Qed.

(** Number of chunks: the ceiling of [length l / n]. *)
Lemma chunks_nth {A} n (l : list A) : 1 <= n ->
  forall i, nth_error (chunks n l) i =
            if i * n <? length l then Some (firstn n (skipn (i * n) l)) else None.
Proof.
  intro Hn.
  assert (G : forall k (l : list A), length l <= k -> forall i,
             nth_error (chunks n l) i =
             if i * n <? length l then Some (firstn n (skipn (i * n) l)) else None).
  { induction k as [|k IH]; intros l0 Hk i.
    - destruct l0; simpl in Hk; [|lia]. rewrite chunks_nil.
      destruct i; simpl; auto.
    - destruct l0 as [|x l0].
      + rewrite chunks_nil. destruct i; simpl; auto.
      + rewrite chunks_cons by (auto; discriminate).
        destruct i as [|i]; [reflexivity|].
        cbn [nth_error]. rewrite IH by (rewrite skipn_length; simpl length in *; lia).
        rewrite skipn_length, skipn_skipn.
        replace (i * n + n) with (S i * n) by lia.
        destruct (Nat.ltb_spec (i * n) (length (x :: l0) - n)),
                 (Nat.ltb_spec (S i * n) (length (x :: l0))); auto; lia. }
  intro i. apply (G (length l)); auto.
Qed.

Lemma combine_seq_nth {A} (l : list A) s i :
  nth_error (combine (seq s (length l)) l) i =
  match nth_error l i with Some a => Some (s + i, a) | None => None end.
Proof.
  revert s i; induction l as [|x l IH]; intros s i; simpl.
  - destruct i; auto.
  - destruct i; simpl.
    + rewrite Nat.add_0_r; auto.
    + rewrite IH. destruct (nth_error l i); auto. f_equal. f_equal. lia.
Qed.

Lemma firstn_seq k : forall s n, firstn k (seq s n) = seq s (Nat.min k n).
Proof.
  induction k as [|k IH]; intros s n; [reflexivity|].
  destruct n; [reflexivity|]. simpl. f_equal. apply IH.
Qed.

Lemma skipn_seq k : forall s n, skipn k (seq s n) = seq (s + k) (n - k).
Proof.
  induction k as [|k IH]; intros s n; [rewrite Nat.add_0_r, Nat.sub_0_r; reflexivity|].
  destruct n; [reflexivity|]. cbn [seq skipn]. rewrite IH. f_equal; lia.
Qed.

Lemma nth_error_seq s n i : nth_error (seq s n) i = if i <? n then Some (s + i) else None.
Proof.
  revert s n; induction i as [|i IH]; intros s [|n]; simpl; auto.
  rewrite IH. change (S i <? S n) with (i <? n). destruct (i <? n); auto.
  f_equal. lia.
Qed.
