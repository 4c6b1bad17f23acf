(** Proofs about the multilinear commitment scheme: evaluation of a multilinear
    extension, the reference string, and the opening identity. *)
From Coq Require Import List Arith Lia Bool Ring Field.
From Verif Require Import Base Alg Poly ListAux VRing KzgModel KzgProofs KzgFft KzgFk MlModel.
Import ListNotations.

Section MlProofs.
  Variable K : fld.
  Local Open Scope fld_scope.
  Add Field Kml : (fth K).

  (** ** Evaluation *)

  (** The Lagrange basis of the hypercube: 1 at the vertex [x] (bit [j] is variable
      [j]), 0 at the other vertices. *)
  Definition chi (ts : list K) (x : nat) : K :=
    fprod (map (fun j => if Nat.testbit x j then nth j ts 0 else 1 - nth j ts 0) (seq 0 (length ts))).
  (** The multilinear polynomial with values [l] on the hypercube, at [ts]. *)
  Definition mleval (l : list K) (ts : list K) : K :=
    fsum (map (fun x => nth x l 0 * chi ts x) (seq 0 (2 ^ length ts))).

  Lemma pow2_pos n : (0 < 2 ^ n)%nat.
  Proof. apply Nat.neq_0_lt_0, Nat.pow_nonzero. lia. Qed.
  Lemma chi_even t ts y : chi (t :: ts) (2 * y) = (1 - t) * chi ts y.
  Proof.
    unfold chi. cbn [length seq map]. rewrite fprod_cons, Nat.testbit_even_0. cbn [nth]. f_equal.
    rewrite <- seq_shift, map_map. f_equal. apply map_ext. intro j. rewrite Nat.testbit_even_succ by lia. reflexivity.
  Qed.
  Lemma chi_odd t ts y : chi (t :: ts) (2 * y + 1) = t * chi ts y.
  Proof.
    unfold chi. cbn [length seq map]. rewrite fprod_cons, Nat.testbit_odd_0. cbn [nth]. f_equal.
    rewrite <- seq_shift, map_map. f_equal. apply map_ext. intro j. rewrite Nat.testbit_odd_succ by lia. reflexivity.
  Qed.
  Lemma fsum_double (F : nat -> K) m :
    fsum (map F (seq 0 (2 * m))) = fsum (map (fun y => F (2 * y)%nat + F (2 * y + 1)%nat) (seq 0 m)).
  Proof.
    induction m as [|m IH]; [reflexivity|]. replace (2 * S m)%nat with (2 * m + 2)%nat by lia.
    rewrite seq_app, map_app, fsum_app, IH, (seq_S m), map_app, fsum_app. f_equal.
    assert (X : seq (0 + 2 * m) 2 = [2 * m; 2 * m + 1]%nat) by (cbn [seq]; f_equal; f_equal; lia). rewrite X.
    change (0 + m)%nat with m. unfold fsum. cbn [map fold_right]. ring.
  Qed.
  Lemma nth_fold1 r : forall (n : nat) (l : list K), length l = (2 * n)%nat -> forall y,
    nth y (fold1 K r l) 0 = nth (2 * y) l 0 + r * (nth (2 * y + 1) l 0 - nth (2 * y) l 0).
  Proof.
    induction n as [|n IH]; intros l L y.
    - destruct l; [|discriminate]. cbn [fold1]. destruct y; cbn; [ring|]. destruct (y + S (y + 0))%nat, (y + S (y + 0) + 1)%nat; ring.
    - destruct l as [|a [|b l]]; try (cbn in L; lia). cbn [fold1]. destruct y as [|y].
      + cbn. ring.
      + cbn [nth]. rewrite IH by (cbn in L; lia). replace (2 * S y)%nat with (S (S (2 * y))) by lia. reflexivity.
  Qed.
  Lemma nth_diff1 : forall (n : nat) (l : list K), length l = (2 * n)%nat -> forall y,
    nth y (diff1 K l) 0 = nth (2 * y + 1) l 0 - nth (2 * y) l 0.
  Proof.
    induction n as [|n IH]; intros l L y.
    - destruct l; [|discriminate]. cbn [diff1]. destruct y; cbn; [ring|]. destruct (y + S (y + 0))%nat, (y + S (y + 0) + 1)%nat; ring.
    - destruct l as [|a [|b l]]; try (cbn in L; lia). cbn [diff1]. destruct y as [|y].
      + cbn. ring.
      + cbn [nth]. rewrite IH by (cbn in L; lia). replace (2 * S y)%nat with (S (S (2 * y))) by lia. reflexivity.
  Qed.
  Lemma length_fold1 r : forall (n : nat) (l : list K), length l = (2 * n)%nat -> length (fold1 K r l) = n.
  Proof.
    induction n as [|n IH]; intros l L; [destruct l; [reflexivity|discriminate]|].
    destruct l as [|a [|b l]]; try (cbn in L; lia). cbn [fold1 length]. f_equal. apply IH. cbn in L. lia.
  Qed.
  Lemma length_diff1 : forall (n : nat) (l : list K), length l = (2 * n)%nat -> length (diff1 K l) = n.
  Proof.
    induction n as [|n IH]; intros l L; [destruct l; [reflexivity|discriminate]|].
    destruct l as [|a [|b l]]; try (cbn in L; lia). cbn [diff1 length]. f_equal. apply IH. cbn in L. lia.
  Qed.
  Lemma mleval_cons t ts l n : length l = (2 * n)%nat -> mleval l (t :: ts) = mleval (fold1 K t l) ts.
  Proof.
    intro L. unfold mleval. cbn [length]. rewrite Nat.pow_succ_r', fsum_double. apply fsum_map_ext. intros y _.
    rewrite chi_even, chi_odd, (nth_fold1 t n) by auto. ring.
  Qed.
  Lemma fix_vars_eq : forall (ts l : list K), length l = (2 ^ length ts)%nat -> fix_vars K l ts = [mleval l ts].
  Proof.
    induction ts as [|t ts IH]; intros l L.
    - cbn in L. destruct l as [|a [|b l]]; try discriminate. unfold mleval, chi. cbn. f_equal. ring.
    - cbn [length] in L. rewrite Nat.pow_succ_r' in L. unfold fix_vars. cbn [fold_left]. fold (fix_vars K (fold1 K t l) ts).
      rewrite IH by (apply length_fold1; exact L). now rewrite (mleval_cons _ _ _ _ L).
  Qed.
  Lemma mle_evaluate_eq m pt : length (mevals m) = (2 ^ mnv m)%nat -> length pt = mnv m ->
    mle_evaluate K m pt = Ok (mleval (mevals m) pt).
  Proof. intros L E. unfold mle_evaluate. rewrite E, Nat.eqb_refl, fix_vars_eq by congruence. reflexivity. Qed.
  (** Dividing by [t - z] in the first variable. *)
  Lemma mleval_shift t z ts l n : length l = (2 * n)%nat ->
    mleval (fold1 K t l) ts = mleval (fold1 K z l) ts + (t - z) * mleval (diff1 K l) ts.
  Proof.
    intro L. unfold mleval. rewrite <- fsum_map_scale, <- fsum_map_add. apply fsum_map_ext. intros y _.
    rewrite !(nth_fold1 _ n), (nth_diff1 n) by auto. ring.
  Qed.

  (** ** The reference string *)
  Section Srs.
    Variables V1 V2 VT : vsp K.
    Variable e : pairing K V1 V2 VT.
    Definition tbl (ts : list K) (g : V1) : list V1 := map (fun x => vmul (chi ts x) g) (seq 0 (2 ^ length ts)).

    Lemma combine_seq_r {A B} (f : nat -> A) (d : B) : forall (l : list B) s,
      combine (map f (seq s (length l))) l = map (fun i => (f i, nth (i - s) l d)) (seq s (length l)).
    Proof.
      induction l as [|a l IH]; intro s; [reflexivity|]. cbn [length seq map combine]. rewrite Nat.sub_diag. cbn [nth]. f_equal.
      rewrite IH. apply map_ext_in. intros i Hi. apply in_seq in Hi. f_equal. replace (i - s)%nat with (S (i - S s)) by lia. reflexivity.
    Qed.
    Lemma msm_tbl ts g l : length l = (2 ^ length ts)%nat -> msm (tbl ts g) l = vmul (mleval l ts) g.
    Proof.
      intro L. unfold msm, tbl, mleval. rewrite <- L, (combine_seq_r _ 0), map_map.
      rewrite <- vsum_scal, map_map. apply vsum_map_ext. intros x _. cbn [fst snd]. rewrite Nat.sub_0_r, <- vmul_mul. reflexivity.
    Qed.
    Lemma tbl_nil g : tbl [] g = [g].
    Proof. unfold tbl, chi. cbn. now rewrite vmul_1. Qed.

    Lemma eq_factor_bit t (b : bool) : eq_factor K t (if b then 1 else 0) = if b then t else 1 - t.
    Proof. unfold eq_factor. destruct b; ring. Qed.
    Definition bprod (t : list K) (i : nat) (x : nat) : K :=
      fprod (map (fun j => if Nat.testbit x j then nth j t 0 else 1 - nth j t 0) (seq i (length t - i))).
    Lemma firstn_S_nth {A} (l : list A) a : forall i, nth_error l i = Some a -> firstn (S i) l = firstn i l ++ [a].
    Proof.
      induction l as [|b l IH]; intros [|i] H; try discriminate; cbn in *; [congruence|]. f_equal. apply IH. exact H.
    Qed.
    Lemma nth_skipn' {A} (l : list A) d : forall i j, nth j (skipn i l) d = nth (i + j) l d.
    Proof. induction l as [|a l IH]; intros [|i] j; try reflexivity; cbn; [destruct j; reflexivity|apply IH]. Qed.
    Lemma map_seq_shift {A} (f : nat -> A) i n : map f (seq i n) = map (fun j => f (i + j)%nat) (seq 0 n).
    Proof.
      assert (X : forall s, map f (seq (i + s) n) = map (fun j => f (i + j)%nat) (seq s n)).
      { induction n as [|n IH]; intro s; [reflexivity|]. cbn [seq map]. f_equal. rewrite <- IH, Nat.add_succ_r. reflexivity. }
      rewrite <- (X 0%nat), Nat.add_0_r. reflexivity.
    Qed.
    Lemma bprod_shift t i x : bprod t i (x * 2 ^ i) = chi (skipn i t) x.
    Proof.
      unfold bprod, chi. rewrite skipn_length. f_equal.
      transitivity (map (fun j => if Nat.testbit (x * 2 ^ i) (i + j) then nth (i + j) t 0 else 1 - nth (i + j) t 0) (seq 0 (length t - i))).
      - apply map_seq_shift.
      - apply map_ext. intro j. rewrite nth_skipn'. rewrite Nat.mul_pow2_bits_high by lia. replace (i + j - i)%nat with j by lia. reflexivity.
    Qed.
    Lemma eq_extension_eq t : eq_extension K t =
      map (fun i => map (fun x => if Nat.testbit x i then nth i t 0 else 1 - nth i t 0) (seq 0 (2 ^ length t))) (seq 0 (length t)).
    Proof. unfold eq_extension. apply map_ext. intro i. apply map_ext. intro x. apply eq_factor_bit. Qed.
    Lemma is_pow2_pow n : is_pow2 (2 ^ n) = true.
    Proof. unfold is_pow2, npot. rewrite Nat.log2_up_pow2 by lia. apply Nat.eqb_refl. Qed.
    Lemma index_map_seq {A} (f : nat -> A) n i : (i < n)%nat -> index (map f (seq 0 n)) i = (Ok (f i) : pres A).
    Proof.
      intro H. unfold index. rewrite nth_error_map.
      rewrite (nth_error_nth' (seq 0 n) 0%nat) by (rewrite seq_length; auto). cbn. rewrite seq_nth by auto. reflexivity.
    Qed.
    Lemma remove_dummy_eq t i : (i < length t)%nat ->
      remove_dummy_variable K (map (bprod t i) (seq 0 (2 ^ length t))) i
      = Ok (map (chi (skipn i t)) (seq 0 (2 ^ (length t - i)))).
    Proof.
      intro Hi. unfold remove_dummy_variable. destruct (Nat.eqb_spec i 0) as [->|N].
      - f_equal. rewrite Nat.sub_0_r. apply map_ext. intro x. rewrite <- bprod_shift. f_equal. cbn. lia.
      - rewrite map_length, seq_length, is_pow2_pow. cbn [negb]. rewrite Nat.log2_up_pow2 by lia.
        apply map_res_ok. intros x Hx. apply in_seq in Hx.
        rewrite index_map_seq, bprod_shift; [reflexivity|].
        replace (length t) with (length t - i + i)%nat by lia. rewrite Nat.pow_add_r.
        apply Nat.mul_lt_mono_pos_r; [apply pow2_pos|lia].
    Qed.
    Lemma zip_mul_map (f g : nat -> K) l : zip_mul K (map f l) (map g l) = map (fun x => f x * g x) l.
    Proof. unfold zip_mul. induction l; [reflexivity|]. cbn. f_equal. exact IHl. Qed.
    Lemma eq_loop_unfold eqs i base arr : eq_loop K eqs i base arr =
      bind (remove_dummy_variable K base i) (fun a =>
        match i with
        | 0%nat => Ok (a :: arr)
        | S i' => match eqs with [] => Panic | mul :: eqs' => eq_loop K eqs' i' (zip_mul K base mul) (a :: arr) end
        end).
    Proof. destruct eqs; reflexivity. Qed.
    Lemma eq_loop_eq t : forall i, (i < length t)%nat ->
      eq_loop K (rev (firstn i (eq_extension K t))) i (map (bprod t i) (seq 0 (2 ^ length t)))
        (map (fun k => map (chi (skipn k t)) (seq 0 (2 ^ (length t - k)))) (seq (S i) (length t - S i)))
      = Ok (map (fun k => map (chi (skipn k t)) (seq 0 (2 ^ (length t - k)))) (seq 0 (length t))).
    Proof.
      induction i as [|i IH]; intro Hi.
      - rewrite eq_loop_unfold, remove_dummy_eq by auto. cbn [bind].
        destruct (length t) as [|n] eqn:E; [lia|]. do 2 f_equal. replace (S n - 1)%nat with n by lia. reflexivity.
      - rewrite eq_loop_unfold, remove_dummy_eq by auto. cbn [bind].
        assert (Hn : nth_error (eq_extension K t) i = Some (map (fun x => if Nat.testbit x i then nth i t 0 else 1 - nth i t 0) (seq 0 (2 ^ length t)))).
        { rewrite eq_extension_eq, nth_error_map, (nth_error_nth' (seq 0 (length t)) 0%nat) by (rewrite seq_length; lia).
          cbn. rewrite seq_nth by lia. reflexivity. }
        rewrite (firstn_S_nth _ _ _ Hn), rev_app_distr. cbn [rev app].
        rewrite zip_mul_map. rewrite <- IH by lia. f_equal.
        + apply map_ext. intro x. unfold bprod. replace (length t - i)%nat with (S (length t - S i)) by lia. cbn [seq map]. rewrite fprod_cons. ring.
        + assert (X : seq (S i) (length t - S i) = S i :: seq (S (S i)) (length t - S (S i))) by (replace (length t - S i)%nat with (S (length t - S (S i))) by lia; reflexivity).
          rewrite X. reflexivity.
    Qed.
    Lemma eq_eval_zeros (ts : list K) : eq_eval K (repeat 0 (length ts)) ts = Ok (chi ts 0).
    Proof.
      unfold eq_eval. rewrite repeat_length, Nat.eqb_refl. f_equal.
      assert (X : forall us acc, fold_left (fun acc xy => acc * eq_factor K (fst xy) (snd xy)) (combine (repeat 0 (length us)) us) acc = acc * chi us 0).
      { induction us as [|u us IH]; intro acc; [unfold chi; cbn; ring|]. cbn [length repeat combine fold_left fst snd]. rewrite IH.
        rewrite (chi_even u us 0 : chi (u :: us) 0 = _). unfold eq_factor. ring. }
      rewrite X. ring.
    Qed.
    Lemma srs_table_eq g t i : (i <= length t)%nat ->
      srs_table K V1 g t i (map (chi (skipn i t)) (seq 0 (2 ^ (length t - i)))) = Ok (tbl (skipn i t) g).
    Proof.
      intro Hi. unfold srs_table.
      rewrite (map_res_ok _ (chi (skipn i t))) by (intros x Hx; apply in_seq in Hx; apply index_map_seq; lia). cbn [bind].
      replace (length t - i)%nat with (length (skipn i t)) by apply skipn_length. rewrite eq_eval_zeros. cbn [bind].
      rewrite map_map. fold (tbl (skipn i t) g). pose proof (pow2_pos (length (skipn i t))) as P.
      unfold tbl at 1. rewrite (index_map_seq (fun x => vmul (chi (skipn i t) x) g)) by exact P. cbn [bind].
      rewrite (proj2 (veqb_eq _ _ _ _)) by reflexivity. reflexivity.
    Qed.
    Lemma combine_seq_map {A} (f : nat -> A) n : forall s, combine (seq s n) (map f (seq s n)) = map (fun i => (i, f i)) (seq s n).
    Proof. induction n as [|n IH]; intro s; [reflexivity|]. cbn [seq map combine]. f_equal. apply IH. Qed.
    (** What the generation computes. *)
    Definition ml_srs (t : list K) (g : V1) (h : V2) : msrs K V1 V2 :=
      mk_msrs _ _ _ (mk_mprover _ _ _ (length t) (map (fun i => tbl (skipn i t) g) (seq 0 (S (length t)))) g h) (map (fun ti => vmul ti h) t).
    Lemma gen_ml_srs_eq t g h : gen_ml_srs K V1 V2 t g h = if (length t =? 0)%nat then Err InvalidParameters else Ok (ml_srs t g h).
    Proof.
      unfold gen_ml_srs. destruct (Nat.eqb_spec (length t) 0) as [|N]; [reflexivity|].
      destruct (length t) as [|n] eqn:L; [congruence|].
      assert (Hn : nth_error (eq_extension K t) n = Some (map (bprod t n) (seq 0 (2 ^ length t)))).
      { rewrite eq_extension_eq, nth_error_map, (nth_error_nth' (seq 0 (length t)) 0%nat) by (rewrite seq_length; lia).
        cbn. rewrite seq_nth by lia. f_equal. apply map_ext. intro x. unfold bprod. replace (length t - n)%nat with 1%nat by lia.
        cbn. ring. }
      assert (El : eq_extension K t = firstn n (eq_extension K t) ++ [map (bprod t n) (seq 0 (2 ^ length t))]).
      { rewrite <- (firstn_S_nth _ _ _ Hn). symmetry. apply firstn_all2. unfold eq_extension. rewrite map_length, seq_length. lia. }
      rewrite El at 1. rewrite rev_app_distr. cbn [rev app]. replace (S n - 1)%nat with n by lia.
      pose proof (eq_loop_eq t n ltac:(lia)) as E. replace (length t - S n)%nat with 0%nat in E by lia. cbn [seq map] in E.
      rewrite E. cbn [bind]. rewrite <- L, combine_seq_map.
      rewrite (map_res_ok _ (fun ie => tbl (skipn (fst ie) t) g)).
      2: { intros ie Hie. apply in_map_iff in Hie as (i & <- & Hi). apply in_seq in Hi. cbn [fst snd]. apply srs_table_eq. lia. }
      cbn [bind]. unfold ml_srs. do 2 f_equal. f_equal. rewrite map_map. cbn [fst]. rewrite (seq_S (length t)), map_app. cbn [map Nat.add].
      rewrite skipn_all, tbl_nil. reflexivity.
    Qed.
    Lemma skipn_map_seq {A} (f : nat -> A) n k : skipn k (map f (seq 0 n)) = map (fun i => f (k + i)%nat) (seq 0 (n - k)).
    Proof.
      rewrite skipn_map, <- map_seq_shift. f_equal. revert k. assert (X : forall k s, skipn k (seq s n) = seq (s + k) (n - k)).
      { induction n as [|n IH]; intros [|k] s; try reflexivity; cbn [seq skipn Nat.sub].
        - rewrite Nat.add_0_r. reflexivity.
        - rewrite IH. f_equal. lia. }
      intro k. apply (X k 0%nat).
    Qed.
    Lemma skipn_skipn' {A} (l : list A) i j : skipn i (skipn j l) = skipn (j + i) l.
    Proof. revert j. induction l as [|a l IH]; intros [|j]; cbn; try reflexivity; [destruct i; reflexivity|apply IH]. Qed.
    Definition ml_keys (t : list K) (g : V1) (h : V2) : mprover K V1 V2 * mverifier K V1 V2 :=
      (mk_mprover _ _ _ (length t) (map (fun i => tbl (skipn i t) g) (seq 0 (S (length t)))) g h,
       mk_mverifier _ _ _ (length t) g h (map (fun ti => vmul ti h) t)).
    Lemma ml_trim_eq t g h nv : ml_trim K V1 V2 (ml_srs t g h) nv =
      if (length t <? nv)%nat then Err InvalidParameters else Ok (ml_keys (skipn (length t - nv) t) g h).
    Proof.
      unfold ml_trim. cbn [ms_pp ms_mask ml_srs mp_num_vars mp_powers mp_g mp_h]. destruct (Nat.ltb_spec (length t) nv) as [|H]; [reflexivity|].
      unfold slice_from. rewrite !map_length, seq_length.
      destruct (Nat.ltb_spec (S (length t)) (length t - nv)) as [|_]; [lia|]. cbn [bind].
      destruct (Nat.ltb_spec (length t) (length t - nv)) as [|_]; [lia|]. cbn [bind].
      unfold ml_keys. rewrite skipn_length. replace (length t - (length t - nv))%nat with nv by lia. f_equal. f_equal; f_equal.
      - rewrite skipn_map_seq. replace (S (length t) - (length t - nv))%nat with (S nv) by lia.
        apply map_ext. intro i. now rewrite skipn_skipn'.
      - apply skipn_map.
    Qed.

    (** ** Commit, open, verify *)
    Lemma ml_commit_eq t g h (p : mle K) : length (mevals p) = (2 ^ mnv p)%nat -> (mnv p <= length t)%nat ->
      ml_commit K V1 V2 (fst (ml_keys t g h)) p = Ok (vmul (mleval (mevals p) (skipn (length t - mnv p) t)) g).
    Proof.
      intros L H. unfold ml_commit. cbn [ml_keys fst mp_num_vars mp_powers]. destruct (Nat.ltb_spec (length t) (mnv p)); [lia|].
      rewrite index_map_seq by lia. cbn [bind]. f_equal. apply msm_tbl. rewrite skipn_length, L. f_equal. lia.
    Qed.
    Fixpoint tls (ts : list K) (g : V1) : list (list V1) :=
      match ts with [] => [] | _ :: ts' => tbl ts' g :: tls ts' g end.
    Lemma tls_eq ts g : map (fun i => tbl (skipn (S i) ts) g) (seq 0 (length ts)) = tls ts g.
    Proof.
      induction ts as [|t ts IH]; [reflexivity|]. cbn [length seq map tls]. f_equal. rewrite <- IH, <- seq_shift, map_map. reflexivity.
    Qed.
    Lemma length_open_rounds : forall pt gs (f : list K), length gs = length pt -> length (open_rounds K V1 pt gs f) = length pt.
    Proof. induction pt as [|z pt IH]; intros [|gi gs] f H; try discriminate; [reflexivity|]. cbn. f_equal. apply IH. cbn in H. lia. Qed.
    Definition lincomb (ts zs : list K) (ps : list V1) : V1 :=
      vsum (map (fun tzp => vmul (fst (fst tzp) - snd (fst tzp)) (snd tzp)) (combine (combine ts zs) ps)).
    Lemma open_rounds_eq g : forall ts pt f, length pt = length ts -> length f = (2 ^ length ts)%nat ->
      vadd (vmul (mleval f pt) g) (lincomb ts pt (open_rounds K V1 pt (tls ts g) f)) = vmul (mleval f ts) g.
    Proof.
      induction ts as [|t ts IH]; intros [|z pt] f Lp Lf; try discriminate.
      - unfold lincomb. cbn. apply vadd_0_r.
      - cbn [length] in Lf. rewrite Nat.pow_succ_r' in Lf. cbn [tls open_rounds]. unfold lincomb. cbn [combine map fst snd].
        rewrite vsum_cons. fold (lincomb ts pt (open_rounds K V1 pt (tls ts g) (fold1 K z f))).
        rewrite msm_tbl by (now apply length_diff1).
        rewrite !(mleval_cons _ _ _ _ Lf), (mleval_shift t z _ _ _ Lf).
        rewrite vmul_add_l, <- (IH pt (fold1 K z f)) by (auto; apply length_fold1; auto). rewrite vmul_mul. vring.
    Qed.
    Lemma ml_open_eq t g h (p : mle K) pt : length (mevals p) = (2 ^ mnv p)%nat -> (mnv p <= length t)%nat -> length pt = mnv p ->
      ml_open K V1 V2 (fst (ml_keys t g h)) p pt
      = Ok (open_rounds K V1 pt (tls (skipn (length t - mnv p) t) g) (mevals p), mleval (mevals p) pt).
    Proof.
      intros L H Hp. unfold ml_open. cbn [ml_keys fst mp_num_vars mp_powers]. destruct (Nat.ltb_spec (length t) (mnv p)); [lia|].
      rewrite Hp, Nat.eqb_refl. cbn [negb]. rewrite map_length, seq_length.
      destruct (Nat.ltb_spec (S (length t)) (length t - mnv p + 1 + mnv p)); [lia|].
      rewrite mle_evaluate_eq by auto. cbn [bind]. do 2 f_equal. f_equal.
      rewrite skipn_map_seq. rewrite firstn_all2 by (rewrite map_length, seq_length; lia).
      rewrite <- tls_eq, skipn_length. replace (S (length t) - (length t - mnv p + 1))%nat with (length t - (length t - mnv p))%nat by lia.
      apply map_ext. intro i. rewrite skipn_skipn'. do 2 f_equal. lia.
    Qed.
    Lemma vsum_pairings (h : V2) : forall ts zs ps, length zs = length ts -> length ps = length ts ->
      vsum (map (fun ab => e (fst ab) (snd ab)) (combine ps (map (fun tz => vadd (vmul (fst tz) h) (vopp (vmul (snd tz) h))) (combine ts zs))))
      = e (lincomb ts zs ps) h.
    Proof.
      induction ts as [|t ts IH]; intros [|z zs] [|p ps] Lz Lp; try discriminate.
      - unfold lincomb. cbn. rewrite <- (vmul_0_l _ _ (e v0 h)), <- (pe_mul_l _ _ _ _ e), vmul_0_r. reflexivity.
      - cbn [combine map fst snd]. rewrite vsum_cons, IH by (cbn in *; lia). unfold lincomb. cbn [combine map fst snd]. rewrite vsum_cons, pe_add_l.
        f_equal. rewrite pe_mul_l, <- pe_mul_r. f_equal. vring.
    Qed.
    Lemma ml_verify_eq t g h comm pt v ps : (length pt <= length t)%nat ->
      ml_verify K V1 V2 VT e (snd (ml_keys t g h)) comm pt v ps =
      if (length ps =? length pt)%nat then
        Ok (veqb (e (vadd (lincomb (skipn (length t - length pt) t) pt ps) (vadd (vmul v g) (vopp comm))) h) v0)
      else Panic.
    Proof.
      intro H. unfold ml_verify. cbn [ml_keys snd mv_num_vars mv_mask mv_h mv_g]. destruct (Nat.ltb_spec (length t) (length pt)); [lia|].
      set (ts := skipn (length t - length pt) t). assert (Lt : length ts = length pt) by (unfold ts; rewrite skipn_length; lia).
      assert (E : map_res (fun iz => let* m := index (map (fun ti => vmul ti h) t) (length t - length pt + fst iz) in
                   Ok (vadd m (vopp (vmul (snd iz) h)))) (combine (seq 0 (length pt)) pt)
                = (Ok (map (fun tz => vadd (vmul (fst tz) h) (vopp (vmul (snd tz) h))) (combine ts pt)) : pres (list V2))).
      { rewrite (map_res_ok _ (fun iz => vadd (vmul (nth (fst iz) ts 0) h) (vopp (vmul (snd iz) h)))).
        - f_equal. transitivity (map (fun tz => vadd (vmul (fst tz) h) (vopp (vmul (snd tz) h))) (map (fun iz => (nth (fst iz) ts 0, snd iz)) (combine (seq 0 (length pt)) pt))).
          + rewrite map_map. reflexivity.
          + f_equal. transitivity (combine (map (fun i => nth i ts 0) (seq 0 (length pt))) pt).
            * generalize (seq 0 (length pt)). intro l. generalize pt. clear. 
              induction l as [|a l IH]; intros [|b q]; try reflexivity. cbn. f_equal. apply IH.
            * f_equal. rewrite <- Lt. symmetry. apply map_nth_seq.
        - intros iz Hiz. destruct iz as [i z]. apply in_combine_l in Hiz. apply in_seq in Hiz. cbn [fst snd].
          unfold index. rewrite nth_error_map, (nth_error_nth' t 0) by lia. cbn [option_map bind]. do 2 f_equal. unfold ts. now rewrite nth_skipn'. }
      rewrite E. cbn [bind]. rewrite !app_length, !map_length, combine_length, Lt, Nat.min_id. cbn [length].
      destruct (Nat.eqb_spec (length ps) (length pt)) as [Lp|Np].
      - rewrite (proj2 (Nat.eqb_eq _ _)) by lia. do 2 f_equal.
        rewrite combine_app_eq by (rewrite map_length, combine_length; lia). rewrite map_app, vsum_app, vsum_pairings by lia.
        cbn [combine map fst snd]. rewrite vsum_cons. change (vsum (@nil VT)) with (@v0 K VT). rewrite vadd_0_r, !pe_add_l. reflexivity.
      - rewrite (proj2 (Nat.eqb_neq _ _)) by lia. reflexivity.
    Qed.
  End Srs.
End MlProofs.
