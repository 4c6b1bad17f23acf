(** Proofs about the amortised (FK23) opening proofs: discrete Fourier transforms,
    circulant and Toeplitz products, and the polynomial of proofs. *)
From Coq Require Import List Arith Lia Bool Ring Field.
From Verif Require Import Base Alg Poly ListAux VRing KzgModel KzgProofs.
Import ListNotations.

Section KzgFft.
  Variable K : fld.
  Local Open Scope fld_scope.
  Add Field Kkzgf : (fth K).

  (** ** Finite sums *)
  Section Sums.
    Variable V : vsp K.
    Lemma vsum_zero {A} (f : A -> V) l : (forall a, In a l -> f a = v0) -> vsum (map f l) = v0.
    Proof.
      induction l as [|a l IH]; intro H; [reflexivity|]. cbn [map]. rewrite vsum_cons, H by (left; auto).
      rewrite IH by (intros; apply H; right; auto). apply vadd_0_l.
    Qed.
    Lemma vsum_swap {A B} (f : A -> B -> V) l l' :
      vsum (map (fun a => vsum (map (f a) l')) l) = vsum (map (fun b => vsum (map (fun a => f a b) l)) l').
    Proof.
      induction l as [|a l IH].
      - cbn [map]. symmetry. apply (vsum_zero (fun _ => v0)). auto.
      - cbn [map]. rewrite vsum_cons, IH, <- vsum_map_add. apply vsum_map_ext. intros. reflexivity.
    Qed.
    Lemma vsum_pick (f : nat -> V) n k : (k < n)%nat -> (forall i, (i < n)%nat -> i <> k -> f i = v0) ->
      vsum (map f (seq 0 n)) = f k.
    Proof.
      intros Hk H. replace n with (k + (1 + (n - S k)))%nat by lia.
      rewrite !seq_app, !map_app, !vsum_app. cbn [seq map Nat.add].
      rewrite !vsum_zero by (intros i Hi; apply in_seq in Hi; apply H; lia).
      rewrite vsum_cons. unfold vsum. cbn. rewrite vadd_0_l, !vadd_0_r. reflexivity.
    Qed.
    Lemma vsum_scale_l {A} (f : A -> K) (x : V) l : vsum (map (fun a => vmul (f a) x) l) = vmul (fsum (map f l)) x.
    Proof. rewrite <- vsum_scal, map_map. reflexivity. Qed.
    Lemma vsum_shift (f : nat -> V) s t n : vsum (map f (seq (s + t) n)) = vsum (map (fun i => f (i + t)%nat) (seq s n)).
    Proof.
      revert s. induction n as [|n IH]; intro s; [reflexivity|]. cbn [seq map]. rewrite !vsum_cons. f_equal. apply (IH (S s)).
    Qed.
  End Sums.
  Lemma map_nth_seq {A} (l : list A) d : l = map (fun i => nth i l d) (seq 0 (length l)).
  Proof.
    induction l as [|a l IH]; [reflexivity|]. cbn [length seq map nth]. f_equal.
    rewrite <- seq_shift, map_map. exact IH.
  Qed.
  Lemma nth_map_seq {A} (f : nat -> A) n i d : (i < n)%nat -> nth i (map f (seq 0 n)) d = f i.
  Proof.
    intro H. rewrite (nth_indep _ d (f 0%nat)) by (rewrite map_length, seq_length; auto).
    rewrite map_nth, seq_nth by auto. reflexivity.
  Qed.
  Lemma geom_sum (x : K) n : (x - 1) * fsum (map (fpow x) (seq 0 n)) = fpow x n - 1.
  Proof.
    induction n as [|n IH]; [cbn; ring|].
    rewrite seq_S, map_app, fsum_app. cbn [map Nat.add]. rewrite fsum_cons. cbn [fsum fold_right].
    transitivity ((x - 1) * fsum (map (fpow x) (seq 0 n)) + (x - 1) * fpow x n); [unfold fsum; cbn; ring|].
    rewrite IH, fpow_S. ring.
  Qed.

  (** ** Domains *)
  Record dom_ok (d : dom K) : Prop := {
    do_size : (0 < dsize d)%nat;
    do_one : fpow (dgen d) (dsize d) = 1;
    do_prim : forall i, (0 < i < dsize d)%nat -> fpow (dgen d) i <> 1;
    do_inv : fnat (dsize d) <> (0 : K) }.
  (** The two-adic root really has order [2^two_adicity]. *)
  Definition root_ok (tad : nat) (w : K) : Prop :=
    fpow w (2 ^ tad) = 1 /\ forall i, (0 < i < 2 ^ tad)%nat -> fpow w i <> 1.
  Lemma root_ok_two tad w : root_ok tad w -> (0 < tad)%nat -> (1 + 1 : K) <> 0.
  Proof.
    intros [H1 H2] Ht E. destruct tad as [|t]; [lia|].
    assert (P : (0 < 2 ^ t)%nat) by (apply Nat.neq_0_lt_0, Nat.pow_nonzero; lia).
    assert (Hlt : (0 < 2 ^ t < 2 ^ S t)%nat) by (cbn; lia).
    specialize (H2 _ Hlt). set (u := fpow w (2 ^ t)) in *.
    assert (Hu : u * u = 1).
    { unfold u. rewrite <- fpow_add. rewrite <- H1. f_equal. cbn. lia. }
    assert (Hz : (u - 1) * (u + 1) = 0) by (transitivity (u * u - 1); [ring|rewrite Hu; ring]).
    apply fmul_eq_0 in Hz as [Hz|Hz].
    - apply H2. now apply fsub_0_eq.
    - apply H2. transitivity (u + 1 - 1); [ring|]. rewrite Hz.
      transitivity (0 - 1 + (1 + 1) : K); [rewrite E; ring|ring].
  Qed.
  Lemma fnat_pow2 l : (1 + 1 : K) <> 0 -> fnat (2 ^ l) <> (0 : K).
  Proof.
    intro H. induction l as [|l IH]; [cbn; intro E; apply (f1_neq_0 K); rewrite <- E; ring|].
    cbn [Nat.pow]. rewrite fnat_mul. apply fmul_neq_0; auto. cbn. intro E. apply H. rewrite <- E. ring.
  Qed.
  Lemma radix2_ok tad w n d : root_ok tad w -> radix2_new K tad w n = Some d -> dom_ok d.
  Proof.
    intros R E. unfold radix2_new in E. destruct (Nat.leb_spec (Nat.log2_up n) tad) as [Hl|]; [|discriminate].
    injection E as <-. set (l := Nat.log2_up n) in *.
    assert (P : forall k, (0 < 2 ^ k)%nat) by (intro k; apply Nat.neq_0_lt_0, Nat.pow_nonzero; lia).
    assert (Ep : (2 ^ (tad - l) * 2 ^ l = 2 ^ tad)%nat) by (rewrite <- Nat.pow_add_r; f_equal; lia).
    constructor; cbn [dsize dgen].
    - apply P.
    - rewrite <- fpow_mul, Ep. apply R.
    - intros i Hi. rewrite <- fpow_mul. apply R. split; [apply Nat.mul_pos_pos; auto; lia|].
      rewrite <- Ep. apply Nat.mul_lt_mono_pos_l; auto. lia.
    - destruct (Nat.eq_dec tad 0) as [->|Nt].
      + replace l with 0%nat by lia. cbn. intro E. apply (f1_neq_0 K). rewrite <- E. ring.
      + apply fnat_pow2. apply (root_ok_two tad w); auto. lia.
  Qed.
  Lemma log2_up_pow2_ge n : (n <= 2 ^ Nat.log2_up n)%nat.
  Proof.
    destruct (Nat.le_gt_cases n 1) as [H|H].
    - assert (0 < 2 ^ Nat.log2_up n)%nat by (apply Nat.neq_0_lt_0, Nat.pow_nonzero; lia). lia.
    - apply Nat.log2_up_spec. lia.
  Qed.

  Lemma fpow_unit (x : K) n k : fpow x n = 1 -> fpow x (n * k) = 1.
  Proof. intro H. rewrite fpow_mul, H. apply fpow_1. Qed.
  Lemma do_gen_neq_0 d : dom_ok d -> dgen d <> 0.
  Proof.
    intros [S O _ _] E. rewrite E, fpow_0 in O by auto. apply (f1_neq_0 K). symmetry. exact O.
  Qed.
  (** Powers of [w] and of its inverse. *)
  Lemma inv_pow d a i : dom_ok d -> fpow (dgen d) (i + a) * fpow (finv (dgen d)) i = fpow (dgen d) a.
  Proof.
    intro H. apply do_gen_neq_0 in H. rewrite fpow_add.
    assert (E : fpow (dgen d) i * fpow (finv (dgen d)) i = 1).
    { rewrite <- fpow_mult_base. replace (dgen d * finv (dgen d)) with (1 : K) by (field; auto). apply fpow_1. }
    transitivity (fpow (dgen d) a * (fpow (dgen d) i * fpow (finv (dgen d)) i)); [ring|]. rewrite E. ring.
  Qed.
  (** Orthogonality of the characters. *)
  Lemma orth d i b : dom_ok d -> (i < dsize d)%nat -> (b < dsize d)%nat ->
    fsum (map (fun j => fpow (finv (dgen d)) (i * j) * fpow (dgen d) (j * b)) (seq 0 (dsize d)))
    = if (b =? i)%nat then fnat (dsize d) else 0.
  Proof.
    intros H Hi Hb. destruct (Nat.eqb_spec b i) as [->|N].
    - rewrite (fsum_map_ext K _ (fun _ => 1)).
      + generalize (seq 0 (dsize d)), (seq_length (dsize d) 0). intros l <-. induction l; [reflexivity|]. cbn [map length fnat]. rewrite fsum_cons, IHl. reflexivity.
      + intros j _. pose proof (inv_pow d 0 (i * j) H) as E. rewrite Nat.add_0_r in E. rewrite (Nat.mul_comm j i).
        transitivity (fpow (dgen d) (i * j) * fpow (finv (dgen d)) (i * j)); [ring|]. rewrite E. reflexivity.
    - set (x := fpow (finv (dgen d)) i * fpow (dgen d) b).
      rewrite (fsum_map_ext K _ (fpow x)).
      2: { intros j _. unfold x. rewrite fpow_mult_base, <- !fpow_mul. f_equal. f_equal. lia. }
      pose proof (do_gen_neq_0 d H) as G0.
      assert (I1 : fpow (finv (dgen d)) (dsize d) = 1).
      { pose proof (inv_pow d 0 (dsize d) H) as E. rewrite Nat.add_0_r, (do_one d H) in E. cbn [fpow] in E.
        transitivity (1 * fpow (finv (dgen d)) (dsize d)); [ring|exact E]. }
      assert (X1 : fpow x (dsize d) = 1).
      { unfold x. rewrite fpow_mult_base, <- !fpow_mul, (Nat.mul_comm i), (Nat.mul_comm b), !fpow_unit; auto; [ring|apply H]. }
      assert (XN : x <> 1).
      { intro E. destruct (Nat.lt_ge_cases i b) as [Hl|Hl].
        - apply (do_prim d H (b - i)); [lia|]. rewrite <- (inv_pow d (b - i) i H).
          replace (i + (b - i))%nat with b by lia. rewrite <- E. unfold x. ring.
        - apply (do_prim d H (i - b)); [lia|].
          assert (Z : fpow (dgen d) i = fpow (dgen d) b).
          { pose proof (inv_pow d 0 i H) as E0. rewrite Nat.add_0_r in E0. cbn [fpow] in E0.
            transitivity (x * fpow (dgen d) i); [rewrite E; ring|]. unfold x.
            transitivity (fpow (dgen d) b * (fpow (dgen d) i * fpow (finv (dgen d)) i)); [ring|]. rewrite E0. ring. }
          rewrite <- (inv_pow d (i - b) b H). replace (b + (i - b))%nat with i by lia. rewrite Z.
          pose proof (inv_pow d 0 b H) as E0. rewrite Nat.add_0_r in E0. exact E0. }
      pose proof (geom_sum x (dsize d)) as G. rewrite X1 in G.
      assert (Z : (x - 1) * fsum (map (fpow x) (seq 0 (dsize d))) = 0) by (rewrite G; ring).
      apply fmul_eq_0 in Z as [Z|Z]; [|exact Z]. exfalso. apply XN. now apply fsub_0_eq.
  Qed.

  Section Fft.
    Variable V : vsp K.
    Lemma dft_at_shift x n : forall (l : list V), dft_at K V x n l = vsum (map (fun j => vmul (fpow x j) (nth j l v0)) (seq 0 n)).
    Proof.
      induction n as [|n IH]; intro l; [reflexivity|]. cbn [dft_at seq map]. rewrite vsum_cons, IH, <- seq_shift, map_map, vmul_vsum, map_map.
      f_equal; [cbn [fpow]; rewrite vmul_1; destruct l; reflexivity|]. apply vsum_map_ext. intros j _. rewrite <- vmul_mul.
      cbn [fpow]. f_equal. destruct l; [destruct j; reflexivity|reflexivity].
    Qed.
    Lemma fft_coset_sum c d (l : list V) : fft_coset K V c d l
      = map (fun i => vsum (map (fun j => vmul (fpow (c * fpow (dgen d) i) j) (nth j l v0)) (seq 0 (dsize d)))) (seq 0 (dsize d)).
    Proof. unfold fft_coset. apply map_ext. intro i. apply dft_at_shift. Qed.
    Lemma ifft_sum d (l : list V) : ifft K V d l
      = map (fun i => vmul (finv (fnat (dsize d))) (vsum (map (fun j => vmul (fpow (finv (dgen d)) (i * j)) (nth j l v0)) (seq 0 (dsize d))))) (seq 0 (dsize d)).
    Proof.
      unfold ifft. cbv zeta. apply map_ext. intro i. rewrite dft_at_shift. f_equal. apply vsum_map_ext. intros j _. now rewrite <- fpow_mul.
    Qed.
    Lemma length_fft c d (l : list V) : length (fft_coset K V c d l) = dsize d.
    Proof. unfold fft_coset. now rewrite map_length, seq_length. Qed.
    Lemma nth_fft c d (l : list V) i : (i < dsize d)%nat ->
      nth i (fft_coset K V c d l) v0
      = vsum (map (fun j => vmul (fpow (c * fpow (dgen d) i) j) (nth j l v0)) (seq 0 (dsize d))).
    Proof. intro H. rewrite fft_coset_sum. now rewrite nth_map_seq. Qed.
  End Fft.

  Section Circ.
    Variable V : vsp K.
    (** The inverse transform undoes the transform. *)
    Lemma ifft_fft d (l : list V) : dom_ok d -> length l = dsize d -> ifft K V d (fft K V d l) = l.
    Proof.
      intros H L. transitivity (map (fun i => nth i l v0) (seq 0 (dsize d))); [|rewrite <- L; symmetry; apply map_nth_seq].
      rewrite ifft_sum. apply map_ext_in. intros i Hi. apply in_seq in Hi.
      rewrite (vsum_map_ext K V _ (fun j => vsum (map (fun b =>
         vmul (fpow (finv (dgen d)) (i * j) * fpow (dgen d) (j * b)) (nth b l v0)) (seq 0 (dsize d))))).
      2: { intros j Hj. apply in_seq in Hj. unfold fft. rewrite nth_fft by lia. rewrite vmul_vsum, map_map.
           apply vsum_map_ext. intros b _. rewrite <- vmul_mul. f_equal. f_equal.
           rewrite fpow_mul. f_equal. ring. }
      rewrite vsum_swap.
      rewrite (vsum_map_ext K V _ (fun b => vmul (if (b =? i)%nat then fnat (dsize d) else 0) (nth b l v0))).
      2: { intros b Hb. apply in_seq in Hb. rewrite vsum_scale_l, orth by (auto; lia). reflexivity. }
      rewrite (vsum_pick V _ _ i); [|lia|intros b Hb N; destruct (Nat.eqb_spec b i); [lia|apply vmul_0_l]].
      rewrite Nat.eqb_refl, <- vmul_mul. transitivity (vmul 1 (nth i l v0)); [|apply vmul_1].
      f_equal. field. apply H.
    Qed.
    (** The circulant product, entry by entry. *)
    Definition circ (n : nat) (col : list K) (m : list V) : list V :=
      map (fun i => vsum (map (fun b => vmul (nth ((i + n - b) mod n) col 0) (nth b m v0)) (seq 0 n))) (seq 0 n).
    Lemma cyc_shift d j b (col : list K) : dom_ok d -> (b < dsize d)%nat ->
      fsum (map (fun i => fpow (dgen d) (j * i) * nth ((i + dsize d - b) mod dsize d) col 0) (seq 0 (dsize d)))
      = fpow (dgen d) (j * b) * fsum (map (fun a => fpow (dgen d) (j * a) * nth a col 0) (seq 0 (dsize d))).
    Proof.
      intros H Hb. set (n := dsize d) in *. set (w := dgen d) in *.
      assert (W : fpow w n = 1) by apply H.
      replace (seq 0 n) with (seq 0 b ++ seq b (n - b)) at 1 by (rewrite <- seq_app; f_equal; lia).
      replace (seq 0 n) with (seq 0 (n - b) ++ seq (n - b) b) by (rewrite <- seq_app; f_equal; lia).
      rewrite !map_app, !fsum_app.
      change (@fsum K) with (@vsum K (self_vsp K)).
      replace (seq b (n - b)) with (seq (0 + b) (n - b)) by reflexivity.
      replace (seq (n - b) b) with (seq (0 + (n - b)) b) by reflexivity.
      rewrite !(vsum_shift (self_vsp K)). change (@vsum K (self_vsp K)) with (@fsum K).
      set (A := fsum (map (fun a => fpow w (j * a) * nth a col 0) (seq 0 (n - b)))).
      match goal with |- ?x + ?y = _ * (_ + ?z) =>
        assert (E1 : x = fpow w (j * b) * z); [|assert (E2 : y = fpow w (j * b) * A); [|rewrite E1, E2; ring]] end.
      - rewrite <- fsum_map_scale. apply fsum_map_ext. intros i Hi. apply in_seq in Hi.
        rewrite Nat.mod_small by lia. replace (i + (n - b))%nat with (i + n - b)%nat by lia.
        transitivity (fpow w (j * b + j * (i + n - b)) * nth (i + n - b) col 0); [|rewrite fpow_add; ring].
        f_equal. replace (j * b + j * (i + n - b))%nat with (j * i + n * j)%nat by nia.
        rewrite fpow_add, (fpow_unit w n j W). ring.
      - unfold A. rewrite <- fsum_map_scale. apply fsum_map_ext. intros i Hi. apply in_seq in Hi.
        replace (i + b + n - b)%nat with (i + 1 * n)%nat by lia. rewrite Nat.mod_add by lia. rewrite Nat.mod_small by lia.
        rewrite Nat.mul_add_distr_l, fpow_add. ring.
    Qed.
    Lemma length_fftK c d (l : list K) : @length K (fft_coset K (self_vsp K) c d l) = dsize d.
    Proof. exact (length_fft (self_vsp K) c d l). Qed.
    Lemma length_had c c' d (a : list K) (b : list V) :
      length (hadamard K V (fft_coset K (self_vsp K) c d a) (fft_coset K V c' d b)) = dsize d.
    Proof. unfold hadamard. rewrite map_length, combine_length, length_fftK, length_fft. lia. Qed.
    Lemma nth_had (a : list K) (b : list V) : forall j, (j < length a)%nat -> (j < length b)%nat ->
      nth j (hadamard K V a b) v0 = vmul (nth j a 0) (nth j b v0).
    Proof.
      unfold hadamard. revert b. induction a as [|x a IH]; intros [|y b] [|j] Ha Hb; cbn in *; try lia; auto. apply IH; lia.
    Qed.
    Lemma fft_circ d (col : list K) (m : list V) : dom_ok d ->
      fft K V d (circ (dsize d) col m) = hadamard K V (fft K (self_vsp K) d col) (fft K V d m).
    Proof.
      intro H. apply list_ext.
      intros j. destruct (Nat.lt_ge_cases j (dsize d)) as [Hj|Hj].
      2: { rewrite !(proj2 (nth_error_None _ _)); auto; unfold fft; rewrite ?length_had, ?length_fft; lia. }
      assert (NE : forall l : list V, length l = dsize d -> nth_error l j = Some (nth j l v0)) by (intros l L; apply nth_error_nth'; lia).
      rewrite !NE. f_equal.
      2: { unfold fft. apply length_had. }
      2: { unfold fft. apply length_fft. }
      rewrite nth_had by (unfold fft; rewrite ?length_fftK, ?length_fft; auto).
      unfold fft. rewrite !(nth_fft V) by auto.
      rewrite (vsum_map_ext K V _ (fun i => vsum (map (fun b => vmul (fpow (dgen d) (j * i) * nth ((i + dsize d - b) mod dsize d) col 0) (nth b m v0)) (seq 0 (dsize d))))).
      2: { intros i Hi. apply in_seq in Hi. unfold circ. rewrite nth_map_seq by lia. rewrite vmul_vsum, map_map.
           apply vsum_map_ext. intros b _. rewrite <- vmul_mul. f_equal. f_equal. rewrite fpow_mul. f_equal. ring. }
      rewrite vsum_swap, vmul_vsum, map_map. apply vsum_map_ext. intros b Hb. apply in_seq in Hb.
      rewrite vsum_scale_l, cyc_shift by (auto; lia). rewrite <- vmul_mul. f_equal.
      replace (1 * fpow (dgen d) j) with (fpow (dgen d) j) by ring. rewrite <- fpow_mul.
      match goal with |- _ = ?x * _ =>
        assert (HN : x = fsum (map (fun a => fpow (dgen d) (j * a) * nth a col 0) (seq 0 (dsize d)))); [|rewrite HN; ring] end.
      change (0 : K) with (v0 : self_vsp K) at 1. etransitivity; [apply (nth_fft (self_vsp K) 1 d col j Hj)|].
      change (@vsum K (self_vsp K)) with (@fsum K). apply fsum_map_ext. intros a _. cbn [vmul self_vsp v0].
      rewrite fpow_mul. replace (1 * fpow (dgen d) j) with (fpow (dgen d) j) by ring. reflexivity.
    Qed.
    Lemma circulant_mul_spec tad w (col : list K) (m : list V) : root_ok tad w ->
      is_pow2 (length m) = true -> length m = length col -> (Nat.log2_up (length m) <= tad)%nat ->
      circulant_mul K tad w V col m = Ok (circ (length m) col m).
    Proof.
      intros R P L T. unfold circulant_mul. rewrite P, L, Nat.eqb_refl. cbn [negb].
      destruct (radix2_new K tad w (length col)) as [d|] eqn:E.
      - pose proof (radix2_ok _ _ _ _ R E) as H.
        assert (S : dsize d = length col).
        { unfold radix2_new in E. rewrite L in T. destruct (Nat.leb_spec (Nat.log2_up (length col)) tad); [|lia].
          injection E as <-. cbn. unfold is_pow2 in P. apply Nat.eqb_eq in P. rewrite L in P. symmetry. exact P. }
        f_equal. rewrite <- S, <- fft_circ by auto. apply ifft_fft; auto. unfold circ. now rewrite map_length, seq_length.
      - exfalso. unfold radix2_new in E. rewrite L in T. destruct (Nat.leb_spec (Nat.log2_up (length col)) tad); [discriminate|lia].
    Qed.

    (** The Toeplitz product, entry by entry. *)
    Definition tentry (t : toeplitz K) (i b : nat) : K :=
      if (b <=? i)%nat then nth (i - b) (tcol K t) 0 else nth (b - i) (trow K t) 0.
    Definition tprod (t : toeplitz K) (v : list V) : list V :=
      map (fun i => vsum (map (fun b => vmul (tentry t i b) (nth b v v0)) (seq 0 (length v)))) (seq 0 (length v)).
    Lemma is_pow2_double n : is_pow2 n = true -> is_pow2 (2 * n) = true /\ Nat.log2_up (2 * n) = S (Nat.log2_up n).
    Proof.
      unfold is_pow2, npot. intro H. apply Nat.eqb_eq in H.
      assert (L : Nat.log2_up (2 * n) = S (Nat.log2_up n)).
      { rewrite H at 1. replace (2 * 2 ^ Nat.log2_up n)%nat with (2 ^ S (Nat.log2_up n))%nat by (cbn; lia).
        rewrite Nat.log2_up_pow2; lia. }
      split; auto. rewrite L. apply Nat.eqb_eq. cbn [Nat.pow]. lia.
    Qed.
    Lemma nth_rev_rot (l : list K) k : (k < length l)%nat -> length l <> 0%nat ->
      nth k (rev (rotate_left1 l)) 0 = if (k =? 0)%nat then nth 0 l 0 else nth (length l - k) l 0.
    Proof.
      destruct l as [|a l]; [cbn; lia|]. intros Hk _. cbn [rotate_left1]. rewrite rev_app_distr. cbn [rev app].
      destruct k as [|k]; [reflexivity|]. cbn [length] in *. cbn [nth Nat.eqb].
      rewrite rev_nth by lia. replace (S (length l) - S k)%nat with (S (length l - S k)) by lia. reflexivity.
    Qed.
    Lemma toeplitz_mul_spec tad w t (v : list V) : root_ok tad w -> is_pow2 (length v) = true ->
      length v = length (tcol K t) -> length v = length (trow K t) -> (S (Nat.log2_up (length v)) <= tad)%nat ->
      toeplitz_mul K tad w V t v = Ok (tprod t v).
    Proof.
      intros R P Lc Lr T. unfold toeplitz_mul. rewrite P, <- Lc, Nat.eqb_refl. cbn [negb].
      set (N := length v) in *.
      assert (N0 : N <> 0%nat) by (intro Z; rewrite Z in P; discriminate).
      destruct (is_pow2_double N P) as [P2 L2].
      assert (Lp : length (resize (2 * N) v0 v) = (2 * N)%nat).
      { unfold resize. rewrite app_length, firstn_length, repeat_length. fold N. lia. }
      assert (Lr' : length (rotate_left1 (trow K t)) = length (trow K t)).
      { destruct (trow K t); [reflexivity|]. cbn. rewrite app_length. cbn. lia. }
      rewrite circulant_mul_spec; auto.
      2: rewrite Lp; auto.
      2: { rewrite Lp. unfold circulant_embedding. rewrite app_length, rev_length, Lr'. lia. }
      2: { rewrite Lp, L2. exact T. }
      cbn [bind]. f_equal. rewrite Lp. unfold circ, tprod. fold N.
      rewrite firstn_map, firstn_seq. replace (Nat.min N (2 * N)) with N by lia.
      apply map_ext_in. intros i Hi. apply in_seq in Hi.
      replace (seq 0 (2 * N)) with (seq 0 N ++ seq N N) by (rewrite <- seq_app; f_equal; lia).
      rewrite map_app, vsum_app.
      rewrite (vsum_zero V _ (seq N N)).
      2: { intros b Hb. apply in_seq in Hb. unfold resize. rewrite app_nth2; rewrite firstn_length; fold N; [|lia].
           rewrite nth_repeat. apply vmul_0_r. }
      rewrite vadd_0_r. apply vsum_map_ext. intros b Hb. apply in_seq in Hb. f_equal.
      - unfold tentry, circulant_embedding. destruct (Nat.leb_spec b i).
        + replace (i + 2 * N - b)%nat with ((i - b) + 1 * (2 * N))%nat by lia. rewrite Nat.mod_add, Nat.mod_small by lia.
          apply app_nth1. lia.
        + rewrite Nat.mod_small by lia. rewrite app_nth2 by lia. rewrite nth_rev_rot by lia.
          destruct (Nat.eqb_spec (i + 2 * N - b - length (tcol K t)) 0); [lia|]. f_equal. lia.
      - unfold resize. rewrite app_nth1 by (rewrite firstn_length; fold N; lia). rewrite firstn_all2 by (fold N; lia). reflexivity.
    Qed.
  End Circ.
End KzgFft.
