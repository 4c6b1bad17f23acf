(** The amortised openings (FK23): the h-polynomial and its evaluations. *)
From Coq Require Import List Arith Lia Bool Ring Field.
From Verif Require Import Base ListAux Alg Poly VRing KzgModel KzgProofs KzgFft.
Import ListNotations.

Section KzgFk.
  Variable K : fld.
  Local Open Scope fld_scope.
  Add Field Kkzgk : (fth K).

  Lemma nth_skipn {A} (l : list A) k i d : nth i (skipn k l) d = nth (k + i) l d.
  Proof. revert k. induction l as [|a l IH]; intros [|k]; cbn; auto. destruct i; reflexivity. Qed.
  Lemma peval_fsum (p : list K) x : forall n, (length p <= n)%nat ->
    peval p x = fsum (map (fun k => coef p k * fpow x k) (seq 0 n)).
  Proof.
    induction p as [|c p IH]; intros n H.
    - symmetry. apply fsum_map_0. intros k _. unfold coef. destruct k; cbn [nth]; ring.
    - destruct n as [|n]; [cbn in H; lia|]. cbn [length] in H. rewrite peval_cons, (IH n) by lia.
      cbn [seq map]. rewrite fsum_cons, <- seq_shift, map_map. unfold coef at 2. cbn [nth fpow].
      rewrite <- fsum_map_scale.
      rewrite (fsum_map_ext K (fun k => coef (c :: p) (S k) * fpow x (S k)) (fun k => x * (coef p k * fpow x k))).
      + ring.
      + intros k _. rewrite coef_cons_S, fpow_S. ring.
  Qed.

  Section Rev.
    Variable V : vsp K.
    Lemma vsum_rev (f : nat -> V) n : vsum (map f (seq 0 n)) = vsum (map (fun k => f (n - 1 - k)%nat) (seq 0 n)).
    Proof.
      induction n as [|n IH]; [reflexivity|]. rewrite seq_S at 1. rewrite map_app, vsum_app, IH.
      cbn [map seq Nat.add]. rewrite !vsum_cons, (vadd_comm K V), <- seq_shift, map_map.
      replace (S n - 1 - 0)%nat with n by lia.
      rewrite (vsum_map_ext K V (fun k => f (n - 1 - k)%nat) (fun x => f (S n - 1 - S x)%nat))
        by (intros k _; f_equal; lia).
      unfold vsum at 1. cbn [fold_right]. now rewrite vadd_0_r.
    Qed.
  End Rev.

  Section Fk.
    Variable V : vsp K.
    Variables (tau : K) (g : V).
    Lemma horner_cons (c : V) l x : horner K V (c :: l) x = vadd (vmul x (horner K V l x)) c.
    Proof. reflexivity. Qed.
    Lemma horner_scal (p : list K) x : horner K V (map (fun c => vmul c g) p) x = vmul (peval p x) g.
    Proof.
      induction p as [|c p IH]; [cbn; now rewrite vmul_0_l|]. cbn [map]. rewrite horner_cons, IH, peval_cons. vring.
    Qed.
    Lemma horner_gnorm (l : list V) x : horner K V (gnorm K V l) x = horner K V l x.
    Proof.
      induction l as [|c l IH]; [reflexivity|]. cbn [gnorm]. rewrite horner_cons, <- IH.
      destruct (gnorm K V l) as [|d q]; [|reflexivity]. destruct (veqb c v0) eqn:E; [|reflexivity].
      apply veqb_eq in E. subst. cbn. now rewrite vmul_0_r, vadd_0_r.
    Qed.
    Lemma length_gnorm (l : list V) : (length (gnorm K V l) <= length l)%nat.
    Proof.
      induction l as [|c l IH]; [cbn; lia|]. cbn [gnorm]. destruct (gnorm K V l) as [|d q]; [|cbn [length] in *; lia].
      destruct (veqb c v0); cbn; lia.
    Qed.
    Lemma gis_zero_gnorm (l : list V) : gis_zero K V (gnorm K V l) = true -> gnorm K V l = [].
    Proof.
      induction l as [|c l IH]; [reflexivity|]. cbn [gnorm]. destruct (gnorm K V l) as [|d q].
      - destruct (veqb c v0) eqn:E; auto. cbn. rewrite E. discriminate.
      - intro H. cbn [gis_zero forallb] in H. apply andb_prop in H as [_ H]. apply IH in H. discriminate.
    Qed.
    Lemma gdegree_gnorm (l : list V) : gdegree K V (gnorm K V l) = (length (gnorm K V l) - 1)%nat.
    Proof.
      unfold gdegree. destruct (gis_zero K V (gnorm K V l)) eqn:E; [|reflexivity].
      apply gis_zero_gnorm in E. now rewrite E.
    Qed.
    Lemma gevaluate_horner (l : list V) x : gevaluate K V l x = horner K V l x.
    Proof.
      unfold gevaluate. destruct (gis_zero K V l) eqn:Z.
      - induction l as [|c l IH]; [reflexivity|]. cbn [gis_zero forallb] in Z. apply andb_prop in Z as [E Z].
        rewrite horner_cons, <- IH by exact Z. apply veqb_eq in E. subst. now rewrite vmul_0_r, vadd_0_r.
      - destruct (feqb x 0) eqn:E; [|reflexivity]. apply feqb_eq in E. subst. destruct l; [reflexivity|].
        rewrite horner_cons, vmul_0_l, vadd_0_l. reflexivity.
    Qed.
    Lemma horner_vsum (l : list V) x : forall n, (length l <= n)%nat ->
      horner K V l x = vsum (map (fun j => vmul (fpow x j) (nth j l v0)) (seq 0 n)).
    Proof.
      induction l as [|c l IH]; intros n H.
      - rewrite (vsum_zero K V); [reflexivity|]. intros j _. destruct j; apply vmul_0_r.
      - destruct n as [|n]; [cbn in H; lia|]. cbn [length] in H. rewrite horner_cons, (IH n) by lia.
        cbn [seq map]. rewrite vsum_cons, <- seq_shift, map_map, vmul_vsum, map_map. cbn [nth fpow].
        rewrite vmul_1, (vadd_comm K V). f_equal. apply vsum_map_ext. intros j _. now rewrite <- vmul_mul.
    Qed.

    (** The h-polynomial, coefficient by coefficient. *)
    Definition hpoly (p : list K) (n : nat) : list V := map (fun i => vmul (peval (skipn (S i) p) tau) g) (seq 0 n).
    Lemma horner_hpoly (p : list K) n z : (length p - 1 <= n)%nat ->
      horner K V (hpoly p n) z = vmul (peval (pdiv p z) tau) g.
    Proof.
      intro H. unfold hpoly. rewrite <- (map_map (fun i => peval (skipn (S i) p) tau) (fun c => vmul c g)), horner_scal.
      f_equal. rewrite pdiv_sym.
      rewrite (peval_fsum (pdiv p tau) z n) by (rewrite length_pdiv; lia).
      rewrite (peval_fsum _ z n) by (rewrite map_length, seq_length; lia).
      apply fsum_map_ext. intros k Hk. apply in_seq in Hk. f_equal. unfold coef at 1.
      rewrite nth_map_seq by lia. symmetry. apply coef_pdiv.
    Qed.

    Lemma fk23_spec tad w n (p : list K) : root_ok K tad w -> (npot (length p - 1) <= n)%nat ->
      (Nat.log2_up (length p - 1) < tad)%nat ->
      compute_h_poly_in_fk23 K tad w V (tpowers K V tau g n) p = Ok (gnorm K V (hpoly p (npot (length p - 1)))).
    Proof.
      intros R Hn Ht. unfold compute_h_poly_in_fk23.
      set (D := npot (length p - 1)) in *.
      assert (HD : (length p - 1 <= D)%nat) by apply log2_up_pow2_ge.
      assert (D0 : (0 < D)%nat) by (apply Nat.neq_0_lt_0, Nat.pow_nonzero; lia).
      set (pd := resize (D + 1) 0 p).
      assert (Lpd : length pd = (D + 1)%nat).
      { unfold pd, resize. rewrite app_length, firstn_length, repeat_length. lia. }
      assert (Cpd : forall i, nth i pd 0 = coef p i).
      { intro i. unfold pd, resize, coef. rewrite (firstn_all2 p) by lia. destruct (Nat.lt_ge_cases i (length p)).
        - now rewrite app_nth1.
        - rewrite app_nth2, nth_repeat by auto. now rewrite nth_overflow. }
      set (col := resize D 0 [last pd 0]).
      assert (Lcol : length col = D).
      { unfold col, resize. rewrite app_length, firstn_length, repeat_length. cbn. lia. }
      assert (Ccol : forall i, nth i col 0 = if (i =? 0)%nat then coef p D else 0).
      { intro i. unfold col, resize. rewrite firstn_all2 by (cbn; lia). destruct i as [|i]; cbn.
        - rewrite last_coef, Lpd. unfold coef at 1. rewrite Cpd. f_equal. lia.
        - apply nth_repeat. }
      set (row := rev (skipn 1 pd)).
      assert (Lrow : length row = D) by (unfold row; rewrite rev_length, skipn_length; lia).
      assert (Crow : forall i, (i < D)%nat -> nth i row 0 = coef p (D - i)).
      { intros i Hi. unfold row. rewrite rev_nth by (rewrite skipn_length; lia). rewrite nth_skipn, Cpd. f_equal.
        rewrite skipn_length, Lpd. lia. }
      unfold toeplitz_new. rewrite Lcol, Lrow, Nat.eqb_refl. destruct (Nat.eqb_spec D 0); [lia|]. cbn [orb negb].
      rewrite Ccol, Crow, Nat.sub_0_r by lia. cbn [Nat.eqb]. rewrite feqb_refl. cbn [negb bind].
      rewrite firstn_tpowers. replace (Nat.min D n) with D by lia.
      rewrite toeplitz_mul_spec; rewrite ?rev_length, ?length_tpowers; auto.
      2: { unfold is_pow2, D, npot. rewrite Nat.log2_up_pow2 by lia. apply Nat.eqb_refl. }
      2: { unfold D, npot. rewrite Nat.log2_up_pow2 by lia. lia. }
      cbn [bind]. do 2 f_equal. unfold tprod, hpoly. rewrite rev_length, length_tpowers.
      apply map_ext_in. intros i Hi. apply in_seq in Hi.
      rewrite (vsum_map_ext K V _ (fun b => vmul ((if (b <? i)%nat then 0 else coef p (D - (b - i))) * fpow tau (D - 1 - b)) g)).
      2: { intros b Hb. apply in_seq in Hb. rewrite rev_nth by (rewrite length_tpowers; lia).
           rewrite length_tpowers, nth_tpowers by lia. rewrite <- vmul_mul. f_equal. f_equal.
           - unfold tentry. cbn [tcol trow]. destruct (Nat.leb_spec b i), (Nat.ltb_spec b i); try lia.
             + rewrite Ccol. destruct (Nat.eqb_spec (i - b) 0); [lia|reflexivity].
             + rewrite Ccol. destruct (Nat.eqb_spec (i - b) 0); [|lia]. f_equal. lia.
             + apply Crow. lia.
           - f_equal. lia. }
      rewrite vsum_scale_l. f_equal.
      change (@fsum K) with (@vsum K (self_vsp K)).
      transitivity (fsum (map (fun k => coef (skipn (S i) p) k * fpow tau k) (seq 0 D))).
      - change (@fsum K) with (@vsum K (self_vsp K)).
        rewrite (vsum_rev (self_vsp K)). apply (vsum_map_ext K (self_vsp K)). intros k Hk. apply in_seq in Hk. cbn beta.
        unfold coef at 2. rewrite nth_skipn. replace (D - 1 - (D - 1 - k))%nat with k by lia. fold (coef p (S i + k)).
        destruct (Nat.ltb_spec (D - 1 - k) i).
        + unfold coef. rewrite nth_overflow by lia. reflexivity.
        + do 2 f_equal. lia.
      - symmetry. apply peval_fsum. rewrite skipn_length. lia.
    Qed.

    Lemma combine_app_eq {A B} (a c : list A) (b d : list B) : length a = length b ->
      combine (a ++ c) (b ++ d) = combine a b ++ combine c d.
    Proof. revert b. induction a as [|x a IH]; intros [|y b] H; cbn in *; try lia; auto. f_equal. apply IH. lia. Qed.
    Lemma msm_rev (bs : list V) (ss : list K) : length bs = length ss -> msm (rev bs) (rev ss) = msm bs ss.
    Proof.
      revert ss. induction bs as [|b bs IH]; intros [|s ss] H; cbn [length] in H; try lia; [reflexivity|].
      cbn [rev]. rewrite msm_cons, <- IH by lia. unfold msm. rewrite combine_app_eq by (rewrite !rev_length; lia).
      rewrite map_app, vsum_app. cbn. rewrite vadd_0_r. apply (vadd_comm K V).
    Qed.
    Lemma map_res_ok {A B} (f : A -> pres B) (h : A -> B) l : (forall a, In a l -> f a = Ok (h a)) ->
      map_res f l = Ok (map h l).
    Proof.
      induction l as [|a l IH]; intro H; [reflexivity|]. cbn [map_res map]. rewrite H by (left; auto). cbn [bind].
      rewrite IH by (intros; apply H; right; auto). reflexivity.
    Qed.
    Lemma fkp_spec n (p : list K) : (length p <= S n)%nat ->
      compute_h_poly_parallel K V (tpowers K V tau g n) p = Ok (gnorm K V (hpoly p (length p - 1))).
    Proof.
      intro Hn. unfold compute_h_poly_parallel. destruct p as [|c0 p0] eqn:Ep; [reflexivity|]. rewrite <- Ep in *.
      assert (L1 : length p = S (length p - 1)) by (subst; cbn; lia). clear c0 p0 Ep. set (d := (length p - 1)%nat) in *.
      rewrite firstn_tpowers. replace (Nat.min d n) with d by lia.
      rewrite (map_res_ok _ (fun cs => msm (firstn (length cs) (tpowers K V tau g d)) (rev cs))).
      2: { intros cs Hcs. apply in_map_iff in Hcs as (i & <- & Hi). apply in_seq in Hi.
           set (cs := firstn (d - i) (rev p)).
           assert (Lc : length cs = (d - i)%nat) by (unfold cs; rewrite firstn_length, rev_length; lia).
           unfold slice_from. rewrite rev_length, length_tpowers, Lc.
           destruct (Nat.ltb_spec d (d - (d - i))); [lia|]. cbn [bind].
           rewrite skipn_rev, length_tpowers. replace (d - (d - (d - i)))%nat with (d - i)%nat by lia.
           unfold msm_unwrap. rewrite rev_length, firstn_length, length_tpowers, Lc.
           replace (Nat.min (d - i) d) with (d - i)%nat by lia. rewrite Nat.eqb_refl. f_equal.
           rewrite <- (rev_involutive cs) at 1. rewrite msm_rev; [reflexivity|].
           rewrite firstn_length, length_tpowers, rev_length, Lc. lia. }
      cbn [bind]. do 2 f_equal. rewrite map_map. unfold hpoly. apply map_ext_in. intros i Hi. apply in_seq in Hi.
      rewrite firstn_length, rev_length, firstn_rev, rev_involutive.
      replace (Nat.min (d - i) (length p)) with (d - i)%nat by lia. replace (length p - (d - i))%nat with (S i) by lia.
      rewrite firstn_tpowers. replace (Nat.min (d - i) d) with (d - i)%nat by lia.
      rewrite msm_tpowers by (rewrite skipn_length; lia). reflexivity.
    Qed.

    (** Evaluating on a coset of a smaller domain. *)
    Lemma fft_coset_horner c d (l : list V) : (length l <= dsize d)%nat ->
      fft_coset K V c d l = map (fun i => horner K V l (c * fpow (dgen d) i)) (seq 0 (dsize d)).
    Proof. intro H. rewrite fft_coset_sum. apply map_ext. intro i. symmetry. now apply horner_vsum. Qed.
  End Fk.

  Lemma interleave {A} (f : nat -> A) pf : forall s,
    flat_map (fun j => map (fun i => f (j * pf + i)%nat) (seq 0 pf)) (seq 0 s) = map f (seq 0 (s * pf)).
  Proof.
    induction s as [|s IH]; [reflexivity|]. rewrite seq_S, flat_map_app, IH. cbn [flat_map Nat.add].
    rewrite app_nil_r. replace (S s * pf)%nat with (s * pf + pf)%nat by lia. rewrite seq_app, map_app. f_equal.
    clear IH. cbn [Nat.add]. generalize (s * pf)%nat as k. intro k.
    rewrite <- (map_map (fun i => k + i)%nat f). f_equal. clear. 
    replace (seq k pf) with (seq (k + 0) pf) by (f_equal; lia). generalize 0%nat as b. revert k.
    induction pf as [|pf IH]; intros k b; [reflexivity|]. cbn [seq map]. f_equal. rewrite IH. f_equal. lia.
  Qed.
  Lemma radix2_nest tad w n m d1 d2 : radix2_new K tad w n = Some d1 -> radix2_new K tad w m = Some d2 ->
    (dsize d1 <= dsize d2)%nat ->
    exists pf, dsize d2 = (dsize d1 * pf)%nat /\ (dsize d2 / dsize d1 = pf)%nat /\ (0 < pf)%nat /\ dgen d1 = fpow (dgen d2) pf.
  Proof.
    unfold radix2_new. destruct (Nat.leb_spec (Nat.log2_up n) tad) as [H1|]; [|discriminate].
    destruct (Nat.leb_spec (Nat.log2_up m) tad) as [H2|]; [|discriminate].
    intros E1 E2. injection E1 as <-. injection E2 as <-. cbn [dsize dgen].
    set (a := Nat.log2_up n) in *. set (b := Nat.log2_up m) in *. intro H.
    assert (Hab : (a <= b)%nat).
    { destruct (Nat.le_gt_cases a b) as [|X]; auto. apply (Nat.pow_lt_mono_r 2) in X; lia. }
    assert (E : (2 ^ b = 2 ^ a * 2 ^ (b - a))%nat) by (rewrite <- Nat.pow_add_r; f_equal; lia).
    exists (2 ^ (b - a))%nat. split; auto. split.
    - rewrite E, Nat.mul_comm. apply Nat.div_mul. apply Nat.pow_nonzero. lia.
    - split; [apply Nat.neq_0_lt_0, Nat.pow_nonzero; lia|]. rewrite <- fpow_mul, <- Nat.pow_add_r. do 2 f_equal. lia.
  Qed.
  Lemma radix2_size tad w n d : radix2_new K tad w n = Some d -> dsize d = npot n.
  Proof. unfold radix2_new. destruct (_ <=? _)%nat; [|discriminate]. intro E. injection E as <-. reflexivity. Qed.
End KzgFk.
