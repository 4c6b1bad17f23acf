(** C54 (masking), C55 (quotient splitting), C56 (Lagrange helpers), C61 (evaluation of
    the public input polynomial) and C70 (what the masks hide). *)
From Coq Require Import List Arith ZArith Lia Bool Ring Field.
From Verif Require Import Base Alg Poly VRing KzgModel KzgProofs KzgFft PlonkModel LagrangeProofs PlonkPoly PcsProps.
Import ListNotations.

Section HelpProps.
  Variable K : fld.
  Local Open Scope fld_scope.
  Add Field Khp : (fth K).
  Variables (tad : nat) (root : K).
  Hypothesis Hroot : root_ok K tad root.
  Notation radix2 := (radix2_new K tad root).

  (** ** C54 *)

  (** On every point of the evaluation domain the masked polynomial has the value of the
      original one, and it has at most [bound + 1] coefficients more than the domain. *)
  Theorem C54_mask_values m d f (p : list K) bound i : radix2 m = Some d ->
    peval (mask_polynomial K d f p bound) (fpow (dgen d) i) = peval p (fpow (dgen d) i) /\
    ((length p <= dsize d)%nat -> (length (mask_polynomial K d f p bound) <= dsize d + bound + 1)%nat).
  Proof.
    intro E. apply radix2_ok in E; auto. split; [now apply mask_at|]. intro H. apply length_mask. lia.
  Qed.

  (** ** C70: at any [bound + 1] distinct points off the domain the masked polynomial
      takes any prescribed values, for exactly one mask. *)
  Theorem C70_mask_hides m d (p : list K) bound xs ys : radix2 m = Some d ->
    NoDup xs -> length xs = (bound + 1)%nat -> (forall x, In x xs -> fpow x (dsize d) <> 1) ->
    (exists f, forall k, (k < length xs)%nat -> peval (mask_polynomial K d f p bound) (nth k xs 0) = nth k ys 0) /\
    (forall f f', (forall x, In x xs -> peval (mask_polynomial K d f p bound) x = peval (mask_polynomial K d f' p bound) x) ->
       forall i, (i <= bound)%nat -> f i = f' i).
  Proof.
    intros E Hnd Hlen Hoff. apply radix2_ok in E; auto.
    assert (V : forall x, In x xs -> fpow x (dsize d) - 1 <> 0) by (intros x Hx Z; apply (Hoff x Hx); now apply fsub_0_eq).
    assert (R : forall f x, peval (rand_poly K f bound) x = peval (map f (seq 0 (bound + 1))) x) by (intros; apply peval_pnorm).
    split.
    - set (q := interp xs (map (fun k => (nth k ys 0 - peval p (nth k xs 0)) / (fpow (nth k xs 0) (dsize d) - 1)) (seq 0 (length xs)))).
      exists (fun i => nth i q 0). intros k Hk. rewrite peval_mask, R.
      assert (Q : forall x, peval (map (fun i => nth i q 0) (seq 0 (bound + 1))) x = peval q x).
      { intro x. apply peval_peq. intro i. unfold coef.
        assert (Lq : (length q <= bound + 1)%nat) by (rewrite <- Hlen; apply length_interp).
        destruct (Nat.lt_ge_cases i (bound + 1)) as [Hi|Hi].
        - now rewrite (nth_map_seq (fun i => nth i q 0)).
        - rewrite !nth_overflow; auto; [lia|]. rewrite map_length, seq_length. lia. }
      rewrite Q. unfold q. rewrite interp_spec by auto. rewrite nth_map_seq by auto.
      field. apply V, nth_In; auto.
    - intros f f' H i Hi.
      assert (P : peq (map f (seq 0 (bound + 1))) (map f' (seq 0 (bound + 1)))).
      { apply (interp_unique K xs); auto; try (rewrite map_length, seq_length; lia). intros x Hx. specialize (H x Hx).
        rewrite !peval_mask, !R in H. apply fadd_cancel_l in H. now apply (fmul_cancel_l K (fpow x (dsize d) - 1)); [apply V|]. }
      specialize (P i). unfold coef in P. rewrite !nth_map_seq in P by lia. exact P.
  Qed.

  (** ** C55 *)

  (** Whatever the randomizers, the pieces recombine to the quotient at every point and
      fit a commitment key for polynomials of degree [n + 2]. *)
  Theorem C55_split_recombines n m d q' rs (q : list K) nw ps : radix2 n = Some d -> radix2 m = Some q' ->
    (3 <= nw <= dsize d + 5)%nat ->
    split_quotient_polynomial K (mk_prover K d q') rs q nw = Ok ps ->
    length ps = nw /\ (forall p, In p ps -> (length p <= dsize d + 3)%nat) /\
    forall x, fsum (map (fun i => fpow x (i * (dsize d + 2)) * peval (nth i ps []) x) (seq 0 nw)) = peval q x.
  Proof.
    intros _ _ Hw H. apply split_spec in H; cbn [pr_dom] in *; [|lia|lia]. destruct H as (L & Ln & S). split; auto. split.
    - intros p Hp. destruct (Ln p Hp); lia.
    - intro x. rewrite <- (S x). unfold recombine. rewrite L. clear -L.
      assert (G : forall (l : list (list K)) k s, length l = k -> 
        fsum (map (fun i => fpow x (i * (dsize d + 2)) * peval (nth (i - s) l []) x) (seq s k))
        = fsum (map (fun ip : nat * list K => fpow x (fst ip * (dsize d + 2)) * peval (snd ip) x) (combine (seq s k) l))).
      { induction l as [|p l IH]; intros [|k] s E; cbn in E; try lia; [reflexivity|]. cbn [seq combine map]. rewrite !fsum_cons. f_equal.
        - rewrite Nat.sub_diag. reflexivity.
        - rewrite <- IH by lia. apply fsum_map_ext. intros i Hi. apply in_seq in Hi.
          replace (i - s)%nat with (Datatypes.S (i - Datatypes.S s)) by lia. reflexivity. }
      rewrite <- (G ps nw 0%nat L). apply fsum_map_ext. intros i _. now rewrite Nat.sub_0_r.
  Qed.

  (** Splitting succeeds for every polynomial of the expected degree none of whose lower
      slices ends in a zero coefficient. *)
  Theorem C55_split_total n m d q' rs (q : list K) nw : radix2 n = Some d -> radix2 m = Some q' ->
    (1 <= nw <= dsize d + 4)%nat -> pnorm K q = q -> length q = (nw * (dsize d + 1) + 3)%nat ->
    (forall i, (i < nw - 1)%nat -> nth (i * (dsize d + 2) + dsize d + 1) q 0 <> 0) ->
    exists ps, split_quotient_polynomial K (mk_prover K d q') rs q nw = Ok ps.
  Proof.
    intros _ _ Hw Hn Hl Hz. unfold split_quotient_polynomial. cbn [pr_dom]. set (n' := dsize d) in *.
    rewrite degree_norm by auto. cbn [bind lift_pcs]. rewrite Hl.
    replace (nw * (n' + 1) + 3 - 1)%nat with (nw * (n' + 1) + 2)%nat by lia.
    unfold quotient_polynomial_degree. rewrite Nat.eqb_refl. cbn [negb].
    set (sl := fun i => if (i <? nw - 1)%nat then firstn (n' + 2) (skipn (i * (n' + 2)) q) else skipn (i * (n' + 2)) q).
    rewrite (map_res_map _ (fun i => pnorm K (sl i))).
    2: { intros i Hi. apply in_seq in Hi. unfold slice, sl. destruct (Nat.ltb_spec i (nw - 1)) as [H|H].
         - destruct (Nat.ltb_spec ((i + 1) * (n' + 2)) (i * (n' + 2))); [nia|].
           assert ((i + 1) * (n' + 2) <= (nw - 1) * (n' + 2))%nat by nia.
           destruct (Nat.ltb_spec (length q) ((i + 1) * (n' + 2))) as [Hc|_]; [nia|]. cbn [orb bind].
           do 3 f_equal. lia.
         - assert (i = nw - 1)%nat as -> by lia.
           destruct (Nat.ltb_spec (nw * (n' + 1) + 2 + 1) ((nw - 1) * (n' + 2))); [nia|].
           destruct (Nat.ltb_spec (length q) (nw * (n' + 1) + 2 + 1)) as [Hc|_]; [lia|]. cbn [orb bind].
           do 2 f_equal. apply firstn_all2. rewrite skipn_length. lia. }
    cbn [bind].
    assert (N : forall i, (i < nw - 1)%nat -> length (sl i) = (n' + 2)%nat /\ nth (n' + 1) (sl i) 0 <> 0).
    { intros i Hi. unfold sl. destruct (Nat.ltb_spec i (nw - 1)); [|lia].
      assert (i * (n' + 2) + (n' + 2) <= (nw - 1) * (n' + 2))%nat by nia.
      split; [rewrite firstn_length, skipn_length; nia|].
      specialize (Hz i Hi). intro Z. apply Hz.
      assert (G : forall A (l : list A) a b c x, (b < c)%nat -> nth b (firstn c (skipn a l)) x = nth (a + b) l x).
      { intros A l a b c x Hb. revert a b c Hb. induction l as [|y l IH]; intros a b c Hb.
        - rewrite skipn_nil, firstn_nil. destruct (a + b)%nat, b; reflexivity.
        - destruct a as [|a]; [cbn [skipn Nat.add]|cbn [skipn Nat.add nth]; apply IH; auto].
          destruct c as [|c]; [lia|]. destruct b as [|b]; [reflexivity|]. cbn [firstn nth]. apply (IH 0%nat); lia. }
      rewrite G in Z by lia. rewrite <- Nat.add_assoc. exact Z. }
    assert (NN : forall (l : list K) k, length l = S k -> nth k l 0 <> 0 -> pnorm K l = l).
    { intros l k L Z. apply pnorm_fix. right. rewrite last_coef, L. unfold coef. cbn. rewrite Nat.sub_0_r. exact Z. }
    rewrite <- (map_map sl (pnorm K)).
    assert (M : forall k s lastr i, (s + k <= nw - 1)%nat ->
      exists r, mask_split K n' rs i lastr (map (pnorm K) (map sl (seq s k))) = Ok r).
    { induction k as [|k IH]; intros s lastr i Hk; [eexists; reflexivity|]. cbn [seq map mask_split].
      destruct (N s ltac:(lia)) as [L Z]. rewrite (NN _ (n' + 1)%nat) by (auto; lia).
      destruct (sl s) as [|c l] eqn:Es; [cbn in L; lia|]. cbn [sub_head bind].
      assert (D : pnorm K (c - lastr :: l) = c - lastr :: l).
      { apply (NN _ (n' + 1)%nat); [cbn in *; lia|]. rewrite Nat.add_1_r in *. exact Z. }
      rewrite degree_norm by auto. cbn [lift_pcs bind length]. cbn [length] in L.
      replace (S (length l) - 1)%nat with (n' + 1)%nat by lia. rewrite Nat.eqb_refl. cbn [assert_p bind].
      destruct (IH (S s) (rs i) (S i) ltac:(lia)) as [r ->]. eexists. reflexivity. }
    assert (F : firstn (nw - 1) (map (pnorm K) (map sl (seq 0 nw))) = map (pnorm K) (map sl (seq 0 (nw - 1)))).
    { replace nw with ((nw - 1) + 1)%nat at 2 by lia. rewrite seq_app, !map_app, firstn_app, !map_length, seq_length, Nat.sub_diag.
      rewrite firstn_O, app_nil_r. apply firstn_all2. now rewrite !map_length, seq_length. }
    rewrite F. destruct (M (nw - 1)%nat 0%nat 0 0%nat ltac:(lia)) as [[lows lr] ->]. cbn [bind fst snd].
    rewrite (index_lt _ _ []) by (rewrite !map_length, seq_length; lia). cbn [bind].
    assert (Et : nth (nw - 1) (map (pnorm K) (map sl (seq 0 nw))) [] = pnorm K (skipn ((nw - 1) * (n' + 2)) q)).
    { rewrite map_map. rewrite (nth_map_seq (fun i => pnorm K (sl i))) by lia. unfold sl.
      destruct (Nat.ltb_spec (nw - 1) (nw - 1)); [lia|reflexivity]. }
    rewrite Et. destruct (pnorm K (skipn ((nw - 1) * (n' + 2)) q)) as [|c l] eqn:Ez; [|eexists; reflexivity].
    exfalso. assert (Hle : ((nw - 1) * (n' + 2) < length q)%nat) by nia.
    assert (Zc : coef (skipn ((nw - 1) * (n' + 2)) q) (length q - 1 - (nw - 1) * (n' + 2)) = 0).
    { rewrite <- coef_pnorm, Ez. apply coef_nil. }
    assert (Zq : last q 0 <> 0).
    { assert (X : q <> []) by (intro X; rewrite X in Hl; cbn in Hl; lia). rewrite <- Hn. apply pnorm_last. now rewrite Hn. }
    apply Zq. rewrite last_coef. rewrite <- Zc. unfold coef.
    rewrite <- (firstn_skipn ((nw - 1) * (n' + 2)) q) at 2. rewrite app_nth2; rewrite firstn_length; [f_equal; lia|lia].
  Qed.

  (** The condition is necessary: a zero coefficient at the end of a lower slice makes the
      prover fail on a correct quotient. *)
  Theorem C55_split_needs n m d q' rs (q : list K) nw ps : radix2 n = Some d -> radix2 m = Some q' ->
    split_quotient_polynomial K (mk_prover K d q') rs q nw = Ok ps ->
    forall i, (i < nw - 1)%nat -> nth (i * (dsize d + 2) + dsize d + 1) q 0 <> 0.
  Proof.
    intros _ _ H i Hi. unfold split_quotient_polynomial in H. cbn [pr_dom] in H. set (n' := dsize d) in *. cbv zeta in H.
    apply bind_ok in H as (dg & _ & H). destruct (dg =? _)%nat; [cbn [negb] in H|discriminate].
    apply bind_ok in H as (ps0 & Hps & H). apply bind_ok in H as ([lows l'] & Hl & _).
    apply (map_res_seq _ _ _ []) in Hps as [L0 Hps].
    assert (M : forall l k lastr r, mask_split K n' rs k lastr l = Ok r -> forall p, In p l -> length p = (n' + 2)%nat).
    { induction l as [|p l IH]; intros k lastr r Hr p' Hp; [destruct Hp|]. cbn in Hr.
      apply bind_ok in Hr as (p1 & Hp1 & Hr). apply bind_ok in Hr as (dg' & Hd & Hr). apply lift_pcs_ok in Hd.
      apply bind_ok in Hr as (u & Hu & Hr). apply assert_ok in Hu. apply Nat.eqb_eq in Hu. subst dg'.
      apply bind_ok in Hr as (r' & Hr & _). destruct Hp as [<-|Hp]; [|eapply IH; eauto].
      destruct (peval_sub_head K _ _ _ 0 Hp1) as [_ <-]. unfold degree in Hd.
      destruct (pis_zero K p1); [|destruct (feqb (last p1 0) 0); [discriminate|]]; injection Hd as Hd; lia. }
    specialize (Hps i ltac:(lia)). apply bind_ok in Hps as (s & Hs & Hp).
    destruct (Nat.ltb_spec i (nw - 1)); [|lia]. apply slice_ok in Hs as (_ & Hle & ->).
    replace ((i + 1) * (n' + 2) - i * (n' + 2))%nat with (n' + 2)%nat in Hp by lia.
    assert (Ep : nth i ps0 [] = pnorm K (firstn (n' + 2) (skipn (i * (n' + 2)) q))) by congruence. clear Hp.
    assert (Lp : length (nth i ps0 []) = (n' + 2)%nat).
    { apply (M _ _ _ _ Hl). rewrite <- (firstn_skipn (nw - 1) ps0) at 1. rewrite app_nth1 by (rewrite firstn_length; lia).
      apply nth_In. rewrite firstn_length. lia. }
    rewrite Ep in Lp. set (sl := firstn (n' + 2) (skipn (i * (n' + 2)) q)) in *.
    assert (Ls : (length sl <= n' + 2)%nat) by (unfold sl; rewrite firstn_length; lia).
    assert (Z : last (pnorm K sl) 0 <> 0) by (apply pnorm_last; intro X; rewrite X in Lp; cbn in Lp; lia).
    rewrite last_coef, Lp, coef_pnorm in Z. intro Q. apply Z. unfold coef, sl.
    replace (n' + 2 - 1)%nat with (n' + 1)%nat by lia. transitivity (nth (i * (n' + 2) + n' + 1) q 0); [|exact Q].
    rewrite <- Nat.add_assoc. rewrite <- (firstn_skipn (i * (n' + 2)) q) at 2.
    assert (F : length (firstn (i * (n' + 2)) q) = (i * (n' + 2))%nat) by (rewrite firstn_length; nia).
    rewrite app_nth2; rewrite F; [|lia]. rewrite <- (firstn_skipn (n' + 2) (skipn (i * (n' + 2)) q)) at 2.
    rewrite app_nth1; [f_equal; lia|]. fold sl. pose proof (length_pnorm K sl). lia.
  Qed.

  (** ** C56 *)

  (** The coefficient functions return the values of the Lagrange basis polynomials, at
      every point inside or outside the domain. *)
  Theorem C56_first m d h tau l : radix2 m = Some d -> h <> 0 -> is_lagrange K d h 0 l ->
    first_lagrange_coeff K d h tau = Ok (peval l tau).
  Proof.
    intros E Hh L. apply radix2_ok in E; auto. rewrite (first_coeff K d E h Hh). f_equal. symmetry.
    apply (lagrange_at K d E h Hh); auto. apply E.
  Qed.
  Theorem C56_last m d h tau l : radix2 m = Some d -> h <> 0 -> is_lagrange K d h (dsize d - 1) l ->
    last_lagrange_coeff K d h tau = Ok (peval l tau).
  Proof.
    intros E Hh L. apply radix2_ok in E; auto. rewrite (last_coeff K d E h Hh). f_equal. symmetry.
    apply (lagrange_at K d E h Hh); auto. pose proof (do_size K d E). lia.
  Qed.
  Theorem C56_first_and_last m d h tau l l' : radix2 m = Some d -> h <> 0 -> (2 <= dsize d)%nat ->
    is_lagrange K d h 0 l -> is_lagrange K d h (dsize d - 1) l' ->
    first_and_last_lagrange_coeffs K d h tau = Ok (peval l tau, peval l' tau).
  Proof.
    intros E Hh H2 L L'. apply radix2_ok in E; auto. rewrite (first_last_coeffs K d E h Hh) by auto.
    rewrite (lagrange_at K d E h Hh 0 l), (lagrange_at K d E h Hh (dsize d - 1) l') by (auto; lia). reflexivity.
  Qed.
  (** On a one-point domain the combined function is wrong at that point: both basis
      polynomials are the same and have the value 1, it returns 1 and 0. *)
  Theorem C56_single_refuted m d h l : radix2 m = Some d -> h <> 0 -> dsize d = 1%nat -> is_lagrange K d h 0 l ->
    first_and_last_lagrange_coeffs K d h h = Ok (1, 0) /\ last_lagrange_coeff K d h h = Ok 1 /\ peval l h = 1.
  Proof.
    intros E Hh H1 L. assert (L' : is_lagrange K d h (dsize d - 1) l) by (rewrite H1; exact L).
    assert (P : peval l h = 1).
    { pose proof (proj2 L 0%nat ltac:(lia)) as P. cbn [fpow Nat.eqb] in P. rewrite <- P at 1. f_equal. ring. }
    rewrite (C56_last m d h h l E Hh L'). rewrite P. apply radix2_ok in E; auto.
    destruct (first_last_single K d E h Hh H1). auto.
  Qed.
  Theorem C56_range m d h tau start stop (ls : nat -> list K) : radix2 m = Some d -> h <> 0 ->
    (forall i, (i < dsize d)%nat -> is_lagrange K d h i (ls i)) ->
    lagrange_coeffs_for_range K d h start stop tau =
      if ((start <=? stop) && (stop <=? dsize d))%nat then Ok (map (fun i => peval (ls i) tau) (seq start (stop - start))) else Panic.
  Proof.
    intros E Hh L. apply radix2_ok in E; auto. destruct (Nat.leb_spec start stop); [destruct (Nat.leb_spec stop (dsize d))|]; cbn [andb].
    - rewrite (range_coeffs K d E h Hh) by auto. f_equal. apply map_ext_in. intros i Hi. apply in_seq in Hi.
      symmetry. apply (lagrange_at K d E h Hh); [lia|]. apply L. lia.
    - apply (range_panics K d). lia.
    - apply (range_panics K d). lia.
  Qed.
  (** The basis polynomials exist. *)
  Theorem C56_basis m d h i : radix2 m = Some d -> h <> 0 -> (i < dsize d)%nat -> exists l, is_lagrange K d h i l.
  Proof. intros E Hh Hi. apply radix2_ok in E; auto. exists (lagp K d h i). now apply lagp_ok. Qed.

  (** ** C61 *)

  Lemma interp_sum d h f p x : dom_ok K d -> h <> 0 -> interpolates K d h f p ->
    peval p x = fsum (map (fun j => f j * lagv K d h j x) (seq 0 (dsize d))).
  Proof.
    intros Hd Hh H. rewrite (interp_at K d Hd h Hh f p (coset_ifft K h d (map f (seq 0 (dsize d))))); auto.
    - rewrite peval_coset_ifft by auto. apply fsum_map_ext. intros j Hj. apply in_seq in Hj. rewrite nth_map_seq by lia. reflexivity.
    - destruct (coset_ifft_ok K d Hd h (map f (seq 0 (dsize d))) Hh) as [A B]. split; auto. intros j Hj. rewrite B by auto.
      now rewrite nth_map_seq.
  Qed.
  Lemma comb_sum (l : list K) (f : nat -> K) : forall k s, (k <= length l)%nat ->
    fsum (map (fun vl : K * K => snd vl * fst vl) (combine l (map f (seq s k)))) = fsum (map (fun i => nth (i - s) l 0 * f i) (seq s k)).
  Proof.
    induction l as [|a l IH]; intros [|k] s H; cbn in H; try lia; try reflexivity. cbn [seq map combine]. rewrite !fsum_cons. f_equal.
    - rewrite Nat.sub_diag. cbn. ring.
    - rewrite IH by lia. apply fsum_map_ext. intros i Hi. apply in_seq in Hi. replace (i - s)%nat with (S (i - S s)) by lia. reflexivity.
  Qed.
  Lemma sum_pick (f : nat -> K) (g : nat -> K) n a b : (a + b <= n)%nat ->
    fsum (map (fun j => (if ((a <=? j) && (j <? a + b))%nat then f j else 0) * g j) (seq 0 n)) = fsum (map (fun j => f j * g j) (seq a b)).
  Proof.
    intro H. replace n with (a + (b + (n - a - b)))%nat by lia. rewrite seq_app, map_app, fsum_app, seq_app, map_app, fsum_app.
    rewrite (fsum_map_0 K _ (seq 0 a)), (fsum_map_0 K _ (seq (0 + a + b) _)).
    - cbn [Nat.add]. rewrite (fsum_map_ext K _ (fun j => f j * g j) (seq a b)); [ring|]. intros j Hj. apply in_seq in Hj.
      destruct (Nat.leb_spec a j); [|lia]. destruct (Nat.ltb_spec j (a + b)); [|lia]. reflexivity.
    - intros j Hj. apply in_seq in Hj. destruct (Nat.ltb_spec j (a + b)); [lia|]. rewrite andb_false_r. ring.
    - intros j Hj. apply in_seq in Hj. destruct (Nat.leb_spec a j); [lia|]. cbn [andb]. ring.
  Qed.

  Lemma fsum_rev (l : list K) : fsum (rev l) = fsum l.
  Proof. induction l as [|a l IH]; [reflexivity|]. cbn [rev]. rewrite fsum_app, IH, !fsum_cons. unfold fsum at 2. cbn. ring. Qed.

  (** For an ordinary key the value is that of the polynomial with the public inputs on
      the first rows and zero elsewhere; more inputs than rows are a panic. *)
  Theorem C61_pi_eval m d pi z p : radix2 m = Some d ->
    interpolates K d 1 (fun j => nth j pi 0) p ->
    evaluate_pi_poly K d pi z false = if (length pi <=? dsize d)%nat then Ok (peval p z) else Panic.
  Proof.
    intros E H. apply radix2_ok in E; auto. unfold evaluate_pi_poly. destruct (Nat.leb_spec (length pi) (dsize d)) as [L|L].
    - rewrite (range_coeffs K d E 1 (f1_neq_0 K)) by lia. cbn [bind]. f_equal. rewrite Nat.sub_0_r, firstn_all, comb_sum by lia.
      rewrite (interp_sum d 1 _ p z E (f1_neq_0 K) H).
      rewrite <- (sum_pick (fun j => nth (j - 0) pi 0) (fun j => lagv K d 1 j z) (dsize d) 0 (length pi)) by lia.
      apply fsum_map_ext. intros j _. cbn [Nat.leb andb Nat.add]. rewrite Nat.sub_0_r. destruct (Nat.ltb_spec j (length pi)); [reflexivity|].
      now rewrite nth_overflow by lia.
    - rewrite (range_panics K d) by lia. reflexivity.
  Qed.
  (** For a merged key the first half of the inputs is on the first rows and the second
      half on the last rows, in reverse order. *)
  Theorem C61_pi_eval_merged m d a b z p : radix2 m = Some d -> length a = length b -> (2 * length a <= dsize d)%nat ->
    interpolates K d 1 (fun j => if (j <? length a)%nat then nth j a 0
                                 else if (dsize d - length b <=? j)%nat then nth (dsize d - 1 - j) b 0 else 0) p ->
    evaluate_pi_poly K d (a ++ b) z true = Ok (peval p z).
  Proof.
    intros E Hab Hn H. apply radix2_ok in E; auto. unfold evaluate_pi_poly. rewrite app_length, <- Hab.
    replace (length a + length a)%nat with (length a * 2)%nat by lia. rewrite Nat.div_mul by lia.
    rewrite (range_coeffs K d E 1 (f1_neq_0 K)) by lia. cbn [bind]. destruct (Nat.ltb_spec (dsize d) (length a)); [lia|].
    rewrite (range_coeffs K d E 1 (f1_neq_0 K)) by lia. cbn [bind]. f_equal. rewrite Nat.sub_0_r.
    rewrite firstn_app, Nat.sub_diag, firstn_O, app_nil_r, firstn_all, skipn_app, skipn_all, Nat.sub_diag, skipn_O, app_nil_l.
    rewrite comb_sum by lia.
    assert (R : forall k (f : nat -> K) s, rev (map f (seq s k)) = map (fun i => f (s + (k - 1 - i))%nat) (seq 0 k)).
    { clear. intros k f s. induction k as [|k IH]; [reflexivity|]. rewrite seq_S, map_app, rev_app_distr, IH. cbn [map rev app seq].
      f_equal; [f_equal; lia|]. rewrite <- seq_shift, map_map. apply map_ext_in. intros i Hi. apply in_seq in Hi. f_equal. lia. }
    rewrite R. replace (dsize d - (dsize d - length a))%nat with (length a) by lia. rewrite comb_sum by lia.
    rewrite (interp_sum d 1 _ p z E (f1_neq_0 K) H).
    rewrite <- (sum_pick (fun j => nth (j - 0) a 0) (fun j => lagv K d 1 j z) (dsize d) 0 (length a)) by lia.
    assert (B : fsum (map (fun i => nth (i - 0) b 0 * lagv K d 1 (dsize d - length a + (length a - 1 - i))%nat z) (seq 0 (length a)))
      = fsum (map (fun j => (fun j => nth (dsize d - 1 - j) b 0) j * lagv K d 1 j z) (seq (dsize d - length a) (length a)))).
    { cbv beta. rewrite <- (fsum_rev (map _ (seq (dsize d - length a) _))). rewrite (R _ (fun j => nth (dsize d - 1 - j) b 0 * lagv K d 1 j z)).
      apply fsum_map_ext. intros i Hi. apply in_seq in Hi. f_equal. f_equal. lia. }
    rewrite B, <- (sum_pick (fun j => nth (dsize d - 1 - j) b 0) (fun j => lagv K d 1 j z) (dsize d)) by lia.
    rewrite <- fsum_map_add. apply fsum_map_ext. intros j Hj. apply in_seq in Hj. cbn [Nat.leb andb Nat.add]. rewrite Nat.sub_0_r.
    rewrite <- Hab. destruct (Nat.ltb_spec j (length a)).
    - destruct (Nat.leb_spec (dsize d - length a) j); [lia|]. cbn [andb]. ring.
    - destruct (Nat.leb_spec (dsize d - length a) j); cbn [andb]; [|ring].
      destruct (Nat.ltb_spec j (dsize d - length a + length a)); [ring|lia].
  Qed.
End HelpProps.

(** ** Concrete cases over the field of 97 elements *)
Notation r97 := (radix2_new F97 5 (e97 28)).
Definition d97 (n : nat) : dom F97 := match r97 n with Some d => d | None => mk_dom F97 0 f0 end.
Lemma d97_ok n : (n <= 32)%nat -> r97 n = Some (d97 n).
Proof.
  intro H. unfold d97, radix2_new. assert (Nat.log2_up n <= 5)%nat by (change 5%nat with (Nat.log2_up 32); now apply Nat.log2_up_le_mono).
  destruct (Nat.leb_spec (Nat.log2_up n) 5); [reflexivity|lia].
Qed.
Definition eqb97 (a b : list F97) : bool := if list_eq_dec Z.eq_dec (map (zv 97) a) (map (zv 97) b) then true else false.
Lemma eqb97_eq a b : eqb97 a b = true -> a = b.
Proof. unfold eqb97. destruct (list_eq_dec _ _ _); [intros _; now apply l97_ext|discriminate]. Qed.

(** The mask changes the polynomial, not its values on the domain. *)
Example C54_case : let p' := mask_polynomial F97 (d97 4) (fun k => e97 (Z.of_nat k + 3)) p97 1 in
  length p' = 6%nat /\ feqb (peval p' (e97 2)) (peval p97 (e97 2)) = false /\
  forall i, peval p' (fpow (dgen (d97 4)) i) = peval p97 (fpow (dgen (d97 4)) i).
Proof.
  cbv zeta. split; [vm_compute; reflexivity|]. split; [vm_compute; reflexivity|]. intro i.
  apply (C54_mask_values F97 5 (e97 28) root97 4). apply d97_ok. lia.
Qed.
Example C70_case : exists f, peval (mask_polynomial F97 (d97 4) f p97 1) (e97 2) = e97 10 /\
  peval (mask_polynomial F97 (d97 4) f p97 1) (e97 3) = e97 20.
Proof.
  destruct (C70_mask_hides F97 5 (e97 28) root97 4 (d97 4) p97 1 [e97 2; e97 3] [e97 10; e97 20]) as [[f Hf] _].
  - apply d97_ok. lia.
  - constructor; [|constructor; [intros []|constructor]]. intros [E|[]]. apply (f_equal (zv 97)) in E. vm_compute in E. discriminate.
  - reflexivity.
  - intros x [<-|[<-|[]]] E; apply (f_equal (zv 97)) in E; vm_compute in E; discriminate.
  - exists f. split; [apply (Hf 0%nat)|apply (Hf 1%nat)]; cbn; lia.
Qed.
(** A quotient of degree 5 * (4 + 1) + 2 for a circuit with 4 rows and 5 wires. *)
Definition q97 : list F97 := map (fun i => e97 (Z.of_nat i * Z.of_nat i + 1)) (seq 0 28).
Example C55_case : exists ps, split_quotient_polynomial F97 (mk_prover F97 (d97 4) (d97 32)) (fun i => e97 (Z.of_nat i + 7)) q97 5 = Ok ps /\
  length ps = 5%nat /\ eqb97 (nth 1 ps []) (firstn 6 (skipn 6 q97)) = false /\
  forall x, fsum (map (fun i => fmul (fpow x (i * 6)) (peval (nth i ps []) x)) (seq 0 5)) = peval q97 x.
Proof.
  destruct (C55_split_total F97 5 (e97 28) 4 32 (d97 4) (d97 32) (fun i => e97 (Z.of_nat i + 7)) q97 5) as [ps Hps].
  - apply d97_ok. lia.
  - apply d97_ok. lia.
  - change (dsize (d97 4)) with 4%nat. lia.
  - apply eqb97_eq. vm_compute. reflexivity.
  - reflexivity.
  - change (dsize (d97 4)) with 4%nat. intros i Hi E.
    assert (C : forallb (fun i => negb (feqb (nth (i * 6 + 5) q97 f0) f0)) (seq 0 4) = true) by (vm_compute; reflexivity).
    rewrite forallb_forall in C. specialize (C i). rewrite in_seq in C. specialize (C ltac:(lia)).
    replace (i * (4 + 2) + 4 + 1)%nat with (i * 6 + 5)%nat in E by lia. rewrite E, feqb_refl in C. discriminate.
  - exists ps. split; auto.
    pose proof (C55_split_recombines F97 5 (e97 28) 4 32 (d97 4) (d97 32) _ q97 5 ps (d97_ok 4 ltac:(lia)) (d97_ok 32 ltac:(lia))
      ltac:(change (dsize (d97 4)) with 4%nat; lia) Hps) as (L & _ & S). split; auto. split; [|exact S].
    assert (E : Ok ps = split_quotient_polynomial F97 (mk_prover F97 (d97 4) (d97 32)) (fun i => e97 (Z.of_nat i + 7)) q97 5) by auto.
    clear -E.
    assert (G : match split_quotient_polynomial F97 (mk_prover F97 (d97 4) (d97 32)) (fun i => e97 (Z.of_nat i + 7)) q97 5 with
                | Ok ps => eqb97 (nth 1 ps []) (firstn 6 (skipn 6 q97)) | _ => true end = false) by (vm_compute; reflexivity).
    rewrite <- E in G. exact G.
Qed.
(** A quotient of the right degree the prover panics on. *)
Theorem C55_zero_slice_refuted : let q := repeat f0 27 ++ [f1 : F97] in
  pnorm F97 q = q /\ degree F97 q = Ok (quotient_polynomial_degree 4 5) /\
  split_quotient_polynomial F97 (mk_prover F97 (d97 4) (d97 32)) (fun i => e97 (Z.of_nat i + 7)) q 5 = Panic.
Proof.
  cbv zeta. split; [apply eqb97_eq; vm_compute; reflexivity|]. split; vm_compute; reflexivity.
Qed.
Example C56_case : 
  first_lagrange_coeff F97 (d97 8) (e97 5) (e97 2) = Ok (peval (lagp F97 (d97 8) (e97 5) 0) (e97 2)) /\
  feqb (peval (lagp F97 (d97 8) (e97 5) 0) (e97 2)) f0 = false /\
  first_and_last_lagrange_coeffs F97 (d97 8) (e97 5) (e97 5) = Ok (f1, f0) /\
  exists l, lagrange_coeffs_for_range F97 (d97 8) (e97 5) 2 6 (e97 2) = Ok l /\ length l = 4%nat.
Proof.
  assert (D : dom_ok F97 (d97 8)) by (eapply radix2_ok; [apply root97|apply d97_ok; lia]).
  assert (N : e97 5 <> f0) by (intro E; apply (f_equal (zv 97)) in E; vm_compute in E; discriminate).
  split; [|split; [vm_compute; reflexivity|split]].
  - eapply (C56_first F97 5 (e97 28) root97 8); [apply d97_ok; lia|exact N|]. apply lagp_ok; auto. cbn. lia.
  - unfold first_and_last_lagrange_coeffs. now rewrite feqb_refl.
  - erewrite (C56_range F97 5 (e97 28) root97 8 (d97 8) (e97 5) (e97 2) 2 6 (lagp F97 (d97 8) (e97 5))).
    + eexists. split; [reflexivity|]. rewrite map_length, seq_length. reflexivity.
    + apply d97_ok. lia.
    + exact N.
    + intros i Hi. now apply lagp_ok.
Qed.
Example C56_single_case : dsize (d97 1) = 1%nat /\ first_and_last_lagrange_coeffs F97 (d97 1) f1 f1 = Ok (f1, f0) /\
  last_lagrange_coeff F97 (d97 1) f1 f1 = Ok f1.
Proof.
  split; [reflexivity|]. assert (D : dom_ok F97 (d97 1)) by (eapply radix2_ok; [apply root97|apply d97_ok; lia]).
  destruct (C56_single_refuted F97 5 (e97 28) root97 1 (d97 1) f1 (lagp F97 (d97 1) f1 0) (d97_ok 1 ltac:(lia)) (f1_neq_0 F97) eq_refl) as (A & B & _); auto.
  apply lagp_ok; auto. apply f1_neq_0.
Qed.
Example C61_case : exists p, interpolates F97 (d97 8) f1 (fun j => nth j (l97 [4; 5; 6]%Z) f0) p /\
  evaluate_pi_poly F97 (d97 8) (l97 [4; 5; 6]%Z) (e97 2) false = Ok (peval p (e97 2)) /\
  evaluate_pi_poly F97 (d97 2) (l97 [4; 5; 6]%Z) (e97 2) false = Panic.
Proof.
  assert (D : forall n, (n <= 32)%nat -> dom_ok F97 (d97 n)) by (intros; eapply radix2_ok; [apply root97|now apply d97_ok]).
  exists (ipoly F97 (d97 8) (l97 [4; 5; 6]%Z)).
  assert (I : interpolates F97 (d97 8) f1 (fun j => nth j (l97 [4; 5; 6]%Z) f0) (ipoly F97 (d97 8) (l97 [4; 5; 6]%Z))) by (apply ipoly_ok, D; lia).
  split; auto. split.
  - now rewrite (C61_pi_eval F97 5 (e97 28) root97 8 (d97 8) _ _ _ (d97_ok 8 ltac:(lia)) I).
  - rewrite (C61_pi_eval F97 5 (e97 28) root97 2 (d97 2) _ _ (ipoly F97 (d97 2) (l97 [4; 5; 6]%Z)) (d97_ok 2 ltac:(lia))); [reflexivity|].
    apply ipoly_ok, D. lia.
Qed.
Example C61_merged_case : exists p,
  interpolates F97 (d97 8) f1 (fun j => nth j (l97 [4; 5; 0; 0; 0; 0; 7; 6]%Z) f0) p /\
  evaluate_pi_poly F97 (d97 8) (l97 [4; 5] ++ l97 [6; 7])%Z (e97 2) true = Ok (peval p (e97 2)).
Proof.
  assert (D : dom_ok F97 (d97 8)) by (eapply radix2_ok; [apply root97|apply d97_ok; lia]).
  exists (ipoly F97 (d97 8) (l97 [4; 5; 0; 0; 0; 0; 7; 6]%Z)).
  assert (I : interpolates F97 (d97 8) f1 (fun j => nth j (l97 [4; 5; 0; 0; 0; 0; 7; 6]%Z) f0) (ipoly F97 (d97 8) (l97 [4; 5; 0; 0; 0; 0; 7; 6]%Z))) by (apply ipoly_ok, D).
  split; [exact I|]. apply (C61_pi_eval_merged F97 5 (e97 28) root97 8 (d97 8) (l97 [4; 5]%Z) (l97 [6; 7]%Z)).
  1: { apply d97_ok. lia. }
  1: { reflexivity. }
  1: { cbn; lia. }
  destruct I as [A B]. split; auto. intros j Hj. rewrite B by auto. change (dsize (d97 8)) with 8%nat in Hj.
  do 8 (destruct j as [|j]; [apply zp_ext; reflexivity|]). lia.
Qed.

Print Assumptions C54_mask_values.
Print Assumptions C55_split_recombines.
Print Assumptions C55_split_total.
Print Assumptions C55_split_needs.
Print Assumptions C56_first.
Print Assumptions C56_last.
Print Assumptions C56_first_and_last.
Print Assumptions C56_single_refuted.
Print Assumptions C56_range.
Print Assumptions C56_basis.
Print Assumptions C61_pi_eval.
Print Assumptions C61_pi_eval_merged.
Print Assumptions C70_mask_hides.
