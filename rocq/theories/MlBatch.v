(** Proofs about the batched multilinear openings: interpolation over a radix-2
    domain, merging, and the composition with the curve through the points. *)
From Coq Require Import List Arith Lia Bool Ring Field.
From Verif Require Import Base Alg Poly ListAux VRing KzgModel KzgProofs KzgFft KzgFk MlModel MlProofs.
Import ListNotations.

Section MlBatch.
  Variable K : fld.
  Local Open Scope fld_scope.
  Add Field Kmlb : (fth K).

  (** ** Interpolation *)
  Lemma nth_ifft_self d (v : list K) k : (k < dsize d)%nat ->
    coef (ifft K (self_vsp K) d v) k
    = finv (fnat (dsize d)) * fsum (map (fun j => fpow (finv (dgen d)) (k * j) * nth j v 0) (seq 0 (dsize d))).
  Proof. intro H. unfold coef. rewrite ifft_sum. exact (nth_map_seq _ (dsize d) k 0 H). Qed.
  Lemma length_ifft d (v : list K) : length (ifft K (self_vsp K) d v) = dsize d.
  Proof. unfold ifft. now rewrite map_length, seq_length. Qed.
  Lemma length_interpolate d (v : list K) : (length (interpolate K d v) <= dsize d)%nat.
  Proof. unfold interpolate. etransitivity; [apply length_pnorm|]. rewrite length_ifft. reflexivity. Qed.
  Lemma interpolate_norm d (v : list K) : pnorm K (interpolate K d v) = interpolate K d v.
  Proof. apply pnorm_idem. Qed.
  Lemma peval_interpolate d (v : list K) i : dom_ok K d -> (i < dsize d)%nat ->
    peval (interpolate K d v) (dom_element K d i) = nth i v 0.
  Proof.
    intros H Hi. unfold interpolate. rewrite peval_pnorm. rewrite (peval_fsum _ _ _ (dsize d)) by (rewrite length_ifft; auto).
    rewrite (fsum_map_ext K _ (fun k => fsum (map (fun j => finv (fnat (dsize d)) * nth j v 0 * (fpow (finv (dgen d)) (j * k) * fpow (dgen d) (k * i))) (seq 0 (dsize d))))).
    2: { intros k Hk. apply in_seq in Hk. rewrite nth_ifft_self by lia. unfold dom_element.
         rewrite <- fpow_mul. transitivity ((finv (fnat (dsize d)) * fpow (dgen d) (i * k)) * fsum (map (fun j => fpow (finv (dgen d)) (k * j) * nth j v 0) (seq 0 (dsize d)))); [ring|].
         rewrite <- fsum_map_scale. apply fsum_map_ext. intros j _. rewrite (Nat.mul_comm j k), (Nat.mul_comm i k). ring. }
    etransitivity; [apply (vsum_swap K (self_vsp K))|]. change (@vsum K (self_vsp K)) with (@fsum K). cbn [vcar self_vsp].
    rewrite (fsum_map_ext K _ (fun j => finv (fnat (dsize d)) * nth j v 0 * (if (i =? j)%nat then fnat (dsize d) else 0))).
    2: { intros j Hj. apply in_seq in Hj. rewrite fsum_map_scale, orth by (auto; lia). reflexivity. }
    pose proof (vsum_pick K (self_vsp K) (fun j => finv (fnat (dsize d)) * nth j v 0 * (if (i =? j)%nat then fnat (dsize d) else 0)) (dsize d) i Hi) as P.
    etransitivity; [apply P|].
    - intros j _ N. destruct (Nat.eqb_spec i j); [congruence|]. cbn. ring.
    - cbn beta. rewrite Nat.eqb_refl. field. apply H.
  Qed.
  Lemma dom_NoDup d n : dom_ok K d -> (n <= dsize d)%nat -> NoDup (map (dom_element K d) (seq 0 n)).
  Proof.
    intros H Hn. pose proof H as [D1 D2 D3 D4].
    assert (W : forall a c, (a < c < n)%nat -> fpow (dgen d) a <> fpow (dgen d) c).
    { intros a c Hac X. apply (D3 (c - a)%nat); [lia|]. replace c with (a + (c - a))%nat in X by lia. rewrite fpow_add in X.
      assert (G0 : fpow (dgen d) a <> 0) by (apply fpow_neq_0; eapply do_gen_neq_0; eauto).
      apply (fmul_cancel_l K (fpow (dgen d) a)); auto. rewrite <- X. ring. }
    assert (I : forall s m, (s + m <= n)%nat -> NoDup (map (dom_element K d) (seq s m))).
    { intros s m. revert s. induction m as [|m IH]; intros s Hs; [constructor|]. cbn [seq map]. constructor; [|apply IH; lia].
      intro X. apply in_map_iff in X as (y & Ey & Hy). apply in_seq in Hy. unfold dom_element in Ey. eapply (W s y); [lia|auto]. }
    apply I. lia.
  Qed.
  (** A polynomial shorter than the domain is determined by its values there. *)
  Lemma interpolate_unique d (v p : list K) x : dom_ok K d -> (length p <= dsize d)%nat ->
    (forall i, (i < dsize d)%nat -> peval p (dom_element K d i) = nth i v 0) -> peval (interpolate K d v) x = peval p x.
  Proof.
    intros H L E. apply peval_peq. apply (interp_unique K (map (dom_element K d) (seq 0 (dsize d)))).
    - apply dom_NoDup; auto.
    - intros r Hr. apply in_map_iff in Hr as (i & <- & Hi). apply in_seq in Hi. rewrite peval_interpolate, E by (auto; lia). reflexivity.
    - rewrite map_length, seq_length. apply length_interpolate.
    - rewrite map_length, seq_length. exact L.
  Qed.

  (** ** Merging *)
  Lemma fold1_app r : forall n (a b : list K), length a = (2 * n)%nat -> fold1 K r (a ++ b) = fold1 K r a ++ fold1 K r b.
  Proof.
    induction n as [|n IH]; intros a b L; [destruct a; [reflexivity|discriminate]|].
    destruct a as [|x [|y a]]; try (cbn in L; lia). cbn [app fold1]. f_equal. apply IH. cbn in L. lia.
  Qed.
  Lemma fix_vars_app : forall ts (a b : list K) n, length a = (2 ^ length ts * n)%nat -> fix_vars K (a ++ b) ts = fix_vars K a ts ++ fix_vars K b ts.
  Proof.
    induction ts as [|t ts IH]; intros a b n L; [reflexivity|]. cbn [length] in L. rewrite Nat.pow_succ_r', <- Nat.mul_assoc in L.
    unfold fix_vars. cbn [fold_left]. rewrite (fold1_app _ _ _ _ L). apply (IH _ _ n). apply length_fold1. exact L.
  Qed.
  Lemma fix_vars_concat ts : forall ps : list (list K), (forall p, In p ps -> length p = (2 ^ length ts)%nat) ->
    fix_vars K (concat ps) ts = map (fun p => mleval K p ts) ps.
  Proof.
    induction ps as [|p ps IH]; intro H.
    - cbn [concat map]. clear. induction ts; [reflexivity|exact IHts].
    - cbn [concat map]. rewrite (fix_vars_app _ _ _ 1) by (rewrite Nat.mul_1_r; apply H; left; auto).
      rewrite fix_vars_eq by (apply H; left; auto). rewrite IH by (intros; apply H; right; auto). reflexivity.
  Qed.
  Lemma fix_vars_zeros : forall ts n, fix_vars K (repeat 0 (2 ^ length ts * n)) ts = repeat 0 n.
  Proof.
    induction ts as [|t ts IH]; intro n; [cbn; now rewrite Nat.add_0_r|]. cbn [length]. unfold fix_vars. cbn [fold_left].
    assert (X : forall m, fold1 K t (repeat 0 (2 * m)) = repeat 0 m).
    { induction m as [|m IHm]; [reflexivity|]. replace (2 * S m)%nat with (S (S (2 * m))) by lia. cbn [repeat fold1]. rewrite IHm. f_equal. ring. }
    rewrite Nat.pow_succ_r', <- Nat.mul_assoc, X. apply IH.
  Qed.
  Definition bits (j n : nat) : list K := map (fun i => if Nat.testbit j i then 1 else 0) (seq 0 n).
  Lemma bits_S j n : bits j (S n) = (if Nat.testbit j 0 then 1 else 0) :: bits (Nat.div2 j) n.
  Proof. unfold bits. cbn [seq map]. f_equal. rewrite <- seq_shift, map_map. apply map_ext. intro i. reflexivity. Qed.
  Lemma chi_bits : forall n j x, (j < 2 ^ n)%nat -> (x < 2 ^ n)%nat -> chi K (bits j n) x = if (x =? j)%nat then 1 else 0.
  Proof.
    induction n as [|n IH]; intros j x Hj Hx.
    - cbn in *. replace j with 0%nat by lia. replace x with 0%nat by lia. reflexivity.
    - rewrite Nat.pow_succ_r' in Hj, Hx. rewrite bits_S.
      assert (Dj : j = if Nat.testbit j 0 then (2 * Nat.div2 j + 1)%nat else (2 * Nat.div2 j)%nat).
      { rewrite Nat.bit0_odd. pose proof (Nat.div2_odd j) as E. destruct (Nat.odd j); cbn [Nat.b2n] in E; lia. }
      assert (Dx : x = (2 * Nat.div2 x + 1)%nat \/ x = (2 * Nat.div2 x)%nat).
      { pose proof (Nat.div2_odd x) as E. destruct (Nat.odd x); cbn [Nat.b2n] in E; lia. }
      destruct Dx as [Dx|Dx]; rewrite Dx at 1; [rewrite chi_odd|rewrite chi_even]; rewrite IH by (destruct (Nat.testbit j 0); lia);
        destruct (Nat.testbit j 0); destruct (Nat.eqb_spec (Nat.div2 x) (Nat.div2 j)), (Nat.eqb_spec x j); try lia; try congruence; ring.
  Qed.
  Lemma length_bits j n : length (bits j n) = n.
  Proof. unfold bits. now rewrite map_length, seq_length. Qed.
  Lemma mleval_vertex n j (l : list K) : (j < 2 ^ n)%nat -> mleval K l (bits j n) = nth j l 0.
  Proof.
    intro H. unfold mleval. rewrite length_bits.
    rewrite (fsum_map_ext K _ (fun x => nth x l 0 * (if (x =? j)%nat then 1 else 0))) by (intros x Hx; apply in_seq in Hx; rewrite chi_bits by lia; reflexivity).
    pose proof (vsum_pick K (self_vsp K) (fun x => nth x l 0 * (if (x =? j)%nat then 1 else 0)) (2 ^ n) j H) as P.
    etransitivity; [apply P|].
    - intros i _ N. destruct (Nat.eqb_spec i j); [congruence|]. cbn. ring.
    - cbn beta. rewrite Nat.eqb_refl. ring.
  Qed.
  Definition merged (nv : nat) (ps : list (mle K)) : list K :=
    concat (map mevals ps) ++ repeat 0 (2 ^ nv * (2 ^ Nat.log2_up (length ps) - length ps)).
  Lemma length_concat_unif {A} (n : nat) (ps : list (list A)) : (forall p, In p ps -> length p = n) -> length (concat ps) = (n * length ps)%nat.
  Proof.
    induction ps as [|p ps IH]; intro H; [cbn; lia|]. cbn [concat length]. rewrite app_length, IH by (intros; apply H; right; auto).
    rewrite H by (left; auto). lia.
  Qed.
  Section Merge.
    Variables (nv : nat) (ps : list (mle K)).
    Hypothesis Ne : ps <> [].
    Hypothesis Wf : forall p, In p ps -> mnv p = nv /\ length (mevals p) = (2 ^ nv)%nat.
    Lemma len_cat : length (concat (map mevals ps)) = (2 ^ nv * length ps)%nat.
    Proof.
      rewrite (length_concat_unif (2 ^ nv)), map_length; [reflexivity|]. intros p Hp. apply in_map_iff in Hp as (m & <- & Hm). now apply Wf.
    Qed.
    Lemma length_merged : length (merged nv ps) = (2 ^ (nv + Nat.log2_up (length ps)))%nat.
    Proof.
      unfold merged. rewrite app_length, len_cat, repeat_length, Nat.pow_add_r, <- Nat.mul_add_distr_l.
      pose proof (log2_up_pow2_ge (length ps)). f_equal. lia.
    Qed.
    Lemma merge_polynomials_eq : merge_polynomials K ps = Ok (mk_mle (nv + Nat.log2_up (length ps)) (merged nv ps)).
    Proof.
      unfold merge_polynomials. destruct ps as [|p0 ps'] eqn:E; [congruence|]. rewrite <- E in *. 
      replace (index ps 0) with (Ok p0 : pres (mle K)) by (rewrite E; reflexivity). cbn [bind].
      assert (E0 : mnv p0 = nv) by (apply Wf; rewrite E; left; auto).
      replace (forallb _ ps) with true by (symmetry; apply forallb_forall; intros p Hp; apply Nat.eqb_eq; rewrite E0; symmetry; now apply Wf).
      cbn [negb]. rewrite flat_map_concat_map, len_cat, E0. unfold get_batched_nv.
      pose proof (log2_up_pow2_ge (length ps)) as G. rewrite Nat.pow_add_r.
      destruct (Nat.ltb_spec (2 ^ nv * 2 ^ Nat.log2_up (length ps)) (2 ^ nv * length ps)) as [L|_].
      - exfalso. apply (Nat.mul_le_mono_l _ _ (2 ^ nv)) in G. lia.
      - rewrite <- Nat.mul_sub_distr_l. fold (merged nv ps). unfold mle_new. rewrite length_merged, Nat.eqb_refl. reflexivity.
    Qed.
    (** At a vertex of the added variables the merged polynomial is one of the inputs. *)
    Lemma mleval_merged ts j : length ts = nv -> (j < length ps)%nat ->
      mleval K (merged nv ps) (ts ++ bits j (Nat.log2_up (length ps))) = mleval K (mevals (nth j ps (mk_mle 0 []))) ts.
    Proof.
      intros Lt Hj. set (m := Nat.log2_up (length ps)).
      pose proof (log2_up_pow2_ge (length ps)) as G. fold m in G.
      assert (X : [mleval K (merged nv ps) (ts ++ bits j m)] = [mleval K (mevals (nth j ps (mk_mle 0 []))) ts]); [|congruence].
      rewrite <- fix_vars_eq by (rewrite app_length, length_bits, Lt; apply length_merged).
      unfold fix_vars. rewrite fold_left_app. fold (fix_vars K (merged nv ps) ts).
      fold (fix_vars K (fix_vars K (merged nv ps) ts) (bits j m)).
      unfold merged at 1. rewrite <- Lt. rewrite (fix_vars_app _ _ _ (length ps)) by (rewrite Lt; apply len_cat).
      rewrite fix_vars_concat by (intros p Hp; apply in_map_iff in Hp as (q & <- & Hq); rewrite Lt; now apply Wf). rewrite fix_vars_zeros.
      rewrite fix_vars_eq by (rewrite app_length, !map_length, repeat_length, length_bits; fold m; lia).
      rewrite mleval_vertex by lia. rewrite app_nth1 by (rewrite !map_length; auto). rewrite map_map. f_equal.
      rewrite (nth_indep _ 0 (mleval K (mevals (mk_mle 0 [] : mle K)) ts)) by (rewrite map_length; auto).
      rewrite (map_nth (fun p => mleval K (mevals p) ts)). reflexivity.
    Qed.
  End Merge.

  (** ** The composition of a multilinear polynomial with a curve *)
  Fixpoint pfold1 (r : list K) (l : list (list K)) : list (list K) :=
    match l with
    | a :: b :: l' => padd a (pmul r (psub b a)) :: pfold1 r l'
    | _ => []
    end.
  Lemma pfold1_eval r x : forall n (l : list (list K)), length l = (2 * n)%nat ->
    map (fun p => peval p x) (pfold1 r l) = fold1 K (peval r x) (map (fun p => peval p x) l).
  Proof.
    induction n as [|n IH]; intros l L; [destruct l; [reflexivity|discriminate]|].
    destruct l as [|a [|b l]]; try (cbn in L; lia). cbn [pfold1 map fold1]. rewrite peval_padd, peval_pmul, peval_psub. f_equal.
    apply IH. cbn in L. lia.
  Qed.
  Lemma pfold1_len r D m : (1 <= D)%nat -> (1 <= m)%nat -> (length r <= D)%nat -> forall n (l : list (list K)), length l = (2 * n)%nat ->
    (forall p, In p l -> (length p <= m)%nat) -> length (pfold1 r l) = n /\ forall p, In p (pfold1 r l) -> (length p <= m + D - 1)%nat.
  Proof.
    intros HD Hm Hr. induction n as [|n IH]; intros l L H; [destruct l; [split; [reflexivity|intros p []]|discriminate]|].
    destruct l as [|a [|b l]]; try (cbn in L; lia). cbn [pfold1].
    destruct (IH l) as [I1 I2]; [cbn in L; lia|intros; apply H; right; right; auto|].
    split; [cbn; lia|]. intros p [<-|Hp]; [|auto]. rewrite length_padd.
    pose proof (H a (or_introl eq_refl)). pose proof (H b (or_intror (or_introl eq_refl))).
    assert (length (pmul r (psub b a)) <= m + D - 1)%nat; [|lia].
    assert (Ls : (length (psub b a) <= m)%nat) by (rewrite length_psub; lia).
    destruct r as [|r0 r']; [cbn; lia|]. destruct (psub b a) as [|s0 s'] eqn:E.
    - pose proof (length_pmul K (r0 :: r') []). cbn [length] in *. lia.
    - rewrite length_pmul_pred by (cbn; lia). lia.
  Qed.
  (** There is a polynomial of the expected degree that is the composition. *)
  Lemma compose_poly D : (1 <= D)%nat -> forall (ls : list (list K)) m (l : list (list K)), length l = (2 ^ length ls)%nat -> (1 <= m)%nat ->
    (forall p, In p l -> (length p <= m)%nat) -> (forall r, In r ls -> (length r <= D)%nat) ->
    exists c, (length c <= m + length ls * (D - 1))%nat /\
      forall x, peval c x = mleval K (map (fun p => peval p x) l) (map (fun r => peval r x) ls).
  Proof.
    intro HD. induction ls as [|r ls IH]; intros m l L Hm Hl Hls.
    - cbn in L. destruct l as [|c [|? ?]]; try discriminate. exists c. split; [cbn; rewrite Nat.add_0_r; apply Hl; left; auto|].
      intro x. unfold mleval, chi. cbn. ring.
    - cbn [length] in L. rewrite Nat.pow_succ_r' in L.
      destruct (pfold1_len r D m HD Hm (Hls _ (or_introl eq_refl)) _ l L Hl) as [I1 I2].
      destruct (IH (m + D - 1)%nat (pfold1 r l) I1 ltac:(lia) I2 ltac:(intros; apply Hls; right; auto)) as (c & C1 & C2).
      exists c. split; [cbn [length]; lia|]. intro x. rewrite C2. cbn [map]. rewrite (mleval_cons K _ _ _ (2 ^ length ls)) by (rewrite map_length; exact L).
      rewrite (pfold1_eval r x _ l L). reflexivity.
  Qed.
  Lemma compose_mle D (ls : list (list K)) (w : list K) : (1 <= D)%nat -> length w = (2 ^ length ls)%nat ->
    (forall r, In r ls -> (length r <= D)%nat) ->
    exists c, (length c <= 1 + length ls * (D - 1))%nat /\ forall x, peval c x = mleval K w (map (fun r => peval r x) ls).
  Proof.
    intros HD L Hls. destruct (compose_poly D HD ls 1 (map (fun a => [a]) w)) as (c & C1 & C2); auto.
    - now rewrite map_length.
    - intros p Hp. apply in_map_iff in Hp as (a & <- & _). cbn. lia.
    - exists c. split; [exact C1|]. intro x. rewrite C2. f_equal. rewrite map_map. rewrite <- (map_id w) at 2. apply map_ext. intro a. cbn. ring.
  Qed.

  (** ** The curve through the points *)
  Section Curve.
    Variables (tad : nat) (root : K).
    Hypothesis Root : root_ok K tad root.
    Variables (nv : nat) (points : list (list K)) (d : dom K).
    Hypothesis Hd : get_uni_domain K tad root (length points) = Ok d.
    Hypothesis Hpts : forall pt, In pt points -> length pt = nv.
    Notation pl := (Nat.log2_up (length points)).
    Lemma dom_d : dom_ok K d /\ dsize d = (2 ^ pl)%nat /\ (length points <= dsize d)%nat.
    Proof.
      unfold get_uni_domain in Hd. destruct (radix2_new _ _ _ _) as [d'|] eqn:E; [|discriminate]. injection Hd as <-.
      pose proof (radix2_size K _ _ _ _ E) as S. split; [eapply radix2_ok; eauto|]. split; [exact S|]. rewrite S. apply log2_up_pow2_ge.
    Qed.
    Definition curve : list (list K) :=
      map (fun i => interpolate K d (map (fun x => if Nat.testbit x (pl - i - 1) then 1 else 0) (seq 0 (length points)))) (seq 0 pl)
      ++ map (fun i => interpolate K d (map (fun pt => nth i pt 0) points ++ repeat 0 (dsize d - length points))) (seq 0 nv).
    Lemma build_l_eq : build_l K nv points d = Ok curve.
    Proof.
      destruct dom_d as (D1 & D2 & D3). unfold build_l.
      rewrite (map_res_ok _ (fun i => interpolate K d (map (fun pt => nth i pt 0) points ++ repeat 0 (dsize d - length points)))).
      - cbn [bind]. unfold curve. do 2 f_equal. apply map_ext_in. intros i Hi. apply in_seq in Hi. f_equal. apply map_ext. intro x.
        unfold bit_decompose. rewrite (nth_map_seq (Nat.testbit x)) by lia. reflexivity.
      - intros i Hi. apply in_seq in Hi. rewrite (map_res_ok _ (fun pt => nth i pt 0)).
        + cbn [bind]. rewrite map_length. destruct (Nat.ltb_spec (dsize d) (length points)); [lia|]. reflexivity.
        + intros pt Hp. unfold index. rewrite (nth_error_nth' pt 0) by (rewrite (Hpts _ Hp); lia). reflexivity.
    Qed.
    Lemma length_curve : length curve = (pl + nv)%nat.
    Proof. unfold curve. now rewrite app_length, !map_length, !seq_length. Qed.
    Lemma rev_seq_map {A} (f : nat -> A) n : rev (map f (seq 0 n)) = map (fun i => f (n - i - 1)%nat) (seq 0 n).
    Proof.
      induction n as [|n IH]; [reflexivity|]. rewrite (seq_S n 0) at 1. rewrite map_app, rev_app_distr, IH. cbn [map rev app seq].
      replace (S n - 0 - 1)%nat with (0 + n)%nat by lia. f_equal. rewrite <- seq_shift, map_map. apply map_ext. intro i. f_equal.
    Qed.
    (** On the domain the curve runs through the (reversed) points. *)
    Lemma curve_at j : (j < length points)%nat ->
      map (fun p => peval p (dom_element K d j)) (rev curve) = rev (nth j points []) ++ bits j pl.
    Proof.
      intro Hj. destruct dom_d as (D1 & D2 & D3). unfold curve. rewrite rev_app_distr, map_app. f_equal.
      - rewrite map_rev. f_equal. rewrite map_map. assert (L : length (nth j points []) = nv) by (apply Hpts, nth_In; auto).
        rewrite (map_nth_seq (nth j points []) 0) at 1. rewrite L. apply map_ext_in. intros i Hi.
        rewrite peval_interpolate by (auto; lia). rewrite app_nth1 by (rewrite map_length; auto).
        rewrite (nth_indep _ 0 (nth i [] 0)) by (rewrite map_length; auto). rewrite (map_nth (fun pt => nth i pt 0)). reflexivity.
      - rewrite rev_seq_map, map_map. unfold bits. apply map_ext_in. intros i Hi. apply in_seq in Hi.
        rewrite peval_interpolate by (auto; lia). rewrite nth_map_seq by auto. replace (pl - (pl - i - 1) - 1)%nat with i by lia. reflexivity.
    Qed.
    Lemma curve_len p : In p curve -> (length p <= dsize d)%nat.
    Proof.
      unfold curve. intro H. apply in_app_iff in H as [H|H]; apply in_map_iff in H as (i & <- & _); apply length_interpolate.
    Qed.
    (** The first component of the curve has the full degree. *)
    Lemma curve_degree l0 : points <> [] -> nth_error curve 0 = Some l0 -> degree K l0 = Ok (dsize d - 1)%nat.
    Proof.
      intros Ne H. destruct dom_d as (D1 & D2 & D3).
      assert (N : pnorm K l0 = l0).
      { apply nth_error_In in H. unfold curve in H. apply in_app_iff in H as [H|H]; apply in_map_iff in H as (i & <- & _); apply interpolate_norm. }
      rewrite degree_norm by auto. f_equal.
      assert (Le : (length l0 <= dsize d)%nat) by (apply curve_len; eapply nth_error_In; eauto).
      destruct (Nat.eq_dec pl 0) as [P0|P0].
      - rewrite D2, P0 in *. cbn [Nat.pow] in *. lia.
      - enough (dsize d <= length l0)%nat by lia. clear Le N.
        unfold curve in H. destruct pl as [|m] eqn:Em; [lia|]. cbn [seq map app nth_error] in H. injection H as <-.
        cbn [Nat.sub]. rewrite !Nat.sub_0_r.
        set (v := map (fun x => if Nat.testbit x m then (1 : K) else 0) (seq 0 (length points))).
        destruct (Nat.le_gt_cases (dsize d) (length (interpolate K d v))) as [|L]; [auto|exfalso].
        assert (Z : coef (interpolate K d v) (dsize d - 1) = 0) by (apply coef_over; clear - L; lia).
        unfold interpolate in Z. pose proof (do_size K d D1) as S0. rewrite coef_pnorm, nth_ifft_self in Z by lia.
        apply fmul_eq_0 in Z as [Z|Z]; [eapply finv_neq_0; [apply D1|exact Z]|].
        assert (Sz : dsize d = (2 ^ m + 2 ^ m)%nat) by (rewrite D2; cbn [Nat.pow]; lia).
        assert (Hk : (2 ^ m < length points)%nat).
        { assert (G := Nat.log2_up_spec (length points)). rewrite Em in G. apply G. destruct (length points) as [|[|?]]; [|cbn in Em; lia|lia]. cbn in Em. lia. }
        set (w := dgen d) in *. pose proof (do_gen_neq_0 K d D1) as G0. fold w in G0.
        assert (Inv : forall j, fpow (finv w) ((dsize d - 1) * j) = fpow w j).
        { intro j. assert (E1 : fpow (finv w) (dsize d - 1) = w).
          { assert (A : fpow (finv w) (dsize d) = 1).
            { pose proof (inv_pow K d 0 (dsize d) D1) as E. rewrite Nat.add_0_r in E. rewrite (do_one K d D1) in E. fold w in E. cbn [fpow] in E.
              transitivity (1 * fpow (finv w) (dsize d)); [ring|exact E]. }
            replace (dsize d) with (S (dsize d - 1)) in A by lia. rewrite fpow_S in A.
            transitivity (w * (finv w * fpow (finv w) (dsize d - 1))); [field; auto|]. rewrite A. ring. }
          rewrite fpow_mul, E1. reflexivity. }
        rewrite (fsum_map_ext K _ (fun j => fpow w j * (if ((2 ^ m <=? j) && (j <? length points))%nat then 1 else 0))) in Z.
        2: { intros j Hj. apply in_seq in Hj. rewrite Inv. f_equal. destruct (Nat.ltb_spec j (length points)) as [Lj|Lj].
             - unfold v. rewrite nth_map_seq by auto. rewrite andb_true_r.
               destruct (Nat.leb_spec (2 ^ m) j) as [A|A].
               + rewrite Nat.testbit_eqb. replace (j / 2 ^ m)%nat with 1%nat; [reflexivity|].
                 apply (Nat.div_unique j (2 ^ m) 1 (j - 2 ^ m)); lia.
               + rewrite Nat.testbit_eqb, Nat.div_small by auto. reflexivity.
             - unfold v. rewrite nth_overflow by (rewrite map_length, seq_length; auto). now rewrite andb_false_r. }
        assert (Zs : fsum (map (fpow w) (seq (2 ^ m) (length points - 2 ^ m))) = 0).
        { etransitivity; [|exact Z].
          replace (dsize d) with (2 ^ m + ((length points - 2 ^ m) + (dsize d - length points)))%nat by lia.
          rewrite !seq_app, !map_app, !fsum_app. cbn [Nat.add].
          rewrite (fsum_map_0 K _ (seq 0 (2 ^ m))).
          2: { intros j Hj. apply in_seq in Hj. destruct (Nat.leb_spec (2 ^ m) j); [lia|]. cbn. ring. }
          rewrite (fsum_map_0 K _ (seq (2 ^ m + (length points - 2 ^ m)) _)).
          2: { intros j Hj. apply in_seq in Hj. destruct (Nat.ltb_spec j (length points)); [lia|]. rewrite andb_false_r. ring. }
          rewrite (fsum_map_ext K (fun j => fpow w j * _) (fpow w) (seq (2 ^ m) _)).
          2: { intros j Hj. apply in_seq in Hj. destruct (Nat.leb_spec (2 ^ m) j); [|lia]. destruct (Nat.ltb_spec j (length points)); [|lia]. cbn. ring. }
          ring. }
        assert (Hp : (length points <= dsize d)%nat) by exact D3. clear Z.
        rewrite (map_seq_shift (fpow w)) in Zs.
        rewrite (fsum_map_ext K _ (fun j => fpow w (2 ^ m) * fpow w j)) in Zs by (intros; apply fpow_add). rewrite fsum_map_scale in Zs.
        apply fmul_eq_0 in Zs as [Zs|Zs]; [eapply fpow_neq_0; eauto|].
        pose proof (geom_sum K w (length points - 2 ^ m)) as G. rewrite Zs in G.
        apply (do_prim K d D1 (length points - 2 ^ m)); [lia|]. apply fsub_0_eq. fold w. rewrite <- G. ring.
    Qed.
  End Curve.
End MlBatch.
