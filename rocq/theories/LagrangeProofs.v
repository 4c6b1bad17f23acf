(** The Lagrange basis of a multiplicative coset and the interpolation polynomials
    of the PLONK model. *)
From Coq Require Import List Arith Lia Bool Ring Field.
From Verif Require Import Base Alg Poly KzgModel KzgProofs KzgFft PlonkModel.
Import ListNotations.

Section Lag.
  Variable K : fld.
  Local Open Scope fld_scope.
  Add Field Klag : (fth K).

  (** [p] is the Lagrange basis polynomial of point [i] of the coset [h * <gen>]:
      of degree below the size, one at point [i] and zero at the others. *)
  Definition is_lagrange (d : dom K) (h : K) (i : nat) (p : list K) : Prop :=
    (length p <= dsize d)%nat /\
    forall j, (j < dsize d)%nat -> peval p (h * fpow (dgen d) j) = if (j =? i)%nat then 1 else 0.
  (** [p] is the interpolation polynomial of the values [f] on the coset. *)
  Definition interpolates (d : dom K) (h : K) (f : nat -> K) (p : list K) : Prop :=
    (length p <= dsize d)%nat /\
    forall j, (j < dsize d)%nat -> peval p (h * fpow (dgen d) j) = f j.

  Definition lagp (d : dom K) (h : K) (i : nat) : list K :=
    map (fun k => finv (fnat (dsize d)) * fpow (finv (h * fpow (dgen d) i)) k) (seq 0 (dsize d)).
  Definition lagv (d : dom K) (h : K) (i : nat) (x : K) : K := peval (lagp d h i) x.

  Variable d : dom K.
  Hypothesis Hd : dom_ok K d.
  Notation n := (dsize d).
  Notation w := (dgen d).

  Lemma fpow_inv (x : K) k : x <> 0 -> fpow (finv x) k * fpow x k = 1.
  Proof.
    intro H. rewrite <- fpow_mult_base. replace (finv x * x) with (1 : K) by (field; auto). apply fpow_1.
  Qed.
  Lemma wpow_neq_0 i : fpow w i <> 0.
  Proof. apply fpow_neq_0. now apply do_gen_neq_0. Qed.
  Lemma wpow_n i : fpow (fpow w i) n = 1.
  Proof. rewrite <- fpow_mul, Nat.mul_comm. apply fpow_unit. apply Hd. Qed.
  Lemma wpow_inj i j : (i < n)%nat -> (j < n)%nat -> fpow w i = fpow w j -> i = j.
  Proof.
    assert (A : forall i j, (i < j)%nat -> (j < n)%nat -> fpow w i = fpow w j -> False).
    { intros a b Ha Hb E. apply (do_prim K d Hd (b - a)); [lia|].
      replace b with (a + (b - a))%nat in E by lia. rewrite fpow_add in E.
      apply (fmul_cancel_l K (fpow w a)); [apply wpow_neq_0|]. rewrite <- E. ring. }
    intros Hi Hj E. destruct (Nat.lt_trichotomy i j) as [L|[L|L]]; auto; exfalso.
    - apply (A i j); auto.
    - apply (A j i); auto.
  Qed.
  Lemma winv : finv w = fpow w (n - 1).
  Proof.
    pose proof (do_gen_neq_0 K d Hd) as H0. pose proof (do_one K d Hd) as H1. pose proof (do_size K d Hd).
    apply (fmul_cancel_l K w); [auto|]. rewrite <- fpow_S. replace (S (n - 1)) with n by lia. rewrite H1. field. auto.
  Qed.

  Lemma length_lagp h i : length (lagp d h i) = n.
  Proof. unfold lagp. now rewrite map_length, seq_length. Qed.
  Lemma peval_geo (c y x : K) m : peval (map (fun k => c * fpow y k) (seq 0 m)) x
    = c * fsum (map (fpow (x * y)) (seq 0 m)).
  Proof.
    rewrite peval_sum, map_length, seq_length, <- fsum_map_scale.
    apply fsum_map_ext. intros i Hi. apply in_seq in Hi.
    unfold coef. rewrite nth_map_seq by lia. rewrite fpow_mult_base. ring.
  Qed.
  Lemma lagv_sum h i x : lagv d h i x = finv (fnat n) * fsum (map (fpow (x * finv (h * fpow w i))) (seq 0 n)).
  Proof. apply peval_geo. Qed.

  Section Coset.
    Variable h : K.
    Hypothesis Hh : h <> 0.

    Lemma pt_neq_0 i : h * fpow w i <> 0.
    Proof. apply fmul_neq_0; auto. apply wpow_neq_0. Qed.
    Lemma pt_n i : fpow (h * fpow w i) n = fpow h n.
    Proof. rewrite fpow_mult_base, wpow_n. ring. Qed.
    Lemma pt_inj i j : (i < n)%nat -> (j < n)%nat -> h * fpow w i = h * fpow w j -> i = j.
    Proof. intros Hi Hj E. apply wpow_inj; auto. apply (fmul_cancel_l K h); auto. Qed.
    Lemma pts_nodup : NoDup (map (fun j => h * fpow w j) (seq 0 n)).
    Proof.
      assert (A : forall k s, (s + k <= n)%nat -> NoDup (map (fun j => h * fpow w j) (seq s k))).
      { induction k as [|k IH]; intros s H; [constructor|]. cbn [seq map]. constructor; [|apply IH; lia].
        intro Hx. apply in_map_iff in Hx as (j & E & Hj). apply in_seq in Hj. apply pt_inj in E; lia. }
      apply A. lia.
    Qed.
    Lemma lagv_mul i x : fnat n * fpow h n * (x - h * fpow w i) * lagv d h i x
      = h * fpow w i * (fpow x n - fpow h n).
    Proof.
      rewrite lagv_sum. pose proof (do_inv K d Hd) as N0. pose proof (pt_neq_0 i) as P0.
      pose proof (geom_sum K (x * finv (h * fpow w i)) n) as G.
      rewrite fpow_mult_base in G.
      pose proof (fpow_inv _ n P0) as E. rewrite pt_n in E.
      set (s := fsum _) in *. set (q := h * fpow w i) in *.
      transitivity (fpow h n * q * ((x * finv q - 1) * s)); [field; auto|].
      rewrite G. transitivity (q * (fpow x n * (fpow (finv q) n * fpow h n) - fpow h n)); [ring|]. rewrite E. ring.
    Qed.
    Lemma lagv_self i : lagv d h i (h * fpow w i) = 1.
    Proof.
      rewrite lagv_sum. pose proof (do_inv K d Hd) as N0. pose proof (pt_neq_0 i) as P0.
      rewrite (fsum_map_ext K _ (fun _ => 1)).
      - replace (fsum (map (fun _ => 1) (seq 0 n))) with (fnat n : K); [field; auto|].
        generalize (seq 0 n), (seq_length n 0). intros l <-. induction l; [reflexivity|].
        cbn [map length fnat]. rewrite fsum_cons, IHl. reflexivity.
      - intros j _. replace (h * fpow w i * finv (h * fpow w i)) with (1 : K) by (field; apply fmul_neq_0 in P0 || idtac; split; [apply wpow_neq_0|auto]). apply fpow_1.
    Qed.
    Lemma lagv_root i x : fpow x n = fpow h n -> x <> h * fpow w i -> lagv d h i x = 0.
    Proof.
      intros E N. pose proof (lagv_mul i x) as M. rewrite E in M.
      assert (Z : fnat n * fpow h n * (x - h * fpow w i) * lagv d h i x = 0) by (rewrite M; ring).
      apply fmul_eq_0 in Z as [Z|Z]; auto. exfalso. revert Z. apply fmul_neq_0.
      - apply fmul_neq_0; [apply Hd|now apply fpow_neq_0].
      - intro Z. apply N. now apply fsub_0_eq.
    Qed.
    Lemma lagp_ok i : (i < n)%nat -> is_lagrange d h i (lagp d h i).
    Proof.
      split; [rewrite length_lagp; lia|]. intros j Hj. destruct (Nat.eqb_spec j i) as [->|N]; [apply lagv_self|].
      apply lagv_root; [apply pt_n|]. intro E. apply pt_inj in E; auto.
    Qed.
    Lemma interp_at f p q x : interpolates d h f p -> interpolates d h f q -> peval p x = peval q x.
    Proof.
      intros [L1 E1] [L2 E2]. apply peval_peq.
      apply (interp_unique K (map (fun j => h * fpow w j) (seq 0 n))).
      - apply pts_nodup.
      - intros r Hr. apply in_map_iff in Hr as (j & <- & Hj). apply in_seq in Hj. rewrite E1, E2; auto; lia.
      - now rewrite map_length, seq_length.
      - now rewrite map_length, seq_length.
    Qed.
    Lemma lagrange_at i p x : (i < n)%nat -> is_lagrange d h i p -> peval p x = lagv d h i x.
    Proof.
      intros Hi H. apply (interp_at (fun j => if (j =? i)%nat then 1 else 0)); [exact H|]. now apply lagp_ok.
    Qed.

    (** ** The helper functions *)
    Lemma finvp_ok x : x <> 0 -> finvp K x = Ok (finv x).
    Proof. intro H. unfold finvp. now rewrite (proj2 (feqb_neq _ _ _) H). Qed.
    Lemma lagv_off i x : x <> h * fpow w i ->
      lagv d h i x = (fpow x n - fpow h n) * fpow w i * finv (fnat n * (fpow h n * finv h) * (x - h * fpow w i)).
    Proof.
      intro N. pose proof (do_inv K d Hd) as N0. pose proof (fpow_neq_0 K h n Hh) as H0.
      assert (S0 : x - h * fpow w i <> 0) by (intro Z; apply N; now apply fsub_0_eq).
      apply (fmul_cancel_l K (fnat n * fpow h n * (x - h * fpow w i))).
      - apply fmul_neq_0; auto. apply fmul_neq_0; auto.
      - rewrite lagv_mul. field. repeat split; auto.
    Qed.
    Lemma vanish_off x i : vanish_at K d h x <> 0 -> x <> h * fpow w i.
    Proof. intros N ->. apply N. unfold vanish_at. rewrite pt_n. ring. Qed.

    Lemma first_coeff x : first_lagrange_coeff K d h x = Ok (lagv d h 0 x).
    Proof.
      pose proof (do_inv K d Hd) as N0. pose proof (fpow_neq_0 K h n Hh) as H0.
      assert (P : h * fpow w 0 = h) by (cbn [fpow]; ring).
      unfold first_lagrange_coeff. destruct (feq_dec x h) as [->|N].
      - rewrite feqb_refl. f_equal. rewrite <- P at 2. symmetry. apply lagv_self.
      - rewrite (proj2 (feqb_neq _ _ _) N). destruct (feq_dec (vanish_at K d h x) 0) as [E|E].
        + rewrite E, feqb_refl. f_equal. symmetry. apply lagv_root; [|now rewrite P].
          apply fsub_0_eq. exact E.
        + rewrite (proj2 (feqb_neq _ _ _) E), (finvp_ok h) by auto. cbn [bind].
          assert (S0 : x - h <> 0) by (intro Z; apply N; now apply fsub_0_eq).
          rewrite finvp_ok; [cbn [bind]|].
          * f_equal. rewrite lagv_off, P by now rewrite P. unfold vanish_at. cbn [fpow]. field. repeat split; auto.
          * repeat apply fmul_neq_0; auto. now apply finv_neq_0.
    Qed.
    Lemma last_pt : h * fpow w (n - 1) = finv w * h.
    Proof. rewrite winv. ring. Qed.
    Lemma last_coeff x : last_lagrange_coeff K d h x = Ok (lagv d h (n - 1) x).
    Proof.
      pose proof (do_inv K d Hd) as N0. pose proof (fpow_neq_0 K h n Hh) as H0. pose proof (do_gen_neq_0 K d Hd) as W0.
      pose proof last_pt as P.
      unfold last_lagrange_coeff. destruct (feq_dec x (finv w * h)) as [->|N].
      - rewrite feqb_refl. f_equal. rewrite <- P. symmetry. apply lagv_self.
      - rewrite (proj2 (feqb_neq _ _ _) N). destruct (feq_dec (vanish_at K d h x) 0) as [E|E].
        + rewrite E, feqb_refl. f_equal. symmetry. apply lagv_root; [|now rewrite P].
          apply fsub_0_eq. exact E.
        + rewrite (proj2 (feqb_neq _ _ _) E), (finvp_ok h) by auto. cbn [bind].
          assert (S0 : x - h * finv w <> 0) by (intro Z; apply N; transitivity (h * finv w); [now apply fsub_0_eq|ring]).
          rewrite finvp_ok; [cbn [bind]|].
          * f_equal. rewrite lagv_off by now rewrite P. rewrite <- winv. reflexivity.
          * repeat apply fmul_neq_0; auto. now apply finv_neq_0.
    Qed.
    Lemma first_last_coeffs x : (2 <= n)%nat ->
      first_and_last_lagrange_coeffs K d h x = Ok (lagv d h 0 x, lagv d h (n - 1) x).
    Proof.
      intro N2. pose proof (first_coeff x) as F. pose proof (last_coeff x) as L.
      pose proof (lagv_self 0) as S0. pose proof (lagv_self (n - 1)) as S1. pose proof last_pt as P.
      assert (P0 : h * fpow w 0 = h) by (cbn [fpow]; ring). rewrite P0 in S0. rewrite P in S1.
      unfold first_and_last_lagrange_coeffs, first_lagrange_coeff, last_lagrange_coeff in *.
      destruct (feq_dec x h) as [->|N].
      - rewrite feqb_refl in *. rewrite S0. f_equal. f_equal. symmetry. apply lagv_root; [reflexivity|].
        rewrite <- P0 at 1. intro E. apply pt_inj in E; lia.
      - rewrite (proj2 (feqb_neq _ _ _) N) in *. destruct (feq_dec x (finv w * h)) as [->|N'].
        + rewrite feqb_refl in *. rewrite S1. f_equal. f_equal. symmetry. apply lagv_root; [|now rewrite P0].
          rewrite <- P. apply pt_n.
        + rewrite (proj2 (feqb_neq _ _ _) N') in *. cbv zeta in *. destruct (feqb (vanish_at K d h x) 0); [congruence|].
          destruct (finvp K h) as [hi| |]; cbn [bind] in *; try discriminate.
          destruct (finvp K (fnat n * (fpow h n * hi) * (x - h))); cbn [bind] in *; try discriminate.
          destruct (finvp K (fnat n * (fpow h n * hi) * (x - h * finv w))); cbn [bind] in *; try discriminate.
          congruence.
    Qed.
    (** On a domain with a single point the two coincide, and the function returns
        [(1, 0)] on that point although both coefficients are one there. *)
    Lemma first_last_single : n = 1%nat -> first_and_last_lagrange_coeffs K d h h = Ok (1, 0) /\ lagv d h 0 h = 1.
    Proof.
      intro E. unfold first_and_last_lagrange_coeffs. rewrite feqb_refl. split; auto.
      replace h with (h * fpow w 0) at 2 by (cbn [fpow]; ring). apply lagv_self.
    Qed.

    Lemma unit_at_spec x : fpow x n = fpow h n -> forall k s, (s + k <= n)%nat ->
      unit_at K x (h * fpow w s) w k = map (fun i => lagv d h i x) (seq s k).
    Proof.
      intro E. induction k as [|k IH]; intros s Hs; [reflexivity|]. cbn [unit_at seq map].
      destruct (feq_dec (h * fpow w s) x) as [<-|N].
      - rewrite feqb_refl. f_equal; [symmetry; apply lagv_self|].
        rewrite <- (seq_length k (S s)) at 1.
        assert (A : forall i, In i (seq (S s) k) -> lagv d h i (h * fpow w s) = 0).
        { intros i Hi. apply in_seq in Hi. apply lagv_root; auto. intro F. apply pt_inj in F; lia. }
        revert A. generalize (seq (S s) k). induction l as [|a l IHl]; intro A; [reflexivity|].
        cbn [length repeat map]. f_equal; [symmetry; apply A; now left|]. apply IHl. intros i Hi. apply A. now right.
      - rewrite (proj2 (feqb_neq _ _ _) N). f_equal; [symmetry; apply lagv_root; auto|].
        rewrite <- IH by lia. f_equal. rewrite fpow_S. ring.
    Qed.
    Lemma lag_invs_spec x : fpow x n - fpow h n <> 0 -> forall k s,
      map (fun y => if feqb y 0 then 0 else finv y)
        (lag_invs K x (finv (vanish_at K d h x) * (fnat n * fpow h n * finv h) * fpow (finv w) s) (- h * fpow w s) w (finv w) k)
      = map (fun i => lagv d h i x) (seq s k).
    Proof.
      intro N. pose proof (do_inv K d Hd) as N0. pose proof (fpow_neq_0 K h n Hh) as H0. pose proof (do_gen_neq_0 K d Hd) as W0.
      induction k as [|k IH]; intro s; [reflexivity|]. cbn [lag_invs seq map].
      assert (S0 : x - h * fpow w s <> 0) by (intro Z; apply (vanish_off x s N); now apply fsub_0_eq).
      pose proof (wpow_neq_0 s) as P0. assert (Q0 : fpow (finv w) s <> 0) by (apply fpow_neq_0; now apply finv_neq_0).
      f_equal.
      - rewrite (proj2 (feqb_neq _ _ _)).
        + rewrite lagv_off by (now apply vanish_off). unfold vanish_at.
          replace (fpow (finv w) s) with (finv (fpow w s)); [field; repeat split; auto; intro Z; apply S0; rewrite <- Z; ring|].
          apply (fmul_cancel_l K (fpow w s)); auto. transitivity (fpow (finv w) s * fpow w s); [|ring]. rewrite fpow_inv by auto. field; auto.
        + apply fmul_neq_0; [repeat apply fmul_neq_0; auto; now apply finv_neq_0|].
          intro Z. apply S0. rewrite <- Z. ring.
      - rewrite <- IH. f_equal. f_equal; rewrite fpow_S; ring.
    Qed.
    Lemma range_coeffs start stop x : (start <= stop)%nat -> (stop <= n)%nat ->
      lagrange_coeffs_for_range K d h start stop x = Ok (map (fun i => lagv d h i x) (seq start (stop - start))).
    Proof.
      intros H1 H2. unfold lagrange_coeffs_for_range.
      destruct (Nat.ltb_spec n stop); [lia|]. destruct (Nat.ltb_spec stop start); [lia|]. cbv zeta.
      destruct (feq_dec (vanish_at K d h x) 0) as [E|E].
      - rewrite E, feqb_refl. f_equal. apply unit_at_spec; [|lia]. apply fsub_0_eq. exact E.
      - rewrite (proj2 (feqb_neq _ _ _) E), !finvp_ok by auto. cbn [bind]. f_equal. now apply lag_invs_spec.
    Qed.
    Lemma range_panics start stop x : (n < stop \/ stop < start)%nat ->
      lagrange_coeffs_for_range K d h start stop x = Panic.
    Proof.
      intro H. unfold lagrange_coeffs_for_range. destruct (Nat.ltb_spec n stop); [reflexivity|].
      destruct (Nat.ltb_spec stop start); [reflexivity|lia].
    Qed.

    (** ** Interpolation *)
    Lemma length_ifftK (l : list K) : @length K (ifft K (self_vsp K) d l) = n.
    Proof. unfold ifft. now rewrite map_length, seq_length. Qed.
    Lemma nth_ifftK (l : list K) i : (i < n)%nat -> nth i (ifft K (self_vsp K) d l) 0
      = finv (fnat n) * fsum (map (fun j => fpow (finv w) (i * j) * nth j l 0) (seq 0 n)).
    Proof. intro H. rewrite ifft_sum. now rewrite nth_map_seq. Qed.
  End Coset.

  Lemma length_coset_ifft h (l : list K) : length (coset_ifft K h d l) = n.
  Proof. unfold coset_ifft. rewrite map_length, combine_length, length_ifftK, seq_length. lia. Qed.
  Lemma nth_combine_seq {A} (l : list A) i x : (i < length l)%nat ->
    nth i (combine (seq 0 (length l)) l) (0%nat, x) = (i, nth i l x).
  Proof. intro H. rewrite combine_nth by apply seq_length. now rewrite seq_nth by auto. Qed.
  Lemma nth_coset_ifft h (l : list K) i : (i < n)%nat -> nth i (coset_ifft K h d l) 0
    = fpow (finv h) i * (finv (fnat n) * fsum (map (fun j => fpow (finv w) (i * j) * nth j l 0) (seq 0 n))).
  Proof.
    intro H. unfold coset_ifft. set (f := fun jc : nat * K => fpow (finv h) (fst jc) * snd jc).
    rewrite (nth_indep _ 0 (f (0%nat, 0))) by (rewrite map_length, combine_length, seq_length, length_ifftK; lia).
    rewrite map_nth. rewrite <- (length_ifftK l) at 1. rewrite nth_combine_seq by (rewrite length_ifftK; auto).
    unfold f. cbn [fst snd]. now rewrite nth_ifftK by auto.
  Qed.
  (** The inverse transform over the coset interpolates. *)
  Lemma peval_coset_ifft h (l : list K) x : h <> 0 ->
    peval (coset_ifft K h d l) x = fsum (map (fun j => nth j l 0 * lagv d h j x) (seq 0 n)).
  Proof.
    intro Hh. pose proof (do_gen_neq_0 K d Hd) as W0. rewrite peval_sum, length_coset_ifft.
    rewrite (fsum_map_ext K _ (fun i => fsum (map (fun j => finv (fnat n) * fpow (x * finv (h * fpow w j)) i * nth j l 0) (seq 0 n)))).
    - change (@fsum K) with (@vsum K (self_vsp K)). rewrite (vsum_swap K (self_vsp K)).
      apply (vsum_map_ext K (self_vsp K)). intros j Hj.
      change (@vsum K (self_vsp K)) with (@fsum K). rewrite lagv_sum.
      transitivity (fsum (map (fun i => (nth j l 0 * finv (fnat n)) * fpow (x * finv (h * fpow w j)) i) (seq 0 n))).
      + apply fsum_map_ext. intros i _. ring.
      + rewrite fsum_map_scale. match goal with |- @eq _ ?a ?b => change (@eq (car K) a b) end. ring.
    - intros i Hi. apply in_seq in Hi. unfold coef. rewrite nth_coset_ifft by lia.
      transitivity (fpow (finv h) i * finv (fnat n) * fpow x i * fsum (map (fun j => fpow (finv w) (i * j) * nth j l 0) (seq 0 n))); [ring|].
      rewrite <- fsum_map_scale. apply fsum_map_ext. intros j _. rewrite fpow_mult_base.
      replace (fpow (finv (h * fpow w j)) i) with (fpow (finv h) i * fpow (finv w) (i * j)); [ring|].
      replace (finv (h * fpow w j)) with (finv h * fpow (finv w) j).
      { rewrite fpow_mult_base, <- fpow_mul. f_equal. f_equal. lia. }
      pose proof (wpow_neq_0 j) as P0. apply (fmul_cancel_l K (h * fpow w j)); [now apply fmul_neq_0|].
      transitivity (fpow (finv w) j * fpow w j); [field; auto|]. rewrite fpow_inv by auto. field; auto.
  Qed.
  Lemma coset_ifft_ok h (l : list K) : h <> 0 -> interpolates d h (fun j => nth j l 0) (coset_ifft K h d l).
  Proof.
    intro Hh. split; [rewrite length_coset_ifft; lia|]. intros j Hj. rewrite peval_coset_ifft by auto.
    change (@fsum K) with (@vsum K (self_vsp K)). rewrite (vsum_pick K (self_vsp K) _ _ j); auto.
    - rewrite lagv_self by auto. ring.
    - intros i Hi N. rewrite lagv_root; auto; [cbn; ring|now apply pt_n|]. intro E. apply pt_inj in E; auto.
  Qed.
  Lemma ifft_coset1 (l : list K) : ifft K (self_vsp K) d l = coset_ifft K 1 d l.
  Proof.
    apply (nth_ext _ _ 0 0); [now rewrite length_ifftK, length_coset_ifft|].
    rewrite length_ifftK. intros i Hi. rewrite nth_coset_ifft, nth_ifftK by auto.
    replace (finv 1) with (1 : K); [rewrite fpow_1; ring|]. field. apply f1_neq_0.
  Qed.
  Lemma peval_ipoly (l : list K) x : peval (ipoly K d l) x = fsum (map (fun j => nth j l 0 * lagv d 1 j x) (seq 0 n)).
  Proof. unfold ipoly. rewrite peval_pnorm, ifft_coset1. apply peval_coset_ifft. apply f1_neq_0. Qed.
  Lemma ipoly_ok (l : list K) : interpolates d 1 (fun j => nth j l 0) (ipoly K d l).
  Proof.
    destruct (coset_ifft_ok 1 l (f1_neq_0 K)) as [A B]. unfold ipoly. rewrite ifft_coset1. split.
    - pose proof (length_pnorm K (coset_ifft K 1 d l)). lia.
    - intros j Hj. now rewrite peval_pnorm, B.
  Qed.
  Lemma ipoly_at (l : list K) j : (j < n)%nat -> peval (ipoly K d l) (fpow w j) = nth j l 0.
  Proof. intro H. rewrite <- (proj2 (ipoly_ok l) j H). f_equal. ring. Qed.
  Lemma length_ipoly (l : list K) : (length (ipoly K d l) <= n)%nat.
  Proof. apply ipoly_ok. Qed.
  Lemma ipoly_norm (l : list K) : pnorm K (ipoly K d l) = ipoly K d l.
  Proof. apply pnorm_idem. Qed.

  (** ** The vanishing polynomial *)
  Lemma vanish_dom i : fpow (fpow w i) n - 1 = 0.
  Proof. rewrite wpow_n. ring. Qed.
  Lemma vanish_prod x : fpow x n - 1 = fprod (map (fun i => x - fpow w i) (seq 0 n)).
  Proof.
    pose proof (do_size K d Hd) as S0. set (zs := map (fun i => fpow w i) (seq 0 n)).
    set (p := psub (repeat 0 n ++ [1]) [1] : list K).
    assert (Lp : length p = S n) by (unfold p; rewrite length_psub, app_length, repeat_length; cbn; lia).
    assert (Ep : forall y, peval p y = fpow y n - 1).
    { intro y. unfold p. rewrite peval_psub, peval_app, peval_zeros, repeat_length. cbn [peval]. ring. }
    assert (ND : NoDup zs).
    { pose proof (pts_nodup 1 (f1_neq_0 K)) as A. unfold zs. erewrite map_ext; [exact A|]. intro. cbn. ring. }
    assert (Lz : length zs = n) by (unfold zs; now rewrite map_length, seq_length).
    set (q := psub p (pvanish zs)).
    assert (LC : forall zs : list K, coef (pvanish zs) (length zs) = 1).
    { intro l. induction l as [|z l IH]; [reflexivity|]. cbn [pvanish length].
      assert (M : forall a : list K, coef (pmul [- z; 1] a) (S (length l)) = - z * coef a (S (length l)) + coef a (length l)).
      { intro a. cbn [pmul]. rewrite coef_padd, coef_pscale, coef_cons_S, coef_padd, coef_pscale.
        destruct (length l) as [|k]; [cbn; ring|]. rewrite coef_cons_S, coef_nil. ring. }
      rewrite M, IH. unfold coef. rewrite nth_overflow by (rewrite length_pvanish; lia). ring. }
    assert (Z : pzero (removelast q)).
    { assert (Lq : length q = S n) by (unfold q; rewrite length_psub, Lp, length_pvanish, Lz; lia).
      assert (Q0 : last q 0 = 0).
      { rewrite last_coef, Lq. replace (S n - 1)%nat with n by lia. unfold q. rewrite coef_psub, <- Lz, LC, Lz.
        unfold p. rewrite coef_psub. unfold coef. rewrite app_nth2, repeat_length, Nat.sub_diag by (rewrite repeat_length; lia).
        rewrite (@nth_overflow K [1] (dsize d) 0) by (cbn; lia). cbn [nth]. ring. }
      apply (root_bound K zs); auto.
      - intros r Hr. rewrite peval_removelast by auto. unfold q. rewrite peval_psub, Ep, peval_pvanish.
        assert (F : fprod (map (fun z => r - z) zs) = 0).
        { revert Hr. clear. generalize zs. induction zs0 as [|z l IH]; intro H; [destruct H|]. cbn [map]. rewrite fprod_cons.
          destruct H as [->|H]; [ring|]. rewrite IH by auto. ring. }
        rewrite F. unfold zs in Hr. apply in_map_iff in Hr as (i & <- & _). rewrite wpow_n. ring.
      - rewrite length_removelast, Lq, Lz. lia. }
    assert (Q : peval q x = 0).
    { destruct (list_eq_dec (fun a b => feq_dec a b) q []) as [->|N]; [reflexivity|].
      assert (Lq : length q = S n) by (unfold q; rewrite length_psub, Lp, length_pvanish, Lz; lia).
      assert (Q0 : last q 0 = 0).
      { rewrite last_coef, Lq. replace (S n - 1)%nat with n by lia. unfold q. rewrite coef_psub, <- Lz, LC, Lz.
        unfold p. rewrite coef_psub. unfold coef. rewrite app_nth2, repeat_length, Nat.sub_diag by (rewrite repeat_length; lia).
        rewrite (@nth_overflow K [1] (dsize d) 0) by (cbn; lia). cbn [nth]. ring. }
      rewrite <- peval_removelast by auto. now apply peval_pzero. }
    unfold q in Q. rewrite peval_psub, Ep, peval_pvanish in Q. unfold zs in Q. rewrite map_map in Q.
    now apply fsub_0_eq.
  Qed.
  (** A polynomial vanishing on the domain is a multiple of [X^n - 1]. *)
  Lemma divide_vanish p : (forall i, (i < n)%nat -> peval p (fpow w i) = 0) ->
    exists t, length t = (length p - n)%nat /\ forall x, peval p x = (fpow x n - 1) * peval t x.
  Proof.
    intro H. exists (pdivs p (map (fun i => fpow w i) (seq 0 n))). split.
    - now rewrite length_pdivs, map_length, seq_length.
    - intro x. rewrite (pdivs_spec K (map (fun i => fpow w i) (seq 0 n)) p x).
      + rewrite map_map, <- vanish_prod. reflexivity.
      + pose proof (pts_nodup 1 (f1_neq_0 K)) as A. erewrite map_ext; [exact A|]. intro. cbn. ring.
      + intros z Hz. apply in_map_iff in Hz as (i & <- & Hi). apply in_seq in Hi. apply H. lia.
  Qed.
End Lag.
