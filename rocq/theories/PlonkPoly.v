(** Polynomial lemmas for the PLONK proofs: functions given by a polynomial of bounded
    length, masking, quotient splitting, evaluation on cosets and commitments. *)
From Coq Require Import List Arith Lia Bool Ring Field.
From Verif Require Import Base Alg Poly VRing KzgModel KzgProofs KzgFft PlonkModel LagrangeProofs.
Import ListNotations.

(** ** The outcome monad *)
Lemma bind_ok {X A B} (r : outcome X A) (f : A -> outcome X B) b :
  (let* a := r in f a) = Ok b -> exists a, r = Ok a /\ f a = Ok b.
Proof. destruct r; cbn; intro H; try discriminate. eauto. Qed.
Lemma guard_ok {X} b (x : X) u : guard b x = Ok u -> b = true.
Proof. destruct b; [auto|discriminate]. Qed.
Lemma assert_ok {X} b u : @assert_p X b = Ok u -> b = true.
Proof. destruct b; [auto|discriminate]. Qed.
Lemma expect_ok {X A} (o : option A) a : @expect X A o = Ok a -> o = Some a.
Proof. destruct o; cbn; congruence. Qed.
Lemma lift_pcs_ok {A} (r : outcome _ A) a : lift_pcs r = Ok a -> r = Ok a.
Proof. destruct r; cbn; congruence. Qed.
Lemma lift_c_ok {A} (r : outcome _ A) a : lift_c r = Ok a -> r = Ok a.
Proof. destruct r; cbn; congruence. Qed.
Lemma index_ok {X A} (l : list A) i a : @index X A l i = Ok a -> nth_error l i = Some a.
Proof. unfold index. destruct (nth_error l i); congruence. Qed.
Lemma index_nth {X A} (l : list A) i a d : @index X A l i = Ok a -> (i < length l)%nat /\ a = nth i l d.
Proof.
  intro H. apply index_ok in H. split; [apply nth_error_Some; congruence|]. symmetry. now apply nth_error_nth.
Qed.
Lemma index_lt {X A} (l : list A) i d : (i < length l)%nat -> @index X A l i = Ok (nth i l d).
Proof. intro H. unfold index. now rewrite (nth_error_nth' l d H). Qed.
Lemma map_res_ok {X A B} (f : A -> outcome X B) : forall l r, map_res f l = Ok r ->
  length r = length l /\ forall i a d, nth_error l i = Some a -> f a = Ok (nth i r d).
Proof.
  induction l as [|a l IH]; intros r H; cbn in H.
  - inversion H; subst. split; auto. intros [|i] a d E; discriminate.
  - apply bind_ok in H as (b & Hb & H). apply bind_ok in H as (r' & Hr & H). inversion H; subst.
    destruct (IH _ Hr) as [L N]. split; [cbn; lia|]. intros [|i] a' d E; cbn in *; [congruence|eauto].
Qed.
Lemma map_res_seq {X B} (f : nat -> outcome X B) k r d : map_res f (seq 0 k) = Ok r ->
  length r = k /\ forall i, (i < k)%nat -> f i = Ok (nth i r d).
Proof.
  intro H. apply map_res_ok in H as [L N]. rewrite seq_length in L. split; auto. intros i Hi. apply N.
  rewrite (nth_error_nth' _ 0%nat) by (now rewrite seq_length). f_equal. now apply seq_nth.
Qed.
Lemma map_res_map {X A B} (f : A -> outcome X B) (g : A -> B) l : (forall a, In a l -> f a = Ok (g a)) ->
  map_res f l = Ok (map g l).
Proof.
  induction l as [|a l IH]; intro H; [reflexivity|]. cbn. rewrite (H a) by now left. cbn [bind].
  rewrite IH by (intros; apply H; now right). reflexivity.
Qed.
Lemma fold_res_ok {X A B} (f : B -> A -> outcome X B) (g : B -> A -> B) l : forall b,
  (forall b a, In a l -> f b a = Ok (g b a)) -> fold_res f l b = Ok (fold_left g l b).
Proof.
  induction l as [|a l IH]; intros b H; [reflexivity|]. cbn. rewrite (H b a) by now left. cbn [bind].
  apply IH. intros; apply H; now right.
Qed.

Lemma skipn_skipn {A} (l : list A) : forall y x, skipn x (skipn y l) = skipn (x + y) l.
Proof.
  induction l as [|a l IH]; intros y x; [now rewrite !skipn_nil|]. destruct y as [|y]; [now rewrite Nat.add_0_r|].
  cbn [skipn]. rewrite IH, Nat.add_succ_r. reflexivity.
Qed.

Section PP.
  Variable K : fld.
  Local Open Scope fld_scope.
  Add Field Kpp : (fth K).
  Notation pol := (list K).

  (** ** Functions given by a polynomial with at most [k] coefficients *)
  Definition polyf (f : K -> K) (k : nat) : Prop := exists p : pol, (length p <= k)%nat /\ forall x, f x = peval p x.
  Lemma polyf_peval p k : (length p <= k)%nat -> polyf (peval p) k.
  Proof. exists p. auto. Qed.
  Lemma polyf_ext f g k : (forall x, f x = g x) -> polyf g k -> polyf f k.
  Proof. intros E (p & L & H). exists p. split; auto. intro. now rewrite E. Qed.
  Lemma polyf_weaken f k k' : polyf f k -> (k <= k')%nat -> polyf f k'.
  Proof. intros (p & L & H) Hk. exists p. split; auto. lia. Qed.
  Lemma polyf_const c : polyf (fun _ => c) 1.
  Proof. exists [c]. split; [cbn; lia|]. intro. cbn. ring. Qed.
  Lemma polyf_id : polyf (fun x => x) 2.
  Proof. exists [0; 1]. split; [cbn; lia|]. intro. cbn. ring. Qed.
  Lemma polyf_add f g k k' : polyf f k -> polyf g k' -> polyf (fun x => f x + g x) (max k k').
  Proof.
    intros (p & L & H) (q & L' & H'). exists (padd p q). split; [rewrite length_padd; lia|].
    intro. now rewrite peval_padd, H, H'.
  Qed.
  Lemma polyf_opp f k : polyf f k -> polyf (fun x => - f x) k.
  Proof.
    intros (p & L & H). exists (pneg p). split; [now rewrite length_pneg|]. intro. now rewrite peval_pneg, H.
  Qed.
  Lemma polyf_sub f g k k' : polyf f k -> polyf g k' -> polyf (fun x => f x - g x) (max k k').
  Proof.
    intros (p & L & H) (q & L' & H'). exists (psub p q). split; [rewrite length_psub; lia|].
    intro. now rewrite peval_psub, H, H'.
  Qed.
  Lemma polyf_scale c f k : polyf f k -> polyf (fun x => c * f x) k.
  Proof.
    intros (p & L & H). exists (pscale c p). split; [now rewrite length_pscale|]. intro. now rewrite peval_pscale, H.
  Qed.
  Lemma polyf_mul f g k k' : (1 <= k)%nat -> (1 <= k')%nat -> polyf f k -> polyf g k' ->
    polyf (fun x => f x * g x) (k + k' - 1).
  Proof.
    intros Hk Hk' (p & L & H) (q & L' & H'). exists (pmul p q). split.
    - destruct p as [|a p]; [cbn; lia|]. destruct q as [|b q].
      + enough (E : (length (pmul (a :: p) (@nil K)) <= length (a :: p))%nat) by lia. clear. generalize (a :: p).
        induction l as [|x l IH]; [cbn; lia|]. cbn [pmul]. rewrite length_padd. cbn [pscale map length]. lia.
      + rewrite length_pmul_pred; cbn in *; lia.
    - intro. now rewrite peval_pmul, H, H'.
  Qed.
  Lemma polyf_comp_scale c f k : polyf f k -> polyf (fun x => f (x * c)) k.
  Proof.
    intros (p & L & H). exists (map (fun ic => snd ic * fpow c (fst ic)) (combine (seq 0 (length p)) p)). split.
    - rewrite map_length, combine_length, seq_length. lia.
    - intro x. rewrite H. clear H. rewrite !peval_sum, map_length, combine_length, seq_length, Nat.min_id.
      apply fsum_map_ext. intros i Hi. apply in_seq in Hi. rewrite fpow_mult_base.
      assert (E : coef (map (fun ic : nat * K => snd ic * fpow c (fst ic)) (combine (seq 0 (length p)) p)) i = coef p i * fpow c i).
      { unfold coef. set (F := fun ic : nat * K => snd ic * fpow c (fst ic)).
        rewrite (nth_indep _ 0 (F (0%nat, 0))) by (rewrite map_length, combine_length, seq_length; lia).
        rewrite map_nth, nth_combine_seq by lia. reflexivity. }
      rewrite E. ring.
  Qed.
  Lemma polyf_fprod {A} (f : A -> K -> K) k l : (1 <= k)%nat -> (forall a, In a l -> polyf (f a) k) ->
    polyf (fun x => fprod (map (fun a => f a x) l)) (length l * (k - 1) + 1).
  Proof.
    intros Hk H. induction l as [|a l IH].
    - apply (polyf_ext _ (fun _ => 1)); [reflexivity|]. apply polyf_const.
    - apply (polyf_ext _ (fun x => f a x * fprod (map (fun a => f a x) l))); [intro; cbn [map]; apply fprod_cons|].
      eapply polyf_weaken; [apply (polyf_mul _ _ k (length l * (k - 1) + 1)); [auto|apply Nat.le_add_l|apply H; now left|apply IH; intros; apply H; now right]|].
      cbn [length]. nia.
  Qed.
  Lemma polyf_fsum {A} (f : A -> K -> K) k l : (forall a, In a l -> polyf (f a) k) ->
    polyf (fun x => fsum (map (fun a => f a x) l)) k.
  Proof.
    intros H. induction l as [|a l IH].
    - exists []. split; [cbn; lia|]. reflexivity.
    - apply (polyf_ext _ (fun x => f a x + fsum (map (fun a => f a x) l))); [intro; cbn [map]; apply fsum_cons|].
      eapply polyf_weaken; [apply (polyf_add _ _ k k); [apply H; now left|apply IH; intros; apply H; now right]|]. lia.
  Qed.
  Lemma polyf_pow f k : (1 <= k)%nat -> polyf f k -> forall m, polyf (fun x => fpow (f x) m) (m * (k - 1) + 1).
  Proof.
    intros Hk Hf. induction m as [|m IH]; [apply (polyf_ext _ (fun _ => 1)); [reflexivity|apply polyf_const]|].
    apply (polyf_ext _ (fun x => f x * fpow (f x) m)); [intro; apply fpow_S|].
    eapply polyf_weaken; [apply (polyf_mul _ _ k (m * (k - 1) + 1)); auto; apply Nat.le_add_l|]. nia.
  Qed.

  (** ** Sums and products written as loops *)
  Lemma fold_mul {A} (f : A -> K) l : forall z, fold_left (fun acc a => acc * f a) l z = z * fprod (map f l).
  Proof. induction l as [|a l IH]; intro z; [cbn; unfold fprod; cbn; ring|]. cbn [fold_left map]. rewrite IH, fprod_cons. ring. Qed.
  Lemma fold_add {A} (f : A -> K) l : forall z, fold_left (fun acc a => acc + f a) l z = z + fsum (map f l).
  Proof. induction l as [|a l IH]; intro z; [cbn; unfold fsum; cbn; ring|]. cbn [fold_left map]. rewrite IH, fsum_cons. ring. Qed.

  (** ** Normalised operations *)
  Lemma peval_paddp p q x : peval (paddp K p q) x = peval p x + peval q x.
  Proof. unfold paddp. now rewrite peval_pnorm, peval_padd. Qed.
  Lemma length_paddp p q : (length (paddp K p q) <= max (length p) (length q))%nat.
  Proof. unfold paddp. etransitivity; [apply length_pnorm|]. rewrite length_padd. lia. Qed.
  Lemma norm_paddp p q : pnorm K (paddp K p q) = paddp K p q.
  Proof. apply pnorm_idem. Qed.
  Lemma peval_mul_poly p c x : peval (mul_poly K p c) x = c * peval p x.
  Proof. unfold mul_poly. now rewrite peval_pnorm, peval_pscale. Qed.
  Lemma length_mul_poly p c : (length (mul_poly K p c) <= length p)%nat.
  Proof. unfold mul_poly. etransitivity; [apply length_pnorm|]. now rewrite length_pscale. Qed.
  Lemma peval_fold_paddp {A} (f : A -> pol) l : forall acc x,
    peval (fold_left (fun acc a => paddp K acc (f a)) l acc) x = peval acc x + fsum (map (fun a => peval (f a) x) l).
  Proof.
    induction l as [|a l IH]; intros acc x; [cbn; unfold fsum; cbn; ring|]. cbn [fold_left map].
    rewrite IH, fsum_cons, peval_paddp. ring.
  Qed.
  Lemma length_fold_paddp {A} (f : A -> pol) k l : (forall a, In a l -> (length (f a) <= k)%nat) -> forall acc,
    (length acc <= k)%nat -> (length (fold_left (fun acc a => paddp K acc (f a)) l acc) <= k)%nat.
  Proof.
    induction l as [|a l IH]; intros H acc Ha; [auto|]. cbn [fold_left]. apply IH; [intros; apply H; now right|].
    pose proof (length_paddp acc (f a)). pose proof (H a (or_introl eq_refl)). lia.
  Qed.

  (** ** Masking (C54) *)
  Lemma peval_mul_vanish n p x : peval (mul_by_vanishing K n p) x = (fpow x n - 1) * peval p x.
  Proof.
    unfold mul_by_vanishing. rewrite peval_pnorm, peval_psub, peval_app, peval_zeros, repeat_length. ring.
  Qed.
  Lemma length_mul_vanish n p : (length (mul_by_vanishing K n p) <= n + length p)%nat.
  Proof.
    unfold mul_by_vanishing. etransitivity; [apply length_pnorm|]. rewrite length_psub, app_length, repeat_length. lia.
  Qed.
  Lemma length_rand f k : (length (rand_poly K f k) <= k + 1)%nat.
  Proof. unfold rand_poly. etransitivity; [apply length_pnorm|]. now rewrite map_length, seq_length. Qed.
  Lemma peval_mask d f p k x : peval (mask_polynomial K d f p k) x
    = peval p x + (fpow x (dsize d) - 1) * peval (rand_poly K f k) x.
  Proof. unfold mask_polynomial. rewrite peval_paddp, peval_mul_vanish. ring. Qed.
  Lemma length_mask d f p k : (length p <= dsize d + k + 1)%nat ->
    (length (mask_polynomial K d f p k) <= dsize d + k + 1)%nat.
  Proof.
    intro H. unfold mask_polynomial. pose proof (length_paddp (mul_by_vanishing K (dsize d) (rand_poly K f k)) p).
    pose proof (length_mul_vanish (dsize d) (rand_poly K f k)). pose proof (length_rand f k). lia.
  Qed.
  Lemma mask_at d f p k i : dom_ok K d ->
    peval (mask_polynomial K d f p k) (fpow (dgen d) i) = peval p (fpow (dgen d) i).
  Proof. intro H. rewrite peval_mask, (vanish_dom K d H). ring. Qed.

  (** ** Splitting (C55) *)
  Lemma peval_slice (q : pol) a m x : peval q x
    = peval (firstn a q) x + fpow x a * (peval (firstn m (skipn a q)) x + fpow x m * peval (skipn (a + m) q) x).
  Proof.
    assert (H : forall k (l : pol), peval l x = peval (firstn k l) x + fpow x k * peval (skipn k l) x).
    { intros k l. destruct (Nat.le_gt_cases k (length l)) as [Hk|Hk].
      - rewrite <- (firstn_skipn k l) at 1. rewrite peval_app, firstn_length, Nat.min_l by auto. reflexivity.
      - rewrite firstn_all2, skipn_all2 by lia. cbn. ring. }
    rewrite (H a q) at 1. rewrite (H m (skipn a q)) at 1. rewrite skipn_skipn. now rewrite (Nat.add_comm m a).
  Qed.
  Lemma slices_sum (q : pol) s x k : 
    fsum (map (fun i => fpow x (i * s) * peval (firstn s (skipn (i * s) q)) x) (seq 0 k))
    + fpow x (k * s) * peval (skipn (k * s) q) x = peval q x.
  Proof.
    induction k as [|k IH]; [cbn; unfold fsum; cbn; ring|].
    rewrite seq_S, map_app, fsum_app. cbn [map Nat.add]. rewrite fsum_cons. unfold fsum at 2. cbn [fold_right].
    rewrite <- IH. clear IH.
    assert (E : peval (skipn (k * s) q) x = peval (firstn s (skipn (k * s) q)) x + fpow x s * peval (skipn (S k * s) q) x).
    { replace (S k * s)%nat with (s + k * s)%nat by lia. rewrite <- skipn_skipn.
      rewrite (peval_slice (skipn (k * s) q) 0 s x). cbn [firstn skipn peval fpow Nat.add]. ring. }
    rewrite E. replace (S k * s)%nat with (k * s + s)%nat by lia. rewrite fpow_add. ring.
  Qed.
  Lemma peval_sub_head p b p' x : sub_head K p b = Ok p' -> peval p' x = peval p x - b /\ length p' = length p.
  Proof.
    destruct p as [|c p]; cbn; [discriminate|]. intro H.
    assert (p' = (c - b :: p)) as -> by congruence. cbn. split; [ring|auto].
  Qed.
  Lemma mask_split_spec n rs : forall ps i lastr ps' l', mask_split K n rs i lastr ps = Ok (ps', l') ->
    length ps' = length ps /\ (forall p, In p ps' -> length p = (n + 3)%nat) /\
    forall x, fsum (map (fun ip => fpow x (fst ip * (n + 2)) * peval (snd ip) x) (combine (seq 0 (length ps')) ps'))
      = fsum (map (fun ip => fpow x (fst ip * (n + 2)) * peval (snd ip) x) (combine (seq 0 (length ps)) ps))
        - lastr + fpow x (length ps * (n + 2)) * l'.
  Proof.
    induction ps as [|p ps IH]; intros i lastr ps' l' H.
    - cbn in H. inversion H; subst. split; auto. split; [intros ? []|]. intro x. unfold fsum. cbn. ring.
    - cbn in H. apply bind_ok in H as (p1 & Hp1 & H). apply bind_ok in H as (dg & Hd & H). apply lift_pcs_ok in Hd.
      apply bind_ok in H as (u & Hu & H). apply assert_ok in Hu. apply Nat.eqb_eq in Hu. subst dg.
      apply bind_ok in H as ([ps1 l1] & Hr & H). cbn in H.
      assert (ps' = (p1 ++ [rs i]) :: ps1 /\ l' = l1) as [-> ->] by (split; congruence). clear H.
      destruct (IH _ _ _ _ Hr) as (L & Len & Sm).
      assert (Lp : length p1 = (n + 2)%nat).
      { unfold degree in Hd. destruct (pis_zero K p1); [|destruct (feqb (last p1 0) 0); [discriminate|]].
        - injection Hd as Hd. lia.
        - injection Hd as Hd. lia. }
      split; [cbn; lia|]. split.
      + intros q [<-|Hq]; [rewrite app_length, Lp; cbn; lia|auto].
      + intro x. cbn [length]. rewrite <- !cons_seq. cbn [combine map]. rewrite !fsum_cons. cbn [fst snd].
        rewrite <- !seq_shift.
        assert (C : forall (ls : list pol), fsum (map (fun ip : nat * pol => fpow x (fst ip * (n + 2)) * peval (snd ip) x)
                     (combine (map S (seq 0 (length ls))) ls))
                   = fpow x (n + 2) * fsum (map (fun ip : nat * pol => fpow x (fst ip * (n + 2)) * peval (snd ip) x) (combine (seq 0 (length ls)) ls))).
        { intro ls. rewrite <- fsum_map_scale. generalize (seq 0 (length ls)). induction ls as [|a ls IHl]; intros [|m ms]; cbn [map combine]; try reflexivity.
          rewrite !fsum_cons, IHl. f_equal. cbn [fst snd]. rewrite Nat.mul_succ_l, fpow_add. ring. }
        rewrite !C, Sm, peval_app, Lp. destruct (peval_sub_head _ _ _ x Hp1) as [E _]. rewrite E.
        cbn [peval Nat.mul fpow]. rewrite (fpow_add K x (n + 2)). ring.
  Qed.
  Definition recombine (n : nat) (ps : list pol) (x : K) : K :=
    fsum (map (fun ip => fpow x (fst ip * (n + 2)) * peval (snd ip) x) (combine (seq 0 (length ps)) ps)).
  Lemma slice_ok {X A} (l : list A) a b s : @slice X A l a b = Ok s ->
    (a <= b)%nat /\ (b <= length l)%nat /\ s = firstn (b - a) (skipn a l).
  Proof.
    unfold slice. destruct (Nat.ltb_spec b a); [discriminate|]. destruct (Nat.ltb_spec (length l) b); [discriminate|].
    cbn. intro H1. inversion H1. auto.
  Qed.
  Theorem split_spec pr rs q nw ps : (1 <= nw)%nat -> (nw <= dsize (pr_dom K pr) + 5)%nat -> split_quotient_polynomial K pr rs q nw = Ok ps ->
    length ps = nw /\ (forall p, In p ps -> (length p <= dsize (pr_dom K pr) + 4 - (nw - 2))%nat \/ length p = (dsize (pr_dom K pr) + 3)%nat)
    /\ forall x, recombine (dsize (pr_dom K pr)) ps x = peval q x.
  Proof.
    intros Hw Hw2 H. unfold split_quotient_polynomial in H. set (n := dsize (pr_dom K pr)) in *. cbv zeta in H.
    apply bind_ok in H as (dg & Hdg & H). apply lift_pcs_ok in Hdg.
    destruct (Nat.eqb_spec dg (quotient_polynomial_degree n nw)) as [Ed|]; [cbn [negb] in H|discriminate].
    apply bind_ok in H as (ps0 & Hps & H). apply bind_ok in H as ([lows l'] & Hl & H). cbn [fst snd] in H.
    apply bind_ok in H as (top & Ht & H). apply bind_ok in H as (top' & Ht' & H).
    assert (ps = lows ++ [top']) as -> by congruence. clear H.
    assert (Lq : (dg + 1 <= length q)%nat /\ (length q = dg + 1)%nat).
    { unfold degree, quotient_polynomial_degree in *. destruct (pis_zero K q); [|destruct (feqb (last q 0) 0); [discriminate|]].
      - injection Hdg as Hd. exfalso. nia.
      - injection Hdg as Hd. nia. }
    destruct Lq as [_ Lq].
    apply (map_res_seq _ _ _ []) in Hps as [L0 Hps].
    assert (P0 : forall i, (i < nw - 1)%nat -> nth i ps0 [] = pnorm K (firstn (n + 2) (skipn (i * (n + 2)) q))).
    { intros i Hi. specialize (Hps i ltac:(lia)). apply bind_ok in Hps as (s & Hs & Hp).
      destruct (Nat.ltb_spec i (nw - 1)); [|lia]. apply slice_ok in Hs as (_ & _ & ->).
      replace ((i + 1) * (n + 2) - i * (n + 2))%nat with (n + 2)%nat in Hp by lia. congruence. }
    assert (P1 : nth (nw - 1) ps0 [] = pnorm K (skipn ((nw - 1) * (n + 2)) q) /\ ((nw - 1) * (n + 2) <= dg + 1)%nat).
    { specialize (Hps (nw - 1)%nat ltac:(lia)). apply bind_ok in Hps as (s & Hs & Hp).
      destruct (Nat.ltb_spec (nw - 1) (nw - 1)); [lia|]. apply slice_ok in Hs as (Hle & _ & ->).
      rewrite firstn_all2 in Hp by (rewrite skipn_length; lia). split; [congruence|auto]. }
    destruct P1 as [P1 Hle].
    apply (index_nth _ _ _ []) in Ht as [_ ->].
    destruct (mask_split_spec _ _ _ _ _ _ _ Hl) as (L1 & Len & Sum). rewrite firstn_length, L0, Nat.min_l in L1 by lia.
    destruct (peval_sub_head _ _ _ 0 Ht') as [_ Lt].
    split; [rewrite app_length, L1; cbn; lia|]. split.
    - intros p Hp. apply in_app_or in Hp as [Hp|[<-|[]]]; [right; auto|left]. rewrite Lt, P1.
      pose proof (length_pnorm K (skipn ((nw - 1) * (n + 2)) q)). rewrite skipn_length, Lq in H.
      unfold quotient_polynomial_degree in Ed. nia.
    - intro x. unfold recombine. rewrite app_length. cbn [length]. rewrite seq_app.
      assert (C : forall (a b : list nat) (c e : list pol), length a = length c -> combine (a ++ b) (c ++ e) = combine a c ++ combine b e).
      { intros a b c e. revert c. induction a as [|u a IHa]; intros [|v c] E; cbn in *; try lia; auto. f_equal. apply IHa. lia. }
      rewrite C by apply seq_length. rewrite map_app, fsum_app, Sum. cbn [seq combine map]. rewrite fsum_cons. unfold fsum at 2. cbn [fold_right fst snd Nat.add].
      destruct (peval_sub_head _ _ _ x Ht') as [-> _]. rewrite P1, peval_pnorm, firstn_length, L0, Nat.min_l, L1 by lia.
      rewrite <- (slices_sum q (n + 2) x (nw - 1)).
      match goal with |- ?a - 0 + ?b * l' + (?b * (?c - l') + 0) = ?e + _ => assert (Ea : a = e) end; [|rewrite Ea; ring].
      assert (G : forall (ls : list pol) k s, length ls = k -> (forall i, (i < k)%nat -> nth i ls [] = pnorm K (firstn (n + 2) (skipn ((s + i) * (n + 2)) q))) ->
        fsum (map (fun ip : nat * pol => fpow x (fst ip * (n + 2)) * peval (snd ip) x) (combine (seq s k) ls))
        = fsum (map (fun i => fpow x (i * (n + 2)) * peval (firstn (n + 2) (skipn (i * (n + 2)) q)) x) (seq s k))).
      { induction ls as [|p ls IHl]; intros [|k] s E Hn; cbn in E; try lia; [reflexivity|]. cbn [seq combine map]. rewrite !fsum_cons.
        f_equal.
        - cbn [fst snd]. f_equal. specialize (Hn 0%nat ltac:(lia)). cbn in Hn. rewrite Hn, peval_pnorm, Nat.add_0_r. reflexivity.
        - apply IHl; [lia|]. intros i Hi. specialize (Hn (S i) ltac:(lia)). cbn [nth] in Hn. rewrite Hn. f_equal. f_equal. f_equal. lia. }
      apply G; [rewrite firstn_length; lia|]. intros i Hi. cbn [Nat.add]. rewrite <- P0 by auto.
      rewrite <- (firstn_skipn (nw - 1) ps0) at 2. rewrite app_nth1; [reflexivity|]. rewrite firstn_length. lia.
  Qed.

  (** ** Evaluation on a coset *)
  Lemma peval_pad (p : pol) x m : (length p <= m)%nat -> fsum (map (fun j => fpow x j * nth j p 0) (seq 0 m)) = peval p x.
  Proof.
    intro H. replace m with (length p + (m - length p))%nat by lia. rewrite seq_app, map_app, fsum_app, peval_sum.
    rewrite (fsum_map_0 K _ (seq (0 + length p) _)).
    - rewrite (fsum_map_ext K _ (fun i => coef p i * fpow x i)); [ring|]. intros i _. unfold coef. ring.
    - intros i Hi. apply in_seq in Hi. rewrite nth_overflow by lia. ring.
  Qed.
  Lemma fft_peval c d (p : pol) i : (length p <= dsize d)%nat -> (i < dsize d)%nat ->
    nth i (fft_coset K (self_vsp K) c d p) 0 = peval p (c * fpow (dgen d) i).
  Proof. intros H Hi. rewrite (nth_fft K (self_vsp K)) by auto. now apply peval_pad. Qed.

  (** ** Commitments under a well-formed key *)
  Section Commit.
    Variable V1 : vsp K.
    Lemma commit_ok b g n (p : pol) c : (length p <= n)%nat -> commit K V1 (tpowers K V1 b g n) p = Ok c ->
      c = vmul (peval p b) g.
    Proof.
      intros H E. unfold commit in E. apply bind_ok in E as (dg & _ & E).
      destruct (_ <? dg)%nat; [discriminate|]. rewrite (msm_poly_ok K V1 b g n p H) in E.
      congruence.
    Qed.
    Lemma batch_commit_ok b g n (ps : list pol) cs : (forall p, In p ps -> (length p <= n)%nat) ->
      batch_commit K V1 (tpowers K V1 b g n) ps = Ok cs -> cs = map (fun p => vmul (peval p b) g) ps.
    Proof.
      unfold batch_commit. revert cs. induction ps as [|p ps IH]; intros cs H E; cbn in E.
      - inversion E. reflexivity.
      - apply bind_ok in E as (c & Hc & E). apply bind_ok in E as (cs' & Hcs & E). cbn [map].
        apply commit_ok in Hc; [|apply H; now left]. apply IH in Hcs; [|intros; apply H; now right].
        congruence.
    Qed.
    Lemma commit_norm b g n (p : pol) : (length p <= n)%nat -> pnorm K p = p ->
      commit K V1 (tpowers K V1 b g n) p = Ok (vmul (peval p b) g).
    Proof. intros H N. rewrite commit_tpowers, firstn_all2 by (auto; lia). reflexivity. Qed.

    (** ** The map from bases to scalars *)
    Lemma sb_push_msm s (c : V1) m : sb_msm K V1 (sb_push K V1 s c m) = vadd (sb_msm K V1 m) (vmul s c).
    Proof.
      unfold sb_msm. induction m as [|[c' s'] m IH].
      - cbn. rewrite vadd_0_r. vring.
      - cbn [sb_push]. destruct (veqb c' c) eqn:E.
        + apply veqb_eq in E. subst c'. cbn [map]. rewrite !vsum_cons. cbn [fst snd]. vring.
        + cbn [map]. rewrite !vsum_cons, IH. cbn [fst snd]. vring.
    Qed.
    Lemma sb_pushes_msm l : forall m, sb_msm K V1 (sb_pushes K V1 l m)
      = vadd (sb_msm K V1 m) (vsum (map (fun sb => vmul (fst sb) (snd sb)) l)).
    Proof.
      unfold sb_pushes. induction l as [|[s c] l IH]; intro m; [cbn; now rewrite vadd_0_r|].
      cbn [fold_left map]. rewrite IH, sb_push_msm, vsum_cons. cbn [fst snd]. vring.
    Qed.
    Lemma sb_merge_msm c o : forall m, sb_msm K V1 (sb_merge K V1 c o m) = vadd (sb_msm K V1 m) (vmul c (sb_msm K V1 o)).
    Proof.
      unfold sb_merge, sb_msm at 3. induction o as [|[b s] o IH]; intro m.
      - cbn. rewrite vmul_0_r. now rewrite vadd_0_r.
      - cbn [fold_left map]. rewrite IH, sb_push_msm, vsum_cons. cbn [fst snd]. vring.
    Qed.
  End Commit.
End PP.
