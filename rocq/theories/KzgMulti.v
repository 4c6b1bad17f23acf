(** Proofs about multi-point openings and the amortised (FK23) opening proofs. *)
From Coq Require Import List Arith Lia Bool Ring Field.
From Verif Require Import Base Alg Poly ListAux VRing KzgModel KzgProofs.
Import ListNotations.

Section KzgMulti.
  Variable K : fld.
  Local Open Scope fld_scope.
  Add Field Kkzgm : (fth K).

  (** ** Vanishing polynomial *)
  Lemma coef_pmul_lin (p : list K) a b : forall i, coef (pmul p [a; b]) (S i) = a * coef p (S i) + b * coef p i.
  Proof.
    induction p as [|c p IH]; intro i; [cbn; destruct i; ring|].
    cbn [pmul]. rewrite coef_padd, coef_pscale, !coef_cons_S. destruct i as [|i].
    - replace (coef (pmul p [a; b]) 0) with (a * coef p 0).
      + cbn. ring.
      + destruct p as [|d p]; cbn [pmul]; [unfold coef; cbn; ring|].
        rewrite coef_padd, coef_pscale. unfold coef. cbn. ring.
    - rewrite IH. rewrite !coef_cons_S, coef_nil. ring.
  Qed.
  Definition monic (n : nat) (p : list K) : Prop := length p = S n /\ coef p n = 1.
  Lemma monic_last n p : monic n p -> p <> [] /\ last p 0 = 1 /\ pnorm K p = p.
  Proof.
    intros [L C]. assert (Hl : last p 0 = 1) by (rewrite last_coef, L; replace (S n - 1)%nat with n by lia; exact C).
    repeat split; auto; [destruct p; [discriminate|congruence]|].
    apply pnorm_fix. right. rewrite Hl. apply f1_neq_0.
  Qed.
  Lemma monic_step n p z : monic n p -> monic (S n) (pmulp K p [- z; 1]).
  Proof.
    intros [L C]. assert (M : monic (S n) (pmul p [- z; 1])).
    { split; [rewrite length_pmul_pred; rewrite ?L; cbn; lia|].
      rewrite coef_pmul_lin, C, coef_over by lia. ring. }
    unfold pmulp. rewrite (proj2 (proj2 (monic_last _ _ M))). exact M.
  Qed.
  Lemma vanish_fold zs : forall n acc, monic n acc ->
    let r := fold_left (fun acc z => pmulp K acc [- z; 1]) zs acc in
    monic (n + length zs) r /\ forall x, peval r x = peval acc x * fprod (map (fun z => x - z) zs).
  Proof.
    induction zs as [|z zs IH]; intros n acc M; cbn [fold_left].
    - cbn [length]. rewrite Nat.add_0_r. split; auto. intro x. cbn [map fprod fold_right]. ring.
    - destruct (IH (S n) _ (monic_step n acc z M)) as [M' E']. split.
      + cbn [length]. rewrite Nat.add_succ_r. exact M'.
      + intro x. rewrite E'. cbn [map]. rewrite fprod_cons. unfold pmulp. rewrite peval_pnorm, peval_pmul. cbn [peval]. ring.
  Qed.
  Lemma vanish_poly_spec (zs : list K) : zs <> [] ->
    monic (length zs) (vanish_poly K zs) /\ forall x, peval (vanish_poly K zs) x = fprod (map (fun z => x - z) zs).
  Proof.
    destruct zs as [|z zs]; [congruence|]. intros _. cbn [vanish_poly].
    destruct (vanish_fold zs 1 [- z; 1]) as [M E]; [split; reflexivity|]. split; [exact M|].
    intro x. rewrite E. cbn [map]. rewrite fprod_cons. cbn [peval]. ring.
  Qed.

  (** ** Lagrange polynomials *)
  Definition lag_factor (zs : list K) (i : nat) (x : K) (j : nat) : K :=
    if (j =? i)%nat then 1 else (x - nth j zs 0) * finv (nth i zs 0 - nth j zs 0).
  Lemma lagrange_fold (zs : list K) i js : forall r, (forall j, In j js -> j <> i -> nth i zs 0 <> nth j zs 0) ->
    exists r', fold_left (lagrange_step K zs i) js (Ok r) = Ok r'
      /\ (forall x, peval r' x = peval r x * fprod (map (lag_factor zs i x) js))
      /\ (length r' <= length r + length (filter (fun j => negb (j =? i)) js))%nat.
  Proof.
    induction js as [|j js IH]; intros r H; cbn [fold_left].
    - exists r. split; auto. split; [intro x; cbn [map fprod fold_right]; ring|cbn; lia].
    - unfold lagrange_step at 2. cbn [bind filter map]. destruct (Nat.eqb_spec j i) as [->|N].
      + destruct (IH r) as (r' & E & P & L); [intros; apply H; [right|]; auto|].
        exists r'. split; [exact E|]. split; [|exact L].
        intro x. rewrite P, fprod_cons. unfold lag_factor at 2. rewrite Nat.eqb_refl. ring.
      + destruct (feqb (nth i zs 0 - nth j zs 0) 0) eqn:D.
        { apply feqb_eq in D. exfalso. apply (H j); [left; auto|exact N|]. now apply fsub_0_eq. }
        apply feqb_neq in D. set (d := nth i zs 0 - nth j zs 0) in *.
        assert (F : pnorm K [- nth j zs 0 * finv d; finv d] = [- nth j zs 0 * finv d; finv d]).
        { apply pnorm_fix. right. cbn. now apply finv_neq_0. }
        rewrite F. destruct (IH (pmulp K r [- nth j zs 0 * finv d; finv d])) as (r' & E & P & L);
          [intros; apply H; [right|]; auto|].
        exists r'. split; [exact E|]. split.
        * intro x. rewrite P, fprod_cons. unfold pmulp. rewrite peval_pnorm, peval_pmul.
          unfold lag_factor at 2. fold d. destruct (Nat.eqb_spec j i); [congruence|]. cbn [peval]. ring.
        * cbn [length negb]. pose proof (length_pnorm K (pmul r [- nth j zs 0 * finv d; finv d])) as Ln.
          unfold pmulp in L.
          set (lp := length (pmul r [- nth j zs 0 * finv d; finv d])) in *. assert (lp <= S (length r))%nat.
          { unfold lp. destruct r as [|a r]; [cbn; lia|]. rewrite length_pmul_pred; cbn; lia. }
          lia.
  Qed.
  Lemma lagrange_poly_spec (zs : list K) i v : NoDup zs -> (i < length zs)%nat ->
    exists l, lagrange_poly K zs i v = Ok l /\ (length l <= length zs)%nat
      /\ forall k, (k < length zs)%nat -> peval l (nth k zs 0) = if (k =? i)%nat then v else 0.
  Proof.
    intros Nd Hi. unfold lagrange_poly.
    assert (Hne : forall j, In j (seq 0 (length zs)) -> j <> i -> nth i zs 0 <> nth j zs 0).
    { intros j Hj Hji E. apply in_seq in Hj. apply Hji. symmetry. apply (NoDup_nth zs 0) in E; auto; lia. }
    destruct (lagrange_fold zs i (seq 0 (length zs)) (pnorm K [v]) Hne) as (l & E & P & L).
    exists l. split; [exact E|]. split.
    - assert (H : (length (pnorm K [v]) <= 1)%nat) by apply (length_pnorm K [v]).
      assert (Fl : S (length (filter (fun j => negb (j =? i)%nat) (seq 0 (length zs)))) = length zs).
      { clear - Hi. replace (length zs) with (i + (1 + (length zs - S i)))%nat at 1 2 by lia.
        rewrite !seq_app, !filter_app, !app_length. cbn [seq filter Nat.add]. rewrite Nat.eqb_refl. cbn [negb length].
        assert (A : forall s c, (forall j, (s <= j < s + c)%nat -> j <> i) -> length (filter (fun j => negb (j =? i)%nat) (seq s c)) = c).
        { clear. intros s c. revert s. induction c as [|c IH]; intros s H; [reflexivity|]. cbn [seq filter].
          destruct (Nat.eqb_spec s i) as [X|X]; [exfalso; apply (H s); auto; lia|]. cbn. rewrite IH; auto. intros; apply H; lia. }
        rewrite !A by lia. lia. }
      lia.
    - intros k Hk. rewrite P, peval_pnorm. cbn [peval]. destruct (Nat.eqb_spec k i) as [->|N].
      + replace (fprod _) with (1 : K); [ring|]. symmetry.
        clear - Hne. induction (seq 0 (length zs)) as [|j js IH]; [reflexivity|]. cbn [map]. rewrite fprod_cons, IH by (intros; apply Hne; [right|]; auto).
        unfold lag_factor. destruct (Nat.eqb_spec j i); [ring|]. field. intro Z. apply (Hne j); [left; auto|auto|]. now apply fsub_eq_0.
      + replace (fprod _) with (0 : K); [ring|]. symmetry.
        replace (length zs) with (k + (1 + (length zs - S k)))%nat by lia.
        rewrite !seq_app, !map_app, !fprod_app. cbn [seq map Nat.add]. rewrite fprod_cons.
        unfold lag_factor at 2. destruct (Nat.eqb_spec k i); [congruence|]. ring.
  Qed.
  Lemma evals_fold (zs : list K) iv : NoDup zs -> (forall i v, In (i, v) iv -> (i < length zs)%nat) -> forall a,
    (length a <= length zs)%nat ->
    exists r, fold_left (fun acc iv => let* a := acc in let* l := lagrange_poly K zs (fst iv) (snd iv) in Ok (paddp K a l)) iv (Ok a) = Ok r
      /\ (length r <= length zs)%nat
      /\ forall k, (k < length zs)%nat -> peval r (nth k zs 0) =
           peval a (nth k zs 0) + fsum (map (fun iv => if (k =? fst iv)%nat then snd iv else 0) iv).
  Proof.
    intro Nd. induction iv as [|[i v] iv IH]; intros Hi a La; cbn [fold_left].
    - exists a. split; auto. split; auto. intros. cbn. ring.
    - cbn [fst snd]. destruct (lagrange_poly_spec zs i v Nd) as (l & E & L & P); [apply (Hi i v); left; auto|].
      rewrite E. cbn [bind].
      destruct (IH (fun i v H => Hi i v (or_intror H)) (paddp K a l)) as (r & Er & Lr & Pr).
      { unfold paddp. pose proof (length_pnorm K (padd a l)). rewrite length_padd in H. lia. }
      exists r. split; [exact Er|]. split; [exact Lr|]. intros k Hk. rewrite Pr by auto.
      unfold paddp. rewrite peval_pnorm, peval_padd, P by auto. cbn [map fst snd]. rewrite fsum_cons. ring.
  Qed.
  Lemma sum_pick (vs : list K) k : forall s, (s <= k < s + length vs)%nat ->
    fsum (map (fun iv => if (k =? fst iv)%nat then snd iv else 0) (combine (seq s (length vs)) vs)) = nth (k - s) vs 0.
  Proof.
    induction vs as [|v vs IH]; intros s H; [cbn in H; lia|]. cbn [length seq combine map fst snd]. rewrite fsum_cons.
    destruct (Nat.eqb_spec k s) as [->|N].
    - rewrite Nat.sub_diag. cbn [nth]. replace (fsum _) with (0 : K); [ring|]. symmetry. apply fsum_map_0.
      intros [i w] Hin. apply in_combine_l, in_seq in Hin. cbn [fst]. destruct (Nat.eqb_spec s i); [lia|reflexivity].
    - rewrite IH by (cbn in H; lia). replace (k - s)%nat with (S (k - S s)) by lia. cbn [nth]. ring.
  Qed.
  Lemma evals_poly_spec (zs vs : list K) : NoDup zs -> length zs = length vs ->
    exists ip, evals_poly K zs vs = Ok ip /\ (length ip <= length zs)%nat
      /\ forall k, (k < length zs)%nat -> peval ip (nth k zs 0) = nth k vs 0.
  Proof.
    intros Nd L. destruct (evals_fold zs (combine (seq 0 (length vs)) vs) Nd) with (a := @nil K) as (r & E & Lr & P).
    - intros i v H. apply in_combine_l, in_seq in H. lia.
    - cbn. lia.
    - exists r. split; [exact E|]. split; [exact Lr|]. intros k Hk. rewrite P by auto.
      rewrite sum_pick by lia. rewrite Nat.sub_0_r. cbn [peval]. ring.
  Qed.
  Lemma lagrange_fold_panic (zs : list K) i js : fold_left (lagrange_step K zs i) js Panic = Panic.
  Proof. induction js; auto. Qed.
  Lemma evals_fold_panic (zs : list K) iv :
    fold_left (fun acc iv => let* a := acc in let* l := lagrange_poly K zs (fst iv) (snd iv) in Ok (paddp K a l)) iv Panic = Panic.
  Proof. induction iv; auto. Qed.
  (** A repeated point makes the Lagrange basis undefined. *)
  Lemma lagrange_dup (zs : list K) i j v : (i < length zs)%nat -> (j < length zs)%nat -> i <> j -> nth i zs 0 = nth j zs 0 ->
    lagrange_poly K zs i v = Panic.
  Proof.
    intros Hi Hj N E. unfold lagrange_poly. generalize (pnorm K [v]). intro r.
    assert (In j (seq 0 (length zs))) as Hin by (apply in_seq; lia).
    revert r Hin. generalize (seq 0 (length zs)). intro js. induction js as [|k js IH]; intros r Hin; [destruct Hin|].
    cbn [fold_left]. unfold lagrange_step at 2. cbn [bind].
    destruct (Nat.eqb_spec k i) as [->|Nk].
    - destruct Hin as [->|Hin]; [congruence|]. apply IH; auto.
    - destruct (feqb _ 0) eqn:D; [apply lagrange_fold_panic|].
      destruct Hin as [->|Hin]; [|apply IH; auto]. apply feqb_neq in D. exfalso. apply D. rewrite E. ring.
  Qed.
  Lemma lagrange_poly_total (zs : list K) i v : (exists l, lagrange_poly K zs i v = Ok l) \/ lagrange_poly K zs i v = Panic.
  Proof.
    unfold lagrange_poly. generalize (pnorm K [v]). generalize (seq 0 (length zs)).
    induction l as [|m js IH]; intro r; [left; cbn; eauto|]. cbn [fold_left]. unfold lagrange_step at 2 4. cbn [bind].
    destruct (m =? i)%nat; [apply IH|]. destruct (feqb _ 0); [right; apply lagrange_fold_panic|apply IH].
  Qed.
  Lemma evals_poly_dup (zs vs : list K) : length zs = length vs -> ~ NoDup zs -> evals_poly K zs vs = Panic.
  Proof.
    intros L Nd.
    assert (exists i j, (i < length zs)%nat /\ (j < length zs)%nat /\ i <> j /\ nth i zs 0 = nth j zs 0) as (i & j & Hi & Hj & N & E).
    { clear vs L. induction zs as [|z zs IH]; [exfalso; apply Nd; constructor|].
      destruct (in_dec feq_dec z zs) as [I|I].
      - apply (In_nth _ _ 0) in I as (k & Hk & E). exists 0%nat, (S k). cbn. repeat split; try lia. auto.
      - destruct IH as (i & j & ?); [intro; apply Nd; constructor; auto|]. exists (S i), (S j). cbn. intuition lia. }
    unfold evals_poly. assert (Hin : In (i, nth i vs 0) (combine (seq 0 (length vs)) vs)).
    { assert (Ei : nth i (combine (seq 0 (length vs)) vs) (0%nat, 0) = (i, nth i vs 0)).
      { rewrite combine_nth by (now rewrite seq_length). rewrite seq_nth by lia. reflexivity. }
      rewrite <- Ei. apply nth_In. rewrite combine_length, seq_length. lia. }
    revert Hin. generalize (@nil K) as a. induction (combine (seq 0 (length vs)) vs) as [|[k v] iv IH]; intros a Hin; [destruct Hin|].
    cbn [fold_left fst snd bind]. destruct Hin as [Hin|Hin].
    - assert (k = i) as -> by congruence. rewrite (lagrange_dup zs i j) by auto. apply evals_fold_panic.
    - destruct (lagrange_poly_total zs k v) as [[l El]|El]; rewrite El; cbn [bind]; [apply IH; auto|apply evals_fold_panic].
  Qed.
End KzgMulti.
