(** Polynomials as coefficient lists, lowest degree first (the layout of
    [DensePolynomial::coeffs]). *)
From Coq Require Import List Arith Lia Bool Field.
From Verif Require Import ListAux Alg.
Import ListNotations.

Section Poly.
  Variable K : fld.
  Local Open Scope fld_scope.
  Add Field KfieldP : (fth K).
  Notation pol := (list K).

  (** [Polynomial::evaluate]. *)
  Fixpoint peval (p : pol) (x : K) : K :=
    match p with [] => 0 | c :: p' => c + x * peval p' x end.
  Definition coef (p : pol) (i : nat) : K := nth i p 0.
  Definition peq (p q : pol) : Prop := forall i, coef p i = coef q i.
  Definition pzero (p : pol) : Prop := forall c, In c p -> c = 0.

  Fixpoint padd (p q : pol) : pol :=
    match p, q with
    | [], _ => q
    | _, [] => p
    | a :: p', b :: q' => (a + b) :: padd p' q'
    end.
  Definition pscale (a : K) (p : pol) : pol := map (fmul a) p.
  Definition pneg (p : pol) : pol := map fopp p.
  Definition psub (p q : pol) : pol := padd p (pneg q).
  Fixpoint pmul (p q : pol) : pol :=
    match p with
    | [] => []
    | a :: p' => padd (pscale a q) (0 :: pmul p' q)
    end.
  Definition pconst (c : K) : pol := [c].
  (** Multiplication by [X^n]. *)
  Definition pshift (n : nat) (p : pol) : pol := repeat 0 n ++ p.

  Lemma peval_nil x : peval [] x = 0. Proof. reflexivity. Qed.
  Lemma peval_cons c p x : peval (c :: p) x = c + x * peval p x.
  Proof. reflexivity. Qed.
  Lemma peval_padd p : forall q x, peval (padd p q) x = peval p x + peval q x.
  Proof.
    induction p as [|a p IH]; intros [|b q] x; simpl; try ring. rewrite IH. ring.
  Qed.
  Lemma peval_pscale a p x : peval (pscale a p) x = a * peval p x.
  Proof. unfold pscale. induction p; simpl; [ring|rewrite IHp; ring]. Qed.
  Lemma peval_pneg p x : peval (pneg p) x = - peval p x.
  Proof. unfold pneg. induction p; simpl; [ring|rewrite IHp; ring]. Qed.
  Lemma peval_psub p q x : peval (psub p q) x = peval p x - peval q x.
  Proof. unfold psub. rewrite peval_padd, peval_pneg. ring. Qed.
  Lemma peval_pmul p q x : peval (pmul p q) x = peval p x * peval q x.
  Proof.
    induction p as [|a p IH]; simpl; [ring|]. rewrite peval_padd, peval_pscale. simpl.
    rewrite IH. ring.
  Qed.
  Lemma peval_app p q x : peval (p ++ q) x = peval p x + fpow x (length p) * peval q x.
  Proof. induction p; simpl; [ring|rewrite IHp; ring]. Qed.
  Lemma peval_zeros n x : peval (repeat 0 n) x = 0.
  Proof. induction n; simpl; [ring|rewrite IHn; ring]. Qed.
  Lemma peval_pshift n p x : peval (pshift n p) x = fpow x n * peval p x.
  Proof. unfold pshift. rewrite peval_app, peval_zeros, repeat_length. ring. Qed.
  Lemma peval_pzero p x : pzero p -> peval p x = 0.
  Proof.
    induction p as [|c p IH]; intro H; simpl; [reflexivity|].
    rewrite (H c) by (left; auto). rewrite IH; [ring|]. intros d Hd. apply H. right. auto.
  Qed.
  Lemma peval_0 p : peval p 0 = coef p 0.
  Proof. destruct p; unfold coef; simpl; [reflexivity|ring]. Qed.

  Lemma length_padd p : forall q, length (padd p q) = max (length p) (length q).
  Proof. induction p; intros [|b q]; simpl; auto. Qed.
  Lemma length_pscale a p : length (pscale a p) = length p.
  Proof. apply map_length. Qed.
  Lemma length_pneg p : length (pneg p) = length p.
  Proof. apply map_length. Qed.
  Lemma length_psub p q : length (psub p q) = max (length p) (length q).
  Proof. unfold psub. rewrite length_padd, length_pneg. reflexivity. Qed.
  Lemma length_pmul p q : (length (pmul p q) <= length p + length q)%nat.
  Proof.
    induction p; simpl; [lia|]. rewrite length_padd, length_pscale. simpl. lia.
  Qed.
  Lemma length_pmul_pred p q : (length p <> 0 -> length q <> 0 ->
    length (pmul p q) = length p + length q - 1)%nat.
  Proof.
    intros Hp Hq. induction p as [|a p IH]; [simpl in Hp; lia|].
    simpl. rewrite length_padd, length_pscale. simpl.
    destruct p as [|b p]; [simpl; lia|]. rewrite IH by (simpl; lia). simpl. lia.
  Qed.

  (** Coefficients. *)
  Lemma coef_nil i : coef [] i = 0.
  Proof. unfold coef. destruct i; reflexivity. Qed.
  Lemma coef_cons_S c p i : coef (c :: p) (S i) = coef p i.
  Proof. reflexivity. Qed.
  Lemma coef_over p i : (length p <= i)%nat -> coef p i = 0.
  Proof. apply nth_overflow. Qed.
  Lemma coef_padd p : forall q i, coef (padd p q) i = coef p i + coef q i.
  Proof.
    induction p as [|a p IH]; intros [|b q] i.
    - simpl. rewrite coef_nil. ring.
    - simpl. rewrite coef_nil. ring.
    - simpl padd. rewrite coef_nil. ring.
    - destruct i; [reflexivity|]. simpl padd. rewrite !coef_cons_S. apply IH.
  Qed.
  Lemma coef_pscale a p i : coef (pscale a p) i = a * coef p i.
  Proof.
    revert i. induction p as [|c p IH]; intro i.
    - simpl. rewrite !coef_nil. ring.
    - destruct i; [reflexivity|]. simpl. rewrite !coef_cons_S. apply IH.
  Qed.
  Lemma coef_pneg p i : coef (pneg p) i = - coef p i.
  Proof.
    revert i. induction p as [|c p IH]; intro i.
    - simpl. rewrite !coef_nil. ring.
    - destruct i; [reflexivity|]. simpl. rewrite !coef_cons_S. apply IH.
  Qed.
  Lemma coef_psub p q i : coef (psub p q) i = coef p i - coef q i.
  Proof. unfold psub. rewrite coef_padd, coef_pneg. ring. Qed.
  Lemma pzero_coef p : pzero p <-> forall i, coef p i = 0.
  Proof.
    split.
    - intros H i. destruct (Nat.lt_ge_cases i (length p)) as [Hi|Hi]; [|apply coef_over; auto].
      apply H. apply nth_In. auto.
    - intros H c Hc. apply In_nth with (d := 0) in Hc. destruct Hc as (n & _ & <-). apply H.
  Qed.
  Lemma peq_psub p q : peq p q <-> pzero (psub p q).
  Proof.
    rewrite pzero_coef. unfold peq. split; intros H i; specialize (H i).
    - rewrite coef_psub, H. ring.
    - rewrite coef_psub in H. apply fsub_0_eq in H. exact H.
  Qed.
  Lemma peval_peq p q x : peq p q -> peval p x = peval q x.
  Proof.
    intro H. apply peq_psub in H. apply (peval_pzero _ x) in H. rewrite peval_psub in H.
    apply fsub_0_eq in H. exact H.
  Qed.
  Lemma peq_refl p : peq p p. Proof. intro; reflexivity. Qed.
  Lemma peq_sym p q : peq p q -> peq q p. Proof. intros H i; symmetry; apply H. Qed.
  Lemma peq_trans p q r : peq p q -> peq q r -> peq p r.
  Proof. intros H G i. rewrite H. apply G. Qed.
  Lemma peq_length p q : length p = length q -> peq p q -> p = q.
  Proof.
    intros Hl H. apply (nth_ext p q 0 0); [auto|]. intros n _. apply H.
  Qed.
  Lemma coef_app_l p q i : (i < length p)%nat -> coef (p ++ q) i = coef p i.
  Proof. intro. unfold coef. apply app_nth1. auto. Qed.
  Lemma coef_app_r p q i : (length p <= i)%nat -> coef (p ++ q) i = coef q (i - length p).
  Proof. intro. unfold coef. apply app_nth2. auto. Qed.
  Lemma coef_map f p i : f 0 = 0 -> coef (map f p) i = f (coef p i).
  Proof. intro H. unfold coef. rewrite <- H at 1. apply map_nth. Qed.

  (** Evaluation as an explicit sum. *)
  Lemma peval_sum p x :
    peval p x = fsum (map (fun i => coef p i * fpow x i) (seq 0 (length p))).
  Proof.
    induction p as [|c p IH]; [reflexivity|]. simpl length. rewrite <- cons_seq. cbn [map].
    rewrite fsum_cons. cbn [peval]. rewrite IH. rewrite <- fsum_map_scale.
    rewrite <- seq_shift, map_map. unfold coef at 2. cbn [nth fpow].
    f_equal; [ring|]. apply fsum_map_ext. intros i _. rewrite coef_cons_S. cbn [fpow]. ring.
  Qed.

  (** ** Division by [X - z] (synthetic division) *)
  Fixpoint pdiv (p : pol) (z : K) : pol :=
    match p with
    | [] => []
    | _ :: p' => match p' with [] => [] | _ => peval p' z :: pdiv p' z end
    end.
  Lemma pdiv_spec p z x : peval p x = (x - z) * peval (pdiv p z) x + peval p z.
  Proof.
    induction p as [|c p IH]; [simpl; ring|].
    destruct p as [|d p]; [simpl; ring|].
    change (pdiv (c :: d :: p) z) with (peval (d :: p) z :: pdiv (d :: p) z).
    rewrite !peval_cons. rewrite (peval_cons d p x) in IH at 1. rewrite IH.
    rewrite (peval_cons d p z). ring.
  Qed.
  Lemma length_pdiv p z : length (pdiv p z) = pred (length p).
  Proof.
    induction p as [|c p IH]; [reflexivity|]. destruct p as [|d p]; [reflexivity|].
    change (pdiv (c :: d :: p) z) with (peval (d :: p) z :: pdiv (d :: p) z).
    cbn [length] in *. lia.
  Qed.
  Lemma pdiv_zero p z : pzero (pdiv p z) -> peval p z = 0 -> pzero p.
  Proof.
    induction p as [|c p IH]; intros Hq Hr; [intros ? []|].
    destruct p as [|d p].
    - intros e [<-|[]]. simpl in Hr. rewrite <- Hr. ring.
    - change (pdiv (c :: d :: p) z) with (peval (d :: p) z :: pdiv (d :: p) z) in Hq.
      assert (H : pzero (d :: p)).
      { apply IH; [|apply Hq; left; auto]. intros e He. apply Hq. right. auto. }
      intros e [<-|He]; [|apply H; auto].
      rewrite peval_cons, (peval_pzero _ _ H) in Hr. rewrite <- Hr. ring.
  Qed.

  (** ** A nonzero polynomial of degree [< n] has fewer than [n] roots *)
  Theorem root_bound rs : forall p, NoDup rs -> (forall r, In r rs -> peval p r = 0) ->
    (length p <= length rs)%nat -> pzero p.
  Proof.
    induction rs as [|r rs IH]; intros p Hnd Hr Hl.
    - destruct p; [intros ? []|simpl in Hl; lia].
    - inversion Hnd as [|? ? Hni Hnd']; subst.
      assert (Hz : peval p r = 0) by (apply Hr; left; auto).
      apply (pdiv_zero p r); [|exact Hz]. apply IH; [auto| |rewrite length_pdiv; simpl in Hl; lia].
      intros s Hs. assert (Hs0 : peval p s = 0) by (apply Hr; right; auto).
      rewrite (pdiv_spec p r s), Hz in Hs0.
      assert (Hm : (s - r) * peval (pdiv p r) s = 0) by (rewrite <- Hs0; ring).
      apply fmul_eq_0 in Hm as [Hm|Hm]; [|exact Hm]. apply fsub_0_eq in Hm. congruence.
  Qed.
  Theorem interp_unique rs p q : NoDup rs -> (forall r, In r rs -> peval p r = peval q r) ->
    (length p <= length rs)%nat -> (length q <= length rs)%nat -> peq p q.
  Proof.
    intros Hnd He Hp Hq. apply peq_psub. apply (root_bound rs); [auto| |rewrite length_psub; lia].
    intros r Hr. rewrite peval_psub, He by auto. ring.
  Qed.

  (** Product of the linear factors [X - z]. *)
  Fixpoint pvanish (zs : list K) : pol :=
    match zs with [] => [1] | z :: zs' => pmul [- z; 1] (pvanish zs') end.
  Lemma peval_pvanish zs x : peval (pvanish zs) x = fprod (map (fun z => x - z) zs).
  Proof.
    induction zs as [|z zs IH]; [simpl; unfold fprod; simpl; ring|].
    cbn [pvanish map]. rewrite peval_pmul, IH, fprod_cons. simpl. ring.
  Qed.
  Lemma length_pvanish zs : length (pvanish zs) = S (length zs).
  Proof.
    induction zs as [|z zs IH]; [reflexivity|].
    cbn [pvanish]. rewrite length_pmul_pred; rewrite ?IH; simpl; lia.
  Qed.

  (** Division by a product of distinct linear factors. *)
  Fixpoint pdivs (p : pol) (zs : list K) : pol :=
    match zs with [] => p | z :: zs' => pdivs (pdiv p z) zs' end.
  Lemma length_pdivs zs : forall p, length (pdivs p zs) = (length p - length zs)%nat.
  Proof. induction zs; intro p; simpl; [lia|]. rewrite IHzs, length_pdiv. lia. Qed.
  Lemma pdivs_spec zs : forall p x, NoDup zs -> (forall z, In z zs -> peval p z = 0) ->
    peval p x = fprod (map (fun z => x - z) zs) * peval (pdivs p zs) x.
  Proof.
    induction zs as [|z zs IH]; intros p x Hnd Hz; cbn [pdivs map].
    - unfold fprod. simpl. ring.
    - inversion Hnd as [|? ? Hni Hnd']; subst.
      rewrite (pdiv_spec p z x), (Hz z) by (left; auto).
      rewrite (IH (pdiv p z) x Hnd'), fprod_cons; [ring|].
      intros s Hs. assert (H0 : peval p s = 0) by (apply Hz; right; auto).
      rewrite (pdiv_spec p z s), (Hz z) in H0 by (left; auto).
      assert (Hm : (s - z) * peval (pdiv p z) s = 0) by (rewrite <- H0; ring).
      apply fmul_eq_0 in Hm as [Hm|Hm]; [|exact Hm]. apply fsub_0_eq in Hm. congruence.
  Qed.

  (** ** Lagrange interpolation *)
  Definition lag_num (xs : list K) (i : nat) : pol :=
    pvanish (firstn i xs ++ skipn (S i) xs).
  Definition lag_den (xs : list K) (i : nat) : K :=
    peval (lag_num xs i) (nth i xs 0).
  Fixpoint psum (l : list pol) : pol :=
    match l with [] => [] | p :: l' => padd p (psum l') end.
  Definition interp (xs ys : list K) : pol :=
    psum (map (fun i => pscale (nth i ys 0 / lag_den xs i) (lag_num xs i)) (seq 0 (length xs))).

  Lemma peval_psum l x : peval (psum l) x = fsum (map (fun p => peval p x) l).
  Proof.
    induction l as [|p l IH]; [reflexivity|]. cbn [psum map]. rewrite peval_padd, IH, fsum_cons. reflexivity.
  Qed.
  Lemma coef_psum l i : coef (psum l) i = fsum (map (fun p => coef p i) l).
  Proof.
    induction l as [|p l IH]; [apply coef_nil|]. cbn [psum map]. rewrite coef_padd, IH, fsum_cons. reflexivity.
  Qed.
  Lemma length_psum l n : (forall p, In p l -> (length p <= n)%nat) -> (length (psum l) <= n)%nat.
  Proof.
    induction l as [|p l IH]; intro H; cbn [psum]; [simpl; lia|].
    rewrite length_padd. pose proof (H p ltac:(left; auto)).
    specialize (IH ltac:(intros; apply H; right; auto)). lia.
  Qed.
  Lemma In_skip_nth (xs : list K) i k : NoDup xs -> (i < length xs)%nat -> (k < length xs)%nat ->
    (In (nth k xs 0) (firstn i xs ++ skipn (S i) xs) <-> k <> i).
  Proof.
    intros Hnd Hi Hk.
    assert (E : xs = firstn i xs ++ nth i xs 0 :: skipn (S i) xs).
    { rewrite <- (firstn_skipn i xs) at 1. f_equal.
      clear Hnd Hk. revert i Hi. induction xs as [|x xs IH]; intros i Hi; [simpl in Hi; lia|].
      destruct i; [reflexivity|]. simpl. apply IH. simpl in Hi. lia. }
    split.
    - intros Hin ->. rewrite E in Hnd. apply NoDup_remove_2 in Hnd. contradiction.
    - intro Hki. assert (Hin : In (nth k xs 0) xs) by (apply nth_In; auto).
      rewrite E in Hin at 2. apply in_app_or in Hin. apply in_or_app.
      destruct Hin as [Hin|[Hin|Hin]]; auto. exfalso. apply Hki.
      symmetry. apply (proj1 (NoDup_nth xs 0) Hnd); auto.
  Qed.
  Lemma lag_den_neq_0 xs i : NoDup xs -> (i < length xs)%nat -> lag_den xs i <> 0.
  Proof.
    intros Hnd Hi. unfold lag_den, lag_num. rewrite peval_pvanish. apply fprod_neq_0.
    intros x Hx. apply in_map_iff in Hx as (z & <- & Hz). intro E. apply fsub_0_eq in E. subst z.
    apply In_skip_nth in Hz; auto.
  Qed.
  Lemma lag_num_at xs i k : NoDup xs -> (i < length xs)%nat -> (k < length xs)%nat -> k <> i ->
    peval (lag_num xs i) (nth k xs 0) = 0.
  Proof.
    intros Hnd Hi Hk Hki. unfold lag_num. rewrite peval_pvanish.
    assert (Hin : In (nth k xs 0) (firstn i xs ++ skipn (S i) xs)) by (apply In_skip_nth; auto).
    revert Hin. generalize (firstn i xs ++ skipn (S i) xs) as l. generalize (nth k xs 0) as x.
    intros x l. induction l as [|y l IH]; intros []; cbn [map]; rewrite fprod_cons.
    - subst. ring.
    - rewrite IH by auto. ring.
  Qed.
  Lemma length_lag_num xs i : (i < length xs)%nat -> length (lag_num xs i) = length xs.
  Proof.
    intro. unfold lag_num. rewrite length_pvanish, app_length, firstn_length, skipn_length. lia.
  Qed.
  Lemma length_interp xs ys : (length (interp xs ys) <= length xs)%nat.
  Proof.
    apply length_psum. intros p Hp. apply in_map_iff in Hp as (i & <- & Hi). apply in_seq in Hi.
    rewrite length_pscale, length_lag_num; lia.
  Qed.
  Lemma fsum_single (f : nat -> K) n k : (k < n)%nat ->
    (forall i, (i < n)%nat -> i <> k -> f i = 0) -> fsum (map f (seq 0 n)) = f k.
  Proof.
    intros Hk Hf. replace n with (k + (1 + (n - S k)))%nat by lia.
    rewrite !seq_app, !map_app, !fsum_app. cbn [seq map Nat.add].
    rewrite (fsum_map_0 K f (seq 0 k)).
    2: { intros i Hi. apply in_seq in Hi. apply Hf; lia. }
    rewrite (fsum_map_0 K f (seq (k + 1) _)).
    2: { intros i Hi. apply in_seq in Hi. apply Hf; lia. }
    unfold fsum. simpl. ring.
  Qed.
  Theorem interp_spec xs ys k : NoDup xs -> (k < length xs)%nat ->
    peval (interp xs ys) (nth k xs 0) = nth k ys 0.
  Proof.
    intros Hnd Hk. unfold interp. rewrite peval_psum, map_map.
    rewrite (fsum_single _ _ k Hk).
    - rewrite peval_pscale. fold (lag_den xs k). field. apply lag_den_neq_0; auto.
    - intros i Hi Hik. rewrite peval_pscale, lag_num_at; auto. ring.
  Qed.
End Poly.
Arguments peval {K}. Arguments coef {K}. Arguments peq {K}. Arguments pzero {K}.
Arguments padd {K}. Arguments pscale {K}. Arguments pneg {K}. Arguments psub {K}.
Arguments pmul {K}. Arguments pconst {K}. Arguments pshift {K}. Arguments pdiv {K}.
Arguments pvanish {K}. Arguments pdivs {K}. Arguments psum {K}. Arguments interp {K}.
Arguments lag_num {K}. Arguments lag_den {K}.
