(** Sums, decompositions, range checks. *)

From Coq Require Import List Arith ZArith Bool Lia.
From Verif Require Import Base ListAux Alg Poly CircuitModel CircuitProofs GadgetModel GadgetProofs.
Import ListNotations.
Local Open Scope fld_scope.
Local Open Scope circ_scope.

Lemma skipn_nth_cons {A} (l : list A) (d : A) : forall n, (n < length l)%nat ->
  skipn n l = nth n l d :: skipn (S n) l.
Proof.
  induction l as [|x l IH]; intros n Hn; [cbn in Hn; lia|].
  destruct n; [reflexivity|]. cbn [skipn nth]. rewrite IH by (cbn in Hn; lia). reflexivity.
Qed.
Lemma index_nth {X A} (l : list A) (d : A) i : (i < length l)%nat -> @index X A l i = Ok (nth i l d).
Proof. intros H. unfold index. rewrite (nth_error_nth' _ d) by auto. reflexivity. Qed.
Lemma Forall_nth_lt (l : list nat) n i : Forall (fun v => v < n)%nat l -> (0 < n)%nat -> (nth i l 0 < n)%nat.
Proof.
  intros H Hn. destruct (Nat.lt_ge_cases i (length l)).
  - rewrite Forall_forall in H. apply H, nth_In; auto.
  - rewrite nth_overflow; auto.
Qed.
Lemma Forall_resize (l : list nat) n m : Forall (fun v => v < n)%nat l -> (0 < n)%nat ->
  Forall (fun v => v < n)%nat (resize l m 0%nat).
Proof.
  intros H Hn. unfold resize. apply Forall_app; split.
  - apply Forall_forall; intros x Hx. rewrite Forall_forall in H. apply H.
    rewrite <- (firstn_skipn m l). apply in_or_app; auto.
  - apply Forall_forall; intros x Hx. apply repeat_spec in Hx. subst; auto.
Qed.
Lemma length_resize {A} (l : list A) n x : length (resize l n x) = n.
Proof. unfold resize. rewrite app_length, firstn_length, repeat_length. lia. Qed.
Lemma resize_ge {A} (l : list A) n x : (length l <= n)%nat -> resize l n x = l ++ repeat x (n - length l).
Proof. intros. unfold resize. rewrite firstn_all2 by auto. reflexivity. Qed.

(** The padded length used by [sum] and [decomposition_gate] is [3 m + 1] with
    [1 <= m] and at least the length. *)
Lemma next_multiple_3 n : exists m, next_multiple n 3 = Ok (3 * m)%nat /\ (1 <= m)%nat /\ (n <= 3 * m)%nat.
Proof.
  unfold next_multiple. cbn [Nat.eqb orb].
  destruct (Nat.eqb_spec n 3); [exists 1%nat; subst; repeat split; auto|].
  destruct (Nat.ltb_spec n 3); [exists 1%nat; repeat split; auto; lia|].
  exists (n / 3 + 1)%nat. split; [f_equal; lia|].
  pose proof (Nat.div_mod n 3 ltac:(lia)). pose proof (Nat.mod_upper_bound n 3 ltac:(lia)). lia.
Qed.

Section Specs.
  Context {K : fld}.
  Variable zval : K -> Z.
  Add Field Kfield_rp : (fth K).
  Notation gspec := (gspec zval).
  Notation dsat := (dsat zval).

  Ltac start := unfold gspec, CircuitProofs.gspec; unfold out, noout.

  Lemma wpc_bind_idx {A B} (l : list A) (dft : A) i (k : A -> circ K B) c Q :
    (i < length l)%nat -> wpc (k (nth i l dft)) c Q -> wpc (cbind (idx l i) k) c Q.
  Proof. intros Hi. apply wpc_bind_lift. apply index_nth; auto. Qed.

  Lemma conditional_select_spec c b x0 x1 : wf c ->
    (b < num_vars c)%nat -> (x0 < num_vars c)%nat -> (x1 < num_vars c)%nat ->
    isb (hon c b) ->
    gspec (conditional_select b x0 x1) c
      (fun w y => isb (w b) -> w y = if feqb (w b) 1 then w x1 else w x0)
      (fun _ => True) out.
  Proof.
    intros Hw Hbb Hx0 Hx1 Hbo; start; unfold conditional_select. repeat wstep.
    pose proof (f1_neq_0 K) as N.
    destruct (feqb (hon c b) 0) eqn:Eb; [|destruct (feqb (hon c b) 1) eqn:Eb1].
    - apply feqb_eq in Eb. repeat wstep. leaf; auto.
      + intros [E|E]; rewrite E in *.
        * rewrite (proj2 (feqb_neq _ _ _)) by congruence. rewrite H0. ring.
        * rewrite feqb_refl. rewrite H0. ring.
      + rewrite E, Eb. ring.
    - apply feqb_eq in Eb1. repeat wstep. leaf; auto.
      + intros [E|E]; rewrite E in *.
        * rewrite (proj2 (feqb_neq _ _ _)) by congruence. rewrite H0. ring.
        * rewrite feqb_refl. rewrite H0. ring.
      + rewrite E, Eb1. ring.
    - apply feqb_neq in Eb, Eb1. destruct Hbo; contradiction.
  Qed.

  Lemma logic_and_fold_spec vs : forall c a, wf c -> (a < num_vars c)%nat ->
    Forall (fun v => v < num_vars c)%nat vs ->
    gspec (foldM logic_and a vs) c (fun w o => w o = w a * fprod (map w vs)) (fun _ => True) out.
  Proof.
    induction vs as [|v vs IH]; intros c a Hw Ha Hvs; start.
    - cbn [foldM map]. wstep. leaf; auto. cbn. ring.
    - cbn [foldM map]. inversion Hvs; subst.
      use logic_and_spec. use IH.
      { eapply Forall_impl; [|eassumption]. cbn beta. intros. bnd. }
      leaf; auto. rewrite F, F0, fprod_cons. ring.
  Qed.

  Lemma logic_and_all_spec c vs : wf c -> vs <> [] -> Forall (fun v => v < num_vars c)%nat vs ->
    gspec (logic_and_all vs) c (fun w o => w o = fprod (map w vs)) (fun _ => True) out.
  Proof.
    intros Hw Hne Hvs; start. destruct vs as [|v vs]; [congruence|]. inversion Hvs; subst.
    cbn [logic_and_all]. use logic_and_fold_spec; auto.
  Qed.

  (** [sum] *)
  Lemma mapM_wit (c : circuit K) vs : wf c -> Forall (fun v => v < num_vars c)%nat vs ->
    mapM get_witness vs c = (Ok (map (hon c) vs), c).
  Proof.
    intros Hw H. induction H as [|v vs Hv _ IH]; [reflexivity|].
    cbn [mapM map]. unfold cbind at 1. unfold get_witness at 1, check_var_bound, lift, cbind.
    destruct (Nat.leb_spec (num_vars c) v); [lia|].
    rewrite (index_nth _ 0) by (rewrite (wf_wit _ Hw); auto).
    fold (hon c v). cbn beta iota. rewrite IH. reflexivity.
  Qed.
  Lemma wpc_mapM_wit {B} (c : circuit K) vs (k : list K -> circ K B) Q : wf c -> Forall (fun v => v < num_vars c)%nat vs ->
    wpc (k (map (hon c) vs)) c Q -> wpc (cbind (mapM get_witness vs) k) c Q.
  Proof.
    intros Hw H (b & d & E & HQ). exists b, d. split; auto. unfold cbind.
    rewrite mapM_wit; auto.
  Qed.

  Definition sum_body (p : list nat) (acc i : nat) : circ K nat :=
    x <- idx p (3 * i - 2) ;; y <- idx p (3 * i - 1) ;; z <- idx p (3 * i) ;; lc acc x y z 1 1 1 1.

  Lemma sum_fold_spec (p : list nat) k : forall s c acc, wf c -> (acc < num_vars c)%nat ->
    Forall (fun v => v < num_vars c)%nat p -> (1 <= s)%nat -> (3 * (s + k) <= length p + 2)%nat ->
    gspec (foldM (sum_body p) acc (seq s k)) c
      (fun w o => w o = w acc + fsum (map w (firstn (3 * k) (skipn (3 * s - 2) p)))) (fun _ => True) out.
  Proof.
    induction k as [|k IH]; intros s c acc Hw Ha Hp Hs Hl; start.
    - cbn [seq foldM]. wstep. leaf; auto. cbn. ring.
    - cbn [seq foldM]. unfold sum_body at 1. pose proof (wf_two _ Hw).
      pose proof (fun i => Forall_nth_lt p (num_vars c) i Hp ltac:(lia)) as Hn.
      wstep. apply (wpc_bind_idx p 0%nat); [lia|]. wstep.
      apply (wpc_bind_idx p 0%nat); [lia|]. wstep. apply (wpc_bind_idx p 0%nat); [lia|].
      use lc_spec; try apply Hn.
      use IH; try lia.
      { eapply Forall_impl; [|eassumption]. cbn beta. intros. bnd. }
      leaf; auto. rewrite F, F0.
      rewrite (skipn_nth_cons p 0%nat (3 * s - 2)) by lia.
      rewrite (skipn_nth_cons p 0%nat (S (3 * s - 2))) by lia.
      rewrite (skipn_nth_cons p 0%nat (S (S (3 * s - 2)))) by lia.
      replace (3 * S k)%nat with (S (S (S (3 * k)))) by lia. cbn [firstn map].
      rewrite !fsum_cons.
      replace (3 * S s - 2)%nat with (S (S (S (3 * s - 2)))) by lia.
      replace (S (S (3 * s - 2))) with (3 * s)%nat by lia.
      replace (S (3 * s - 2)) with (3 * s - 1)%nat by lia. ring.
  Qed.

  Lemma map_repeat {A B} (f : A -> B) x n : map f (repeat x n) = repeat (f x) n.
  Proof. induction n; cbn; congruence. Qed.
  Lemma fsum_zeros n : fsum (repeat (0 : K) n) = 0.
  Proof. induction n; cbn [repeat]; [reflexivity|]. rewrite fsum_cons, IHn. ring. Qed.

  Lemma csum_spec c vs : wf c -> vs <> [] -> Forall (fun v => v < num_vars c)%nat vs ->
    gspec (csum vs) c (fun w o => w o = fsum (map w vs)) (fun _ => True) out.
  Proof.
    intros Hw Hne Hvs; start. pose proof (wf_two _ Hw) as H2.
    destruct vs as [|v0 vs0] eqn:Ev; [congruence|]. unfold csum. rewrite <- Ev in *. clear Ev v0 vs0.
    apply wpc_chks; [exact Hvs|]. apply wpc_mapM_wit; auto. wstep.
    destruct (next_multiple_3 (length vs - 1)) as (m & Em & Hm1 & Hm2).
    apply wpc_bind_lift with (a := (3 * m + 1)%nat); [rewrite Em; reflexivity|]. cbn zeta.
    set (p := resize vs (3 * m + 1) 0%nat).
    assert (Hlp : length p = (3 * m + 1)%nat) by apply length_resize.
    assert (Hp : Forall (fun v => v < num_vars c)%nat p) by (apply Forall_resize; auto; lia).
    assert (Hp' : Forall (fun v => v < num_vars (capp c (dval (fsum (map (hon c) vs)))))%nat p).
    { eapply Forall_impl; [|exact Hp]. cbn beta. intros. bnd. }
    pose proof (fun i => Forall_nth_lt p (num_vars c) i Hp ltac:(lia)) as Hn.
    assert (Ed : ((3 * m + 1) / 3 = m)%nat).
    { rewrite Nat.mul_comm, Nat.add_comm, Nat.div_add by lia. reflexivity. }
    rewrite Ed. apply (wpc_bind_idx p 0%nat); [lia|].
    change (foldM _ (nth 0 p 0%nat) (seq 1 (m - 1))) with (foldM (sum_body p) (nth 0 p 0%nat) (seq 1 (m - 1))).
    use sum_fold_spec; try lia; auto.
    { specialize (Hn 0%nat). bnd. }
    apply (wpc_bind_idx p 0%nat); [lia|]. apply (wpc_bind_idx p 0%nat); [lia|].
    apply (wpc_bind_idx p 0%nat); [lia|].
    assert (Hn' : forall d i, (nth i p 0 < num_vars (capp (capp c (dval (fsum (map (hon c) vs)))) d))%nat).
    { intros d' i. specialize (Hn i). bnd. }
    use lc_gate_spec; auto. wstep.
    assert (Hsum : forall w : nat -> K, w 0%nat = 0 -> fsum (map w vs) =
       w (nth 0 p 0%nat) + fsum (map w (firstn (3 * (m - 1)) (skipn 1 p)))
       + w (nth (3 * m + 1 - 3) p 0%nat) + w (nth (3 * m + 1 - 2) p 0%nat) + w (nth (3 * m + 1 - 1) p 0%nat)).
    { intros w Hz. transitivity (fsum (map w p)).
      - unfold p. rewrite resize_ge by lia. rewrite map_app, fsum_app, map_repeat, Hz, fsum_zeros. ring.
      - rewrite <- (firstn_skipn (3 * (m - 1) + 1) p) at 1.
        rewrite map_app, fsum_app.
        rewrite (skipn_nth_cons p 0%nat (3 * (m - 1) + 1)) by lia.
        rewrite (skipn_nth_cons p 0%nat (S (3 * (m - 1) + 1))) by lia.
        rewrite (skipn_nth_cons p 0%nat (S (S (3 * (m - 1) + 1)))) by lia.
        rewrite (skipn_all2 p) by lia.
        replace (3 * (m - 1) + 1)%nat with (S (3 * (m - 1))) at 1 by lia.
        rewrite <- (firstn_skipn 1 p) at 1. rewrite firstn_app.
        rewrite firstn_length_le by lia. rewrite firstn_all2 by (rewrite firstn_length_le; lia).
        replace (S (3 * (m - 1)) - 1)%nat with (3 * (m - 1))%nat by lia.
        replace (firstn 1 p) with [nth 0 p 0%nat] by (destruct p; [cbn in Hlp; lia|reflexivity]).
        rewrite map_app, fsum_app. cbn [map]. rewrite !fsum_cons.
        replace (3 * m + 1 - 3)%nat with (3 * (m - 1) + 1)%nat by lia.
        replace (3 * m + 1 - 2)%nat with (S (3 * (m - 1) + 1)) by lia.
        replace (3 * m + 1 - 1)%nat with (S (S (3 * (m - 1) + 1))) by lia.
        change (fsum (@nil K)) with (0 : K). ring. }
    leaf; auto.
    - rewrite (Hsum w Hb0), F, F0. change (3 * 1 - 2)%nat with 1%nat. ring.
    - apply Cmp0; auto. rewrite F. change (3 * 1 - 2)%nat with 1%nat. rewrite E.
      rewrite (map_ext_in (hon c) w).
      + rewrite (Hsum w Hb0). ring.
      + intros v Hv. symmetry. rewrite Forall_forall in Hvs. match goal with H : hext c w |- _ => apply H; auto end.
  Qed.

  (** [decomposition_gate] *)
  Definition dec_body (p : list nat) (m : nat) (rs : K) (acc i : nat) : circ K nat :=
    x <- idx p (3 * m + 1 - 1 - 3 * i + 2) ;; y <- idx p (3 * m + 1 - 1 - 3 * i + 1) ;;
    z <- idx p (3 * m + 1 - 1 - 3 * i) ;;
    lc acc x y z (rs * (rs * rs)) (rs * rs) rs 1.

  Lemma firstn_plus {A} (l : list A) n m : firstn (n + m) l = firstn n l ++ firstn m (skipn n l).
  Proof.
    revert l; induction n as [|n IH]; intros l; [reflexivity|].
    destruct l; cbn [Nat.add firstn skipn app]; [now rewrite firstn_nil|]. now rewrite IH.
  Qed.

  Lemma dec_fold_spec (p : list nat) m rs k : length p = (3 * m + 1)%nat ->
    forall s c acc, wf c -> (acc < num_vars c)%nat ->
    Forall (fun v => v < num_vars c)%nat p -> (1 <= s)%nat -> (s + k <= m)%nat ->
    gspec (foldM (dec_body p m rs) acc (seq s k)) c
      (fun w o => w o = peval (map w (firstn (3 * k) (skipn (3 * (m - s - k + 1)) p)) ++ [w acc]) rs)
      (fun _ => True) out.
  Proof.
    intros Hlp. induction k as [|k IH]; intros s c acc Hw Ha Hp Hs Hk; start.
    - cbn [seq foldM]. wstep. leaf; auto. cbn. ring.
    - cbn [seq foldM]. unfold dec_body at 1. pose proof (wf_two _ Hw).
      pose proof (fun i => Forall_nth_lt p (num_vars c) i Hp ltac:(lia)) as Hn.
      wstep. apply (wpc_bind_idx p 0%nat); [lia|]. wstep.
      apply (wpc_bind_idx p 0%nat); [lia|]. wstep. apply (wpc_bind_idx p 0%nat); [lia|].
      use lc_spec; try apply Hn.
      use IH; try lia.
      { eapply Forall_impl; [|eassumption]. cbn beta. intros. bnd. }
      leaf; auto. rewrite F, F0.
      replace (3 * S k)%nat with (3 * k + 3)%nat by lia. rewrite firstn_plus.
      replace (m - s - S k + 1)%nat with (m - S s - k + 1)%nat by lia.
      rewrite skipn_skipn.
      replace (3 * k + 3 * (m - S s - k + 1))%nat with (3 * (m - s))%nat by lia.
      rewrite (skipn_nth_cons p 0%nat (3 * (m - s))) by lia.
      rewrite (skipn_nth_cons p 0%nat (S (3 * (m - s)))) by lia.
      rewrite (skipn_nth_cons p 0%nat (S (S (3 * (m - s))))) by lia.
      replace (3 * m + 1 - 1 - 3 * s + 2)%nat with (S (S (3 * (m - s)))) by lia.
      replace (3 * m + 1 - 1 - 3 * s + 1)%nat with (S (3 * (m - s))) by lia.
      replace (3 * m + 1 - 1 - 3 * s)%nat with (3 * (m - s))%nat by lia.
      cbn [firstn]. rewrite map_app, <- app_assoc, !peval_app.
      rewrite !map_length. cbn [map app peval length fpow]. ring.
  Qed.

  Lemma decomposition_gate_spec c vs a rs : wf c -> vs <> [] -> Forall (fun v => v < num_vars c)%nat vs ->
    (a < num_vars c)%nat ->
    gspec (decomposition_gate vs a rs) c (fun w _ => w a = peval (map w vs) rs)
      (fun w => w a = peval (map w vs) rs) noout.
  Proof.
    intros Hw Hne Hvs Ha; start. pose proof (wf_two _ Hw) as H2.
    destruct vs as [|v0 vs0] eqn:Ev; [congruence|]. unfold decomposition_gate. rewrite <- Ev in *. clear Ev v0 vs0.
    destruct (next_multiple_3 (length vs - 1)) as (m & Em & Hm1 & Hm2).
    apply wpc_bind_lift with (a := (3 * m + 1)%nat); [rewrite Em; reflexivity|]. cbn zeta.
    set (p := resize vs (3 * m + 1) 0%nat).
    assert (Hlp : length p = (3 * m + 1)%nat) by apply length_resize.
    assert (Hp : Forall (fun v => v < num_vars c)%nat p) by (apply Forall_resize; auto; lia).
    pose proof (fun i => Forall_nth_lt p (num_vars c) i Hp ltac:(lia)) as Hn.
    assert (Ed : ((3 * m + 1) / 3 = m)%nat).
    { rewrite Nat.mul_comm, Nat.add_comm, Nat.div_add by lia. reflexivity. }
    rewrite Ed. apply (wpc_bind_idx p 0%nat); [lia|].
    set (acc0 := nth (3 * m + 1 - 1) p 0%nat).
    change (foldM _ acc0 (seq 1 (m - 1))) with (foldM (dec_body p m rs) acc0 (seq 1 (m - 1))).
    assert (Ha0 : (acc0 < num_vars c)%nat) by apply Hn.
    use (dec_fold_spec p m rs (m - 1) Hlp 1 c acc0); try lia; auto.
    apply (wpc_bind_idx p 0%nat); [lia|]. apply (wpc_bind_idx p 0%nat); [lia|].
    apply (wpc_bind_idx p 0%nat); [lia|].
    assert (Hn' : forall d i, (nth i p 0 < num_vars (capp c d))%nat).
    { intros d' i. specialize (Hn i). bnd. }
    use lc_gate_spec; auto.
    assert (Hev : forall w : nat -> K, w 0%nat = 0 -> peval (map w vs) rs =
       w (nth 0 p 0%nat) + rs * (w (nth 1 p 0%nat) + rs * (w (nth 2 p 0%nat)
         + rs * peval (map w (firstn (3 * (m - 1)) (skipn (3 * (m - 1 - (m - 1) + 1)) p)) ++ [w acc0]) rs))).
    { intros w Hz. replace (m - 1 - (m - 1) + 1)%nat with 1%nat by lia.
      transitivity (peval (map w p) rs).
      - unfold p. rewrite resize_ge by lia. rewrite map_app, peval_app, map_repeat, Hz, peval_zeros. ring.
      - rewrite <- (firstn_skipn (3 + 3 * (m - 1)) p) at 1. rewrite firstn_plus.
        rewrite (skipn_nth_cons p 0%nat (3 + 3 * (m - 1))) by lia.
        rewrite (skipn_all2 (n := S (3 + 3 * (m - 1))) p) by lia.
        replace (3 + 3 * (m - 1))%nat with (3 * m + 1 - 1)%nat by lia.
        fold acc0. rewrite !map_app, <- app_assoc. change (3 * 1)%nat with 3%nat.
        replace (firstn 3 p) with [nth 0 p 0%nat; nth 1 p 0%nat; nth 2 p 0%nat].
        + cbn [map app peval]. reflexivity.
        + destruct p as [|x0 [|x1 [|x2 p']]]; try (cbn in Hlp; lia). reflexivity. }
    leaf; auto.
    - rewrite (Hev w Hb0), F. rewrite <- F0. ring.
    - apply Cmp0; auto. rewrite HC, (Hev w Hb0). rewrite <- F. ring.
  Qed.
End Specs.
