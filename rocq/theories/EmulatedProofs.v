(** Soundness and completeness of the emulated field gadgets. *)

From Coq Require Import List Arith ZArith Bool Lia Znumtheory.
From Verif Require Import Base ListAux Alg Poly CircuitModel CircuitProofs GadgetModel GadgetProofs RangeProofs
  BitProofs CmpProofs RangeLookup EmulatedModel.
Import ListNotations.

(** Sums and convolutions of integer digit lists. *)
Section Digits.
  Local Open Scope Z_scope.
  Definition zsum (l : list Z) : Z := fold_right Z.add 0 l.
  Lemma zsum_app l l' : zsum (l ++ l') = zsum l + zsum l'.
  Proof. unfold zsum. induction l; cbn; lia. Qed.
  Lemma zsum_map_ext {A} (f g : A -> Z) l : (forall a, In a l -> f a = g a) -> zsum (map f l) = zsum (map g l).
  Proof.
    induction l as [|a l IH]; intros H; [reflexivity|]. unfold zsum in *. cbn. rewrite IH, (H a); cbn; auto.
    intros; apply H; cbn; auto.
  Qed.
  Lemma zsum_map_add {A} (f g : A -> Z) l : zsum (map (fun a => f a + g a) l) = zsum (map f l) + zsum (map g l).
  Proof. unfold zsum. induction l; cbn; lia. Qed.
  Lemma zsum_map_scale {A} (k : Z) (f : A -> Z) l : zsum (map (fun a => k * f a) l) = k * zsum (map f l).
  Proof. unfold zsum. induction l; cbn; lia. Qed.
  Lemma zsum_bounds {A} (f : A -> Z) l m : (forall a, In a l -> 0 <= f a <= m) ->
    0 <= zsum (map f l) <= Z.of_nat (length l) * m.
  Proof.
    induction l as [|a l IH]; intros H; [cbn; lia|].
    cbn [map length]. change (zsum (f a :: map f l)) with (f a + zsum (map f l)).
    assert (0 <= f a <= m) by (apply H; cbn; auto).
    assert (0 <= zsum (map f l) <= Z.of_nat (length l) * m) by (apply IH; intros; apply H; cbn; auto).
    lia.
  Qed.

  (** [sum_(j <= i) x_j y_(i-j)] *)
  Definition conv (x y : list Z) (i : nat) : Z := zsum (map (fun j => nth j x 0 * nth (i - j) y 0) (seq 0 (S i))).
  Lemma conv_nil y i : conv [] y i = 0.
  Proof.
    unfold conv. rewrite (zsum_map_ext _ (fun _ => 0 * 0)).
    - rewrite zsum_map_scale. lia.
    - intros j _. destruct j; cbn; lia.
  Qed.
  Lemma conv_cons x0 x y i : conv (x0 :: x) y i = x0 * nth i y 0 + match i with O => 0 | S i' => conv x y i' end.
  Proof.
    unfold conv at 1. cbn [seq map]. rewrite <- seq_shift, map_map.
    change (zsum (?a :: ?l)) with (a + zsum l). cbn [nth]. rewrite Nat.sub_0_r. f_equal.
    destruct i; [reflexivity|]. unfold conv. apply zsum_map_ext. intros j _. reflexivity.
  Qed.
  Definition csum_to (B : Z) (f : nat -> Z) (n : nat) : Z := zsum (map (fun i => B ^ Z.of_nat i * f i) (seq 0 n)).
  Lemma csum_to_S B f n : csum_to B f (S n) = f O + B * csum_to B (fun i => f (S i)) n.
  Proof.
    unfold csum_to. cbn [seq map]. change (zsum (?a :: ?l)) with (a + zsum l).
    change (B ^ Z.of_nat 0) with 1. rewrite <- seq_shift, map_map, <- zsum_map_scale.
    rewrite (zsum_map_ext _ (fun a => B * (B ^ Z.of_nat a * f (S a)))). { ring. }
    intros i _. rewrite Nat2Z.inj_succ, Z.pow_succ_r by lia. ring.
  Qed.
  Lemma csum_to_add B f g n : csum_to B (fun i => f i + g i) n = csum_to B f n + csum_to B g n.
  Proof. unfold csum_to. rewrite <- zsum_map_add. apply zsum_map_ext. intros; ring. Qed.
  Lemma csum_to_sub B f g n : csum_to B (fun i => f i - g i) n = csum_to B f n - csum_to B g n.
  Proof.
    unfold csum_to. rewrite (zsum_map_ext _ (fun i => B ^ Z.of_nat i * f i + (-1) * (B ^ Z.of_nat i * g i))).
    - rewrite zsum_map_add, zsum_map_scale. lia.
    - intros; ring.
  Qed.
  Lemma csum_to_scale B k f n : csum_to B (fun i => k * f i) n = k * csum_to B f n.
  Proof. unfold csum_to. rewrite <- zsum_map_scale. apply zsum_map_ext. intros; ring. Qed.
  Lemma csum_to_ext B f g n : (forall i, (i < n)%nat -> f i = g i) -> csum_to B f n = csum_to B g n.
  Proof. intros H. unfold csum_to. apply zsum_map_ext. intros i Hi. apply in_seq in Hi. rewrite H by lia. reflexivity. Qed.
  Lemma csum_to_nth B l : csum_to B (fun i => nth i l 0) (length l) = hval B l.
  Proof.
    induction l as [|z l IH]; [reflexivity|]. cbn [length hval]. rewrite csum_to_S. cbn [nth]. rewrite IH. reflexivity.
  Qed.
  Lemma csum_to_nth_mod B l n : 0 < B -> exists r, hval B l = csum_to B (fun i => nth i l 0) n + B ^ Z.of_nat n * r.
  Proof.
    intros HB. revert l. induction n as [|n IH]; intros l.
    - exists (hval B l). unfold csum_to. cbn [seq map zsum fold_right Z.of_nat]. ring.
    - destruct l as [|z l].
      + exists 0. rewrite csum_to_S. cbn [hval nth]. destruct (IH []) as [r Hr].
        rewrite (csum_to_ext B _ (fun i => 0 * 0)) by (intros; destruct i; lia).
        rewrite csum_to_scale. ring.
      + rewrite csum_to_S. cbn [hval nth]. destruct (IH l) as [r Hr]. exists r. rewrite Hr.
        rewrite Nat2Z.inj_succ, Z.pow_succ_r by lia. ring.
  Qed.
  (** The truncated convolution is the product modulo [B ^ n]. *)
  Lemma conv_mod B x : 0 < B -> forall y n, exists r,
    hval B x * hval B y = csum_to B (conv x y) n + B ^ Z.of_nat n * r.
  Proof.
    intros HB. induction x as [|x0 x IH]; intros y n.
    - exists 0. cbn [hval]. rewrite (csum_to_ext B _ (fun i => 0 * 0)) by (intros; rewrite conv_nil; lia).
      rewrite csum_to_scale. ring.
    - destruct n as [|n]. { exists (hval B (x0 :: x) * hval B y). unfold csum_to. cbn [seq map zsum fold_right Z.of_nat]. ring. }
      destruct (IH y n) as [r Hr]. destruct (csum_to_nth_mod B y (S n) HB) as [r' Hr'].
      exists (x0 * r' + r). cbn [hval].
      rewrite (csum_to_ext B _ (fun i => x0 * nth i y 0 + match i with O => 0 | S i' => conv x y i' end))
        by (intros; apply conv_cons).
      rewrite csum_to_add, csum_to_scale. rewrite (csum_to_S B (fun i => match i with O => 0 | S i' => conv x y i' end)).
      replace ((x0 + B * hval B x) * hval B y) with (x0 * hval B y + B * (hval B x * hval B y)) by ring.
      rewrite Hr, Hr'. rewrite Nat2Z.inj_succ, Z.pow_succ_r by lia.
      change (csum_to B (fun i => conv x y i) n) with (csum_to B (conv x y) n). ring.
  Qed.

  (** The digits of a number. *)
  Fixpoint digits (B v : Z) (n : nat) : list Z :=
    match n with O => [] | S n' => v mod B :: digits B (v / B) n' end.
  Lemma length_digits B v n : length (digits B v n) = n.
  Proof. revert v; induction n; intros; cbn; auto. Qed.
  Lemma digits_range B v n : 0 < B -> Forall (fun z => 0 <= z < B) (digits B v n).
  Proof. intros HB. revert v; induction n; intros; cbn; constructor; auto. apply Z.mod_pos_bound; auto. Qed.
  Lemma hval_digits' B v n : 0 < B -> hval B (digits B v n) = v mod B ^ Z.of_nat n.
  Proof.
    intros HB. revert v. induction n as [|n IH]; intros v.
    - cbn. now rewrite Z.mod_1_r.
    - cbn [digits hval]. rewrite IH, Nat2Z.inj_succ, Z.pow_succ_r by lia.
      pose proof (Z.pow_pos_nonneg B (Z.of_nat n)). rewrite Z.rem_mul_r by lia. reflexivity.
  Qed.
  Lemma digits_hval B l : 0 < B -> Forall (fun z => 0 <= z < B) l -> digits B (hval B l) (length l) = l.
  Proof.
    intros HB. induction 1 as [|z l Hz _ IH]; [reflexivity|]. cbn [length digits hval].
    rewrite (Z.mul_comm B), Z.mod_add, Z.div_add, Z.mod_small, Z.div_small by lia. cbn [Z.add]. rewrite IH. reflexivity.
  Qed.
  Lemma hval_inj B l l' : 0 < B -> Forall (fun z => 0 <= z < B) l -> Forall (fun z => 0 <= z < B) l' ->
    length l = length l' -> hval B l = hval B l' -> l = l'.
  Proof. intros HB H H' E Eh. rewrite <- (digits_hval B l HB H), <- (digits_hval B l' HB H'), E, Eh. reflexivity. Qed.

  Lemma csum_split B m : forall f n,
    csum_to B f (m + n) = csum_to B f m + B ^ Z.of_nat m * csum_to B (fun i => f (m + i)%nat) n.
  Proof.
    induction m as [|m IH]; intros f n.
    - unfold csum_to at 2. cbn [Nat.add seq map zsum fold_right Z.of_nat]. rewrite Z.pow_0_r. ring_simplify. reflexivity.
    - cbn [Nat.add]. rewrite !csum_to_S, IH, Nat2Z.inj_succ, Z.pow_succ_r by lia. ring.
  Qed.
  Lemma csum_to_last B f n : csum_to B f (S n) = csum_to B f n + B ^ Z.of_nat n * f n.
  Proof.
    replace (S n) with (n + 1)%nat by lia. rewrite csum_split. f_equal. unfold csum_to. cbn [seq map zsum fold_right].
    rewrite Nat.add_0_r. cbn [Z.of_nat]. ring.
  Qed.
  Lemma conv_bounds x y m i : Forall (fun z => 0 <= z <= m) x -> Forall (fun z => 0 <= z <= m) y -> 0 <= m ->
    0 <= conv x y i <= (Z.of_nat i + 1) * (m * m).
  Proof.
    intros Hx Hy Hm. unfold conv.
    assert (Hn : forall l j, Forall (fun z => 0 <= z <= m) l -> 0 <= nth j l 0 <= m).
    { intros l j Hl. destruct (Nat.lt_ge_cases j (length l)).
      - rewrite Forall_forall in Hl. apply Hl, nth_In; auto.
      - rewrite nth_overflow by auto. lia. }
    replace (Z.of_nat i + 1) with (Z.of_nat (length (seq 0 (S i)))) by (rewrite seq_length; lia).
    apply zsum_bounds. intros j _. pose proof (Hn x j Hx). pose proof (Hn y (i - j)%nat Hy). nia.
  Qed.
  (** The carries of a chain of limb sums [s] that agrees with the limbs [e]
      modulo [B ^ n]. *)
  Lemma carry_seq B s e n : 2 <= B ->
    (forall i, (i < n)%nat -> 0 <= s i <= 2 * (Z.of_nat i + 1) * ((B - 1) * (B - 1))) ->
    (forall i, (i < n)%nat -> 0 <= e i < B) ->
    csum_to B (fun i => s i - e i) n mod B ^ Z.of_nat n = 0 ->
    exists rho : nat -> Z,
      ((0 < n)%nat -> B * rho O = s O - e O)
      /\ (forall i, (1 <= i < n)%nat -> B * rho i = s i + rho (i - 1)%nat - e i)
      /\ (forall i, (i < n)%nat -> 0 <= rho i < (2 * Z.of_nat i + 2) * B).
  Proof.
    intros HB Hs He Hm. set (f := fun i => s i - e i) in *.
    set (rho := fun i => csum_to B f (S i) / B ^ Z.of_nat (S i)).
    assert (Hr : forall i, (i < n)%nat -> B ^ Z.of_nat (S i) * rho i = csum_to B f (S i)).
    { intros i Hi. unfold rho. rewrite <- Z_div_exact_full_2; auto; [pose proof (Z.pow_pos_nonneg B (Z.of_nat (S i))); lia|].
      replace n with (S i + (n - S i))%nat in Hm by lia. rewrite csum_split in Hm.
      apply Z.mod_divide in Hm; [|pose proof (Z.pow_pos_nonneg B (Z.of_nat (S i + (n - S i)))); lia].
      destruct Hm as [y Hy]. rewrite Nat2Z.inj_add, Z.pow_add_r in Hy by lia.
      apply Z.mod_divide; [pose proof (Z.pow_pos_nonneg B (Z.of_nat (S i))); lia|].
      exists (y * B ^ Z.of_nat (n - S i) - csum_to B (fun i0 => f (S i + i0)%nat) (n - S i)). lia. }
    assert (H0 : (0 < n)%nat -> B * rho O = s O - e O).
    { intros Hn. specialize (Hr O Hn). rewrite csum_to_S in Hr. unfold csum_to in Hr.
      cbn [seq map zsum fold_right] in Hr. change (Z.of_nat 1) with 1 in Hr. rewrite Z.pow_1_r in Hr. unfold f in Hr. lia. }
    assert (H1 : forall i, (1 <= i < n)%nat -> B * rho i = s i + rho (i - 1)%nat - e i).
    { intros i Hi. pose proof (Hr i ltac:(lia)) as E1. pose proof (Hr (i - 1)%nat ltac:(lia)) as E2.
      replace (S (i - 1)) with i in E2 by lia. rewrite csum_to_last, <- E2, Nat2Z.inj_succ, Z.pow_succ_r in E1 by lia.
      unfold f in E1. pose proof (Z.pow_pos_nonneg B (Z.of_nat i)).
      apply (Z.mul_reg_l _ _ (B ^ Z.of_nat i)); [lia|]. lia. }
    exists rho. split; [exact H0|split; [exact H1|]].
    induction i as [|i IH]; intros Hi.
    - specialize (H0 Hi). pose proof (Hs O Hi). pose proof (He O Hi). cbn [Z.of_nat] in *. nia.
    - specialize (H1 (S i) ltac:(lia)). replace (S i - 1)%nat with i in H1 by lia.
      pose proof (Hs (S i) Hi) as Hs'. pose proof (He (S i) Hi). specialize (IH ltac:(lia)).
      rewrite Nat2Z.inj_succ in *. set (I := Z.of_nat i) in *. assert (0 <= I) by (unfold I; lia).
      replace (Z.succ I) with (I + 1) in * by lia.
      set (X := rho (S i)) in *. set (Y := rho i) in *. set (Sx := s (S i)) in *. set (Ex := e (S i)) in *.
      clearbody X Y Sx Ex I. clear -HB H1 Hs' H H2 IH. split; nia.
  Qed.
End Digits.

Local Open Scope fld_scope.
Local Open Scope circ_scope.

Section Generic.
  Context {K : fld}.
  Variable zval : K -> Z.
  Add Field Kfield_emg : (fth K).
  Notation gspec := (gspec zval).
  Notation dsat := (dsat zval).
  Notation Tr := (fun _ : nat -> K => True).
  Ltac start := unfold gspec, CircuitProofs.gspec; unfold out, noout.

  Lemma gspec_ret {A} (a : A) (c : circuit K) (S : (nat -> K) -> A -> Prop) (C : (nat -> K) -> Prop) (R : A -> nat -> Prop) :
    (forall w, base w -> S w a) -> R a (num_vars c) -> gspec (ret a) c S C R.
  Proof.
    intros H HR. start. apply wpc_ret. split; [|split].
    - auto.
    - intros. apply dsat_nil.
    - cbn. now rewrite Nat.add_0_r.
  Qed.

  Lemma mapM_gspec {A X} (f : X -> circ K A) (S : X -> (nat -> K) -> A -> Prop) (R : A -> nat -> Prop) l :
    (forall a n m, (n <= m)%nat -> R a n -> R a m) ->
    forall c, wf c ->
    (forall x c', In x l -> wf c' -> (num_vars c <= num_vars c')%nat -> ptype c' = ptype c -> gspec (f x) c' (S x) Tr R) ->
    gspec (mapM f l) c (fun w r => Forall2 (fun x a => S x w a) l r) Tr (fun r n => Forall (fun a => R a n) r).
  Proof.
    intros Hm. induction l as [|x l IH]; intros c Hw H.
    - apply gspec_ret; constructor.
    - start. cbn [mapM].
      apply wpc_bind. eapply wpc_mono; [apply (H x c); auto using in_eq|].
      intros a d _ (S1 & C1 & R1).
      apply wpc_bind. eapply wpc_mono.
      { apply (IH (capp c d)); [wfs|]. intros x' c' Hx Hw' Hn Ht. apply H; auto using in_cons.
        cbn [capp num_vars] in Hn. lia. }
      intros r d' _ (S2 & C2 & R2). wstep. rewrite !ptype_capp in *. split; [|split].
      + intros w Hb Hs. rewrite !dsat_cat in Hs. constructor; [apply S1|apply S2]; tauto.
      + intros w Hb Hh _. rewrite <- !capp_cat in Hh. rewrite !dsat_cat. split; [|split].
        * apply C1; auto. hx. auto.
        * apply C2; auto. hx. auto.
        * apply dsat_nil.
      + cbn [dcat d_vals dnil]. rewrite app_nil_r, app_length in *. constructor.
        * eapply Hm; [|exact R1]. lia.
        * eapply Forall_impl; [|exact R2]. intros a0 Ha. eapply Hm; [|exact Ha]. cbn [capp num_vars]. lia.
  Qed.

  Lemma iterM_gspec {X} (f : X -> circ K unit) (S C : X -> (nat -> K) -> Prop) l :
    forall c, wf c ->
    (forall x c', In x l -> wf c' -> (num_vars c <= num_vars c')%nat -> ptype c' = ptype c ->
       gspec (f x) c' (fun w _ => S x w) (C x) noout) ->
    gspec (iterM f l) c (fun w _ => Forall (fun x => S x w) l) (fun w => Forall (fun x => C x w) l) noout.
  Proof.
    induction l as [|x l IH]; intros c Hw H.
    - apply gspec_ret; constructor.
    - start. cbn [iterM].
      apply wpc_bind. eapply wpc_mono; [apply (H x c); auto using in_eq|].
      intros a d _ (S1 & C1 & _).
      eapply wpc_mono.
      { apply (IH (capp c d)); [wfs|]. intros x' c' Hx Hw' Hn Ht. apply H; auto using in_cons.
        cbn [capp num_vars] in Hn. lia. }
      intros r d' _ (S2 & C2 & _). rewrite !ptype_capp in *. split; [|split]; auto.
      + intros w Hb Hs. rewrite !dsat_cat in Hs. constructor; [apply S1|apply S2]; tauto.
      + intros w Hb Hh HC. inversion HC; subst. rewrite <- !capp_cat in Hh. rewrite !dsat_cat. split.
        * apply C1; auto. hx. auto.
        * apply C2; auto.
  Qed.

  Lemma mapM_pure {A X} (f : X -> circ K A) (g : X -> A) (c : circuit K) l :
    (forall x, In x l -> f x c = (Ok (g x), c)) -> mapM f l c = (Ok (map g l), c).
  Proof.
    induction l as [|x l IH]; intros H; [reflexivity|].
    cbn [mapM map]. unfold cbind at 1. rewrite H by (cbn; auto). unfold cbind. rewrite IH; [reflexivity|].
    intros; apply H; cbn; auto.
  Qed.
  Lemma wpc_bind_pure {A B} (m : circ K A) (k : A -> circ K B) c a Q :
    m c = (Ok a, c) -> wpc (k a) c Q -> wpc (cbind m k) c Q.
  Proof. intros E (b & d & E' & H). exists b, d. split; auto. unfold cbind. rewrite E. exact E'. Qed.

  (** Sums of stacks. *)
  Definition ssum (w : nat -> K) (st : list (nat * K)) : K := fsum (map (fun vc => snd vc * w (fst vc)) st).
  Lemma ssum_cons w v x st : ssum w ((v, x) :: st) = x * w v + ssum w st.
  Proof. reflexivity. Qed.
  Lemma ssum_app w a b : ssum w (a ++ b) = ssum w a + ssum w b.
  Proof. unfold ssum. rewrite map_app. apply fsum_app. Qed.
  Lemma ssum_rev w st : ssum w (rev st) = ssum w st.
  Proof.
    induction st as [|[v x] st IH]; [reflexivity|]. cbn [rev]. rewrite ssum_app, IH, !ssum_cons. unfold ssum. cbn. ring.
  Qed.

  Lemma reduce_stack_spec fuel : forall st c, wf c -> Forall (fun vc => fst vc < num_vars c)%nat st ->
    (length st <= fuel + 4)%nat ->
    gspec (reduce_stack fuel st) c (fun w st' => ssum w st' = ssum w st) Tr
      (fun st' n => Forall (fun vc => fst vc < n)%nat st' /\ (length st' <= 4)%nat).
  Proof.
    induction fuel as [|fuel IH]; intros st c Hw Hst Hl.
    - apply gspec_ret; auto.
    - destruct st as [|[v1 c1] [|[v2 c2] [|[v3 c3] [|[v4 c4] [|x st']]]]]; cbn [reduce_stack];
        try (apply gspec_ret; [reflexivity|split; [exact Hst|cbn; lia]]).
      start.
      inversion_clear Hst as [|? ? B1 Hst1]. inversion_clear Hst1 as [|? ? B2 Hst2]. inversion_clear Hst2 as [|? ? B3 Hst3].
      inversion_clear Hst3 as [|? ? B4 Hst4]. cbn [fst] in *.
      use lc_spec.
      eapply wpc_mono.
      { apply (IH ((a, 1) :: x :: st') (capp c d)); [wfs| |cbn in *; lia].
        constructor; [cbn; exact R|]. eapply Forall_impl; [|exact Hst4]. cbn beta. intros. bnd. }
      intros st2 d2 _ (S2 & C2 & R2 & R3). rewrite !ptype_capp in *. leaf; auto.
      + rewrite F, !ssum_cons, F0. ring.
      + split; auto. eapply Forall_impl; [|exact R2]. cbn beta. intros. bnd.
  Qed.

  Lemma sum_stack_spec st o c : wf c -> Forall (fun vc => fst vc < num_vars c)%nat st -> (o < num_vars c)%nat ->
    gspec (sum_stack st o) c (fun w _ => w o = ssum w st) (fun w => w o = ssum w st) noout.
  Proof.
    intros Hw Hst Ho. start. unfold sum_stack. pose proof (wf_two _ Hw) as H2.
    apply wpc_bind. eapply wpc_mono; [apply (reduce_stack_spec (length st) st c); auto; lia|].
    intros st' d _ (S1 & C1 & R1 & R2). unfold finish_stack.
    assert (Hn : forall i, (fst (nth i st' (0%nat, 0%F)) < num_vars (capp c d))%nat).
    { intros i. destruct (Nat.lt_ge_cases i (length st')).
      - rewrite Forall_forall in R1. apply R1. apply nth_In; auto.
      - rewrite nth_overflow by lia. cbn. lia. }
    assert (Hs : forall w, base w -> ssum w st' =
      snd (nth 0 st' (0%nat, 0)) * w (fst (nth 0 st' (0%nat, 0))) + snd (nth 1 st' (0%nat, 0)) * w (fst (nth 1 st' (0%nat, 0)))
      + snd (nth 2 st' (0%nat, 0)) * w (fst (nth 2 st' (0%nat, 0))) + snd (nth 3 st' (0%nat, 0)) * w (fst (nth 3 st' (0%nat, 0)))).
    { intros w _. unfold ssum.
      destruct st' as [|x1 [|x2 [|x3 [|x4 [|]]]]]; try (cbn in R2; lia); cbn; ring. }
    use lc_gate_spec; auto. leaf; auto.
    - rewrite <- F0, (Hs w Hb). exact F.
    - apply Cmp; auto. rewrite HC, <- F. apply (Hs w Hb).
  Qed.
End Generic.
