(** What the Rescue gadgets over a non-native field enforce. *)

From Coq Require Import List Arith NArith ZArith Bool Lia Ring Field.
From Verif Require Import Base ListAux Alg FiniteField Poly ConvModel RescueModel RescueProofs CircuitModel CircuitProofs GadgetModel GadgetProofs RangeProofs BitProofs
  RangeLookup CmpProofs ModArithModel ModArithProofs KzgModel PlonkVerifierModel PlonkVerifierOps RescueGadgetProofs NonNativeRescueModel.
Import ListNotations.
Local Open Scope fld_scope.
Local Open Scope circ_scope.

Definition qall {A} (Q : A -> Prop) (x : quad A) : Prop := Q (q0 x) /\ Q (q1 x) /\ Q (q2 x) /\ Q (q3 x).
Definition qall2 {A A'} (Q : A -> A' -> Prop) (x : quad A) (y : quad A') : Prop :=
  Q (q0 x) (q0 y) /\ Q (q1 x) (q1 y) /\ Q (q2 x) (q2 y) /\ Q (q3 x) (q3 y).
Lemma qall_impl {A} (Q Q' : A -> Prop) x : (forall a, Q a -> Q' a) -> qall Q x -> qall Q' x.
Proof. intros H (H0 & H1 & H2 & H3). repeat split; auto. Qed.
Lemma qall2_impl {A A'} (Q Q' : A -> A' -> Prop) x y : (forall a b, Q a b -> Q' a b) -> qall2 Q x y -> qall2 Q' x y.
Proof. intros H (H0 & H1 & H2 & H3). repeat split; auto. Qed.
Lemma mapM4_pure {K : fld} {A A'} (f : A -> circ K A') (Q : A -> A' -> Prop) x c :
  qall (fun a => exists b, f a c = (Ok b, c) /\ Q a b) x -> exists y, mapM4 f x c = (Ok y, c) /\ qall2 Q x y.
Proof.
  intros ((b0 & E0 & H0) & (b1 & E1 & H1) & (b2 & E2 & H2) & (b3 & E3 & H3)). exists (Q4 b0 b1 b2 b3). split; [|repeat split; auto].
  unfold mapM4, cbind. rewrite E0, E1, E2, E3. reflexivity.
Qed.

Lemma chks_ok {K : fld} vs (c : circuit K) : Forall (fun v => v < num_vars c)%nat vs -> check_vars_bound vs c = (Ok tt, c).
Proof.
  intros Hv. induction Hv as [|v vs Hv _ IH]; [reflexivity|].
  unfold check_vars_bound in *. cbn [iterM]. unfold cbind at 1. unfold check_var_bound, lift at 1.
  destruct (Nat.leb_spec (num_vars c) v); [lia|]. exact IH.
Qed.

Section NNR.
  Context {K Fr : fld}.
  Variable zval : K -> Z.
  Variable q : Z.
  Variable nb L : nat.
  Hypothesis HF : pfield K zval q nb L.
  Add Field Knnr : (fth K).
  Add Field Frnnr : (fth Fr).
  Notation dsat := (dsat zval).
  Notation fv := (fvar (K := K)).
  Variable m rb : nat.
  Notation M := (2 ^ Z.of_nat m)%Z.
  Notation B := (2 ^ Z.of_nat rb)%Z.
  Hypothesis Hm : (1 <= m)%nat.
  Hypothesis Hm2 : (m <= nb / 2)%nat.
  Hypothesis Hrb : (1 <= rb <= 31)%nat.
  Hypothesis Hrn : (rb < nb)%nat.
  Hypothesis Hmr : (m mod rb = 0)%nat.
  Hypothesis HMq : (M * M < q)%Z.
  Variables p0 p1 : Z.
  Notation P := (p0 + M * p1)%Z.
  Hypothesis Hp0 : (0 <= p0 < M)%Z.
  Hypothesis Hp1 : (0 <= p1 < M)%Z.
  Hypothesis HP : (0 < P)%Z.
  Hypothesis Hq : (M * M * (B + 4) <= q)%Z.
  Hypothesis Hq2 : (M * M * (2 * B + 8) <= q)%Z.
  Hypothesis Hrb2 : (2 <= rb)%nat.
  Hypothesis Hrb3 : (3 <= rb)%nat.
  Variable zr : Fr -> Z.
  Variables tb tL : nat.
  Hypothesis HFr : pfield Fr zr P tb tL.
  Notation small := (small zval m).
  Notation fval := (fval zval m).
  Notation esplit := (esplit m).
  Notation fvok := (fvok m).
  Notation limbs_of := (limbs_of m).
  Notation V := (V (Fr := Fr) zval m).
  Notation st := (st (K := K) rb).
  Notation can := (can zval m p0 p1).
  Notation inb := (inb zval m).
  Notation two := (Some (fZ M : K)).
  Notation xs := (pspec zval rb).

  Local Lemma n_M : (2 <= M)%Z. Proof. eapply o_M; eauto. Qed.
  Local Lemma n_B : (4 <= B)%Z. Proof. eapply o_B; eauto. Qed.
  Local Lemma n_PM : (P < M * M)%Z. Proof. eapply o_PM; eauto. Qed.
  Local Lemma n_rng w x : small w x -> (0 <= fval w x < M * M)%Z. Proof. eapply o_small_range; eauto. Qed.
  Local Lemma n_can_le c c' x : st c -> le c c' -> can c x -> can c' x. Proof. eapply can_le; eauto. Qed.
  Local Lemma n_can_small c w x : can c x -> hext c w -> small w x. Proof. eapply can_small; eauto. Qed.
  Local Lemma n_st_le c c' : st c -> le c c' -> st c'. Proof. apply st_le. Qed.
  Local Lemma n_can_rng c x : can c x -> (0 <= fval (hon c) x < P)%Z. Proof. eapply can_rng; eauto. Qed.
  Local Lemma n_frP : (fZ P : Fr) = 0. Proof. eapply frP; eauto. Qed.
  Local Lemma n_congr a b : congr m p0 p1 a b -> (fZ a : Fr) = fZ b. Proof. eapply fr_congr; eauto. Qed.
  Local Lemma n_zr (a : Fr) : (0 <= zr a < P)%Z. Proof. apply (pf_range _ _ _ _ _ HFr). Qed.
  Local Lemma n_fzr (a : Fr) : fZ (zr a) = a. Proof. apply (pf_fZ _ _ _ _ _ HFr). Qed.
  Local Lemma n_canV c x y w : can c x -> can c y -> hext c w -> V w x = V w y -> fval (hon c) x = fval (hon c) y.
  Proof. eapply can_V; eauto. Qed.

  (** ** Calls, with no condition on unchecked limbs *)
  Lemma x_weaken {A} (mm : circ K A) c (S S' : (nat -> K) -> A -> Prop) (R R' : A -> circuit K -> Prop) :
    xs mm c S R -> (forall w a, base w -> S w a -> S' w a) -> (forall a c', le c c' -> R a c' -> R' a c') -> xs mm c S' R'.
  Proof.
    intros (a & d & E & Pd & U2 & U3 & U4) HS HR. exists a, d. do 2 (split; [assumption|]).
    split; [auto|]. split; auto. apply HR; auto. apply le_capp; auto.
  Qed.
  Lemma x_bind {A A'} (mm : circ K A) (f : A -> circ K A') c (S1 : (nat -> K) -> A -> Prop) (R1 : A -> circuit K -> Prop) (S : (nat -> K) -> A' -> Prop) (R : A' -> circuit K -> Prop) : st c -> xs mm c S1 R1 ->
    (forall a c', st c' -> le c c' -> R1 a c' -> (forall w, base w -> hext c' w -> S1 w a) ->
      xs (f a) c' (fun w b => S1 w a -> S w b) R) ->
    xs (x <- mm ;; f x) c S R.
  Proof.
    intros Hs (a & d & E & Pd & U2 & U3 & U4) Hf.
    assert (Hl : le c (capp c d)) by (apply le_capp; auto).
    assert (Hs' : st (capp c d)) by (eapply st_le; eauto).
    destruct (Hf a (capp c d) Hs' Hl U4 (fun w Hb Hh => U2 w Hb (U3 w Hb Hh))) as (b & d' & E' & Pd' & W2 & W3 & W4).
    exists b, (dcat d d'). split; [unfold cbind; rewrite E, E'; now rewrite capp_cat|].
    split; [apply plain_cat; auto|]. rewrite <- capp_cat. split; [|split].
    - intros w Hb Hd. apply dsat_cat in Hd as [Hd1 Hd2]. apply W2; auto.
    - intros w Hb Hh. apply dsat_cat. split; [apply U3; auto|apply W3; auto].
      apply (hext_le rb _ (capp (capp c d) d')); auto. apply le_capp; auto.
    - exact W4.
  Qed.
  Lemma x_then {A'} (mm : circ K unit) (f : circ K A') c (S1 : (nat -> K) -> unit -> Prop) (R1 : unit -> circuit K -> Prop) (S : (nat -> K) -> A' -> Prop) (R : A' -> circuit K -> Prop) : st c -> xs mm c S1 R1 ->
    (forall c', st c' -> le c c' -> R1 tt c' -> (forall w, base w -> hext c' w -> S1 w tt) ->
      xs f c' (fun w b => S1 w tt -> S w b) R) ->
    xs (mm >> f) c S R.
  Proof. intros Hs H Hf. apply (x_bind mm (fun _ => f) c S1 R1); auto. intros [] c' H1 H2 H3 H4. apply Hf; auto. Qed.
  Lemma x_ret {A} (a : A) c (S : (nat -> K) -> A -> Prop) (R : A -> circuit K -> Prop) :
    (forall w, base w -> S w a) -> R a c -> xs (ret a) c S R.
  Proof. intros HS HR. apply wpc_ret. rewrite capp_nil. split; auto. split; auto. intros. apply dsat_nil. Qed.
  Lemma x_pure {A A'} (mm : circ K A) (a : A) (f : A -> circ K A') c S R : mm c = (Ok a, c) -> xs (f a) c S R ->
    xs (x <- mm ;; f x) c S R.
  Proof. intros E (b & d & E' & H). exists b, d. split; auto. unfold cbind. now rewrite E. Qed.
  Lemma x_chks {A} vs (f : circ K A) c S R : Forall (fun v => v < num_vars c)%nat vs -> xs f c S R -> xs (check_vars_bound vs >> f) c S R.
  Proof. intros Hv H. unfold pspec. apply wpc_chks; auto. Qed.
  Lemma x_vspec {A} (mm : circ K A) c S C0 W R (R' : A -> circuit K -> Prop) : st c -> vspec zval mm c S C0 W R ->
    (forall w, base w -> hext c w -> C0 w) ->
    (forall a c', le c c' -> (forall w, hext c' w -> W w a) -> R a (num_vars c') -> R' a c') -> xs mm c S R'.
  Proof.
    intros Hs (a & d & E & Pd & U1 & U2 & U3 & U4) HC HR. pose proof Hs as (Hw & Ht & Hb). rewrite Ht in *. exists a, d. do 2 (split; [assumption|]).
    split; auto. split; [|apply HR; auto; apply le_capp; auto].
    intros w Hb' Hh. apply U2; auto. apply HC; auto. apply (hext_app1 c d); auto.
  Qed.
  Lemma x_map4 {A A'} (f : A -> circ K A') (S : A -> (nat -> K) -> A' -> Prop) (R : A -> A' -> circuit K -> Prop) x c : st c ->
    (forall a o c' c'', st c' -> le c' c'' -> R a o c' -> R a o c'') ->
    qall (fun a => forall c', st c' -> le c c' -> xs (f a) c' (S a) (R a)) x ->
    xs (mapM4 f x) c (fun w o => qall2 (fun a b => S a w b) x o) (fun o c' => qall2 (fun a b => R a b c') x o).
  Proof.
    intros Hs HR (H0 & H1 & H2 & H3). unfold mapM4.
    eapply x_bind; [exact Hs|apply H0; [exact Hs|apply le_refl]|]. intros a c1 Hs1 Hl1 Ra _.
    eapply x_bind; [exact Hs1|apply H1; [exact Hs1|exact Hl1]|]. intros b c2 Hs2 Hl2 Rb _. pose proof (le_trans _ _ _ Hl1 Hl2) as L2.
    eapply x_bind; [exact Hs2|apply H2; [exact Hs2|exact L2]|]. intros d c3 Hs3 Hl3 Rd _. pose proof (le_trans _ _ _ L2 Hl3) as L3.
    eapply x_bind; [exact Hs3|apply H3; [exact Hs3|exact L3]|]. intros e c4 Hs4 Hl4 Re _.
    apply x_ret.
    - intros w _ E3 E2 E1 E0. repeat split; auto.
    - repeat split; auto.
      + eapply HR; [exact Hs1| |exact Ra]. eapply le_trans; [exact Hl2|]. eapply le_trans; eauto.
      + eapply HR; [exact Hs2| |exact Rb]. eapply le_trans; eauto.
      + eapply HR; [exact Hs3| |exact Rd]. exact Hl4.
  Qed.

  (** ** Values of elements whose limbs are not checked *)
  Definition rep (w : nat -> K) (x : fv) (v : Fr) : Prop :=
    exists Z, limbs_of w x = fZ Z /\ fZ Z = v /\ (- (B * P) <= Z < 2 * (M * M))%Z.
  Definition rep2 (w : nat -> K) (x : fv) (v : Fr) : Prop :=
    exists Z, limbs_of w x = fZ Z /\ fZ Z = v /\ (- (2 * B * P) <= Z < 3 * (M * M))%Z.
  Lemma rep_small w x : small w x -> rep w x (V w x).
  Proof.
    intros Sx. exists (fval w x). split; [apply (fval_limbs zval q nb L HF)|]. split; [reflexivity|].
    pose proof (n_rng _ _ Sx). pose proof n_B. nia.
  Qed.
  Lemma rep2_val w x v : rep2 w x v -> small w x -> V w x = v.
  Proof.
    intros (Z & E & Ev & HZ) Sx. pose proof (n_rng _ _ Sx) as Rx. pose proof n_PM. pose proof n_B. pose proof n_M.
    rewrite (fval_limbs zval q nb L HF) in E. apply (fZ_inj_small zval q nb L HF) in E; [unfold PlonkVerifierOps.V; now rewrite E|].
    assert (B * P <= B * (M * M))%Z by nia. nia.
  Qed.

  (** ** Elements *)
  Lemma x_hint c a : st c -> xs (fnew zval q nb L zr m two a) c (fun w o => small w o)
    (fun o c' => can c' o /\ forall w, hext c' w -> V w o = a).
  Proof.
    intros Hs. pose proof Hs as (Hw & Ht & Hb). pose proof (n_zr a) as Ra. pose proof n_PM as HPM. unfold fnew.
    assert (Ez : zval (of_r zr a) = zr a) by (unfold of_r; apply (zval_Z zval q nb L HF); lia).
    pose proof (new_spec zval q nb L HF m rb Hm Hm2 Hrb Hrn Hmr HMq Hrb2 c (of_r zr a) Hw Ht) as Hv.
    assert (Hv' : vspec zval (fvar_new_from_field_element zval q nb L (of_r zr a) m two) c (fun w o => small w o) (fun _ => (zval (of_r zr a) < M * M)%Z)
      (fun w o => fval w o = zval (of_r zr a)) (fun o n => fvout o n /\ fvok o)).
    { unfold vspec, wpc in *. replace (fvar_new_from_field_element zval q nb L (of_r zr a) m two c) with (fvar_new_from_field_element zval q nb L (of_r zr a) m None c); [exact Hv|].
      symmetry. apply (new_two zval q nb L m two eq_refl). }
    pose proof Hv' as (o & d & E & Pd & U1 & U2 & U3 & U4 & U5).
    assert (Hl : le c (capp c d)) by (apply le_capp; auto). pose proof (st_le _ _ _ Hs Hl) as (_ & _ & Hb').
    assert (HC' : (zval (of_r zr a) < M * M)%Z) by (rewrite Ez; lia).
    exists o, d. do 2 (split; [assumption|]). rewrite Ht in *. split; [auto|]. split; [auto|].
    pose proof (U3 _ (hext_hon _)) as E1. rewrite Ez in E1. split.
    - split; [split; [exact U5|split; [exact U4|]]|rewrite E1; lia]. apply U1; auto. apply U2; auto. apply hext_hon.
    - intros w Hh. unfold PlonkVerifierOps.V. rewrite (U3 w Hh), Ez. apply n_fzr.
  Qed.
  Lemma fconst_eq a c : exists e, fconst zval nb zr m two a c = (Ok e, c) /\ evok m e (zr a).
  Proof.
    pose proof (n_zr a) as Ra. pose proof n_PM.
    destruct (vconst_eq zval q nb L HF m rb Hm Hm2 Hrb Hrn Hmr HMq p0 p1 two eq_refl (zr a) c ltac:(lia)) as (e & E & He).
    exists e. split; [exact E|exact He].
  Qed.
  Lemma fwit_eq c x : st c -> inb c x -> exists a : Fr, fwit zval x c = (Ok a, c) /\ forall w, hext c w -> V w x = a.
  Proof. intros Hs Hx. eapply (vwit_eq zval q nb L HF m rb); eauto. Qed.

  Lemma x_eq1 a b c : st c -> (a < num_vars c)%nat -> (b < num_vars c)%nat -> hon c a = hon c b ->
    xs (enforce_equal a b) c (fun w _ => w a = w b) (fun _ _ => True).
  Proof.
    intros (Hw & Ht & Hb) Ha Hb' E.
    destruct (enforce_equal_spec zval c a b Hw Ha Hb') as (u & d & E1 & Pd & S1 & C1 & _).
    exists u, d. do 2 (split; [assumption|]). rewrite Ht in *. split; [auto|]. split; auto.
    intros w Hbw Hh. apply C1; auto. rewrite !(hext_app1 c d w Hw Hh) by auto. exact E.
  Qed.
  Lemma x_eq c x y : st c -> can c x -> can c y -> (forall w, base w -> hext c w -> V w x = V w y) ->
    xs (enforce_equal (v0 x) (v0 y) >> enforce_equal (v1 x) (v1 y)) c (fun w _ => same w x y) (fun _ _ => True).
  Proof.
    intros Hs Hx Hy HV. pose proof Hs as (Hw & Ht & Hb).
    pose proof (n_canV c x y _ Hx Hy (hext_hon c) (HV _ Hb (hext_hon c))) as E.
    destruct Hx as [((X1 & X2) & [X3 X4] & X5) _], Hy as [((Y1 & Y2) & [Y3 Y4] & Y5) _].
    assert (L01 : hon c (v0 x) = hon c (v0 y) /\ hon c (v1 x) = hon c (v1 y)) by (eapply (fval_eq_limbs zval q nb L HF m rb); eauto).
    destruct L01 as [L0 L1].
    eapply x_then; [exact Hs|apply x_eq1; auto|]. intros c' Hs' Hl _ _.
    pose proof (hext_le _ _ _ _ Hs Hl (hext_hon c')) as Hh.
    destruct Hl as (d & _ & ->).
    eapply x_weaken; [apply x_eq1; [auto|cbn [capp num_vars]; lia..|]| |auto].
    - rewrite !Hh by auto. exact L1.
    - intros w [] _ H1 H0. split; auto.
  Qed.

  (** Sums. *)
  Lemma sum_can c c' o S : le c c' -> (forall w, hext c' w -> honest_sum zval m p0 p1 w (zval (S w)) o) ->
    fvout o (num_vars c') /\ fvok o -> can c' o.
  Proof.
    intros _ HV [H1 H2]. destruct (HV _ (hext_hon c')) as [S1 S2]. split; [split; auto|].
    rewrite S2. apply Z.mod_pos_bound; auto.
  Qed.
  Lemma x_add c x y : st c -> can c x -> can c y ->
    xs (mod_add zval q nb L x y (esplit p0 p1)) c (fun w o => small w x -> small w y -> rep w o (V w x + V w y)) (fun o c' => can c' o).
  Proof.
    intros Hs Hx Hy. pose proof Hs as (Hw & Ht & Hb). pose proof n_PM as HPM. pose proof n_M as HM. pose proof n_B as HB.
    pose proof (n_can_rng _ _ Hx) as Rx. pose proof (n_can_rng _ _ Hy) as Ry.
    destruct Hx as [(X1 & X2 & X3) _], Hy as [(Y1 & Y2 & Y3) _].
    assert (Es : forall w, zsum m w [x; y] = fZ (fval w x + fval w y)).
    { intro w. rewrite (zsum_vals zval q nb L HF). cbn [map zadd fold_right]. now rewrite Z.add_0_r. }
    assert (Ez : zval (zsum m (hon c) [x; y]) = (fval (hon c) x + fval (hon c) y)%Z) by (rewrite Es; apply (zval_Z zval q nb L HF); nia).
    pose proof (vec_honest_spec zval q nb L HF m rb Hm Hm2 Hrb Hrn Hmr HMq p0 p1 Hp0 Hp1 HP Hq Hrb2 [x; y] c Hw Ht
      ltac:(repeat constructor; [apply X1|apply X1|apply Y1|apply Y1]) ltac:(repeat constructor; [apply X2|apply X2|apply Y2|apply Y2]) ltac:(rewrite Ez; nia)) as Hv.
    assert (Hv' : vspec zval (mod_add zval q nb L x y (esplit p0 p1)) c (fun w o => is_sum m rb p0 p1 w (zsum m w [x; y]) o) (fun _ => True)
      (fun w o => honest_sum zval m p0 p1 w (zval (zsum m w [x; y])) o) (fun o n => fvout o n /\ fvok o)).
    { unfold vspec, wpc in *. rewrite (mod_add_eq zval q nb L m rb Hm Hm2 Hrb Hrn Hmr p0 p1 Hrb2 x y c Hw Ht X1 Y1 X2 Y2). exact Hv. }
    eapply x_weaken; [eapply (x_vspec _ _ _ _ _ _ (fun o c' => can c' o) Hs Hv')| |auto].
    - auto.
    - intros o c' Hl HV Ho. apply (sum_can c c' o (fun w => zsum m w [x; y])); auto.
    - intros w o Hbw (k & Hk & E) Sx Sy. pose proof (n_rng _ _ Sx). pose proof (n_rng _ _ Sy).
      exists (fval w x + fval w y - P * k)%Z. split; [|split].
      + rewrite E, Es, fZ_sub, fZ_mul. reflexivity.
      + unfold PlonkVerifierOps.V. rewrite fZ_sub, fZ_mul, fZ_add, n_frP. ring.
      + nia.
  Qed.
  Lemma x_addc c x e a : st c -> can c x -> evok m e (zr a) ->
    xs (mod_add_constant zval q nb L x e (esplit p0 p1)) c (fun w o => forall v, rep w x v -> rep2 w o (v + a)) (fun o c' => can c' o).
  Proof.
    intros Hs Hx He. pose proof Hs as (Hw & Ht & Hb). pose proof n_B as HB. pose proof n_PM as HPM. pose proof n_M as HM.
    pose proof (n_can_rng _ _ Hx) as Rx. pose proof (n_zr a) as Ra. pose proof (n_fzr a) as Ea. destruct He as (y0 & y1 & -> & Hy0 & Hy1 & Ey).
    destruct Hx as [(A1 & A2 & A3) A4].
    assert (Ez : zval (limbs_of (hon c) x + fZ (y0 + M * y1)) = (fval (hon c) x + (y0 + M * y1))%Z).
    { rewrite (fval_limbs zval q nb L HF), <- fZ_add. apply (zval_Z zval q nb L HF). nia. }
    pose proof (const_honest_spec zval q nb L HF m rb Hm Hm2 Hrb Hrn Hmr HMq p0 p1 Hp0 Hp1 HP Hq Hrb2 y0 y1 c x Hw Ht A1 A2) as Hv.
    rewrite Ez in Hv by auto. specialize (Hv ltac:(nia)).
    eapply x_weaken; [eapply (x_vspec _ _ _ _ _ _ (fun o c' => can c' o) Hs Hv)| |auto].
    - auto.
    - intros o c' Hl HV Ho. apply (sum_can c c' o (fun w => limbs_of w x + fZ (y0 + M * y1))); auto.
    - intros w o Hbw (k & Hk & E) v (Z & EZ & Ev & HZ). exists (Z + (y0 + M * y1) - P * k)%Z. split; [|split].
      + rewrite E, EZ, fZ_sub, fZ_mul, <- fZ_add. reflexivity.
      + rewrite fZ_sub, fZ_mul, fZ_add, n_frP, Ev, <- Ey, Ea. ring.
      + nia.
  Qed.

  (** Powers. *)
  Variable tmod : Z.
  Variable tbits : nat.
  Hypothesis Htm : tmod = P.
  Hypothesis Htb : (tbits < nb)%nat.
  Lemma fpow_11_Z z : (fZ (z ^ 11) : Fr) = fpow_N (fZ z) 11.
  Proof.
    replace (z ^ 11)%Z with (z * (z * (z * (z * (z * (z * (z * (z * (z * (z * z))))))))))%Z by ring. rewrite !fZ_mul. cbn. ring.
  Qed.
  Lemma x_pow11 c x : st c -> can c x ->
    xs (non_native_power_11_gen zval q nb L tmod x) c (fun w o => small w x -> small w o /\ V w o = fpow_N (V w x) 11) (fun o c' => can c' o).
  Proof.
    intros (Hw & Ht & Hb) Hx. pose proof (n_can_rng _ _ Hx) as Rx. pose proof n_PM as HPM.
    destruct Hx as [(A1 & A2 & A3) A4].
    assert (Hx' : ready zval m c x (fval (hon c) x)) by (split; auto).
    destruct (pow11_spec zval q nb L HF m rb Hm Hm2 Hrb Hrn Hmr HMq p0 p1 Hp0 Hp1 HP Hq Hrb2 tmod c x _ Hw Ht Hb Hx')
      as (o & d & E' & Pd & U1 & U2 & U3); [nia|auto|].
    exists o, d. do 2 (split; [assumption|]). split; [|split; auto].
    - intros w Hbw Hs Sx. destruct (U1 w Hbw Hs Sx) as [So Eo]. split; auto. unfold PlonkVerifierOps.V.
      rewrite (n_congr _ _ Eo). apply fpow_11_Z.
    - destruct U3 as (B1 & B2 & B3 & B4). split; [split; auto|]. rewrite B4. apply Z.mod_pos_bound; auto.
  Qed.
  Lemma can_out c x : can c x -> (v0 x < num_vars c)%nat /\ (v1 x < num_vars c)%nat.
  Proof. intros [(_ & H & _) _]. exact H. Qed.
  Lemma x_gate c x y : st c -> can c x -> can c y -> (forall w, base w -> hext c w -> V w y = fpow_N (V w x) 11) ->
    xs (non_native_power_11_gate zval q nb L tmod tbits x y) c (fun w _ => small w x -> small w y /\ V w y = fpow_N (V w x) 11) (fun _ _ => True).
  Proof.
    intros Hs Hx Hy HV. unfold non_native_power_11_gate. pose proof (can_out _ _ Hx) as [X0 X1]. pose proof (can_out _ _ Hy) as [Y0 Y1].
    apply x_chks; [repeat constructor; auto|]. destruct (Nat.leb_spec nb tbits); [lia|].
    eapply x_bind; [exact Hs|apply x_pow11; auto|]. intros r c' Hs' Hl Hr Hh.
    eapply x_weaken; [apply (x_eq c' y r); [exact Hs'|exact (n_can_le _ _ _ Hs Hl Hy)|exact Hr|]| |auto].
    - intros w Hbw Hw'. rewrite (HV w Hbw (hext_le _ _ _ _ Hs Hl Hw')). symmetry. apply Hh; auto. eapply can_small; [exact Hx|apply (hext_le _ _ _ _ Hs Hl Hw')].
    - intros w [] Hbw Hsm Hp Sx. destruct (Hp Sx) as [Sr Er].
      assert (Q : (small w y <-> small w r) /\ V w y = V w r) by (eapply same_small; eauto).
      destruct Q as [Q1 Q2]. split; [now apply Q1|congruence].
  Qed.

  Variable R : rescue_params Fr.
  Variable card : nat.
  Hypothesis Hcard : has_card Fr card.
  Hypothesis Hexp : ((rp_a R * limbs_N (rp_a_inv R)) mod N.of_nat (card - 1) = 1)%N.
  Hypothesis Ha11 : rp_a R = 11%N.
  Notation ainv := (limbs_N (rp_a_inv R)).
  Local Lemma n_inv (x y : Fr) : x = fpow_N y 11 <-> y = fpow_N x ainv.
  Proof. rewrite <- Ha11. apply (inv_iff R card); auto. Qed.
  Lemma x_inv c x : st c -> can c x ->
    xs (nn_pow_alpha_inv zval q nb L zr tmod tbits R x) c (fun w o => small w x /\ small w o /\ V w o = fpow_N (V w x) ainv) (fun o c' => can c' o).
  Proof.
    intros Hs Hx. pose proof (can_out _ _ Hx) as [X0 X1]. unfold nn_pow_alpha_inv. apply x_chks; [repeat constructor; auto|].
    rewrite Ha11. cbn [N.eqb Pos.eqb]. destruct (fwit_eq c x Hs (proj1 Hx)) as (a & Ea & Va). eapply x_pure; [exact Ea|].
    destruct Hx as [((X2 & X3) & X4) X5]. rewrite X2, X3.
    assert (Hx : can c x) by (split; [split; [split; auto|auto]|auto]). clear X2 X3 X4 X5.
    eapply x_bind; [exact Hs|apply x_hint; auto|]. intros o c1 Hs1 Hl1 [Ho Vo] _.
    pose proof (n_can_le _ _ _ Hs Hl1 Hx) as Hx1.
    eapply x_then; [exact Hs1|apply (x_gate c1 o x); auto|].
    - intros w Hbw Hh. rewrite (Vo w Hh), (Va w (hext_le _ _ _ _ Hs Hl1 Hh)). apply n_inv. reflexivity.
    - intros c2 Hs2 Hl2 _ _. apply x_ret; [|exact (n_can_le _ _ _ Hs1 Hl2 Ho)].
      intros w Hbw Hg So. destruct (Hg So) as [Sx E]. split; auto. split; auto. apply n_inv. exact E.
  Qed.
  Lemma x_pow11h c x (v : Fr) : st c -> can c x -> (forall w, hext c w -> V w x = v) ->
    xs (nn_pow_11 zval q nb L zr tmod tbits R m two (x, v)) c (fun w o => small w x -> small w o /\ V w o = fpow_N (V w x) 11) (fun o c' => can c' o).
  Proof.
    intros Hs Hx Hv. unfold nn_pow_11. cbn [fst snd]. rewrite Ha11.
    eapply x_bind; [exact Hs|apply x_hint; auto|]. intros f c1 Hs1 Hl1 [Hf Vf] _.
    pose proof (n_can_le _ _ _ Hs Hl1 Hx) as Hx1.
    eapply x_then; [exact Hs1|apply (x_gate c1 x f); auto|].
    - intros w Hbw Hh. rewrite (Vf w Hh), (Hv w (hext_le _ _ _ _ Hs Hl1 Hh)). reflexivity.
    - intros c2 Hs2 Hl2 _ _. apply x_ret; [|exact (n_can_le _ _ _ Hs1 Hl2 Hf)]. intros w Hbw Hg _ Sx. auto.
  Qed.

  (** ** States *)
  Ltac cle := match goal with Hs : PlonkVerifierOps.st _ ?c, Hl : le ?c ?c' |- PlonkVerifierOps.can _ _ _ _ ?c' ?x => apply (n_can_le c c' x Hs Hl); assumption end.
  Ltac q4 := (split; [|split; [|split]]); cbn [q0 q1 q2 q3 qzip qvec fst snd].
  Definition vl (w : nat -> K) (x : quad fv) : vec4 Fr := V4 (V w (q0 x)) (V w (q1 x)) (V w (q2 x)) (V w (q3 x)).
  Definition sm (w : nat -> K) (x : quad fv) : Prop := qall (small w) x.
  Definition reps (w : nat -> K) (x : quad fv) (v : vec4 Fr) : Prop := rep w (q0 x) (w0 v) /\ rep w (q1 x) (w1 v) /\ rep w (q2 x) (w2 v) /\ rep w (q3 x) (w3 v).
  Definition reps2 (w : nat -> K) (x : quad fv) (v : vec4 Fr) : Prop := rep2 w (q0 x) (w0 v) /\ rep2 w (q1 x) (w1 v) /\ rep2 w (q2 x) (w2 v) /\ rep2 w (q3 x) (w3 v).
  Definition nin (c : circuit K) (s : nns K) : Prop := qall (can c) (nst s) /\ nmod s = esplit p0 p1.
  Lemma reps_small w x : sm w x -> reps w x (vl w x).
  Proof. intros (S0 & S1 & S2 & S3). q4; cbn [vl w0 w1 w2 w3]; now apply rep_small. Qed.
  Lemma reps2_val w x v : reps2 w x v -> sm w x -> vl w x = v.
  Proof.
    intros (R0 & R1 & R2 & R3) (S0 & S1 & S2 & S3). unfold vl. destruct v as [a0 a1 a2 a3]; cbn [w0 w1 w2 w3] in *. f_equal; now apply rep2_val.
  Qed.
  Lemma qcan_le c c' x : st c -> le c c' -> qall (can c) x -> qall (can c') x.
  Proof. intros Hs Hl. apply qall_impl. intro a. apply n_can_le; auto. Qed.
  Lemma nin_le c c' s : st c -> le c c' -> nin c s -> nin c' s.
  Proof. intros Hs Hl [H E]. split; auto. eapply qcan_le; eauto. Qed.
  Lemma x_check {A} s (f : circ K A) c S R' : nin c s -> xs f c S R' -> xs (check_nns s >> f) c S R'.
  Proof.
    intros [(H0 & H1 & H2 & H3) _] H. apply x_chks; auto. cbn [check_nns qlist flat_map app].
    repeat apply Forall_cons; try apply Forall_nil; first [apply (can_out _ _ H0)|apply (can_out _ _ H1)|apply (can_out _ _ H2)|apply (can_out _ _ H3)].
  Qed.
  Lemma qfconst v c : exists es, mapM4 (fconst zval nb zr m two) (qvec v) c = (Ok es, c) /\ qall2 (fun a e => evok m e (zr a)) (qvec v) es.
  Proof. apply mapM4_pure. q4; apply fconst_eq. Qed.
  Lemma qfwit x c : st c -> qall (can c) x -> exists v, mapM4 (fwit zval) x c = (Ok v, c) /\ forall w, hext c w -> vl w x = vecq v.
  Proof.
    intros Hs (H0 & H1 & H2 & H3).
    destruct (mapM4_pure (fwit (Fr := Fr) zval) (fun x a => forall w, hext c w -> V w x = a) x c) as (v & E & (A0 & A1 & A2 & A3)).
    { q4; apply fwit_eq; auto; [apply H0|apply H1|apply H2|apply H3]. }
    exists v. split; auto. intros w Hh. unfold vl, vecq. now rewrite A0, A1, A2, A3.
  Qed.
  Lemma can_ok c x : can c x -> vm x = m /\ vtwo x = fZ M.
  Proof. intros [(H & _) _]. exact H. Qed.

  Lemma x_add_const s k c : st c -> nin c s ->
    xs (nn_add_constant_state zval q nb L zr s k) c (fun w o => forall v, reps w (nst s) v -> reps2 w (nst o) (v4_add v k)) (fun o c' => nin c' o).
  Proof.
    intros Hs Hn. unfold nn_add_constant_state. apply x_check; auto. destruct Hn as [Hc Em]. rewrite Em.
    destruct (can_ok _ _ (proj1 Hc)) as [E1 E2]. rewrite E1, E2.
    destruct (qfconst k c) as (es & Ee & (G0 & G1 & G2 & G3)). eapply x_pure; [exact Ee|].
    destruct Hc as (C0 & C1 & C2 & C3).
    eapply x_bind; [exact Hs| |].
    - apply (x_map4 _ (fun xe w o => forall a v, evok m (snd xe) (zr a) -> rep w (fst xe) v -> rep2 w o (v + a)) (fun _ o c' => can c' o)); auto.
      + intros _ o c' c''. apply n_can_le.
      + assert (Q : forall x e a, evok m e (zr a) -> can c x -> forall c', st c' -> le c c' ->
          xs (mod_add_constant zval q nb L x e (esplit p0 p1)) c' (fun w o => forall a v, evok m e (zr a) -> rep w x v -> rep2 w o (v + a)) (fun o c' => can c' o)).
        { intros x e a He Hx c' Hs' Hl. eapply x_weaken; [apply (x_addc c' x e a); auto; exact (n_can_le _ _ _ Hs Hl Hx)| |auto].
          intros w o _ H a' v He' Hr. replace a' with a; [auto|].
          rewrite <- (n_fzr a), <- (n_fzr a'). f_equal. 
          destruct He as (u0 & u1 & Eu & U0 & U1 & ->), He' as (t0 & t1 & Et & T0 & T1 & ->). rewrite Eu in Et. injection Et as F0 F1.
          pose proof n_M. apply (fZ_inj_small zval q nb L HF) in F0; [|nia]. apply (fZ_inj_small zval q nb L HF) in F1; [|nia]. congruence. }
        q4; eapply Q; eauto.
    - intros o c1 Hs1 Hl1 Ho _. apply x_ret; [|split; [exact Ho|reflexivity]].
      intros w _ (D0 & D1 & D2 & D3) v (R0 & R1 & R2 & R3). cbn [nst]. cbn [qzip q0 q1 q2 q3 fst snd] in *.
      q4; cbn [v4_add w0 w1 w2 w3]; eauto.
  Qed.
  Lemma x_inv_state s c : st c -> nin c s ->
    xs (nn_pow_alpha_inv_state zval q nb L zr tmod tbits R s) c (fun w o => sm w (nst s) /\ sm w (nst o) /\ vl w (nst o) = v4_pow (vl w (nst s)) ainv) (fun o c' => nin c' o).
  Proof.
    intros Hs Hn. unfold nn_pow_alpha_inv_state. apply x_check; auto. destruct Hn as [(C0 & C1 & C2 & C3) Em].
    eapply x_bind; [exact Hs| |].
    - apply (x_map4 _ (fun x w o => small w x /\ small w o /\ V w o = fpow_N (V w x) ainv) (fun _ o c' => can c' o)); auto.
      + intros _ o c' c''. apply n_can_le.
      + q4; intros c' Hs' Hl; (apply x_inv; [assumption|cle]).
    - intros o c1 Hs1 Hl1 Ho _. apply x_ret; [|split; [exact Ho|exact Em]].
      intros w _ ((D0 & F0 & G0) & (D1 & F1 & G1) & (D2 & F2 & G2) & (D3 & F3 & G3)). cbn [nst].
      split; [q4; assumption|]. split; [q4; assumption|].
      unfold vl, v4_pow. cbn [w0 w1 w2 w3]. now rewrite G0, G1, G2, G3.
  Qed.

  (** One row of the linear layer. *)
  Lemma linear_val (w : nat -> K) (xsl : list fv) (ks : list Z) y0 y1 o :
    is_linear m rb p0 p1 y0 y1 w (combine (map (fval w) xsl) ks) o -> length xsl = 4%nat -> length ks = 4%nat -> small w o -> (0 <= y0 + M * y1 < P)%Z ->
    V w o = fsum (map (fun xk => V w (fst xk) * fZ (snd xk)) (combine xsl ks)) + fZ (y0 + M * y1).
  Proof.
    intros (zs & k & Hz & Hk & E) L1 L2 So Hy. pose proof (n_rng _ _ So) as Ro. pose proof n_PM. pose proof n_B. pose proof n_M.
    assert (Lz : length zs = 4%nat).
    { assert (length zs = length (combine (map (fval w) xsl) ks)) by (clear -Hz; induction Hz; cbn; auto). rewrite combine_length, map_length in *. lia. }
    assert (Bz : (0 <= zadd zs <= Z.of_nat (length zs) * (M * M))%Z).
    { apply zadd_le. clear -Hz. induction Hz as [|z xe l l' [H _] _ IH]; constructor; auto. }
    rewrite (fval_limbs zval q nb L HF) in E. apply (fZ_inj_small zval q nb L HF) in E; [|rewrite Lz in Bz; assert (B * P <= B * (M * M))%Z by nia; nia].
    unfold PlonkVerifierOps.V at 1. rewrite E, fZ_sub, fZ_add, fZ_mul, n_frP.
    assert (Es : (fZ (zadd zs) : Fr) = fsum (map (fun xk => V w (fst xk) * fZ (snd xk)) (combine xsl ks))).
    { rewrite fr_zadd. f_equal. pose proof n_congr as nc. clear -Hz nc. revert zs ks Hz. induction xsl as [|x xsl IH]; intros zs [|k0 ks] Hz; cbn [map combine] in *; try (inversion Hz; reflexivity).
      inversion Hz as [|z ? zs' ? [_ Hc] Hz']; subst. cbn [map fst snd] in *. f_equal; [|auto].
      rewrite (nc _ _ Hc), fZ_mul. reflexivity. }
    rewrite Es. ring.
  Qed.
  Lemma x_row (s : quad fv) row e (k : Fr) o c : st c -> qall (can c) s -> evok m e (zr k) -> can c o ->
    (forall w, base w -> hext c w -> V w o = v4_dot row (vl w s) + k) ->
    xs (nn_row zval q nb L zr tmod tbits s m two row e o) c (fun w _ => sm w s -> small w o -> V w o = v4_dot row (vl w s) + k) (fun _ _ => True).
  Proof.
    intros Hs Hc He Ho HV. pose proof Hs as (Hw & Ht & Hb). unfold nn_row. destruct (qfconst row c) as (es & Ee & (G0 & G1 & G2 & G3)). eapply x_pure; [exact Ee|].
    destruct He as (y0 & y1 & -> & Hy0 & Hy1 & Ey). pose proof (n_zr k) as Rk. pose proof (n_fzr k) as Ek. rewrite Ey in Rk, Ek.
    pose proof n_PM. pose proof n_B.
    set (XE := [(fval (hon c) (q0 s), zr (w0 row)); (fval (hon c) (q1 s), zr (w1 row)); (fval (hon c) (q2 s), zr (w2 row)); (fval (hon c) (q3 s), zr (w3 row))]).
    assert (Hr : forall x, can c x -> ready zval m c x (fval (hon c) x)) by (intros x [(H1 & H2 & H3) _]; split; auto).
    assert (Hlt : forall x a, can c x -> (fval (hon c) x * zr a < M * M * P)%Z) by (intros x a Hx; pose proof (n_can_rng _ _ Hx); pose proof (n_zr a); nia).
    assert (HF2 : Forall2 (fun (xe : fv * felem (K := K)) (z : Z * Z) => ready zval m c (fst xe) (fst z) /\ evok m (snd xe) (snd z) /\ (fst z * snd z < M * M * P)%Z)
      (combine (qlist s) (qlist es)) XE).
    { destruct Hc as (C0 & C1 & C2 & C3). unfold qlist, XE. cbn [combine qvec q0 q1 q2 q3] in *. repeat apply Forall2_cons; try apply Forall2_nil; cbn [fst snd]; auto. }
    assert (Q : xs (non_native_linear_gen zval q nb L tmod tbits (qlist s) (qlist es) (esplit y0 y1)) c
      (fun w r => sm w s -> small w r -> V w r = v4_dot row (vl w s) + k) (fun r c' => can c' r)).
    { eapply x_weaken; [apply (linear_spec zval q nb L HF m rb Hm Hm2 Hrb Hrn Hmr HMq p0 p1 Hp0 Hp1 HP Hq Hrb2 y0 y1 tmod tbits c (qlist s) (qlist es) XE); auto| |].
      - lia.
      - cbn [length qlist]. assert (2 ^ 3 <= B)%Z by (apply Z.pow_le_mono_r; lia). lia.
      - intros w r _ Hl Hsm So. destruct Hsm as (S0 & S1 & S2 & S3).
        rewrite (linear_val w (qlist s) (map snd XE) y0 y1 r); auto.
        + unfold v4_dot, vl, qlist, XE. cbn [map snd combine fst w0 w1 w2 w3]. rewrite !fsum_cons, !n_fzr, Ek. change (fsum ([] : list Fr)) with (0 : Fr). ring.
        + apply Hl. repeat constructor; apply S0 || apply S1 || apply S2 || apply S3.
      - intros r c' _ (D1 & D2 & D3 & D4). split; [split; auto|]. rewrite D4. apply Z.mod_pos_bound; auto. }
    eapply x_bind; [exact Hs|exact Q|]. intros r c1 Hs1 Hl1 Hr1 Hh1.
    eapply x_weaken; [apply (x_eq c1 o r); [exact Hs1|exact (n_can_le _ _ _ Hs Hl1 Ho)|exact Hr1|]| |auto].
    - intros w Hbw Hh. rewrite (HV w Hbw (hext_le _ _ _ _ Hs Hl1 Hh)). symmetry. apply Hh1; auto.
      + destruct Hc as (C0 & C1 & C2 & C3). pose proof (hext_le _ _ _ _ Hs Hl1 Hh) as Hh'. q4; apply (n_can_small c w _); assumption.
      + apply (n_can_small c1 w _); assumption.
    - intros w [] _ Hsm HR Ss So. assert (Qs : (small w o <-> small w r) /\ V w o = V w r) by (eapply same_small; eauto).
      destruct Qs as [Q1 Q2]. rewrite Q2. apply HR; auto. now apply Q1.
  Qed.

  (** ** The layers *)
  Lemma vl_sm c w x : qall (can c) x -> hext c w -> sm w x.
  Proof. intros (C0 & C1 & C2 & C3) Hh. q4; apply (n_can_small c w _); assumption. Qed.
  Lemma x_affine s mat k c : st c -> nin c s ->
    xs (nn_affine_transform zval q nb L zr tmod tbits s mat k) c
      (fun w o => sm w (nst s) -> sm w (nst o) /\ vl w (nst o) = linear (vl w (nst s)) mat k) (fun o c' => nin c' o).
  Proof.
    intros Hs Hn. unfold nn_affine_transform. apply x_check; auto. destruct Hn as [Hc Em].
    destruct (can_ok _ _ (proj1 Hc)) as [E1 E2]. rewrite E1, E2. cbn zeta.
    destruct (qfwit (nst s) c Hs Hc) as (v & Ev & Vv). eapply x_pure; [exact Ev|].
    destruct (qfconst k c) as (es & Ee & (G0 & G1 & G2 & G3)). eapply x_pure; [exact Ee|].
    eapply x_bind; [exact Hs| |].
    - apply (x_map4 _ (fun (_ : Fr) w o => small w o) (fun a o c' => can c' o /\ forall w, hext c' w -> V w o = a)); [exact Hs| |].
      + intros a o c' c'' Hs' Hl [H1 H2]. split; [exact (n_can_le _ _ _ Hs' Hl H1)|]. intros w Hh. apply H2. exact (hext_le _ _ _ _ Hs' Hl Hh).
      + q4; intros c' Hs' _; now apply x_hint.
    - intros o c1 Hs1 Hl1 ((O0 & U0) & (O1 & U1) & (O2 & U2) & (O3 & U3)) _. cbn [qvec q0 q1 q2 q3] in *.
      pose proof (qcan_le _ _ _ Hs Hl1 Hc) as Hc1.
      assert (Vo : forall w, hext c1 w -> vl w o = linear (vl w (nst s)) mat k).
      { intros w Hh. rewrite (Vv w (hext_le _ _ _ _ Hs Hl1 Hh)). unfold vl. now rewrite U0, U1, U2, U3. }
      assert (QR : forall row e k0 o0, evok m e (zr k0) -> can c1 o0 -> (forall w, hext c1 w -> V w o0 = v4_dot row (vl w (nst s)) + k0) ->
        forall c', st c' -> le c1 c' -> xs (nn_row zval q nb L zr tmod tbits (nst s) m two row e o0) c'
          (fun w _ => sm w (nst s) -> small w o0 -> V w o0 = v4_dot row (vl w (nst s)) + k0) (fun _ _ => True)).
      { intros row e k0 o0 He Ho HV c' Hs' Hl'. apply x_row; auto; [exact (qcan_le _ _ _ Hs1 Hl' Hc1)|exact (n_can_le _ _ _ Hs1 Hl' Ho)|].
        intros w Hbw Hh. apply HV. exact (hext_le _ _ _ _ Hs1 Hl' Hh). }
      assert (Vo' : forall w, hext c1 w -> V w (q0 o) = w0 (linear (vl w (nst s)) mat k) /\ V w (q1 o) = w1 (linear (vl w (nst s)) mat k) /\
        V w (q2 o) = w2 (linear (vl w (nst s)) mat k) /\ V w (q3 o) = w3 (linear (vl w (nst s)) mat k)).
      { intros w Hh. rewrite <- (Vo w Hh). repeat split; reflexivity. }
      unfold mapM4. cbn [qzip qrows q0 q1 q2 q3 fst snd].
      eapply x_bind with (S1 := fun w _ => sm w (nst s) -> sm w o -> vl w o = linear (vl w (nst s)) mat k) (R1 := fun _ _ => True); [exact Hs1| |].
      + eapply x_bind; [exact Hs1|apply (QR _ _ (w0 k)); [exact G0|exact O0|intros w Hh; apply (Vo' w Hh)|exact Hs1|apply le_refl]|].
        intros u1 d1 Ts1 Tl1 _ _.
        eapply x_bind; [exact Ts1|apply (QR _ _ (w1 k)); [exact G1|exact O1|intros w Hh; apply (Vo' w Hh)|exact Ts1|exact Tl1]|].
        intros u2 d2 Ts2 Tl2 _ _. pose proof (le_trans _ _ _ Tl1 Tl2) as Tl2'.
        eapply x_bind; [exact Ts2|apply (QR _ _ (w2 k)); [exact G2|exact O2|intros w Hh; apply (Vo' w Hh)|exact Ts2|exact Tl2']|].
        intros u3 d3 Ts3 Tl3 _ _. pose proof (le_trans _ _ _ Tl2' Tl3) as Tl3'.
        eapply x_bind; [exact Ts3|apply (QR _ _ (w3 k)); [exact G3|exact O3|intros w Hh; apply (Vo' w Hh)|exact Ts3|exact Tl3']|].
        intros u4 d4 Ts4 Tl4 _ _. apply x_ret; auto.
        intros w _ H3 H2 H1 H0 Ss So. destruct So as (P0 & P1 & P2 & P3).
        unfold linear, v4_add, mul_vec. cbn [w0 w1 w2 w3]. rewrite <- (H0 Ss P0), <- (H1 Ss P1), <- (H2 Ss P2), <- (H3 Ss P3). reflexivity.
      + intros u5 c2 Hs2 Hl2 _ _. apply x_ret.
        * intros w _ H So Ss. split; [exact So|]. apply H; [exact Ss|exact So].
        * split; [|exact Em]. apply (qcan_le c1 c2 _ Hs1 Hl2). split; [|split; [|split]]; assumption.
  Qed.
  Lemma x_non_linear s mat k c : st c -> nin c s ->
    xs (nn_non_linear_transform zval q nb L zr tmod tbits R s mat k) c
      (fun w o => sm w (nst s) -> sm w (nst o) /\ vl w (nst o) = linear (v4_pow (vl w (nst s)) 11) mat k) (fun o c' => nin c' o).
  Proof.
    intros Hs Hn. unfold nn_non_linear_transform. apply x_check; auto. destruct Hn as [Hc Em].
    destruct (can_ok _ _ (proj1 Hc)) as [E1 E2]. rewrite E2, Em.
    destruct (qfwit (nst s) c Hs Hc) as (v & Ev & Vv). eapply x_pure; [exact Ev|].
    rewrite Ha11. cbn [N.eqb Pos.eqb]. change (em (esplit p0 p1)) with m.
    assert (Vv' : forall w, hext c w -> V w (q0 (nst s)) = q0 v /\ V w (q1 (nst s)) = q1 v /\ V w (q2 (nst s)) = q2 v /\ V w (q3 (nst s)) = q3 v).
    { intros w Hh. pose proof (Vv w Hh) as E. unfold vl, vecq in E. injection E as F0 F1 F2 F3. auto. }
    eapply x_bind; [exact Hs| |].
    - apply (x_map4 _ (fun (xv : fv * Fr) w o => small w (fst xv) -> small w o /\ V w o = fpow_N (V w (fst xv)) 11) (fun _ o c' => can c' o)); [exact Hs| |].
      + intros _ o c' c''. apply n_can_le.
      + destruct Hc as (C0 & C1 & C2 & C3).
        q4; intros c' Hs' Hl; (apply x_pow11h; [exact Hs'|cle|intros w Hh; apply (Vv' w (hext_le _ _ _ _ Hs Hl Hh))]).
    - intros o c1 Hs1 Hl1 (O0 & O1 & O2 & O3) _.
      eapply x_weaken; [apply (x_affine (NNS o (esplit p0 p1)) mat k c1 Hs1); split; [q4; assumption|reflexivity]| |auto].
      intros w r _ HA (D0 & D1 & D2 & D3) (S0 & S1 & S2 & S3). cbn [qzip q0 q1 q2 q3 fst snd nst] in *.
      destruct (D0 S0) as [T0 F0], (D1 S1) as [T1 F1], (D2 S2) as [T2 F2], (D3 S3) as [T3 F3].
      destruct HA as [HA1 HA2]; [q4; assumption|]. split; [exact HA1|]. rewrite HA2. f_equal.
      unfold vl, v4_pow. cbn [w0 w1 w2 w3]. now rewrite F0, F1, F2, F3.
  Qed.
  Lemma x_round r s k c : st c -> nin c s ->
    xs (nn_round zval q nb L zr tmod tbits R r s k) c
      (fun w o => (r mod 2 = 0)%nat \/ sm w (nst s) -> sm w (nst s) /\ sm w (nst o) /\ vl w (nst o) = linear (v4_pow (vl w (nst s)) (round_exp R r)) (rp_mds R) k)
      (fun o c' => nin c' o).
  Proof.
    intros Hs Hn. unfold nn_round, round_exp. destruct (Nat.eqb_spec (r mod 2) 0) as [E|E].
    - eapply x_bind; [exact Hs|apply x_inv_state; auto|]. intros t c1 Hs1 Hl1 Ht _.
      eapply x_weaken; [apply (x_affine t _ _ c1 Hs1 Ht)| |auto].
      intros w o _ HA (S1 & S2 & E2) _. destruct (HA S2) as [S3 E3]. split; [exact S1|]. split; [exact S3|]. now rewrite E3, E2.
    - rewrite Ha11. eapply x_weaken; [apply (x_non_linear s _ _ c Hs Hn)| |auto].
      intros w o _ HA [H|Ss]; [congruence|]. split; [exact Ss|]. now apply HA.
  Qed.
  Lemma x_const_rounds keys : forall r s c, st c -> nin c s ->
    xs (nn_const_rounds zval q nb L zr tmod tbits R r keys s) c
      (fun w o => sm w (nst s) -> sm w (nst o) /\ vl w (nst o) = prp_rounds R r keys (vl w (nst s))) (fun o c' => nin c' o).
  Proof.
    induction keys as [|k keys IH]; intros r s c Hs Hn; cbn [nn_const_rounds prp_rounds].
    - apply x_ret; auto.
    - eapply x_bind; [exact Hs|apply (x_round r s k c Hs Hn)|]. intros t c1 Hs1 Hl1 Ht _.
      eapply x_weaken; [apply (IH (S r) t c1 Hs1 Ht)| |auto].
      intros w o _ HA HR Ss. destruct (HR (or_intror Ss)) as (_ & S2 & E2). destruct (HA S2) as [S3 E3]. split; [exact S3|]. now rewrite E3, E2.
  Qed.
  Hypothesis Hkeys : length (rp_keys R) = (2 * ROUNDS + 1)%nat.
  Hypothesis Hinj : length (rp_inject R) = (2 * ROUNDS)%nat.
  Lemma x_permutation s c : st c -> nin c s ->
    xs (nn_permutation zval q nb L zr tmod tbits R s) c
      (fun w o => forall v, reps w (nst s) v -> sm w (nst o) /\ vl w (nst o) = peval_v Fr R v) (fun o c' => nin c' o).
  Proof.
    intros Hs Hn. unfold nn_permutation, nn_permutation_keys. rewrite Hkeys. cbn [negb Nat.eqb Nat.add Nat.mul ROUNDS].
    destruct (rp_keys R) as [|k0 keys] eqn:Ek; [discriminate Hkeys|].
    eapply x_pure; [reflexivity|]. cbn [tl].
    eapply x_bind; [exact Hs|apply (x_add_const s k0 c Hs Hn)|]. intros t c1 Hs1 Hl1 Ht _.
    destruct keys as [|k1 keys]; [discriminate Hkeys|]. cbn [nn_const_rounds].
    eapply x_bind; [exact Hs1|apply (x_round 0 t k1 c1 Hs1 Ht)|]. intros u c2 Hs2 Hl2 Hu _.
    eapply x_weaken; [apply (x_const_rounds keys 1 u c2 Hs2 Hu)| |auto].
    intros w o _ HA HR HC v Hv. destruct (HR (or_introl eq_refl)) as (S1 & S2 & E2). destruct (HA S2) as [S3 E3]. split; [exact S3|].
    rewrite E3, E2, (reps2_val _ _ _ (HC v Hv) S1).
    unfold peval_v, perm_eval, prp_with_round_keys. rewrite Ek. rewrite Hkeys. reflexivity.
  Qed.

  (** ** Sponges *)
  Lemma fe_refl e : felem_eqb (K := K) e e = true.
  Proof. unfold felem_eqb. rewrite !feqb_refl, Nat.eqb_refl. reflexivity. Qed.
  Lemma x_add_state s t c : st c -> nin c s -> nin c t ->
    xs (nn_add_state zval q nb L s t) c
      (fun w o => sm w (nst s) -> sm w (nst t) -> reps w (nst o) (v4_add (vl w (nst s)) (vl w (nst t)))) (fun o c' => nin c' o).
  Proof.
    intros Hs Hn Ht. unfold nn_add_state. apply x_check; auto. apply x_check; auto. destruct Hn as [(C0 & C1 & C2 & C3) Em], Ht as [(D0 & D1 & D2 & D3) Em'].
    rewrite Em, Em', fe_refl. cbn [negb].
    eapply x_bind; [exact Hs| |].
    - apply (x_map4 _ (fun (xy : fv * fv) w o => small w (fst xy) -> small w (snd xy) -> rep w o (V w (fst xy) + V w (snd xy))) (fun _ o c' => can c' o)); [exact Hs| |].
      + intros _ o c' c''. apply n_can_le.
      + q4; intros c' Hs' Hl; (apply x_add; [exact Hs'|cle|cle]).
    - intros o c1 Hs1 Hl1 Ho _. apply x_ret; [|split; [exact Ho|reflexivity]].
      intros w _ (H0 & H1 & H2 & H3) (S0 & S1 & S2 & S3) (T0 & T1 & T2 & T3). cbn [nst qzip q0 q1 q2 q3 fst snd] in *.
      q4; cbn [vl v4_add w0 w1 w2 w3]; auto.
  Qed.
  Notation zerov := (fvar_zero m two).
  Notation onev := (fvar_one m two).
  Lemma zv_01 : zval 0 = 0%Z /\ zval 1 = 1%Z.
  Proof.
    pose proof n_M as HM. pose proof n_B as HB. split.
    - change (0 : K) with (fZ 0 : K). apply (zval_Z zval q nb L HF). nia.
    - rewrite <- fZ_1. apply (zval_Z zval q nb L HF). nia.
  Qed.
  Lemma val_01 w : base w -> (small w zerov /\ V w zerov = 0) /\ small w onev /\ V w onev = 1.
  Proof.
    intros [B0 B1]. pose proof n_M as HM. destruct zv_01 as [E0 E1].
    assert (Z0 : zval (w 0%nat) = 0%Z) by now rewrite B0. assert (Z1 : zval (w 1%nat) = 1%Z) by now rewrite B1.
    split; (split; [unfold ModArithProofs.small|unfold PlonkVerifierOps.V, ModArithProofs.fval]); cbn [v0 v1 fvar_zero fvar_one]; rewrite ?Z0, ?Z1; try lia; rewrite Z.mul_0_r, Z.add_0_r; [reflexivity|apply fZ_1].
  Qed.
  Lemma can_01 c : st c -> can c zerov /\ can c onev.
  Proof.
    intros (Hw & Ht & Hbs). pose proof Hbs as [B0 B1]. pose proof n_M as HM. pose proof (wf_two _ Hw). destruct zv_01 as [E0 E1].
    assert (Z0 : zval (hon c 0%nat) = 0%Z) by now rewrite B0. assert (Z1 : zval (hon c 1%nat) = 1%Z) by now rewrite B1.
    assert (HP1 : (1 < P)%Z).
    { destruct (Z.eq_dec P 1) as [E|]; [|lia]. exfalso. apply (f1_neq_0 Fr). rewrite <- fZ_1, <- E. apply n_frP. }
    destruct (val_01 _ Hbs) as [[S0 _] [S1 _]].
    split; (split; [split; [split; reflexivity|split; [split; cbn [v0 v1 fvar_zero fvar_one]; lia|assumption]]|]); unfold ModArithProofs.fval; cbn [v0 v1 fvar_zero fvar_one]; rewrite ?Z0, ?Z1; lia.
  Qed.
  Lemma fmod_eq c : fmod zval nb tmod m two c = (Ok (esplit p0 p1), c).
  Proof.
    pose proof n_PM. destruct (vconst_eq zval q nb L HF m rb Hm Hm2 Hrb Hrn Hmr HMq p0 p1 two eq_refl P c ltac:(lia)) as (e & E & (y0 & y1 & -> & Hy0 & Hy1 & Ey)).
    unfold fmod. rewrite Htm.
    assert (EP : p0 = y0 /\ p1 = y1) by (apply (limb_uniq nb m rb Hm Hm2 Hrb Hrn Hmr Hrb2); auto). destruct EP as [<- <-]. exact E.
  Qed.
  Notation V' := PlonkVerifierOps.V.
  Notation vmap w := (map (V w)).
  Notation perm := (nn_permutation zval q nb L zr tmod tbits R).
  Definition bin (c : circuit K) (n : nat) (b : list fv) : Prop := length b = n /\ Forall (can c) b.
  Lemma x_block3 b c : st c -> bin c 3 b -> exists x, nn_block3 zerov b c = (Ok x, c) /\ qall (can c) x /\
    forall w, base w -> Forall (small w) b -> sm w x /\ vl w x = v4_add_elems v4_zero (vmap w b).
  Proof.
    intros Hs [El Hb]. destruct b as [|x [|y [|z [|? ?]]]]; try discriminate El.
    inversion_clear Hb as [|? ? Bx Hb1]. inversion_clear Hb1 as [|? ? By Hb2]. inversion_clear Hb2 as [|? ? Bz _].
    exists (Q4 x y z zerov). split; [reflexivity|]. split; [q4; auto; now apply can_01|].
    intros w Hbw HS. inversion_clear HS as [|? ? Sx S1]. inversion_clear S1 as [|? ? Sy S2]. inversion_clear S2 as [|? ? Sz _].
    destruct (val_01 w Hbw) as [[S0 V0] _]. split; [q4; assumption|].
    unfold vl, v4_add_elems, v4_zero. cbn [q0 q1 q2 q3 w0 w1 w2 w3 map nth]. rewrite V0. f_equal; ring.
  Qed.
  Lemma x_block4 b c : st c -> bin c 4 b -> exists x, nn_block4 b c = (Ok x, c) /\ qall (can c) x /\
    forall w, base w -> Forall (small w) b -> sm w x /\ vl w x = v4_add_elems v4_zero (vmap w b).
  Proof.
    intros Hs [El Hb]. destruct b as [|x [|y [|z [|t [|? ?]]]]]; try discriminate El.
    inversion_clear Hb as [|? ? Bx Hb1]. inversion_clear Hb1 as [|? ? By Hb2]. inversion_clear Hb2 as [|? ? Bz Hb3]. inversion_clear Hb3 as [|? ? Bt _].
    exists (Q4 x y z t). split; [reflexivity|]. split; [q4; auto|].
    intros w Hbw HS. inversion_clear HS as [|? ? Sx S1]. inversion_clear S1 as [|? ? Sy S2]. inversion_clear S2 as [|? ? Sz S3]. inversion_clear S3 as [|? ? St _].
    split; [q4; assumption|].
    unfold vl, v4_add_elems, v4_zero. cbn [q0 q1 q2 q3 w0 w1 w2 w3 map nth]. f_equal; ring.
  Qed.
  Lemma x_absorb rate (blk : list fv -> circ K (quad fv)) :
    (forall b c, st c -> bin c rate b -> exists x, blk b c = (Ok x, c) /\ qall (can c) x /\
       forall w, base w -> Forall (small w) b -> sm w x /\ vl w x = v4_add_elems v4_zero (vmap w b)) ->
    forall cs s c, st c -> nin c s -> Forall (bin c rate) cs ->
    xs (nn_absorb zval q nb L zr tmod tbits R blk (esplit p0 p1) s cs) c
      (fun w o => sm w (nst s) -> Forall (Forall (small w)) cs -> sm w (nst o) /\ vl w (nst o) = absorb_v Fr R (map (vmap w) cs) (vl w (nst s))) (fun o c' => nin c' o).
  Proof.
    intros Hblk. induction cs as [|b cs IH]; intros s c Hs Hn Hc; unfold nn_absorb; cbn [foldM map].
    - apply x_ret; auto.
    - inversion_clear Hc as [|? ? Hc0 Hcs]. destruct (Hblk b c Hs Hc0) as (x & Ex & Cx & Vx).
      eapply x_bind with (S1 := fun w t => sm w (nst s) -> Forall (small w) b -> sm w (nst t) /\ vl w (nst t) = peval_v Fr R (v4_add_elems (vl w (nst s)) (vmap w b))) (R1 := fun o c' => nin c' o); [exact Hs| |].
      + eapply x_pure; [exact Ex|]. eapply x_bind; [exact Hs|apply (x_add_state s (NNS x (esplit p0 p1)) c Hs Hn); split; [exact Cx|reflexivity]|].
        intros u c1 Hs1 Hl1 Hu _. eapply x_weaken; [apply (x_permutation u c1 Hs1 Hu)| |auto].
        intros w o Hbw HP' HA Ss Sb. destruct (Vx w Hbw Sb) as [Sx Ex']. rewrite <- (add_elems_split (vl w (nst s))), <- Ex'. apply HP'. apply HA; auto.
      + intros t c1 Hs1 Hl1 Ht _. eapply x_weaken; [apply (IH t c1 Hs1 Ht)| |auto].
        * eapply Forall_impl; [|exact Hcs]. intros b' [E1 E2]. split; [exact E1|]. eapply Forall_impl; [|exact E2]. intro y. apply n_can_le; auto.
        * intros w o Hbw HI H1 Ss Sc. inversion_clear Sc as [|? ? Sb Scs]. destruct (H1 Ss Sb) as [S1 E1]. destruct (HI S1 Scs) as [S2 E2].
          split; [exact S2|]. rewrite E2, E1. reflexivity.
  Qed.
  Lemma sm_all w x : sm w x -> Forall (small w) (qlist x).
  Proof. intros (S0 & S1 & S2 & S3). unfold qlist. repeat apply Forall_cons; try apply Forall_nil; assumption. Qed.
  Lemma x_squeeze fuel : forall n s c, (n < fuel)%nat -> st c -> nin c s ->
    xs (nn_squeeze zval q nb L zr tmod tbits R fuel n s) c
      (fun w o => sm w (nst s) -> Forall (small w) o /\ vmap w o = sq_v R fuel n (vl w (nst s))) (fun o c' => Forall (can c') o /\ length o = n).
  Proof.
    induction fuel as [|fuel IH]; intros n s c Hn Hs Hi; [lia|]. cbn [nn_squeeze sq_v].
    assert (El : length (firstn (Nat.min n CRHF_RATE) (qlist (nst s))) = Nat.min n CRHF_RATE).
    { rewrite firstn_length. unfold qlist, CRHF_RATE. cbn [length]. lia. }
    assert (HC : Forall (can c) (firstn (Nat.min n CRHF_RATE) (qlist (nst s)))).
    { destruct Hi as [(C0 & C1 & C2 & C3) _]. apply Forall_firstn. unfold qlist. repeat apply Forall_cons; try apply Forall_nil; assumption. }
    assert (HV : forall w, vmap w (firstn (Nat.min n CRHF_RATE) (qlist (nst s))) = firstn (Nat.min n CRHF_RATE) (v4_elems (vl w (nst s)))) by (intro w; now rewrite <- firstn_map).
    destruct (Nat.eqb_spec (n - Nat.min n CRHF_RATE) 0) as [H0|H0].
    - apply x_ret; [|split; [exact HC|rewrite El; lia]]. intros w _ Ss. split; [apply Forall_firstn, sm_all, Ss|apply HV].
    - eapply x_bind; [exact Hs|apply (x_permutation s c Hs Hi)|]. intros t c1 Hs1 Hl1 Ht _.
      eapply x_bind; [exact Hs1|apply (IH (n - Nat.min n CRHF_RATE)%nat t c1); [unfold CRHF_RATE in *; lia|exact Hs1|exact Ht]|].
      intros more c2 Hs2 Hl2 [Hc2 E2] _. apply x_ret.
      + intros w _ HI HP' Ss. destruct (HP' _ (reps_small _ _ Ss)) as [S1 E1]. destruct (HI S1) as [S2 E3].
        split; [apply Forall_app; split; [apply Forall_firstn, sm_all, Ss|exact S2]|]. rewrite map_app, HV, E3, E1. reflexivity.
      + split; [apply Forall_app; split; [|exact Hc2]|rewrite app_length, El, E2; lia].
        eapply Forall_impl; [|exact HC]. intros y Hy. apply (n_can_le c1 c2 y Hs1 Hl2). apply (n_can_le c c1 y Hs Hl1 Hy).
  Qed.
  Lemma small_chunks n w l : (1 <= n)%nat -> Forall (small w) l -> Forall (Forall (small w)) (chunks n l).
  Proof.
    intros Hn. remember (length l) as k eqn:Ek. revert l Ek. induction k as [k IH] using lt_wf_ind. intros l Ek Hl.
    destruct l as [|x l']; [rewrite chunks_nil; constructor|]. rewrite chunks_cons by (auto; discriminate). constructor; [apply Forall_firstn; exact Hl|].
    eapply IH; [|reflexivity|apply Forall_skipn; exact Hl]. rewrite skipn_length. cbn [length] in *. lia.
  Qed.
  Lemma x_sponge data num c : st c -> Forall (can c) data -> data <> [] -> (length data mod 3 = 0)%nat ->
    xs (nn_sponge_no_padding zval q nb L zr tmod tbits R data num) c
      (fun w o => Forall (small w) data -> Forall (small w) o /\ Ok (vmap w o) = sponge_no_padding R (vmap w data) num) (fun o c' => Forall (can c') o /\ length o = num).
  Proof.
    intros Hs Hb Hne Hmod. unfold nn_sponge_no_padding.
    destruct (Nat.eqb_spec (length data) 0) as [E|_]; [destruct data; [congruence|discriminate E]|].
    change (length data mod CRHF_RATE)%nat with (length data mod 3)%nat. rewrite Hmod. cbn [orb negb Nat.eqb].
    pose proof (chunks_all 3 data _ ltac:(lia) Hmod Hb) as Hc. rewrite chunks_cons in Hc by (auto; lia). inversion_clear Hc as [|? ? Hc0 Hcs].
    assert (Eb : forall z, nn_block3 (K := K) z data = nn_block3 z (firstn 3 data)).
    { intro z. destruct Hc0 as [E3 _]. destruct data as [|x [|y [|z' data]]]; try discriminate E3. reflexivity. }
    assert (Hd : exists x data', data = x :: data') by (destruct data; [congruence|eauto]). destruct Hd as (x & data' & Ed).
    assert (Hx : can c x) by (rewrite Ed in Hb; inversion_clear Hb; assumption). destruct (can_ok _ _ Hx) as [X1 X2].
    eapply x_pure with (a := x); [rewrite Ed; reflexivity|]. cbn zeta. rewrite X1, X2.
    eapply x_pure; [apply fmod_eq|]. rewrite Eb.
    destruct (x_block3 (firstn 3 data) c Hs Hc0) as (b & E3 & Cb & Vb). eapply x_pure; [exact E3|].
    eapply x_bind; [exact Hs|apply (x_permutation (NNS b (esplit p0 p1)) c Hs); split; [exact Cb|reflexivity]|]. intros s c1 Hs1 Hl1 Hi1 _.
    assert (Hcs1 : Forall (bin c1 3) (chunks CRHF_RATE (skipn CRHF_RATE data))).
    { eapply Forall_impl; [|exact Hcs]. intros b' [E1 E2]. split; [exact E1|]. eapply Forall_impl; [|exact E2]. intro y. apply n_can_le; auto. }
    eapply x_bind; [exact Hs1|apply (x_absorb 3 _ x_block3 _ s c1 Hs1 Hi1 Hcs1)|]. intros t c2 Hs2 Hl2 Hi2 _.
    eapply x_weaken; [apply (x_squeeze (S num) num t c2 ltac:(lia) Hs2 Hi2)| |auto].
    intros w o Hbw HQ HA HP' Sd. destruct (Vb w Hbw) as [Sb Eb']; [apply Forall_firstn; exact Sd|].
    destruct (HP' _ (reps_small _ _ Sb)) as [S1 E1]. cbn [nst] in *.
    destruct (HA S1) as [S2 E2]; [apply small_chunks; [unfold CRHF_RATE; lia|apply Forall_skipn; exact Sd]|]. destruct (HQ S2) as [S3 E4].
    split; [exact S3|]. rewrite E4, E2, E1, Eb'.
    unfold sponge_no_padding. rewrite map_length. change (length data mod CRHF_RATE)%nat with (length data mod 3)%nat. rewrite Hmod. cbn [negb Nat.eqb].
    rewrite (absorb_ok Fr R Hkeys) by (unfold CRHF_RATE; lia). cbn [bind]. rewrite chunks_map' by (unfold CRHF_RATE; lia). rewrite (chunks_cons CRHF_RATE data) by (auto; unfold CRHF_RATE; lia).
    cbn [map]. unfold absorb_v at 2. cbn [fold_left]. unfold squeeze.
    edestruct (squeeze_sq R card Hexp (or_intror Ha11) Hkeys Hinj (S num) num) as (s' & E); [lia|]. rewrite E. cbn [bind]. reflexivity.
  Qed.
  Lemma x_sponge_padded data num c : st c -> Forall (can c) data -> data <> [] ->
    xs (nn_sponge_with_padding zval q nb L zr tmod tbits R data num) c
      (fun w o => Forall (small w) data -> Forall (small w) o /\ Ok (vmap w o) = sponge_with_bit_padding R (vmap w data) num) (fun o c' => Forall (can c') o /\ length o = num).
  Proof.
    intros Hs Hb Hne. unfold nn_sponge_with_padding. destruct data as [|x data'] eqn:Ed; [congruence|]. rewrite <- Ed in *.
    assert (Hx : can c x) by (rewrite Ed in Hb; inversion_clear Hb; assumption). destruct (can_ok _ _ Hx) as [X1 X2]. rewrite X1, X2. cbn zeta.
    destruct (next_len_ok (length data + 1) CRHF_RATE ltac:(unfold CRHF_RATE; lia)) as (k & Ek & Em).
    eapply x_pure; [unfold nn_next_len, lift; rewrite Ek; reflexivity|].
    replace (length data + 1 + k - length data - 1)%nat with k by lia. destruct (can_01 c Hs) as [C0 C1].
    eapply x_weaken; [apply (x_sponge (data ++ [onev] ++ repeat zerov k) num c Hs)| |auto].
    - apply Forall_app; split; [exact Hb|]. apply Forall_app; split; [repeat apply Forall_cons; try apply Forall_nil; exact C1|]. apply Forall_forall. intros y Hy. apply repeat_spec in Hy. now subst y.
    - intro E. apply app_eq_nil in E as [E _]. congruence.
    - rewrite !app_length, repeat_length. cbn [length]. rewrite Nat.add_assoc. exact Em.
    - intros w o Hbw HA Sd. destruct (val_01 w Hbw) as [[S0 V0] [S1 V1]]. destruct HA as [So Eo].
      + apply Forall_app; split; [exact Sd|]. apply Forall_app; split; [repeat apply Forall_cons; try apply Forall_nil; exact S1|]. apply Forall_forall. intros y Hy. apply repeat_spec in Hy. now subst y.
      + split; [exact So|]. unfold sponge_with_bit_padding, pad_with_zeros. rewrite app_length, map_length. cbn [length].
        rewrite Ek. cbn [bind]. rewrite firstn_all2 by (rewrite app_length, map_length; cbn; lia).
        replace (length data + 1 + k - (length data + 1))%nat with k by lia. apply expect_ok. rewrite Eo. f_equal.
        rewrite !map_app, map_repeat. cbn [map]. rewrite V0, V1, <- app_assoc. reflexivity.
  Qed.
  Lemma x_keyed key data c : st c -> can c key -> Forall (can c) data -> data <> [] -> (length data mod 4 = 0)%nat ->
    xs (nn_keyed_no_padding zval q nb L zr tmod tbits R key data) c
      (fun w o => small w key -> Forall (small w) data -> small w o /\ Ok [V w o] = prf_no_padding R (V w key) (vmap w data) 1) (fun o c' => can c' o).
  Proof.
    intros Hs Hk Hb Hne Hmod. unfold nn_keyed_no_padding.
    change (length data mod STATE_SIZE)%nat with (length data mod 4)%nat. rewrite Hmod. cbn [negb Nat.eqb orb].
    destruct (Nat.eqb_spec (length data) 0) as [E|_]; [destruct data; [congruence|discriminate E]|].
    pose proof (chunks_all 4 data _ ltac:(lia) Hmod Hb) as Hc.
    assert (Hd : exists x data', data = x :: data') by (destruct data; [congruence|eauto]). destruct Hd as (x & data' & Ed).
    assert (Hx : can c x) by (rewrite Ed in Hb; inversion_clear Hb; assumption). destruct (can_ok _ _ Hx) as [X1 X2].
    eapply x_pure with (a := x); [rewrite Ed; reflexivity|]. cbn zeta. rewrite X1, X2.
    eapply x_pure; [apply fmod_eq|]. destruct (can_01 c Hs) as [C0 C1].
    eapply x_bind; [exact Hs|apply (x_absorb 4 _ x_block4 (chunks STATE_SIZE data) (NNS (Q4 zerov zerov zerov key) (esplit p0 p1)) c Hs); [split; [q4; assumption|reflexivity]|exact Hc]|].
    intros t c1 Hs1 Hl1 Ht _. apply x_ret; [|apply Ht].
    intros w Hbw HA Sk Sd. destruct (val_01 w Hbw) as [[S0 V0] _]. cbn [nst] in *.
    destruct HA as [S1 E1]; [q4; assumption|apply small_chunks; [unfold STATE_SIZE; lia|exact Sd]|]. split; [apply S1|].
    unfold prf_no_padding. rewrite map_length. change (length data mod STATE_SIZE)%nat with (length data mod 4)%nat. rewrite Hmod. cbn [negb Nat.eqb].
    rewrite (absorb_ok Fr R Hkeys) by (unfold STATE_SIZE; lia). cbn [bind]. rewrite (squeeze_small Fr R Hkeys STATE_SIZE 1%nat) by (unfold STATE_SIZE; clear; lia). cbn [bind].
    rewrite chunks_map' by (unfold STATE_SIZE; lia).
    assert (E0 : vl w (Q4 zerov zerov zerov key) = V4 0 0 0 (V w key)) by (unfold vl; cbn [q0 q1 q2 q3]; now rewrite V0).
    rewrite E0 in E1. rewrite <- E1. reflexivity.
  Qed.
  Lemma x_keyed_padded key data c : st c -> can c key -> Forall (can c) data -> data <> [] ->
    xs (nn_keyed_zero_padding zval q nb L zr tmod tbits R key data) c
      (fun w o => small w key -> Forall (small w) data -> small w o /\ Ok [V w o] = prf_zero_padding R (V w key) (vmap w data) 1) (fun o c' => can c' o).
  Proof.
    intros Hs Hk Hb Hne. unfold nn_keyed_zero_padding. destruct data as [|x data'] eqn:Ed; [congruence|]. rewrite <- Ed in *.
    assert (Hx : can c x) by (rewrite Ed in Hb; inversion_clear Hb; assumption). destruct (can_ok _ _ Hx) as [X1 X2]. rewrite X1, X2.
    destruct (next_len_ok (length data) STATE_SIZE ltac:(unfold STATE_SIZE; lia)) as (k & Ek & Em).
    eapply x_pure; [unfold nn_next_len, lift; rewrite Ek; reflexivity|].
    replace (length data + k - length data)%nat with k by lia. destruct (can_01 c Hs) as [C0 C1].
    eapply x_weaken; [apply (x_keyed key (data ++ repeat zerov k) c Hs Hk)| |auto].
    - apply Forall_app; split; [exact Hb|]. apply Forall_forall. intros y Hy. apply repeat_spec in Hy. now subst y.
    - intro E. apply app_eq_nil in E as [E _]. congruence.
    - rewrite app_length, repeat_length. exact Em.
    - intros w o Hbw HA Sk Sd. destruct (val_01 w Hbw) as [[S0 V0] _]. destruct HA as [So Eo]; [exact Sk| |].
      + apply Forall_app; split; [exact Sd|]. apply Forall_forall. intros y Hy. apply repeat_spec in Hy. now subst y.
      + split; [exact So|]. unfold prf_zero_padding, pad_with_zeros. rewrite map_length, Ek. cbn [bind].
        rewrite firstn_all2 by (rewrite map_length; lia). replace (length data + k - length data)%nat with k by lia. rewrite Eo. f_equal.
        rewrite map_app, map_repeat, V0. reflexivity.
  Qed.

  (** ** The keyed permutation: the sums fed to the odd rounds are not range-checked *)
  Notation us := (uspec zval m rb).
  Local Lemma n_ubind {A A'} (mm : circ K A) (f : A -> circ K A') c (S1 : (nat -> K) -> A -> Prop) (R1 : A -> circuit K -> Prop) (S : (nat -> K) -> A' -> Prop) (R' : A' -> circuit K -> Prop) : st c -> us mm c S1 R1 ->
    (forall a c', st c' -> le c c' -> R1 a c' -> us (f a) c' (fun w b => S1 w a -> S w b) R') -> us (x <- mm ;; f x) c S R'.
  Proof. intros Hs H1 H2. eapply (u_bind zval nb m rb Hm Hm2 Hrb Hrn Hmr Hrb2); [exact Hs|exact H1|]. intros a c' Hs' Hl HR _. apply H2; auto. Qed.
  Lemma u_unckq (mm : circ K (nns K)) c S : us mm c S (fun o c' => nin c' o) -> us mm c (fun w o => sm w (nst o) /\ S w o) (fun o c' => nin c' o).
  Proof.
    intros (a & d & E & Pd & l & U1 & U2 & U3 & U4). exists a, d. do 2 (split; [assumption|]).
    exists (qlist (nst a) ++ l). split; [apply Forall_app; split; [|exact U1]|].
    - destruct U4 as [((C0 & _) & (C1 & _) & (C2 & _) & (C3 & _)) _]. unfold qlist. repeat apply Forall_cons; try apply Forall_nil; assumption.
    - split; [|split; auto]. intros w Hb Hd Hu. apply Forall_app in Hu as [H1 H2]. split; [|auto].
      inversion_clear H1 as [|? ? S0 T0]. inversion_clear T0 as [|? ? S1 T1]. inversion_clear T1 as [|? ? S2 T2]. inversion_clear T2 as [|? ? S3 _]. q4; assumption.
  Qed.
  Lemma rep_rep2 w x v : rep w x v -> rep2 w x v.
  Proof. intros (Z & E & Ev & HZ). exists Z. split; [exact E|]. split; [exact Ev|]. pose proof n_B. pose proof n_M. nia. Qed.
  Lemma reps_val w x v : reps w x v -> sm w x -> vl w x = v.
  Proof. intros (R0 & R1 & R2 & R3) S. apply reps2_val; [q4; now apply rep_rep2|exact S]. Qed.
  Lemma x_schedule inj : forall r s c, st c -> nin c s ->
    xs (nn_schedule_rounds zval q nb L zr tmod tbits R r inj s) c
      (fun w l => sm w (nst s) -> Forall (fun k => sm w (nst k)) l /\ map (fun k => vl w (nst k)) l = sched_v R r inj (vl w (nst s)))
      (fun l c' => Forall (nin c') l /\ length l = length inj).
  Proof.
    induction inj as [|k inj IH]; intros r s c Hs Hn; cbn [nn_schedule_rounds sched_v].
    - apply x_ret; [|split; [constructor|reflexivity]]. intros w _ _. split; [constructor|reflexivity].
    - eapply x_bind; [exact Hs|apply (x_round r s k c Hs Hn)|]. intros t c1 Hs1 Hl1 Ht _.
      eapply x_bind; [exact Hs1|apply (IH (S r) t c1 Hs1 Ht)|]. intros l c2 Hs2 Hl2 [Hl El] _. apply x_ret.
      + intros w _ HI HR Ss. destruct (HR (or_intror Ss)) as (_ & S2 & E2). destruct (HI S2) as [S3 E3].
        split; [constructor; assumption|]. cbn [map]. rewrite E3, E2. reflexivity.
      + split; [constructor; [apply (nin_le c1 c2 t Hs1 Hl2 Ht)|exact Hl]|cbn [length]; now rewrite El].
  Qed.
  Lemma x_key_schedule key c : st c -> nin c key ->
    xs (nn_key_schedule zval q nb L zr tmod tbits R key) c
      (fun w l => sm w (nst key) -> Forall (fun k => sm w (nst k)) l /\
         map (fun k => vl w (nst k)) l = (let a := v4_add (vl w (nst key)) (rp_init R) in a :: sched_v R 0 (rp_inject R) a))
      (fun l c' => Forall (nin c') l /\ length l = (2 * ROUNDS + 1)%nat).
  Proof.
    intros Hs Hn. unfold nn_key_schedule.
    eapply x_bind; [exact Hs|apply (x_add_const key (rp_init R) c Hs Hn)|]. intros t c1 Hs1 Hl1 Ht _.
    destruct (rp_inject R) as [|k1 inj] eqn:Ei; [discriminate Hinj|]. cbn [nn_schedule_rounds sched_v].
    eapply x_bind with (S1 := fun w l => sm w (nst t) /\ Forall (fun k => sm w (nst k)) l /\ map (fun k => vl w (nst k)) l = sched_v R 0 (k1 :: inj) (vl w (nst t)))
      (R1 := fun l c' => Forall (nin c') l /\ length l = length (k1 :: inj)); [exact Hs1| |].
    - eapply x_bind; [exact Hs1|apply (x_round 0 t k1 c1 Hs1 Ht)|]. intros u c2 Hs2 Hl2 Hu _.
      eapply x_bind; [exact Hs2|apply (x_schedule inj 1 u c2 Hs2 Hu)|]. intros l c3 Hs3 Hl3 [Hl El] _. apply x_ret.
      + intros w _ HI HR. destruct (HR (or_introl eq_refl)) as (S1 & S2 & E2). destruct (HI S2) as [S3 E3].
        split; [exact S1|]. split; [constructor; assumption|]. cbn [map sched_v]. rewrite E3, E2. reflexivity.
      + split; [constructor; [apply (nin_le c2 c3 u Hs2 Hl3 Hu)|exact Hl]|cbn [length]; now rewrite El].
    - intros l c2 Hs2 Hl2 [Hl El] _. apply x_ret.
      + intros w _ (S1 & S2 & E2) HA Sk. cbn zeta. split; [constructor; assumption|]. cbn [map]. rewrite E2.
        rewrite (reps2_val _ _ _ (HA _ (reps_small _ _ Sk)) S1). reflexivity.
      + split; [constructor; [apply (nin_le c1 c2 t Hs1 Hl2 Ht)|exact Hl]|cbn [length]; rewrite El, Hinj; reflexivity].
  Qed.
  Lemma lin_split v mat k : v4_add (linear v mat v4_zero) k = linear v mat (k : vec4 Fr).
  Proof. unfold linear, v4_add, v4_zero. cbn [w0 w1 w2 w3]. f_equal; ring. Qed.
  Lemma u_var_rounds keys : forall r s c, st c -> nin c s -> Forall (nin c) keys ->
    us (nn_var_rounds zval q nb L zr tmod tbits R r keys s) c
      (fun w o => forall v, reps w (nst s) v -> (r mod 2 = 0)%nat \/ sm w (nst s) -> Forall (fun k => sm w (nst k)) keys ->
         reps w (nst o) (prp_rounds R r (map (fun k => vl w (nst k)) keys) v)) (fun o c' => nin c' o).
  Proof.
    induction keys as [|k keys IH]; intros r s c Hs Hn Hk; cbn [nn_var_rounds map prp_rounds].
    - apply u_ret; auto.
    - inversion_clear Hk as [|? ? Hk0 Hks].
      eapply n_ubind; [exact Hs|apply u_pspec, (x_round r s v4_zero c Hs Hn)|]. intros t c1 Hs1 Hl1 Ht.
      eapply n_ubind with (S1 := fun w o => ((S r mod 2 = 0)%nat \/ sm w (nst o)) /\ (sm w (nst t) -> sm w (nst k) -> reps w (nst o) (v4_add (vl w (nst t)) (vl w (nst k))))) (R1 := fun o c' => nin c' o); [exact Hs1| |].
      + pose proof (u_pspec zval m rb _ _ _ _ (x_add_state t k c1 Hs1 Ht (nin_le c c1 k Hs Hl1 Hk0))) as HU.
        destruct (Nat.eq_dec (S r mod 2) 0) as [E|E].
        * eapply u_weaken; [exact HU| |auto]. intros w o _ H. split; [left; exact E|exact H].
        * eapply u_weaken; [apply u_unckq; exact HU| |auto]. cbn beta. intros w o _ [H1 H2]. split; [right; exact H1|exact H2].
      + intros u c2 Hs2 Hl2 Hu. eapply u_weaken; [apply (IH (S r) u c2 Hs2 Hu)| |auto].
        * eapply Forall_impl; [|exact Hks]. intros y Hy. apply (nin_le c1 c2 y Hs1 Hl2). apply (nin_le c c1 y Hs Hl1 Hy).
        * intros w o _ HI [HA1 HA2] HR v Hv Hr Sk. inversion_clear Sk as [|? ? Sk0 Sks]. destruct (HR Hr) as (S1 & S2 & E2).
          apply HI; auto. rewrite <- (reps_val _ _ _ Hv S1), <- lin_split, <- E2. apply HA2; auto.
  Qed.
  Lemma u_prp key s c : st c -> nin c key -> nin c s ->
    us (nn_prp zval q nb L zr tmod tbits R key s) c
      (fun w o => sm w (nst key) -> sm w (nst s) -> exists v, prp R (vl w (nst key)) (vl w (nst s)) = Ok v /\ reps w (nst o) v) (fun o c' => nin c' o).
  Proof.
    intros Hs Hk Hn. unfold nn_prp. eapply n_ubind; [exact Hs|apply u_pspec, (x_key_schedule key c Hs Hk)|]. intros keys c1 Hs1 Hl1 [Hks El].
    pose proof (nin_le c c1 s Hs Hl1 Hn) as Hn1.
    unfold nn_prp_with_round_keys. rewrite El. cbn [negb Nat.eqb Nat.add Nat.mul ROUNDS].
    destruct keys as [|k0 keys]; [discriminate El|]. inversion_clear Hks as [|? ? Hk0 Hks'].
    eapply u_bind_pure; [reflexivity|]. cbn [tl].
    eapply n_ubind; [exact Hs1|apply u_pspec, (x_add_state s k0 c1 Hs1 Hn1 Hk0)|]. intros t c2 Hs2 Hl2 Ht.
    eapply u_weaken; [apply (u_var_rounds keys 0 t c2 Hs2 Ht)| |auto].
    - eapply Forall_impl; [|exact Hks']. intros y Hy. apply (nin_le c1 c2 y Hs1 Hl2 Hy).
    - intros w o _ HV HA HK Sk Ss. destruct (HK Sk) as [SK EK]. inversion_clear SK as [|? ? S0 SK']. cbn [map] in EK. cbn zeta in EK.
      pose proof (f_equal (hd v4_zero) EK) as E0. pose proof (f_equal (@tl _) EK) as E1. cbn [hd tl] in E0, E1. clear EK.
      exists (prp_rounds R 0 (map (fun k => vl w (nst k)) keys) (v4_add (vl w (nst s)) (vl w (nst k0)))). split.
      + unfold prp, key_schedule. rewrite schedule_sched by (rewrite Hinj; reflexivity). cbn [bind skipn]. rewrite <- E1, <- E0.
        unfold prp_with_round_keys. cbn [length]. rewrite map_length. cbn [length] in El. rewrite El. reflexivity.
      + apply HV; auto.
  Qed.

  (** ** Creating a state *)
  Lemma x_create v c : st c -> m = ((tbits / 2 / rb + 1) * rb)%nat ->
    xs (nn_create_state zval q nb L zr tmod tbits v) c (fun w o => sm w (nst o)) (fun o c' => nin c' o /\ forall w, hext c' w -> vl w (nst o) = v).
  Proof.
    intros Hs Em. pose proof Hs as (Hw & Ht & Hb). unfold nn_create_state.
    eapply x_pure with (a := rb); [unfold lift, range_bit_len; rewrite Ht; reflexivity|].
    destruct (Nat.eqb_spec rb 0) as [E|_]; [lia|]. cbn zeta. rewrite <- Em.
    assert (Ef : fmod zval nb tmod m None c = (Ok (esplit p0 p1), c)).
    { rewrite <- fmod_eq. unfold fmod, lift, felem_new. change (two_pow m two) with (fZ M : K). rewrite <- (fpow_two m). reflexivity. }
    eapply x_pure; [exact Ef|]. change (etwo (esplit p0 p1)) with (fZ M : K).
    eapply x_bind; [exact Hs| |].
    - apply (x_map4 _ (fun (_ : Fr) w o => small w o) (fun a o c' => can c' o /\ forall w, hext c' w -> V w o = a)); [exact Hs| |].
      + intros a o c' c'' Hs' Hl [H1 H2]. split; [exact (n_can_le _ _ _ Hs' Hl H1)|]. intros w Hh. apply H2. exact (hext_le _ _ _ _ Hs' Hl Hh).
      + q4; intros c' Hs' _; now apply x_hint.
    - intros o c1 Hs1 Hl1 ((O0 & U0) & (O1 & U1) & (O2 & U2) & (O3 & U3)) _. cbn [qvec q0 q1 q2 q3] in *. apply x_ret.
      + intros w _ So. exact So.
      + split; [split; [q4; assumption|reflexivity]|]. intros w Hh. unfold vl. cbn [nst]. rewrite U0, U1, U2, U3 by exact Hh. destruct v; reflexivity.
  Qed.

  (** ** Other exponents are refused *)
  Lemma inv_state_other (R0 : rescue_params Fr) s c : nin c s -> rp_a R0 <> 11%N ->
    nn_pow_alpha_inv_state zval q nb L zr tmod tbits R0 s c = (Err ParameterError, c).
  Proof.
    intros [(C0 & C1 & C2 & C3) _] Hne. unfold nn_pow_alpha_inv_state, check_nns, mapM4, nn_pow_alpha_inv.
    destruct (can_out _ _ C0) as [A0 B0]. destruct (can_out _ _ C1) as [A1 B1]. destruct (can_out _ _ C2) as [A2 B2]. destruct (can_out _ _ C3) as [A3 B3].
    unfold cbind. rewrite !chks_ok by (cbn [qlist flat_map app]; repeat constructor; assumption).
    rewrite (proj2 (N.eqb_neq _ _) Hne). reflexivity.
  Qed.
  Lemma x_perm_other (R0 : rescue_params Fr) s c : st c -> nin c s -> length (rp_keys R0) = (2 * ROUNDS + 1)%nat -> rp_a R0 <> 11%N ->
    fst (nn_permutation zval q nb L zr tmod tbits R0 s c) = Err ParameterError.
  Proof.
    intros Hs Hn Hk Hne. unfold nn_permutation, nn_permutation_keys. rewrite Hk. cbn [negb Nat.eqb Nat.add Nat.mul ROUNDS].
    destruct (rp_keys R0) as [|k0 [|k1 keys]] eqn:Ek; try discriminate Hk.
    destruct (x_add_const s k0 c Hs Hn) as (t & d & E & Pd & _ & _ & Ht). cbn [idx]. unfold cbind at 1. cbn [idx lift index nth_error tl]. 
    unfold cbind. cbn [idx lift index nth_error tl]. rewrite E. cbn [nn_const_rounds nn_round Nat.modulo Nat.divmod Nat.eqb Nat.sub fst snd]. unfold cbind.
    rewrite (inv_state_other R0 t _ Ht Hne). reflexivity.
  Qed.
End NNR.
