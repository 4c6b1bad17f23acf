(** What the gates of glv.rs enforce. *)
From Coq Require Import List Arith ZArith Bool Lia Ring Field.
From Verif Require Import Base ListAux Alg Edwards CircuitModel CircuitProofs GadgetModel GadgetProofs RangeProofs BitProofs CmpProofs RangeLookup SatProofs SatGadget EccModel EccProofs GlvModel GlvArith.
Import ListNotations.
Local Open Scope fld_scope.
Local Open Scope circ_scope.

Section Gates.
  Context {K : fld}.
  Add Field Kglv : (fth K).
  Variable zval : K -> Z.
  Variable p : Z.
  Variables nb L : nat.
  Hypothesis HF : pfield K zval p nb L.
  Variable G : glv_consts.
  Notation gspec := (gspec zval).
  Notation dsat := (dsat zval).
  Notation lam1 := (fZ (gl_lam1 G) : K).
  Notation lam2 := (fZ (gl_lam2 G) : K).
  Notation r1 := (fZ (gl_r1 G) : K).
  Notation r2 := (fZ (gl_r2 G) : K).
  Notation M := (2 ^ Z.of_nat (gl_half G))%Z.
  Ltac start := unfold gspec, CircuitProofs.gspec; unfold out, noout.

  (** The equations for the two signs. *)
  Definition low_eq (sg s k1 k2 t tmp : K) : Prop :=
    (sg = 1 -> tmp + r1 * t + k1 = lam1 * k2 + s) /\ (sg = 0 -> lam1 * k2 + tmp + k1 = s + r1 * t).
  Definition high_eq (sg k2 t tmp2 : K) : Prop :=
    (sg = 1 -> tmp2 + lam2 * k2 = r2 * t) /\ (sg = 0 -> tmp2 + r2 * t = lam2 * k2).

  Lemma b2k_1 (b : bool) : (b2k b : K) = 1 -> b = true.
  Proof. destruct b; auto. cbn. intros H. exfalso. apply (f1_neq_0 K). now symmetry. Qed.
  Lemma f10 : (1 : K) <> 0. Proof. exact (f1_neq_0 K). Qed.
  Lemma sel_true (sg x y : K) (P Q : bool) v : isb sg -> (isb sg -> v = if feqb sg 1 then x else y) -> v = 1 -> x = b2k P -> y = b2k Q ->
    (sg = 1 -> P = true) /\ (sg = 0 -> Q = true).
  Proof.
    intros Hs Hv E -> ->. rewrite E in Hv. specialize (Hv Hs). split; intros ->.
    - rewrite feqb_refl in Hv. now apply b2k_1.
    - rewrite (proj2 (feqb_neq _ _ _)) in Hv by (intros H; apply f10; now symmetry). now apply b2k_1.
  Qed.
  Lemma true_sel (sg x y : K) (P Q : bool) v : isb sg -> (isb sg -> v = if feqb sg 1 then x else y) -> x = b2k P -> y = b2k Q ->
    (sg = 1 -> P = true) /\ (sg = 0 -> Q = true) -> v = 1.
  Proof.
    intros Hs Hv -> -> [H1 H0]. rewrite (Hv Hs). destruct Hs as [E|E]; rewrite E.
    - rewrite (proj2 (feqb_neq _ _ _)) by (intros H; apply f10; now symmetry). now rewrite (H0 E).
    - rewrite feqb_refl. now rewrite (H1 E).
  Qed.
  Lemma low_spec c s k1 k2 sg t tmp : wf c -> isb (hon c sg) -> (s < num_vars c)%nat -> (k1 < num_vars c)%nat -> (k2 < num_vars c)%nat -> (sg < num_vars c)%nat -> (t < num_vars c)%nat -> (tmp < num_vars c)%nat ->
    gspec (decomposition_low G s k1 k2 sg t tmp) c (fun w _ => isb (w sg) -> low_eq (w sg) (w s) (w k1) (w k2) (w t) (w tmp))
      (fun w => isb (w sg) /\ low_eq (w sg) (w s) (w k1) (w k2) (w t) (w tmp)) noout.
  Proof.
    intros Hw Hi Hs H1 H2 H3 H4 H5. pose proof (wf_two _ Hw). start. unfold decomposition_low.
    use lc_spec. use lc_spec. use is_equal_spec. use lc_spec. use lc_spec. use is_equal_spec. use conditional_select_spec.
    { now rewrite !hon_capp by (try wfs; try bnd). }
    unfold enforce_true. use enforce_constant_spec. leaf; auto.
    - intros Hsg. destruct (sel_true _ _ _ _ _ _ Hsg F0 F F4 F1) as [X Y]. split; intros E.
      + specialize (X E). apply feqb_eq in X. rewrite F6, F5, Hb0 in X. transitivity (1 * w tmp + r1 * w t + 1 * w k1 + 0 * 0); [ring|rewrite X; ring].
      + specialize (Y E). apply feqb_eq in Y. rewrite F3, F2, Hb0 in Y. transitivity (lam1 * w k2 + 1 * w tmp + 1 * w k1 + 0 * 0); [ring|rewrite Y; ring].
    - destruct HC as [Hsg [X Y]]. apply Cmp6; auto. eapply true_sel; eauto. split; intros E; apply feqb_eq; [specialize (X E)|specialize (Y E)].
      + rewrite F5, F4, Hb0. transitivity (w tmp + r1 * w t + w k1); [ring|rewrite X; ring].
      + rewrite F2, F1, Hb0. transitivity (lam1 * w k2 + w tmp + w k1); [ring|rewrite Y; ring].
  Qed.
  Lemma high_spec c k2 sg t tmp2 : wf c -> isb (hon c sg) -> (k2 < num_vars c)%nat -> (sg < num_vars c)%nat -> (t < num_vars c)%nat -> (tmp2 < num_vars c)%nat ->
    gspec (decomposition_high G k2 sg t tmp2) c (fun w _ => isb (w sg) -> high_eq (w sg) (w k2) (w t) (w tmp2))
      (fun w => isb (w sg) /\ high_eq (w sg) (w k2) (w t) (w tmp2)) noout.
  Proof.
    intros Hw Hi H2 H3 H4 H5. pose proof (wf_two _ Hw). start. unfold decomposition_high.
    use lc_spec. use mul_constant_spec. use is_equal_spec. use lc_spec. use mul_constant_spec. use is_equal_spec. use conditional_select_spec.
    { now rewrite !hon_capp by (try wfs; try bnd). }
    unfold enforce_true. use enforce_constant_spec. leaf; auto.
    - intros Hsg. destruct (sel_true _ _ _ _ _ _ Hsg F0 F F4 F1) as [X Y]. split; intros E.
      + specialize (X E). apply feqb_eq in X. rewrite F6, F5, Hb0 in X. rewrite <- X. ring.
      + specialize (Y E). apply feqb_eq in Y. rewrite F3, F2, Hb0 in Y. rewrite <- Y. ring.
    - destruct HC as [Hsg [X Y]]. apply Cmp6; auto. eapply true_sel; eauto. split; intros E; apply feqb_eq; [specialize (X E)|specialize (Y E)].
      + rewrite F5, F4, Hb0. rewrite <- X. ring.
      + rewrite F2, F1, Hb0. rewrite <- Y. ring.
  Qed.

  (** The gates for given numbers: the six variables follow those of the circuit. *)
  Definition dec_eq (w : nat -> K) (s n : nat) : Prop :=
    isb (w (n + 2)%nat) /\ (zval (w n) < M)%Z /\ (zval (w (n + 1)%nat) < M)%Z /\ (zval (w (n + 5)%nat) < M)%Z /\
    w (n + 4)%nat = fZ M * w (n + 5)%nat /\
    low_eq (w (n + 2)%nat) (w s) (w n) (w (n + 1)%nat) (w (n + 3)%nat) (w (n + 4)%nat) /\
    high_eq (w (n + 2)%nat) (w (n + 1)%nat) (w (n + 3)%nat) (w (n + 5)%nat).
  Definition dec_vals (w : nat -> K) (n : nat) (x : glv_nums) : Prop :=
    w n = int_to_fq (gn_k1 x) /\ w (n + 1)%nat = int_to_fq (gn_k2 x) /\ w (n + 2)%nat = b2k (gn_pos x) /\ w (n + 3)%nat = int_to_fq (gn_t x) /\
    w (n + 4)%nat = int_to_fq (gn_tmp x) /\ w (n + 5)%nat = int_to_fq (gn_tmp2 x).
  Lemma vars_spec c x : wf c -> let n := num_vars c in
    wpc (decomposition_vars x) c (fun a d =>
      ((forall w, base w -> dsat (ptype c) w d -> isb (w (n + 2)%nat)) /\ (forall w, base w -> hext (capp c d) w -> True -> dsat (ptype c) w d) /\
      (a = mk_gv n (n + 1) (n + 2) (n + 3) (n + 4) (n + 5) /\ length (d_vals d) = 6)%nat) /\ (forall w, hext (capp c d) w -> dec_vals w n x)).
  Proof.
    intros Hw n. pose proof (wf_two _ Hw). unfold decomposition_vars, create_boolean_variable, enforce_bool. repeat wstep.
    split; [leaf|].
    - unfold n. rewrite !num_vars_capp in H3. cbn [d_vals dval length] in H3. replace (num_vars c + 1 + 1)%nat with (num_vars c + 2)%nat in H3 by lia. exact H3.
    - rewrite E2. destruct (gn_pos x); auto.
    - unfold n. rewrite !num_vars_capp. cbn [d_vals dval dgate dcat dnil length app]. split; [|reflexivity].
      f_equal; lia.
    - intros w Hh. rewrite <- ?capp_cat in Hh. hx. unfold dec_vals, n. rewrite !num_vars_capp in *. cbn [d_vals dval dgate dcat dnil length app] in *.
      repeat split; try assumption.
      + replace (num_vars c + 2)%nat with (num_vars c + 1 + 1)%nat by lia. rewrite E2. destruct (gn_pos x); reflexivity.
      + replace (num_vars c + 3)%nat with (num_vars c + 1 + 1 + 1 + 0)%nat by lia. assumption.
      + replace (num_vars c + 4)%nat with (num_vars c + 1 + 1 + 1 + 0 + 1)%nat by lia. assumption.
      + replace (num_vars c + 5)%nat with (num_vars c + 1 + 1 + 1 + 0 + 1 + 1)%nat by lia. assumption.
  Qed.
  (** What a range check of the half scalars needs of the circuit. *)
  Definition half_ok (t : plonk_type) : Prop :=
    match t with Turbo => (1 <= gl_half G <= L)%nat | Ultra rb => (1 <= gl_half G /\ 1 <= rb <= 31 /\ rb < nb)%nat end.
  Lemma gates_spec c x s : wf c -> (s < num_vars c)%nat -> half_ok (ptype c) ->
    let n := num_vars c in
    wpc (decomposition_gates zval p nb L G x s) c (fun a d =>
      (forall w, base w -> dsat (ptype c) w d -> dec_eq w s n) /\
      (forall w, base w -> hext (capp c d) w -> dec_eq w s n -> dsat (ptype c) w d) /\
      (a = (n, n + 1, n + 2) /\ n + 5 < num_vars c + length (d_vals d))%nat /\
      (forall w, hext (capp c d) w -> dec_vals w n x)).
  Proof.
    intros Hw Hs Ht n. pose proof (wf_two _ Hw). unfold decomposition_gates.
    destruct (vars_spec c x Hw) as (v & d & E & P & (S & Cm & -> & Hl) & Hv). apply wpc_bind. exists (mk_gv n (n + 1) (n + 2) (n + 3) (n + 4) (n + 5)), d. split; [exact E|]. split; [exact P|].
    cbn [gv_k1 gv_k2 gv_sg gv_t gv_tmp gv_tmp2]. assert (Hw1 : wf (capp c d)) by wfs. set (c1 := capp c d) in *.
    assert (N1 : num_vars c1 = (n + 6)%nat) by (unfold c1; rewrite num_vars_capp, Hl; reflexivity).
    assert (I1 : isb (hon c1 (n + 2)%nat)).
    { destruct (Hv (hon c1)) as (_ & _ & X & _); [intros ? ?; reflexivity|]. fold n in X. rewrite X. destruct (gn_pos x); [right|left]; reflexivity. }
    assert (Hn : (2 <= n)%nat) by exact H. assert (Hs1 : (s < n)%nat) by exact Hs.
    use (enforce_in_range_spec zval p nb L HF); try exact Ht.
    use (enforce_in_range_spec zval p nb L HF); try exact Ht.
    unfold mul_constant_gate. repeat wstep.
    use (enforce_in_range_spec zval p nb L HF); try exact Ht.
    use low_spec. { now rewrite !hon_capp by (try wfs; try bnd). }
    use high_spec. { now rewrite !hon_capp by (try wfs; try bnd). }
    wstep. match goal with |- ?A /\ ?B /\ ?C /\ ?D => enough ((A /\ B /\ C) /\ D) by tauto end.
    split; [leaf|].
    - exact (conj F4 (conj F3 (conj F2 (conj F1 (conj H3 (conj (F0 F4) (F F4))))))).
    - destruct HC as (A1 & A2 & A3 & A4 & A5 & A6 & A7). now apply Cmp.
    - destruct HC as (A1 & A2 & A3 & A4 & A5 & A6 & A7). now apply Cmp0.
    - destruct HC as (A1 & A2 & A3 & A4 & A5 & A6 & A7). exact A5.
    - destruct HC as (A1 & A2 & A3 & A4 & A5 & A6 & A7). now apply Cmp1.
    - destruct HC as (A1 & A2 & A3 & A4 & A5 & A6 & A7). now apply Cmp2.
    - destruct HC as (A1 & A2 & A3 & A4 & A5 & A6 & A7). now apply Cmp3.
    - split; [reflexivity|]. cbn [dcat d_vals]. rewrite app_length, Hl. fold n. lia.
    - intros w Hx. rewrite <- ?capp_cat in Hx. hx. apply Hv. assumption.
  Qed.

  (** The same over the integers modulo [p]. *)
  Definition split_eq (pos : bool) (s k1 k2 t u : Z) : Prop :=
    if pos then ((gl_lam G * k2 + s - (t * (gl_r1 G + M * gl_r2 G) + k1)) mod p = 0 /\ (t * gl_r2 G - gl_lam2 G * k2 - u) mod p = 0)%Z
    else ((gl_lam G * k2 + k1 - (t * (gl_r1 G + M * gl_r2 G) + s)) mod p = 0 /\ (gl_lam2 G * k2 - t * gl_r2 G - u) mod p = 0)%Z.
  Hypothesis Hlam : (gl_lam1 G + M * gl_lam2 G = gl_lam G)%Z.
  Lemma fZ0 z : (fZ z : K) = 0 <-> (z mod p = 0)%Z.
  Proof.
    pose proof (pf_range _ _ _ _ _ HF 0). split.
    - intros E. apply (f_equal zval) in E. rewrite (pf_zval _ _ _ _ _ HF) in E. rewrite E. change (0 : K) with (fZ 0 : K). rewrite (pf_zval _ _ _ _ _ HF). apply Z.mod_0_l. lia.
    - intros E. rewrite <- (pf_fZ _ _ _ _ _ HF (fZ z)), (pf_zval _ _ _ _ _ HF), E. reflexivity.
  Qed.
  Lemma sub0 (x y : K) : x - y = 0 <-> x = y.
  Proof. apply fsub_eq_0. Qed.
  Lemma split_iff (b : bool) s k1 k2 t tmp u : tmp = fZ M * u ->
    (low_eq (b2k b) s k1 k2 t tmp /\ high_eq (b2k b) k2 t u <-> split_eq b (zval s) (zval k1) (zval k2) (zval t) (zval u)).
  Proof.
    intros ->. unfold split_eq, low_eq, high_eq. pose proof (fun x => pf_fZ _ _ _ _ _ HF x) as Hz.
    destruct b; cbn [b2k]; rewrite <- !fZ0, <- Hlam; repeat rewrite ?fZ_sub, ?fZ_add, ?fZ_mul; rewrite !Hz; split.
    - intros [[E _] [E' _]]. specialize (E eq_refl). specialize (E' eq_refl). split.
      + transitivity ((lam1 * k2 + s) - (fZ M * u + r1 * t + k1) + fZ M * ((u + lam2 * k2) - r2 * t)); [ring|]. rewrite E, E'. ring.
      + rewrite (Rmul_comm (F_R (fth K)) t r2), <- E'. ring.
    - intros [E E']. split; (split; [intros _|intros X; exfalso; apply f10; exact X]).
      + apply sub0. transitivity (- ((lam1 + fZ M * lam2) * k2 + s - (t * (r1 + fZ M * r2) + k1)) - fZ M * (t * r2 - lam2 * k2 - u)); [ring|]. rewrite E, E'. ring.
      + apply sub0. transitivity (- (t * r2 - lam2 * k2 - u)); [ring|]. rewrite E'. ring.
    - intros [[_ E] [_ E']]. specialize (E eq_refl). specialize (E' eq_refl). split.
      + transitivity ((lam1 * k2 + fZ M * u + k1) - (s + r1 * t) - fZ M * ((u + r2 * t) - lam2 * k2)); [ring|]. rewrite E, E'. ring.
      + rewrite <- E'. ring.
    - intros [E E']. split; (split; [intros X; exfalso; apply f10; symmetry; exact X|intros _]).
      + apply sub0. transitivity (((lam1 + fZ M * lam2) * k2 + k1 - (t * (r1 + fZ M * r2) + s)) - fZ M * (lam2 * k2 - t * r2 - u)); [ring|]. rewrite E, E'. ring.
      + apply sub0. transitivity (- (lam2 * k2 - t * r2 - u)); [ring|]. rewrite E'. ring.
  Qed.
End Gates.
