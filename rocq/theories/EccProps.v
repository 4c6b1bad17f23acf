(** C35, C36: curve gadgets over twisted Edwards curves.

    The group of the curve [A x^2 + y^2 = 1 + D x^2 y^2] is constructed in
    [Edwards]: [curve K A D HC] carries the points of the curve with the rational
    addition law, proved to be an abelian group when [A] is a square and [D] is
    not ([complete]), or on a set of points where the law is defined ([law]).  [gadget_ok] is explained in [CircuitProps]. *)

From Coq Require Import List Arith ZArith Bool Lia.
From Verif Require Import Base ListAux Alg Poly CircuitModel CircuitProofs GadgetModel GadgetProofs RangeProofs
  BitProofs CmpProofs SatProofs SatGadget CircuitProps Group Edwards EccModel EccProofs.
Import ListNotations.
Local Open Scope fld_scope.
Local Open Scope circ_scope.

(** *** The points of a complete twisted Edwards curve form an abelian group *)
Section GroupLaw.
  Variable K : fld.
  Variables A D : K.
  Hypothesis HC : complete K A D.
  Notation on x y := (A * (x * x) + y * y = 1 + D * (x * x) * (y * y)).
  (** The addition formulas, as fractions. *)
  Definition sum_x (x1 y1 x2 y2 : K) : K := (x1 * y2 + x2 * y1) / (1 + D * x1 * x2 * y1 * y2).
  Definition sum_y (x1 y1 x2 y2 : K) : K := (y1 * y2 - A * x1 * x2) / (1 - D * x1 * x2 * y1 * y2).
  Add Field Kecp : (fth K).
  Lemma on_coord x y : Edwards.on K A D (x, y) <-> on x y.
  Proof. unfold Edwards.on. cbn [fst snd]. split; intros H; (etransitivity; [|etransitivity; [exact H|]]); ring. Qed.
  Lemma tadd_coord x1 y1 x2 y2 : tadd K A D (x1, y1) (x2, y2) = (sum_x x1 y1 x2 y2, sum_y x1 y1 x2 y2).
  Proof. unfold tadd, sum_x, sum_y, tz. cbn [fst snd]. f_equal; f_equal; ring. Qed.
  (** The denominators never vanish and the sum is on the curve. *)
  Theorem C35_law_complete x1 y1 x2 y2 : on x1 y1 -> on x2 y2 ->
    1 + D * x1 * x2 * y1 * y2 <> 0 /\ 1 - D * x1 * x2 * y1 * y2 <> 0 /\ on (sum_x x1 y1 x2 y2) (sum_y x1 y1 x2 y2).
  Proof.
    intros H1 H2. apply on_coord in H1. apply on_coord in H2. split; [|split].
    - intros E. apply (cden_p K A D HC _ _ H1 H2). unfold tz. cbn [fst snd]. rewrite <- E. ring.
    - intros E. apply (cden_m K A D HC _ _ H1 H2). unfold tz. cbn [fst snd]. rewrite <- E. ring.
    - apply on_coord. rewrite <- tadd_coord. apply con_add; auto.
  Qed.
  Theorem C35_law_group x1 y1 x2 y2 x3 y3 : on x1 y1 -> on x2 y2 -> on x3 y3 ->
    (sum_x x1 y1 x2 y2 = sum_x x2 y2 x1 y1 /\ sum_y x1 y1 x2 y2 = sum_y x2 y2 x1 y1) /\
    (sum_x x1 y1 (sum_x x2 y2 x3 y3) (sum_y x2 y2 x3 y3) = sum_x (sum_x x1 y1 x2 y2) (sum_y x1 y1 x2 y2) x3 y3 /\
     sum_y x1 y1 (sum_x x2 y2 x3 y3) (sum_y x2 y2 x3 y3) = sum_y (sum_x x1 y1 x2 y2) (sum_y x1 y1 x2 y2) x3 y3) /\
    (sum_x 0 1 x1 y1 = x1 /\ sum_y 0 1 x1 y1 = y1) /\
    (on (- x1) y1 /\ sum_x x1 y1 (- x1) y1 = 0 /\ sum_y x1 y1 (- x1) y1 = 1).
  Proof.
    intros H1 H2 H3. apply on_coord in H1. apply on_coord in H2. apply on_coord in H3.
    set (HL := complete_law K A D HC). set (P := mkpt K A D HL (x1, y1) (proj2 (complete_law_in K A D HC _) H1) : curve K A D HL). set (Q := mkpt K A D HL (x2, y2) (proj2 (complete_law_in K A D HC _) H2) : curve K A D HL).
    set (R := mkpt K A D HL (x3, y3) (proj2 (complete_law_in K A D HC _) H3) : curve K A D HL).
    repeat match goal with |- _ /\ _ => split end.
    all: match goal with
      | |- on _ _ => apply on_coord; apply (on_opp K A D _ H1)
      | _ => idtac end.
    - pose proof (f_equal (cval K A D HL) (gadd_comm _ P Q)) as E. change (tadd K A D (x1, y1) (x2, y2) = tadd K A D (x2, y2) (x1, y1)) in E.
      rewrite !tadd_coord in E. now apply (f_equal fst) in E.
    - pose proof (f_equal (cval K A D HL) (gadd_comm _ P Q)) as E. change (tadd K A D (x1, y1) (x2, y2) = tadd K A D (x2, y2) (x1, y1)) in E.
      rewrite !tadd_coord in E. now apply (f_equal snd) in E.
    - pose proof (f_equal (cval K A D HL) (gadd_assoc _ P Q R)) as E. change (tadd K A D (x1, y1) (tadd K A D (x2, y2) (x3, y3)) = tadd K A D (tadd K A D (x1, y1) (x2, y2)) (x3, y3)) in E.
      rewrite !tadd_coord in E. now apply (f_equal fst) in E.
    - pose proof (f_equal (cval K A D HL) (gadd_assoc _ P Q R)) as E. change (tadd K A D (x1, y1) (tadd K A D (x2, y2) (x3, y3)) = tadd K A D (tadd K A D (x1, y1) (x2, y2)) (x3, y3)) in E.
      rewrite !tadd_coord in E. now apply (f_equal snd) in E.
    - pose proof (f_equal (cval K A D HL) (gadd_0_l _ P)) as E. change (tadd K A D (0, 1) (x1, y1) = (x1, y1)) in E. rewrite tadd_coord in E. now apply (f_equal fst) in E.
    - pose proof (f_equal (cval K A D HL) (gadd_0_l _ P)) as E. change (tadd K A D (0, 1) (x1, y1) = (x1, y1)) in E. rewrite tadd_coord in E. now apply (f_equal snd) in E.
    - pose proof (f_equal (cval K A D HL) (gadd_opp _ P)) as E. change (tadd K A D (x1, y1) (- x1, y1) = (0, 1)) in E. rewrite tadd_coord in E. now apply (f_equal fst) in E.
    - pose proof (f_equal (cval K A D HL) (gadd_opp _ P)) as E. change (tadd K A D (x1, y1) (- x1, y1) = (0, 1)) in E. rewrite tadd_coord in E. now apply (f_equal snd) in E.
  Qed.
End GroupLaw.
Print Assumptions C35_law_complete.
Print Assumptions C35_law_group.

(** A point variable is a pair of existing variables. *)
Notation pinc c p := (pout p (num_vars c)).
Notation honest c := (asg (witness c)).
Notation T := (fun _ => True).

Lemma gspec_weaken2 {K : fld} (zval : K -> Z) {X} (m : circ K X) c (S S' : (nat -> K) -> X -> Prop) (C C' : (nat -> K) -> Prop) R :
  gspec zval m c S C R -> (forall w o, S w o -> S' w o) -> (forall w, C' w -> C w) -> gspec zval m c S' C' R.
Proof. intros (a & d & E & P & Snd & Cmp & HR) H1 H2. exists a, d. repeat (split; auto). Qed.
Lemma gspec_weaken {K : fld} (zval : K -> Z) {X} (m : circ K X) c (S S' : (nat -> K) -> X -> Prop) C R :
  gspec zval m c S C R -> (forall w o, S w o -> S' w o) -> gspec zval m c S' C R.
Proof. intros H H1. eapply gspec_weaken2; eauto. Qed.

Section Points.
  Context {K : fld}.
  Variable zval : K -> Z.
  Notation gadget_ok := (gadget_ok zval).

  Theorem C35_select4 (c : circuit K) b0 b1 P1 P2 P3 : good c -> inc c b0 -> inc c b1 ->
    isb (honest c b0) -> isb (honest c b1) ->
    gadget_ok (quaternary_point_select b0 b1 P1 P2 P3) c
      (fun w o => (w b0 = 0 /\ w b1 = 0 -> (w (fst o), w (snd o)) = (0, 1)) /\ (w b0 = 1 /\ w b1 = 0 -> (w (fst o), w (snd o)) = P1) /\
        (w b0 = 0 /\ w b1 = 1 -> (w (fst o), w (snd o)) = P2) /\ (w b0 = 1 /\ w b1 = 1 -> (w (fst o), w (snd o)) = P3)) T pout.
  Proof.
    intros G H0 H1 I0 I1. apply gspec_gadget; [assumption|loc|]. eapply gspec_weaken; [apply quaternary_point_select_spec; auto using gd_wf|].
    assert (N1 : feqb (1 : K) 1 = true) by now apply feqb_eq.
    assert (N0 : feqb (0 : K) 1 = false) by (apply feqb_neq; intros E; apply (f1_neq_0 K); auto).
    intros w o H. unfold pv in H. unfold isb in *. repeat split; intros [E0 E1]; rewrite H by auto; rewrite E0, E1, ?N0, ?N1; reflexivity.
  Qed.
  Theorem C35_select2 (c : circuit K) b p0 p1 : good c -> inc c b -> pinc c p0 -> pinc c p1 -> isb (honest c b) ->
    gadget_ok (binary_point_vars_select b p0 p1) c
      (fun w o => (w b = 0 -> (w (fst o), w (snd o)) = (w (fst p0), w (snd p0))) /\ (w b = 1 -> (w (fst o), w (snd o)) = (w (fst p1), w (snd p1)))) T pout.
  Proof.
    intros G H0 H1 H2 I0. apply gspec_gadget; [assumption|loc|]. eapply gspec_weaken; [apply binary_point_vars_select_spec; auto using gd_wf|].
    assert (N1 : feqb (1 : K) 1 = true) by now apply feqb_eq.
    assert (N0 : feqb (0 : K) 1 = false) by (apply feqb_neq; intros E; apply (f1_neq_0 K); auto).
    intros w o H. unfold pv in H. unfold isb in *. split; intros E; rewrite H by auto; rewrite E, ?N0, ?N1; reflexivity.
  Qed.
  Theorem C35_equal (c : circuit K) p0 p1 : good c -> pinc c p0 -> pinc c p1 ->
    gadget_ok (enforce_point_equal p0 p1) c (fun w _ => w (fst p0) = w (fst p1) /\ w (snd p0) = w (snd p1))
      (fun w => w (fst p0) = w (fst p1) /\ w (snd p0) = w (snd p1)) noout.
  Proof.
    intros G H0 H1. apply gspec_gadget; [assumption| |].
    - destruct H0, H1. intros w w' E. rewrite !E; auto.
    - eapply gspec_weaken2; [apply enforce_point_equal_spec; auto using gd_wf|..]; unfold pv.
      + intros w o H. now injection H.
      + intros w [-> ->]. reflexivity.
  Qed.
  Theorem C35_is_equal (c : circuit K) p0 p1 : good c -> pinc c p0 -> pinc c p1 ->
    gadget_ok (is_point_equal p0 p1) c (fun w o => isb (w o) /\ (w o = 1 <-> w (fst p0) = w (fst p1) /\ w (snd p0) = w (snd p1))) T out.
  Proof.
    intros G H0 H1. apply gspec_gadget; [assumption|loc|]. eapply gspec_weaken; [apply is_point_equal_spec; auto using gd_wf|].
    intros w o ->. destruct (peqb K (pv w p0) (pv w p1)) eqn:E; cbn [b2k].
    - apply peqb_eq in E. injection E as E1 E2. split; [now right|]. tauto.
    - split; [now left|]. split; intros H.
      + exfalso. apply (f1_neq_0 K). congruence.
      + destruct H as [H2 H3]. assert (peqb K (pv w p0) (pv w p1) = true) by (apply peqb_eq; unfold pv; now rewrite H2, H3). congruence.
  Qed.
  Theorem C35_inverse (c : circuit K) p : good c -> pinc c p ->
    gadget_ok (inverse_point p) c (fun w o => w (fst o) = - w (fst p) /\ w (snd o) = w (snd p)) T pout.
  Proof.
    intros G H0. apply gspec_gadget; [assumption|loc|]. eapply gspec_weaken; [apply inverse_point_spec; auto using gd_wf|].
    intros w o H. unfold pv, topp in H. now injection H.
  Qed.
  Theorem C35_is_neutral (c : circuit K) p : good c -> pinc c p ->
    gadget_ok (is_neutral_point p) c (fun w o => isb (w o) /\ (w o = 1 <-> w (fst p) = 0 /\ w (snd p) = 1)) T out.
  Proof.
    intros G H0. apply gspec_gadget; [assumption|loc|]. eapply gspec_weaken; [apply is_neutral_point_spec; auto using gd_wf|].
    intros w o ->. destruct (peqb K (pv w p) te_default) eqn:E; cbn [b2k].
    - apply peqb_eq in E. injection E as E1 E2. split; [now right|]. tauto.
    - split; [now left|]. split; intros H.
      + exfalso. apply (f1_neq_0 K). congruence.
      + destruct H as [H2 H3]. assert (peqb K (pv w p) te_default = true) by (apply peqb_eq; unfold pv; now rewrite H2, H3). congruence.
  Qed.
End Points.

Section Curve.
  Context {K : fld}.
  Variable zval : K -> Z.
  Notation gadget_ok := (gadget_ok zval).
  Variables A D : K.
  Notation onxy x y := (A * (x * x) + y * y = 1 + D * (x * x) * (y * y)).

  Theorem C35_on_curve (c : circuit K) p : good c -> pinc c p ->
    gadget_ok (enforce_on_curve A D p) c (fun w _ => onxy (w (fst p)) (w (snd p))) (fun w => onxy (w (fst p)) (w (snd p))) noout.
  Proof.
    intros G H0. apply gspec_gadget; [assumption| |].
    - destruct H0. intros w w' E. rewrite !E; auto.
    - eapply gspec_weaken2; [apply enforce_on_curve_spec; auto using gd_wf|..]; intros; now apply on_coord.
  Qed.

  (** The addition gate, on any curve: the two equations of the law, without
      the divisions. *)
  Theorem C35_add_gate (c : circuit K) a b o : good c -> pinc c a -> pinc c b -> pinc c o ->
    let rel (w : nat -> K) :=
      let z := D * w (fst a) * w (snd a) * w (fst b) * w (snd b) in
      w (fst o) * (1 + z) = w (fst a) * w (snd b) + w (fst b) * w (snd a) /\
      w (snd o) * (1 - z) = w (snd a) * w (snd b) - A * w (fst a) * w (fst b) in
    gadget_ok (ecc_add_gate A D a b o) c (fun w _ => rel w) rel noout.
  Proof.
    intros G H0 H1 H2 rel. apply gspec_gadget; [assumption| |apply ecc_add_gate_spec; auto using gd_wf].
    destruct H0, H1, H2. intros w w' E. unfold rel. rewrite !E; auto.
  Qed.

  Section Complete.
    (** The law on a set of points closed under it: all points of a complete curve, or
        a subgroup ([law], see [C35_complete_law] and [C35_subgroup_law]). *)
    Hypothesis HC : law K A D.
    Notation E := (curve K A D HC).
    Notation cval := (cval K A D HC).
    (** The point variable [p] carries the point [P] of the curve. *)
    Definition holds (w : nat -> K) (p : pvar) (P : E) : Prop := (w (fst p), w (snd p)) = cval P.
    Definition on_curve (w : nat -> K) (p : pvar) : Prop := onxy (w (fst p)) (w (snd p)).
    Definition in_law (w : nat -> K) (p : pvar) : Prop := ins K A D HC (w (fst p), w (snd p)).
    Lemma in_law_holds w p : in_law w p <-> exists P, holds w p P.
    Proof.
      unfold in_law, holds. split.
      - intros H. exists (mkpt K A D HC _ H). reflexivity.
      - intros [P ->]. apply cval_on.
    Qed.

    (** [ecc_add] computes the sum in the group of the curve, whatever the prover
        does: also for doublings, inverses and the neutral element. *)
    Theorem C35_add (c : circuit K) a b : good c -> pinc c a -> pinc c b ->
      in_law (honest c) a -> in_law (honest c) b ->
      gadget_ok (ecc_add A D a b) c (fun w o => forall P Q, holds w a P -> holds w b Q -> holds w o (gadd P Q)) T pout.
    Proof.
      intros G Ha Hb Oa Ob. apply gspec_gadget; [assumption|loc|].
      apply (ecc_add_group zval A D HC); auto using gd_wf.
    Qed.

    (** *** C36 *)
    Theorem C36_binary (c : circuit K) bits p : good c -> base (honest c) -> pinc c p -> Forall (fun b => inc c b) bits ->
      Forall isb (map (honest c) bits) -> in_law (honest c) p ->
      gadget_ok (variable_base_binary_scalar_mul A D bits p) c
        (fun w o => Forall isb (map w bits) -> forall P, holds w p P -> holds w o (gmul (chunk_val (map k2b (map w bits))) P)) T pout.
    Proof.
      intros G B Hp Hl Il Op. apply gspec_gadget; [assumption|loc|].
      apply (variable_base_binary_spec zval A D HC); auto using gd_wf.
    Qed.
    Section Prime.
      Variables (p : Z) (nb L : nat).
      Hypothesis HF : pfield K zval p nb L.
      (** The scalar is the integer of its variable; it must be below
          [2^fb_bits sbits] at building time. *)
      Theorem C36_fixed_base sbits (c : circuit K) s (B : E) : good c -> base (honest c) -> inc c s ->
        (1 <= sbits)%nat -> (fb_bits sbits <= nb)%nat -> (zval (honest c s) < 2 ^ Z.of_nat (fb_bits sbits))%Z ->
        gadget_ok (fixed_base_scalar_mul A D zval p nb L sbits s (cval B)) c (fun w o => holds w o (gmul (zval (w s)) B)) T pout.
      Proof.
        intros G Hb Hs H1 H2 H3. apply gspec_gadget; [assumption|loc|].
        apply (fixed_base_spec zval A D HC p nb L HF); auto using gd_wf.
      Qed.
      (** The sum of the multiples. *)
      Fixpoint msm_value (w : nat -> K) (scalars : list nat) (Ps : list E) : E :=
        match scalars, Ps with
        | s :: scalars', P :: Ps' => gadd (gmul (zval (w s)) P) (msm_value w scalars' Ps')
        | _, _ => g0
        end.
      Lemma msm_value_eq w scalars : forall Ps, msm_value w scalars Ps = gsum A D HC (smul A D HC (map (fun s => zval (w s)) scalars) Ps).
      Proof.
        induction scalars as [|s scalars IH]; intros [|P Ps]; try reflexivity. cbn [msm_value map]. rewrite IH. reflexivity.
      Qed.
      Theorem C36_msm_naive (c : circuit K) bases scalars len : good c -> base (honest c) -> (1 <= len <= nb)%nat ->
        bases <> [] -> length bases = length scalars ->
        Forall (fun b => pinc c b /\ in_law (honest c) b) bases ->
        Forall (fun s => inc c s /\ (zval (honest c s) < 2 ^ Z.of_nat len)%Z) scalars ->
        gadget_ok (msm_naive A D zval p nb L bases scalars len) c
          (fun w o => forall Ps, Forall2 (holds w) bases Ps -> holds w o (msm_value w scalars Ps)) T pout.
      Proof.
        intros G Hb Hlen Hne Hll HB HS. apply gspec_gadget; [assumption|loc|].
        eapply gspec_weaken; [apply (msm_naive_spec zval A D HC p nb L HF); auto using gd_wf|].
        - clear Hne. revert scalars Hll HS. induction HB as [|b bases [H1 H2] _ IH]; intros [|s scalars] Hll HS; try discriminate; constructor.
          + inversion_clear HS as [|? ? [H3 H4] HS']. repeat split; auto; try apply H1.
          + apply IH; [cbn in Hll; lia|]. now inversion_clear HS.
        - intros w o H Ps HP. unfold holds. rewrite msm_value_eq. apply H.
          clear -HP. induction HP as [|b P bases Ps H _ IH]; [reflexivity|]. cbn [map]. now rewrite IH, <- H.
      Qed.
      (** In a circuit without lookups [msm], hence [variable_base_scalar_mul],
          is the naive algorithm. *)
      Theorem C36_msm_turbo sbits order (c : circuit K) bases scalars : good c -> support_lookup c = false -> length bases = length scalars ->
        msm A D zval p nb L sbits order bases scalars c = msm_naive A D zval p nb L bases scalars sbits c.
      Proof.
        intros G Hs Hll. unfold msm, msm_with_var_scalar_length. rewrite Hll, Nat.eqb_refl. cbn [negb].
        unfold cbind, lift. now rewrite Hs.
      Qed.
      Theorem C36_msm_empty_panics_refuted len (c : circuit K) : good c -> msm_naive A D zval p nb L [] [] len c = (Panic, c).
      Proof. reflexivity. Qed.
    End Prime.
  End Complete.
End Curve.

(** *** A concrete curve: [x^2 + y^2 = 1 + 5 x^2 y^2] over 97 elements, of order 112 *)
Lemma F97_all (P : F97 -> bool) : forallb (fun n => P (e97 (Z.of_nat n))) (seq 0 97) = true -> forall x, P x = true.
Proof.
  intros H x. rewrite forallb_forall in H. pose proof (pf_range _ _ _ _ _ F97_pfield x) as Hx.
  replace x with (e97 (Z.of_nat (Z.to_nat (z97 x)))).
  - apply H, in_seq. lia.
  - rewrite Z2Nat.id by lia. apply (zmk_zv 97).
Qed.
Lemma complete97 : complete F97 (e97 1) (e97 5).
Proof.
  split.
  - intros E. apply (f_equal z97) in E. vm_compute in E. discriminate.
  - exists (e97 1). apply feqb_eq. vm_compute. reflexivity.
  - assert (H : forall s : F97, negb (feqb (s * s) (e97 5)) = true) by (apply F97_all; vm_compute; reflexivity).
    intros s E. specialize (H s). apply feqb_eq in E. rewrite E in H. discriminate.
Qed.
Definition law97 : law F97 (e97 1) (e97 5) := complete_law F97 (e97 1) (e97 5) complete97.
Lemma on97 x y : feqb (e97 1 * e97 x * e97 x + e97 y * e97 y) (1 + e97 5 * e97 x * e97 x * e97 y * e97 y) = true ->
  ins F97 (e97 1) (e97 5) law97 (e97 x, e97 y).
Proof. intros H. exact H. Qed.
Notation E97 := (curve F97 (e97 1) (e97 5) law97).
Definition g97 : E97 := mkpt F97 _ _ _ _ (on97 5 23 eq_refl).
Definition h97 : E97 := mkpt F97 _ _ _ _ (on97 7 41 eq_refl).
(** A circuit with two points and a scalar. *)
Definition ecc_circuit (t : plonk_type) (s : Z) : circuit F97 :=
  snd ((create_point_variable (e97 5, e97 23) >> create_point_variable (e97 7, e97 41) >> create_variable (e97 s)) (new_circuit F97 t)).
Lemma ecc_circuit_good t s : good (ecc_circuit t s).
Proof. split; try reflexivity; split; try reflexivity; cbn; try lia; repeat constructor; cbn; lia. Qed.
Theorem C35_instance t s : let c := ecc_circuit t s in
  good c /\ base (honest c) /\ pinc c (2, 3)%nat /\ pinc c (4, 5)%nat /\ inc c 6 /\
  holds (e97 1) (e97 5) law97 (honest c) (2, 3)%nat g97 /\ holds (e97 1) (e97 5) law97 (honest c) (4, 5)%nat h97.
Proof. intros c. split; [apply ecc_circuit_good|]. repeat split; cbn; lia. Qed.
(** Additions, and the multiple 23 (5, 23) = (7, 41) both ways, accepted with the expected values. *)
Definition wz (ws : list F97) (o : pvar) : Z * Z := (z97 (asg ws (fst o)), z97 (asg ws (snd o))).
Theorem C35_run :
  let c := ecc_circuit Turbo 23 in
  let r := ecc_add (e97 1) (e97 5) (2, 3)%nat (4, 5)%nat c in
  let d := ecc_add (e97 1) (e97 5) (2, 3)%nat (2, 3)%nat c in
  let f := fixed_base_scalar_mul (e97 1) (e97 5) z97 97 7 64 6 6 (e97 5, e97 23) c in
  let v := msm_naive (e97 1) (e97 5) z97 97 7 64 [(2, 3)]%nat [6%nat] 6 c in
  let res x := (check_circuit_satisfiability z97 (snd x) [], wz (witness (snd x)) (okv (0, 0)%nat (fst x))) in
  res r = (Ok tt, (26, 49))%Z /\ res d = (Ok tt, (68, 75))%Z /\ res f = (Ok tt, (7, 41))%Z /\ res v = (Ok tt, (7, 41))%Z.
Proof. vm_compute. repeat split. Qed.

(** *** Sets of points on which the law is defined *)
(** On a complete curve: all points. *)
Theorem C35_complete_law (K : fld) (A D : K) (HC : complete K A D) x y :
  ins K A D (complete_law K A D HC) (x, y) <-> A * (x * x) + y * y = 1 + D * (x * x) * (y * y).
Proof. rewrite complete_law_in. apply on_coord. Qed.
(** On any curve: a finite set of points that a computation shows to be closed. *)
Section Subgroups.
  Variable K : fld.
  Variables A D : K.
  Definition mem (l : list (pt K)) (P : pt K) : bool := existsb (peqb K P) l.
  Lemma mem_in l P : mem l P = true <-> In P l.
  Proof.
    unfold mem. rewrite existsb_exists. split.
    - intros (Q & H & E). apply peqb_eq in E. now subst.
    - intros H. exists P. split; [exact H|]. now apply peqb_eq.
  Qed.
  Definition closedb (l : list (pt K)) : bool :=
    mem l (t0 K) && forallb (fun P => onb K A D P && mem l (topp K P) &&
      forallb (fun Q => mem l (tadd K A D P Q) && negb (feqb (1 + tz K D P Q) 0) && negb (feqb (1 - tz K D P Q) 0)) l) l.
  Lemma closed_spec l : closedb l = true -> mem l (t0 K) = true /\ (forall P, mem l P = true -> onb K A D P = true /\ mem l (topp K P) = true /\
      forall Q, mem l Q = true -> mem l (tadd K A D P Q) = true /\ 1 + tz K D P Q <> 0 /\ 1 - tz K D P Q <> 0).
  Proof.
    intros H. unfold closedb in H. apply andb_prop in H as [H0 H]. split; [exact H0|].
    intros P HP. rewrite forallb_forall in H. apply mem_in in HP. specialize (H P HP). apply andb_prop in H as [H H2]. apply andb_prop in H as [H3 H4].
      split; [exact H3|]. split; [exact H4|]. intros Q HQ. rewrite forallb_forall in H2. apply mem_in in HQ. specialize (H2 Q HQ).
      apply andb_prop in H2 as [H2 H5]. apply andb_prop in H2 as [H2 H6]. split; [exact H2|].
      split; intros E; apply feqb_eq in E; [rewrite E in H6|rewrite E in H5]; discriminate.
  Qed.
  Definition list_law (l : list (pt K)) (H : closedb l = true) : law K A D.
  Proof.
    refine {| lw_in := mem l |}; destruct (closed_spec l H) as [H0 H1]; auto.
    - intros P HP. apply onb_on. now apply H1.
    - intros P HP. now apply H1.
    - intros P Q HP HQ. now apply (H1 P HP).
    - intros P Q HP HQ. destruct (H1 P HP) as (_ & _ & H2). now apply (H2 Q HQ).
  Defined.
  Theorem C35_subgroup_law l : closedb l = true -> exists HL : law K A D, forall P, ins K A D HL P <-> In P l.
  Proof. intros H. exists (list_law l H). intros P. apply mem_in. Qed.
End Subgroups.
(** A curve that is not complete, [- x^2 + y^2 = 1 + 12 x^2 y^2] with [-1] and 12 squares, and
    its subgroup of order 13, in which [ecc_add] computes the sum; for other points of the
    curve the addition panics. *)
Definition sub13 : list (pt F97) := map (fun c => (e97 (fst c), e97 (snd c))) [(0, 1); (1, 31); (52, 64); (53, 73); (36, 30); (76, 45); (11, 46); (86, 46); (21, 45); (61, 30); (44, 73); (45, 64); (96, 31)]%Z.
Theorem C35_subgroup_instance : exists (HL : law F97 (e97 96) (e97 12)) (G H : curve F97 (e97 96) (e97 12) HL) c,
  (exists s, s * s = e97 96) /\ (exists s, s * s = e97 12) /\ length sub13 = 13%nat /\ NoDup sub13 /\ (forall P, ins _ _ _ HL P <-> In P sub13) /\
  good c /\ pinc c (2, 3)%nat /\ pinc c (4, 5)%nat /\ holds (e97 96) (e97 12) HL (honest c) (2, 3)%nat G /\ holds (e97 96) (e97 12) HL (honest c) (4, 5)%nat H /\
  G <> g0 /\ H <> g0 /\ G <> H /\
  (exists o, fst (ecc_add (e97 96) (e97 12) (2, 3)%nat (4, 5)%nat c) = Ok o) /\
  fst (ecc_add (e97 96) (e97 12) (2, 3)%nat (6, 7)%nat c) = Panic /\ on_curve (e97 96) (e97 12) (honest c) (6, 7)%nat.
Proof.
  assert (C : closedb F97 (e97 96) (e97 12) sub13 = true) by (vm_compute; reflexivity).
  set (HL := list_law F97 (e97 96) (e97 12) sub13 C).
  set (c := snd ((create_point_variable (e97 1, e97 31) >> create_point_variable (e97 52, e97 64) >>
    create_point_variable (e97 23, e97 34)) (new_circuit F97 Turbo))).
  assert (IN : forall P, ins F97 (e97 96) (e97 12) HL P <-> In P sub13) by exact (mem_in F97 sub13).
  assert (I1 : ins _ _ _ HL (e97 1, e97 31)) by (apply IN; right; left; reflexivity).
  assert (I2 : ins _ _ _ HL (e97 52, e97 64)) by (apply IN; right; right; left; reflexivity).
  assert (NE : forall P Q : curve F97 (e97 96) (e97 12) HL, peqb F97 (cval _ _ _ _ P) (cval _ _ _ _ Q) = false -> P <> Q).
  { intros P Q E ->. rewrite (proj2 (peqb_eq F97 _ _) eq_refl) in E. discriminate. }
  clearbody HL. exists HL, (mkpt _ _ _ HL _ I1), (mkpt _ _ _ HL _ I2), c.
  split; [exists (e97 22); apply feqb_eq; vm_compute; reflexivity|]. split; [exists (e97 20); apply feqb_eq; vm_compute; reflexivity|].
  split; [reflexivity|]. split.
  { assert (Hd : forall l, (fix go (l : list (pt F97)) := match l with [] => true | P :: l' => negb (mem F97 l' P) && go l' end) l = true -> NoDup l).
    { induction l as [|P l IH]; intros E; constructor; apply andb_prop in E as [E1 E2]; auto. rewrite <- mem_in. intros X. rewrite X in E1. discriminate. }
    apply Hd. vm_compute. reflexivity. }
  split; [exact IN|].
  split. { split; try reflexivity; split; try reflexivity; cbn; try lia; repeat constructor; cbn; lia. }
  split; [split; cbn; lia|]. split; [split; cbn; lia|]. split; [reflexivity|]. split; [reflexivity|].
  split; [apply NE; vm_compute; reflexivity|]. split; [apply NE; vm_compute; reflexivity|]. split; [apply NE; vm_compute; reflexivity|].
  split; [eexists; vm_compute; reflexivity|]. split; [vm_compute; reflexivity|].
  unfold on_curve. apply feqb_eq. vm_compute. reflexivity.
Qed.

(** *** Findings *)
(** On a curve where neither [A] nor [D] is a square, such as Bandersnatch
    ([a = -5]), the addition gate leaves a coordinate free for some pairs of points
    of the curve: the sum of two points of the curve can be anything. *)
Theorem C35_incomplete_curve_refuted :
  exists (A D : F97) (c c' : circuit F97) a b o ws,
    (forall s, s * s <> A) /\ (forall s, s * s <> D) /\ good c /\ pinc c a /\ pinc c b /\
    ecc_add A D a b c = (Ok o, c') /\ accepts z97 c' ws [] /\
    on_curve A D (asg ws) a /\ on_curve A D (asg ws) b /\ ~ on_curve A D (asg ws) o.
Proof.
  set (c := snd ((create_point_variable (e97 0, e97 1) >> create_point_variable (e97 0, e97 1)) (new_circuit F97 Turbo))).
  exists (e97 92), (e97 29), c, (snd (ecc_add (e97 92) (e97 29) (2, 3)%nat (4, 5)%nat c)), (2, 3)%nat, (4, 5)%nat,
    (okv (0, 0)%nat (fst (ecc_add (e97 92) (e97 29) (2, 3)%nat (4, 5)%nat c))), (map e97 [0; 1; 93; 62; 52; 95; 64; 0]%Z).
  assert (NS : forall k, forallb (fun n => negb (feqb (e97 (Z.of_nat n) * e97 (Z.of_nat n)) k)) (seq 0 97) = true -> forall s, s * s <> k).
  { intros k H s E. pose proof (F97_all (fun s => negb (feqb (s * s) k)) H s) as H'. cbn beta in H'. apply feqb_eq in E. rewrite E in H'. discriminate. }
  split; [apply NS; vm_compute; reflexivity|]. split; [apply NS; vm_compute; reflexivity|].
  split. { split; try reflexivity; split; try reflexivity; cbn; try lia; repeat constructor; cbn; lia. }
  split; [split; cbn; lia|]. split; [split; cbn; lia|].
  split; [apply okv_eq; vm_compute; reflexivity|]. split; [split; vm_compute; reflexivity|].
  unfold on_curve. rewrite <- !feqb_eq. vm_compute. repeat split. discriminate.
Qed.
(** Building the addition of such points divides by zero: a panic. *)
Theorem C35_incomplete_panic_refuted :
  exists (A D : F97) (c : circuit F97) a b, good c /\ pinc c a /\ pinc c b /\
    on_curve A D (honest c) a /\ on_curve A D (honest c) b /\ fst (ecc_add A D a b c) = Panic.
Proof.
  exists (e97 92), (e97 29), (snd ((create_point_variable (e97 93, e97 62) >> create_point_variable (e97 52, e97 95)) (new_circuit F97 Turbo))), (2, 3)%nat, (4, 5)%nat.
  split. { split; try reflexivity; split; try reflexivity; cbn; try lia; repeat constructor; cbn; lia. }
  split; [split; cbn; lia|]. split; [split; cbn; lia|].
  unfold on_curve. rewrite <- !feqb_eq. vm_compute. repeat split.
Qed.

(** In a circuit with lookups, scalar multiplication ([msm], hence
    [variable_base_scalar_mul]) decomposes the scalar into windows modulo the field
    only.  When the windows reach beyond the modulus, the multiple by [s + 97] is
    accepted for the scalar [s]: here 46 times the point instead of 5 times. *)
Definition zwrap (x : F97) : Z := if (z97 x =? 5)%Z then 102%Z else z97 x.
Theorem C36_pippenger_wraps_refuted :
  exists (c c' : circuit F97) o ws, good c /\ pinc c (2, 3)%nat /\ inc c 6 /\
    msm (e97 1) (e97 5) z97 97 7 64 7 56 [(2, 3)%nat] [6%nat] c = (Ok o, c') /\
    accepts z97 c' ws [] /\ z97 (asg ws 6) = 5%Z /\
    holds (e97 1) (e97 5) law97 (asg ws) (2, 3)%nat g97 /\
    holds (e97 1) (e97 5) law97 (asg ws) o (gmul 102 g97) /\
    ~ holds (e97 1) (e97 5) law97 (asg ws) o (gmul 5 g97).
Proof.
  exists (ecc_circuit (Ultra 2) 5), (snd (msm (e97 1) (e97 5) z97 97 7 64 7 56 [(2, 3)%nat] [6%nat] (ecc_circuit (Ultra 2) 5))),
    (okv (0, 0)%nat (fst (msm (e97 1) (e97 5) z97 97 7 64 7 56 [(2, 3)%nat] [6%nat] (ecc_circuit (Ultra 2) 5)))),
    (witness (snd (msm (e97 1) (e97 5) zwrap 97 7 64 7 56 [(2, 3)%nat] [6%nat] (ecc_circuit (Ultra 2) 5)))).
  split; [apply ecc_circuit_good|]. split; [split; cbn; lia|]. split; [cbn; lia|].
  split; [apply okv_eq; vm_compute; reflexivity|]. split; [split; vm_compute; reflexivity|].
  split; [vm_compute; reflexivity|]. unfold holds.
  assert (PE : forall P Q : pt F97, P = Q <-> peqb F97 P Q = true) by (intros; now rewrite peqb_eq).
  rewrite !PE. vm_compute. repeat split. discriminate.
Qed.
(** The same holds of every curve in use: [c] and [m] for the bit length of the
    scalar field, and the modulus of the base field (Jubjub over BLS12-381,
    Ed-on-BLS12-377, Ed-on-BN254). *)
Definition windows (len : nat) : nat := (pip_c len * ((len - 1) / pip_c len + 1))%nat.
Theorem C36_shipped_windows_wrap_refuted :
  (52435875175126190479447740508185965837690552500527637822603658699938581184513 < 2 ^ Z.of_nat (windows 252))%Z /\
  (2 * 8444461749428370424248824938781546531375899335154063827935233455917409239041 < 2 ^ Z.of_nat (windows 251))%Z /\
  (2 * 21888242871839275222246405745257275088548364400416034343698204186575808495617 < 2 ^ Z.of_nat (windows 251))%Z.
Proof. vm_compute. repeat split. Qed.

Print Assumptions C35_select4.
Print Assumptions C35_select2.
Print Assumptions C35_equal.
Print Assumptions C35_is_equal.
Print Assumptions C35_inverse.
Print Assumptions C35_is_neutral.
Print Assumptions C35_on_curve.
Print Assumptions C35_add_gate.
Print Assumptions C35_add.
Print Assumptions C36_binary.
Print Assumptions C36_fixed_base.
Print Assumptions C36_msm_naive.
Print Assumptions C36_msm_turbo.
Print Assumptions C36_msm_empty_panics_refuted.
Print Assumptions C35_incomplete_curve_refuted.
Print Assumptions C35_incomplete_panic_refuted.
Print Assumptions C36_pippenger_wraps_refuted.
Print Assumptions C36_shipped_windows_wrap_refuted.
