(** Soundness and completeness of the twisted Edwards gadgets. *)

From Coq Require Import List Arith ZArith Bool Lia Ring Field.
From Verif Require Import Base ListAux Alg Poly Group CircuitModel CircuitProofs GadgetModel GadgetProofs RangeProofs
  BitProofs CmpProofs Edwards EccModel.
Import ListNotations.
Local Open Scope fld_scope.
Local Open Scope circ_scope.

(** The point a pair of variables carries. *)
Definition pv {K : fld} (w : nat -> K) (p : pvar) : pt K := (w (fst p), w (snd p)).
Definition pout (p : pvar) (n : nat) : Prop := (fst p < n)%nat /\ (snd p < n)%nat.

Section GateLemmas.
  Context {K : fld}.
  Add Field Kfield_eccg : (fth K).
  Variable w : nat -> K.
  Ltac gl := unfold gsat, gate_expected, gate_output, pow5; cbn; apply eq_iff_opp; ring.
  Lemma gsat_qx x1 x2 x3 a b c d o : gsat w 0 (quaternary_x_gate K x1 x2 x3) (mk_row a b c d o)
    <-> w o = x1 * w a + x2 * w b + (x3 - x2 - x1) * (w a * w b).
  Proof. gl. Qed.
  Lemma gsat_qy x1 x2 x3 a b c d o : gsat w 0 (quaternary_y_gate K x1 x2 x3) (mk_row a b c d o)
    <-> w o = (x1 - 1) * w a + (x2 - 1) * w b + (x3 - x2 - x1 + 1) * (w a * w b) + 1.
  Proof. gl. Qed.
  Lemma gsat_ee A D a b c d o : gsat w 0 (edwards_eq_gate K A D) (mk_row a b c d o)
    <-> A * w a * w b + w c * w d = 1 + D * w a * w b * w c * w d * w o.
  Proof. unfold gsat, gate_expected, gate_output, pow5; cbn; apply eq_iff_opp; ring. Qed.
  Lemma gsat_ex A D a b c d o : gsat w 0 (edwards_add_x_gate K A D) (mk_row a b c d o)
    <-> w o * (1 + D * w a * w b * w c * w d) = w a * w b + w c * w d.
  Proof. gl. Qed.
  Lemma gsat_ey A D a b c d o : gsat w 0 (edwards_add_y_gate K A D) (mk_row a b c d o)
    <-> w o * (1 - D * w a * w b * w c * w d) = w c * w d - A * w a * w b.
  Proof. gl. Qed.
End GateLemmas.

Section Specs.
  Context {K : fld}.
  Variable zval : K -> Z.
  Add Field Kfield_ecc : (fth K).
  Notation gspec := (gspec zval).
  Notation dsat := (dsat zval).
  Notation T := (fun _ : nat -> K => True).

  Ltac start := unfold gspec, CircuitProofs.gspec; unfold out, noout, pout, pv in *; cbn [fst snd] in *.
  Ltac pts := repeat match goal with p : pvar |- _ => destruct p end; cbn [fst snd] in *;
    unfold pout in *; cbn [fst snd] in *; repeat match goal with H : _ /\ _ |- _ => destruct H end.

  (** The honest assignment is an assignment: what soundness says of it. *)
  Lemma base_capp (c : circuit K) d : wf c -> base (hon c) -> base (hon (capp c d)).
  Proof.
    intros W [B0 B1]. pose proof (wf_two _ W). destruct (hext_capp c d (hon (capp c d)) W (hext_hon _)) as [E _].
    split; rewrite E by lia; auto.
  Qed.
  Lemma hon_capp (c : circuit K) d v : wf c -> (v < num_vars c)%nat -> hon (capp c d) v = hon c v.
  Proof. intros W Hv. destruct (hext_capp c d (hon (capp c d)) W (hext_hon _)) as [E _]. auto. Qed.
  Lemma gspec_hon {X} (m : circ K X) c S R : wf c -> base (hon c) -> gspec m c S T R ->
    wpc m c (fun a d => (forall w, base w -> dsat (ptype c) w d -> S w a)
      /\ (forall w, base w -> hext (capp c d) w -> True -> dsat (ptype c) w d)
      /\ R a (num_vars c + length (d_vals d))%nat /\ S (hon (capp c d)) a).
  Proof.
    intros W B H. eapply wpc_mono; [exact H|]. intros a d _ (Sd & Cc & Rr). split; [auto|]. split; [auto|]. split; [auto|].
    apply Sd; [now apply base_capp|]. apply Cc; auto using base_capp. apply hext_hon.
  Qed.

  Lemma create_point_variable_spec c P : wf c ->
    gspec (create_point_variable P) c (fun _ _ => True) T pout.
  Proof. intros; start; unfold create_point_variable. repeat wstep. leaf; auto. cbn [fst snd]. split; bnd. Qed.
  Lemma create_constant_point_variable_spec c P : wf c ->
    gspec (create_constant_point_variable P) c (fun w p => pv w p = P) T pout.
  Proof.
    intros; start; unfold create_constant_point_variable. use create_constant_variable_spec. use create_constant_variable_spec.
    repeat wstep. leaf; auto.
    - destruct P. cbn in *. congruence.
    - cbn [fst snd]; split; bnd.
  Qed.

  Lemma quaternary_point_select_spec c b0 b1 P1 P2 P3 : wf c -> (b0 < num_vars c)%nat -> (b1 < num_vars c)%nat ->
    isb (hon c b0) -> isb (hon c b1) ->
    gspec (quaternary_point_select b0 b1 P1 P2 P3) c
      (fun w o => isb (w b0) -> isb (w b1) ->
         pv w o = if feqb (w b1) 1 then (if feqb (w b0) 1 then P3 else P2) else (if feqb (w b0) 1 then P1 else te_default)) T pout.
  Proof.
    intros Hw H0 H1 I0 I1. pose proof (wf_two _ Hw). start; unfold quaternary_point_select, create_point_variable. do 4 wstep.
    remember (if feqb (hon c b0) 1 then _ else _) as SP eqn:ESP. repeat wstep.
    assert (N1 : feqb (1 : K) 1 = true) by now apply feqb_eq.
    assert (N0 : feqb (0 : K) 1 = false) by (apply feqb_neq; intros E; apply (f1_neq_0 K); auto).
    leaf; auto; rewrite ?gsat_qx, ?gsat_qy in *; cbn [fst snd] in *.
    - intros J0 J1. apply injective_projections; cbn [fst snd].
      + rewrite H4. destruct J0 as [J0|J0], J1 as [J1|J1]; rewrite J0, J1, ?N0, ?N1; unfold te_default; cbn [fst snd]; ring.
      + rewrite H5. destruct J0 as [J0|J0], J1 as [J1|J1]; rewrite J0, J1, ?N0, ?N1; unfold te_default; cbn [fst snd]; ring.
    - rewrite E0, ESP. destruct I0 as [J0|J0], I1 as [J1|J1]; rewrite J0, J1, ?N0, ?N1; unfold te_default; cbn [fst snd]; ring.
    - rewrite E, ESP. destruct I0 as [J0|J0], I1 as [J1|J1]; rewrite J0, J1, ?N0, ?N1; unfold te_default; cbn [fst snd]; ring.
    - cbn [fst snd]. split; bnd.
  Qed.

  Lemma binary_point_vars_select_spec c b p0 p1 : wf c -> (b < num_vars c)%nat -> pout p0 (num_vars c) -> pout p1 (num_vars c) ->
    isb (hon c b) ->
    gspec (binary_point_vars_select b p0 p1) c
      (fun w o => isb (w b) -> pv w o = if feqb (w b) 1 then pv w p1 else pv w p0) T pout.
  Proof.
    intros Hw Hbb [A1 A2] [A3 A4] I. destruct p0 as [x0 y0], p1 as [x1 y1]. start; unfold binary_point_vars_select, check_point_var_bound; cbn [fst snd]. repeat wstep.
    cbn [fst snd] in *. use conditional_select_spec. use conditional_select_spec.
    { now rewrite hon_capp by auto. }
    repeat wstep. leaf; auto.
    - intros J. cbn [fst snd]. rewrite F, F0 by auto. destruct (feqb (w b) 1); auto.
    - cbn [fst snd]; split; bnd.
  Qed.
  Lemma enforce_point_equal_spec c p0 p1 : wf c -> pout p0 (num_vars c) -> pout p1 (num_vars c) ->
    gspec (enforce_point_equal p0 p1) c (fun w _ => pv w p0 = pv w p1) (fun w => pv w p0 = pv w p1) noout.
  Proof.
    intros Hw [A1 A2] [A3 A4]. destruct p0 as [x0 y0], p1 as [x1 y1]. start; unfold enforce_point_equal, check_point_var_bound; cbn [fst snd]. repeat wstep.
    cbn [fst snd] in *. use enforce_equal_spec. use enforce_equal_spec. leaf; auto.
    - congruence.
    - injection HC as E1 E2. apply Cmp; auto.
    - injection HC as E1 E2. apply Cmp0; auto.
  Qed.
  Lemma is_point_equal_spec c p0 p1 : wf c -> pout p0 (num_vars c) -> pout p1 (num_vars c) ->
    gspec (is_point_equal p0 p1) c (fun w o => w o = b2k (peqb K (pv w p0) (pv w p1))) T out.
  Proof.
    intros Hw [A1 A2] [A3 A4]. destruct p0 as [x0 y0], p1 as [x1 y1]. start; unfold is_point_equal, check_point_var_bound; cbn [fst snd]. repeat wstep.
    cbn [fst snd] in *. use is_equal_spec. use is_equal_spec. use logic_and_spec. leaf; auto.
    rewrite F, F0, F1. unfold peqb. cbn [fst snd]. destruct (feqb (w x0) (w x1)), (feqb (w y0) (w y1)); cbn; ring.
  Qed.
  Lemma inverse_point_spec c p : wf c -> pout p (num_vars c) ->
    gspec (inverse_point p) c (fun w o => pv w o = topp K (pv w p)) T pout.
  Proof.
    intros Hw [A1 A2]. pose proof (wf_two _ Hw). destruct p as [x y]. start; unfold inverse_point.
    cbn [fst snd] in *. use sub_spec. repeat wstep. leaf; auto.
    - unfold topp. cbn [fst snd]. rewrite F, Hb0. f_equal. ring.
    - cbn [fst snd]; split; bnd.
  Qed.
  Lemma neutral_point_gate_spec c p e : wf c -> pout p (num_vars c) -> (e < num_vars c)%nat ->
    gspec (neutral_point_gate p e) c (fun w _ => w e = b2k (peqb K (pv w p) te_default))
      (fun w => w e = b2k (peqb K (pv w p) te_default)) noout.
  Proof.
    intros Hw [A1 A2] He. pose proof (wf_two _ Hw). destruct p as [x y]. start; unfold neutral_point_gate, check_point_var_bound; cbn [fst snd]. repeat wstep.
    cbn [fst snd] in *. use is_equal_spec. use is_equal_spec. use gate3_mul. leaf; auto.
    - rewrite F, F1, F0, Hb0, Hb1. unfold peqb, te_default. cbn [fst snd]. destruct (feqb (w x) 0), (feqb (w y) 1); cbn; ring.
    - apply Cmp1; auto. rewrite HC, F, F0, Hb0, Hb1. unfold peqb, te_default. cbn [fst snd]. destruct (feqb (w x) 0), (feqb (w y) 1); cbn; ring.
  Qed.
  Lemma is_neutral_point_spec c p : wf c -> pout p (num_vars c) ->
    gspec (is_neutral_point p) c (fun w o => w o = b2k (peqb K (pv w p) te_default)) T out.
  Proof.
    intros Hw Hp. destruct p as [x y]. pose proof Hp as [A1 A2]. start; unfold is_neutral_point, point_witness, check_point_var_bound, create_boolean_variable; cbn [fst snd]. repeat wstep.
    cbn [fst snd] in *. use enforce_bool_spec. repeat wstep.
    use neutral_point_gate_spec. { split; cbn [fst snd]; bnd. } repeat wstep. leaf; auto.
    - apply Cmp; auto. rewrite E. destruct (peqb _ _ _); auto.
  Qed.

  Section Curve.
    Variables A D : K.
    Notation on := (on K A D).

    Lemma enforce_on_curve_spec c p : wf c -> pout p (num_vars c) ->
      gspec (enforce_on_curve A D p) c (fun w _ => on (pv w p)) (fun w => on (pv w p)) noout.
    Proof.
      intros Hw Hp. destruct p as [x y]. pose proof Hp as [A1 A2]. pose proof (wf_two _ Hw). start; unfold enforce_on_curve, check_point_var_bound; cbn [fst snd]. repeat wstep.
      leaf; auto; unfold Edwards.on; rewrite ?gsat_ee in *; cbn [fst snd] in *.
      - rewrite Hs. rewrite Hb1. ring.
      - unfold Edwards.on in HC. cbn in HC. rewrite HC, Hb1. ring.
    Qed.

    (** What the two addition gates say: the addition law without its division. *)
    Definition add_rel (P Q R : pt K) : Prop :=
      fst R * (1 + tz K D P Q) = fst P * snd Q + fst Q * snd P /\ snd R * (1 - tz K D P Q) = snd P * snd Q - A * fst P * fst Q.
    Lemma add_rel_tadd P Q R : 1 + tz K D P Q <> 0 -> 1 - tz K D P Q <> 0 -> (add_rel P Q R <-> R = tadd K A D P Q).
    Proof.
      unfold add_rel, tadd. generalize (tz K D P Q). intros z N1 N2. destruct R as [x y]. cbn [fst snd]. split.
      - intros [<- <-]. f_equal; field; auto.
      - intros E. injection E as -> ->. split; field; auto.
    Qed.
    Lemma ecc_add_gate_spec c a b o : wf c -> pout a (num_vars c) -> pout b (num_vars c) -> pout o (num_vars c) ->
      gspec (ecc_add_gate A D a b o) c (fun w _ => add_rel (pv w a) (pv w b) (pv w o)) (fun w => add_rel (pv w a) (pv w b) (pv w o)) noout.
    Proof.
      intros Hw Ha Hbb Ho. destruct a as [x1 y1], b as [x2 y2], o as [x3 y3]. pose proof Ha as [A1 A2]. pose proof Hbb as [A3 A4].
      pose proof Ho as [A5 A6]. start; unfold ecc_add_gate, check_point_var_bound; cbn [fst snd]. repeat wstep.
      leaf; auto; unfold add_rel, tz in *; rewrite ?gsat_ex, ?gsat_ey in *; cbn [fst snd] in *.
      - split.
        + match goal with H : w x3 * _ = _ |- _ => rewrite <- H end. ring.
        + transitivity (w y3 * (1 - D * w x1 * w x2 * w y1 * w y2)); [ring|]. match goal with H : w y3 * _ = _ |- _ => rewrite H end. ring.
      - destruct HC as [HC _]. rewrite <- HC. ring.
      - destruct HC as [_ HC]. transitivity (w y3 * (1 - D * w x1 * w y1 * w x2 * w y2)); [ring|]. rewrite HC. ring.
    Qed.
    Lemma ecc_add_spec c a b : wf c -> pout a (num_vars c) -> pout b (num_vars c) ->
      1 + tz K D (pv (hon c) a) (pv (hon c) b) <> 0 -> 1 - tz K D (pv (hon c) a) (pv (hon c) b) <> 0 ->
      gspec (ecc_add A D a b) c (fun w o => add_rel (pv w a) (pv w b) (pv w o)) T pout.
    Proof.
      intros Hw Ha Hbb N1 N2. destruct a as [x1 y1], b as [x2 y2]. pose proof Ha as [A1 A2]. pose proof Hbb as [A3 A4].
      start. unfold tz in *; cbn [fst snd] in *. unfold ecc_add, create_point_variable; cbn [fst snd]. repeat wstep. cbn [fst snd] in *.
      apply feqb_neq in N1. apply feqb_neq in N2. rewrite N1, N2. cbn [orb].
      apply feqb_neq in N1. apply feqb_neq in N2. repeat wstep.
      use ecc_add_gate_spec. { split; cbn [fst snd]; bnd. } { split; cbn [fst snd]; bnd. } { split; cbn [fst snd]; bnd. }
      repeat wstep. leaf; auto.
      - apply Cmp; auto. unfold add_rel, tz, pv. cbn [fst snd] in *. rewrite E, E0. split; field; auto.
      - cbn [fst snd]. split; bnd.
    Qed.
    (** Division by zero. *)
    Lemma ecc_add_panics c a b : wf c -> pout a (num_vars c) -> pout b (num_vars c) ->
      (1 + tz K D (pv (hon c) a) (pv (hon c) b) = 0 \/ 1 - tz K D (pv (hon c) a) (pv (hon c) b) = 0) ->
      ecc_add A D a b c = (Panic, c).
    Proof.
      intros Hw [A1 A2] [A3 A4] H. unfold ecc_add. 
      assert (G : forall v B (k : K -> circ K B), (v < num_vars c)%nat -> cbind (get_witness v) k c = k (hon c v) c).
      { intros v B k Hv. unfold cbind, get_witness, check_var_bound, lift, cbind.
        destruct (Nat.leb_spec (num_vars c) v); [lia|].
        unfold index. rewrite (nth_error_nth' _ 0) by (rewrite (wf_wit _ Hw); auto). reflexivity. }
      rewrite !G by auto. cbv zeta. unfold tz, pv in H. cbn [fst snd] in H.
      destruct H as [H|H]; apply feqb_eq in H; rewrite H; rewrite ?orb_true_r; reflexivity.
    Qed.

    Section Complete.
      Hypothesis HC : law K A D.
      Notation E := (curve K A D HC).
      Notation cval := (cval K A D HC).
      Notation on := (ins K A D HC).
      Definition toE (P : pt K) (H : on P) : E := mkpt K A D HC P H.

      Ltac pb := split; cbn [fst snd]; bnd.
      Ltac hb := repeat (apply base_capp; [wfs|]); assumption.
      Tactic Notation "useh" uconstr(L) :=
        lazymatch goal with
        | |- wpc (cbind _ _) _ _ => apply wpc_bind
        | _ => idtac
        end;
        eapply wpc_mono;
        [ eapply gspec_hon; [wfs|hb|eapply L; try wfs; try bnd]
        | let a := fresh "a" in let d := fresh "d" in let S := fresh "Snd" in let Cc := fresh "Cmp" in
          let R := fresh "R" in let Hn := fresh "Hn" in
          intros a d _ (S & Cc & R & Hn); cbn [fst snd] in *; unfold out, noout in R ].

      Lemma pv_capp (c : circuit K) d p : wf c -> pout p (num_vars c) -> pv (hon (capp c d)) p = pv (hon c) p.
      Proof. intros W [H1 H2]. unfold pv. now rewrite !hon_capp by auto. Qed.
      Lemma pout_capp (c : circuit K) d p : pout p (num_vars c) -> pout p (num_vars (capp c d)).
      Proof. intros [H1 H2]. split; cbn; lia. Qed.
      Lemma neutral_pout (c : circuit K) : wf c -> pout neutral_point_variable (num_vars c).
      Proof. intros W. pose proof (wf_two _ W). split; cbn; lia. Qed.
      Lemma neutral_pv (w : nat -> K) : base w -> pv w neutral_point_variable = cval (g0 : E).
      Proof. intros [H0 H1]. unfold pv, neutral_point_variable. cbn. now rewrite H0, H1. Qed.

      Lemma ecc_add_group c a b : wf c -> pout a (num_vars c) -> pout b (num_vars c) ->
        on (pv (hon c) a) -> on (pv (hon c) b) ->
        gspec (ecc_add A D a b) c (fun w o => forall P Q : E, pv w a = cval P -> pv w b = cval Q ->
          pv w o = cval (gadd P Q)) T pout.
      Proof.
        intros W Ha Hb Oa Ob. eapply wpc_mono.
        - apply ecc_add_spec; auto; [apply (den_p K A D HC)|apply (den_m K A D HC)]; auto.
        - intros o d _ (S & Cc & R). split; [|split]; auto. intros w Hw Hd P Q EP EQ. specialize (S w Hw Hd).
          rewrite EP, EQ in S. apply add_rel_tadd in S; [exact S|..].
          + apply (den_p K A D HC); apply cval_on.
          + apply (den_m K A D HC); apply cval_on.
      Qed.
      (** A spec whose points are in the group keeps the honest point on the curve. *)
      Lemma on_cval (P : pt K) : on P <-> exists Q : E, P = cval Q.
      Proof.
        split.
        - intros H. exists (toE P H). reflexivity.
        - intros [Q ->]. apply cval_on.
      Qed.

      Definition vb_body (p : pvar) (acc : pvar) (b : nat) : circ K pvar :=
        z <- binary_point_vars_select b neutral_point_variable p ;;
        acc2 <- ecc_add A D acc acc ;; ecc_add A D acc2 z.
      Lemma vb_body_spec c p acc b : wf c -> base (hon c) -> pout p (num_vars c) -> pout acc (num_vars c) -> (b < num_vars c)%nat ->
        isb (hon c b) -> on (pv (hon c) p) -> on (pv (hon c) acc) ->
        gspec (vb_body p acc b) c (fun w o => isb (w b) -> forall P Q : E, pv w p = cval P -> pv w acc = cval Q ->
          pv w o = cval (gadd (gadd Q Q) (gmul (if k2b (w b) then 1 else 0)%Z P))) T pout.
      Proof.
        intros W B Hp Ha Hbb Ib Op Oa. unfold CircuitProofs.gspec. unfold vb_body.
        useh binary_point_vars_select_spec; auto using neutral_pout.
        assert (Oz : on (pv (hon (capp c d)) a)).
        { rewrite Hn by now rewrite hon_capp. destruct (feqb _ _).
          - now rewrite pv_capp.
          - rewrite neutral_pv by hb. apply cval_on. }
        useh ecc_add_group; auto using pout_capp, wf_capp; try (rewrite !pv_capp by auto using wf_capp; auto).
        assert (O2 : on (pv (hon (capp (capp c d) d0)) a0)).
        { apply on_cval in Oa as [Q EQ]. rewrite (Hn0 Q Q) by (rewrite !pv_capp by auto using wf_capp, pout_capp; auto). apply cval_on. }
        useh ecc_add_group; auto using pout_capp, wf_capp; try (rewrite !pv_capp by auto using wf_capp; auto).
        leaf; auto; [|destruct R1; split; bnd].
        intros Ibw P Q EP EQ. rewrite (F (gadd Q Q) (gmul (if k2b (w b) then 1 else 0)%Z P)); auto.
        rewrite F1 by auto. unfold k2b. destruct (feqb (w b) 1); [exact EP|].
        rewrite neutral_pv by auto. reflexivity.
      Qed.
      Lemma vb_loop_spec l : forall c p acc, wf c -> base (hon c) -> pout p (num_vars c) -> pout acc (num_vars c) ->
        Forall (fun b => b < num_vars c)%nat l -> Forall isb (map (hon c) l) -> on (pv (hon c) p) -> on (pv (hon c) acc) ->
        gspec (foldM (vb_body p) acc l) c (fun w o => Forall isb (map w l) -> forall P Q : E, pv w p = cval P -> pv w acc = cval Q ->
          pv w o = cval (gadd (gmul (2 ^ Z.of_nat (length l))%Z Q) (gmul (chunk_val (map k2b (map w (rev l)))) P))) T pout.
      Proof.
        induction l as [|b l IH]; intros c p acc W B Hp Ha Hl Il Op Oa.
        - unfold CircuitProofs.gspec. cbn [foldM]. wstep. leaf; auto; [|destruct Ha; split; bnd].
          intros _ P Q EP EQ. cbn [rev map chunk_val fold_right length]. rewrite EQ. f_equal.
          change (2 ^ Z.of_nat 0)%Z with 1%Z. rewrite gmul_0, gmul_1. symmetry. apply gadd_0_r.
        - inversion_clear Hl as [|? ? Hbb Hl']. cbn [map] in Il. inversion_clear Il as [|? ? Ib Il'].
          unfold CircuitProofs.gspec. cbn [foldM].
          useh vb_body_spec; auto.
          useh IH; auto using pout_capp, wf_capp.
          { hb. }
          { eapply Forall_impl; [|exact Hl']. intros v Hv. cbn beta in Hv. bnd. }
          { replace (map (hon (capp c d)) l) with (map (hon c) l); [exact Il'|]. apply map_ext_in. intros v Hv.
            rewrite Forall_forall in Hl'. now rewrite hon_capp by auto. }
          { now rewrite pv_capp. }
          { apply on_cval in Op as [P EP]. apply on_cval in Oa as [Q EQ].
            rewrite (Hn ltac:(now rewrite hon_capp) P Q); [apply cval_on|..]; now rewrite pv_capp. }
          leaf; auto; [|destruct R0; split; bnd].
          intros Iw P Q EP EQ. inversion_clear Iw as [|? ? Iwb Iwl].
          rewrite (F Iwl P (gadd (gadd Q Q) (gmul (if k2b (w b) then 1 else 0)%Z P))); auto.
          f_equal. cbn [rev]. rewrite !map_app. cbn [map]. rewrite chunk_val_app, !map_length, rev_length.
          cbn [length]. rewrite Nat2Z.inj_succ, Z.pow_succ_r by lia.
          replace (2 * 2 ^ Z.of_nat (length l))%Z with (2 ^ Z.of_nat (length l) + 2 ^ Z.of_nat (length l))%Z by lia.
          rewrite gmul_add_r, <- gmul_mul, gmul_add, !gmul_add_r. unfold chunk_val at 2. cbn [fold_right].
          replace (2 * 0 + (if k2b (w b) then 1 else 0))%Z with (if k2b (w b) then 1 else 0)%Z by lia.
          rewrite gmul_add. rewrite <- !gadd_assoc. do 2 f_equal. apply gadd_comm.
      Qed.

      Lemma variable_base_binary_spec c bits p : wf c -> base (hon c) -> pout p (num_vars c) ->
        Forall (fun b => b < num_vars c)%nat bits -> Forall isb (map (hon c) bits) -> on (pv (hon c) p) ->
        gspec (variable_base_binary_scalar_mul A D bits p) c (fun w o => Forall isb (map w bits) -> forall P : E, pv w p = cval P ->
          pv w o = cval (gmul (chunk_val (map k2b (map w bits))) P)) T pout.
      Proof.
        intros W B Hp Hl Il Op. unfold CircuitProofs.gspec. unfold variable_base_binary_scalar_mul, check_point_var_bound.
        repeat first [apply wpc_assoc | apply wpc_chks; [assumption|] | apply wpc_chk; [apply Hp|]].
        change (foldM _ neutral_point_variable (rev bits)) with (foldM (vb_body p) neutral_point_variable (rev bits)).
        use vb_loop_spec; auto using neutral_pout.
        { now apply Forall_rev. }
        { rewrite map_rev. now apply Forall_rev. }
        { rewrite neutral_pv by auto. apply cval_on. }
        leaf; auto.
        intros Iw P EP. rewrite (F ltac:(rewrite map_rev; now apply Forall_rev) P g0); auto using neutral_pv.
        rewrite rev_involutive, gmul_0_r, gadd_0_l. reflexivity.
      Qed.

      Section Scalars.
        Variable p : Z.
        Variable nb L : nat.
        Hypothesis HF : pfield K zval p nb L.

        (** *** Sums of scalar multiples *)
        Fixpoint gsum (l : list E) : E := match l with [] => g0 | x :: l' => gadd x (gsum l') end.
        Definition smul (zs : list Z) (Ps : list E) : list E := map (fun zP => gmul (fst zP) (snd zP)) (combine zs Ps).

        Definition one_mul (len : nat) (b : pvar) (s : nat) : circ K pvar :=
          bits <- unpack zval p nb L s len ;; variable_base_binary_scalar_mul A D bits b.
        Lemma one_mul_spec c len b s : wf c -> base (hon c) -> pout b (num_vars c) -> (s < num_vars c)%nat ->
          (1 <= len <= nb)%nat -> (zval (hon c s) < 2 ^ Z.of_nat len)%Z -> on (pv (hon c) b) ->
          gspec (one_mul len b s) c (fun w o => forall P : E, pv w b = cval P -> pv w o = cval (gmul (zval (w s)) P)) T pout.
        Proof.
          intros W B Hb0' Hs Hlen Hv Ob. unfold CircuitProofs.gspec. unfold one_mul.
          useh (unpack_spec zval p nb L HF). auto.
          destruct R as [R1 R2]. destruct Hn as [Hn1 Hn2].
          use variable_base_binary_spec; auto using pout_capp, wf_capp.
          { hb. }
          { now rewrite pv_capp. }
          leaf; auto; [|destruct R; split; bnd].
          destruct F0 as [F1 F2]. intros P EP. rewrite <- F2. apply F; auto.
        Qed.

        Definition msm_body (len : nat) (r : pvar) (bs : pvar * nat) : circ K pvar :=
          t <- one_mul len (fst bs) (snd bs) ;; ecc_add A D r t.
        Definition base_ok (c : circuit K) (len : nat) (bs : pvar * nat) : Prop :=
          pout (fst bs) (num_vars c) /\ (snd bs < num_vars c)%nat /\ (zval (hon c (snd bs)) < 2 ^ Z.of_nat len)%Z /\ on (pv (hon c) (fst bs)).
        Lemma base_ok_capp c d len bs : wf c -> base_ok c len bs -> base_ok (capp c d) len bs.
        Proof.
          intros W (H1 & H2 & H3 & H4). unfold base_ok. rewrite hon_capp, pv_capp by auto. repeat split; auto.
          - destruct H1. bnd.
          - destruct H1. bnd.
          - bnd.
        Qed.
        Lemma msm_loop_spec len l : (1 <= len <= nb)%nat -> forall c r, wf c -> base (hon c) -> pout r (num_vars c) -> on (pv (hon c) r) ->
          Forall (base_ok c len) l ->
          gspec (foldM (msm_body len) r l) c (fun w o => forall (Q : E) (Ps : list E), pv w r = cval Q -> map (fun bs => pv w (fst bs)) l = map cval Ps ->
            pv w o = cval (gadd Q (gsum (smul (map (fun bs => zval (w (snd bs))) l) Ps)))) T pout.
        Proof.
          intros Hlen. induction l as [|[b s] l IH]; intros c r W B Hr Or Hl.
          - unfold CircuitProofs.gspec. cbn [foldM]. wstep. leaf; auto; [|destruct Hr; split; bnd].
            intros Q Ps EQ EP. destruct Ps; [|discriminate]. unfold smul. cbn [map combine gsum]. now rewrite gadd_0_r.
          - inversion_clear Hl as [|? ? Hb1' Hl']. destruct Hb1' as (H1 & H2 & H3 & H4). cbn [fst snd] in *.
            unfold CircuitProofs.gspec. cbn [foldM]. unfold msm_body at 1. wstep. cbn [fst snd].
            useh one_mul_spec; auto.
            apply on_cval in H4 as [P0 EP0].
            assert (Oa : on (pv (hon (capp c d)) a)).
            { rewrite (Hn P0) by now rewrite pv_capp. apply cval_on. }
            useh ecc_add_group; auto using pout_capp, wf_capp.
            { now rewrite pv_capp. }
            use IH; auto.
            { hb. }
            { apply on_cval in Or as [Q0 EQ0]. apply on_cval in Oa as [Qa EQa].
              rewrite (Hn0 Q0 Qa); [apply cval_on|..]; rewrite !pv_capp by auto using wf_capp, pout_capp; auto. }
            { eapply Forall_impl; [|exact Hl']. intros bs Hbs. apply base_ok_capp; [wfs|]. apply base_ok_capp; auto. }
            leaf; auto; [|destruct R1; split; bnd].
            intros Q Ps EQ EP. destruct Ps as [|P Ps]; [discriminate|]. cbn [map fst snd] in EP. injection EP as EP1 EP3.
            rewrite (F (gadd Q (gmul (zval (w s)) P)) Ps); auto.
            unfold smul. cbn [map combine gsum fst snd]. now rewrite gadd_assoc.
        Qed.
        Lemma check_points_wpc {B} (l : list pvar) (k : unit -> circ K B) c Q : Forall (fun q => pout q (num_vars c)) l ->
          wpc (k tt) c Q -> wpc (cbind (iterM check_point_var_bound l) k) c Q.
        Proof.
          intros Hl (b & d & E' & H). exists b, d. split; auto.
          assert (E2 : iterM check_point_var_bound l c = (Ok tt, c)).
          { clear E' H. induction Hl as [|[x y] l [Hx Hy] _ IH]; [reflexivity|]. cbn [iterM fst snd] in *.
            unfold cbind at 1. unfold check_point_var_bound, cbind, check_var_bound, lift at 1. cbn [fst snd].
            destruct (Nat.leb_spec (num_vars c) x); [lia|]. unfold lift.
            destruct (Nat.leb_spec (num_vars c) y); [lia|]. exact IH. }
          unfold cbind. rewrite E2. exact E'.
        Qed.
        Lemma msm_naive_spec c bases scalars len : wf c -> base (hon c) -> (1 <= len <= nb)%nat ->
          bases <> [] -> length bases = length scalars ->
          Forall (base_ok c len) (combine bases scalars) ->
          gspec (msm_naive A D zval p nb L bases scalars len) c (fun w o => forall Ps : list E, map (pv w) bases = map cval Ps ->
            pv w o = cval (gsum (smul (map (fun s => zval (w s)) scalars) Ps))) T pout.
        Proof.
          intros W B Hlen Hne Hlb Hl. destruct bases as [|b bases]; [contradiction|]. destruct scalars as [|s scalars]; [discriminate|].
          cbn [combine length] in *. assert (Hlb' : length bases = length scalars) by lia.
          assert (HA : Forall (fun v => v < num_vars c)%nat (s :: scalars) /\ Forall (fun q => pout q (num_vars c)) (b :: bases)).
          { inversion_clear Hl as [|? ? (H1 & H2 & _) Hl']. cbn [fst snd] in *. clear Hlb Hne. split; constructor; auto.
            - revert scalars Hlb' Hl'. induction bases as [|b' bases IH]; intros [|s' scalars] Hlb Hl; try discriminate; constructor;
                inversion_clear Hl as [|? ? (G1 & G2 & _) Hl2]; auto.
            - revert scalars Hlb' Hl'. induction bases as [|b' bases IH]; intros [|s' scalars] Hlb Hl; try discriminate; constructor;
                inversion_clear Hl as [|? ? (G1 & G2 & _) Hl2]; eauto. }
          apply Forall_cons_iff in Hl as [(H1 & H2 & H3 & H4) Hl']. cbn [fst snd] in *. destruct HA as [HA1 HA2].
          unfold CircuitProofs.gspec. unfold msm_naive. repeat lazymatch goal with
            | |- wpc (cbind (cbind _ _) _) _ _ => apply wpc_assoc
            | |- wpc (cbind (check_vars_bound _) _) _ _ => apply wpc_chks; [assumption|]
            | |- wpc (cbind (iterM check_point_var_bound _) _) _ _ => apply check_points_wpc; [assumption|]
            end.
          eapply wpc_bind_lift; [reflexivity|].
          assert (Rw : forall X (m : circ K X) m' Q, m c = m' c -> wpc m' c Q -> wpc m c Q).
          { intros X m m' Q EE (u & d & G1 & G2). exists u, d. split; auto. congruence. }
          eapply (Rw _ _ (cbind (one_mul len b s) (fun r => foldM (msm_body len) r (combine bases scalars)))).
          { assert (FE : forall l r c2, foldM (fun r bs =>
                bits <- unpack zval p nb L (snd bs) len ;; t <- variable_base_binary_scalar_mul A D bits (fst bs) ;; ecc_add A D r t) r l c2
                = foldM (msm_body len) r l c2).
            { clear. induction l as [|x l IH]; intros r c2; [reflexivity|].
              cbn [foldM]. unfold msm_body at 1, one_mul. unfold cbind.
              destruct (unpack zval p nb L (snd x) len c2) as [[bits'| |] c3]; auto.
              destruct (variable_base_binary_scalar_mul A D bits' (fst x) c3) as [[t| |] c4]; auto.
              destruct (ecc_add A D r t c4) as [[o| |] c5]; auto. }
            unfold one_mul. unfold cbind. destruct (unpack zval p nb L s len c) as [[bits| |] c1]; auto.
            unfold idx, lift, index. cbn [nth_error].
            destruct (variable_base_binary_scalar_mul A D bits b c1) as [[r| |] c2]; auto. }
          useh one_mul_spec; auto.
          use (msm_loop_spec len); auto using wf_capp.
          { hb. }
          { apply on_cval in H4 as [P0 EP0]. rewrite (Hn P0) by now rewrite pv_capp. apply cval_on. }
          { eapply Forall_impl; [|exact Hl']. intros bs Hbs. apply base_ok_capp; auto. }
          leaf; auto; [|destruct R0; split; bnd].
          intros Ps EP. destruct Ps as [|P Ps]; [discriminate|]. cbn [map] in EP. injection EP as EP1 EP3.
          rewrite (F (gmul (zval (w s)) P) Ps); auto.
          - unfold smul. cbn [map combine gsum fst snd]. repeat f_equal. clear -Hlb'.
            revert scalars Hlb'. induction bases as [|b' bases IH]; intros [|s' scalars] Hlb; try discriminate; auto.
            cbn [combine map snd]. rewrite IH by (cbn in Hlb; lia). auto.
          - rewrite <- EP3. clear -Hlb'. revert scalars Hlb'. induction bases as [|b' bases IH]; intros [|s' scalars] Hlb; try discriminate; auto.
            cbn [combine map fst]. rewrite IH by (cbn in Hlb; lia). auto.
        Qed.

        (** *** Fixed base *)
        Lemma fill_bases_nth n : forall (P : E) i, (i < n)%nat ->
          nth_error (fill_bases A D (cval P) n) i = Some (cval (gmul (4 ^ Z.of_nat i)%Z P)).
        Proof.
          induction n as [|n IH]; intros P i Hi; [lia|]. cbn [fill_bases].
          destruct i as [|i]; cbn [nth_error].
          - change (4 ^ Z.of_nat 0)%Z with 1%Z. now rewrite gmul_1.
          - change (pdouble A D (pdouble A D (cval P))) with (cval (gadd (gadd P P) (gadd P P) : E)).
            rewrite IH by lia. do 2 f_equal. rewrite Nat2Z.inj_succ, Z.pow_succ_r by lia.
            now rewrite Z.mul_comm, gmul_mul.
        Qed.
        Definition fb_body (bits : list nat) (bp : list (pt K) * list (pt K) * list (pt K)) (acc : pvar) (i : nat) : circ K pvar :=
          b0 <- lift (fun _ => match nth_error bits (2 * i) with Some b => Ok b | None => Err InternalError end) ;;
          b1 <- lift (fun _ => match nth_error bits (2 * i + 1) with Some b => Ok b | None => Err InternalError end) ;;
          p1 <- lift (fun _ => match nth_error (fst (fst bp)) i with Some b => Ok b | None => Err InternalError end) ;;
          p2 <- lift (fun _ => match nth_error (snd (fst bp)) i with Some b => Ok b | None => Err InternalError end) ;;
          p3 <- lift (fun _ => match nth_error (snd bp) i with Some b => Ok b | None => Err InternalError end) ;;
          s <- quaternary_point_select b0 b1 p1 p2 p3 ;;
          ecc_add A D acc s.
        Definition bit (w : nat -> K) (v : nat) : Z := if k2b (w v) then 1 else 0.
        Lemma fb_loop_spec (B0 : E) n k : forall s c bits acc, wf c -> base (hon c) -> pout acc (num_vars c) -> on (pv (hon c) acc) ->
          (s + k <= n)%nat -> length bits = (2 * n)%nat -> Forall (fun b => b < num_vars c)%nat bits -> Forall isb (map (hon c) bits) ->
          gspec (foldM (fb_body bits (fill_bases A D (cval B0) n, fill_bases A D (cval (gadd B0 B0 : E)) n, fill_bases A D (cval (gadd (gadd B0 B0) B0 : E)) n)) acc (seq s k)) c
            (fun w o => Forall isb (map w bits) -> forall Q : E, pv w acc = cval Q ->
              pv w o = cval (gadd Q (gmul (4 ^ Z.of_nat s * chunk_val (map k2b (map w (firstn (2 * k) (skipn (2 * s) bits)))))%Z B0))) T pout.
        Proof.
          induction k as [|k IH]; intros s c bits acc W B Ha Oa Hk Hlen Hl Il.
          - unfold CircuitProofs.gspec. cbn [seq foldM]. wstep. leaf; auto; [|destruct Ha; split; bnd].
            intros _ Q EQ. rewrite Nat.mul_0_r. cbn [firstn map]. change (chunk_val []) with 0%Z.
            now rewrite Z.mul_0_r, gmul_0, gadd_0_r.
          - unfold CircuitProofs.gspec. cbn [seq foldM]. unfold fb_body at 1. cbn [fst snd].
            destruct (nth_error bits (2 * s)) as [b0|] eqn:N0; [|apply nth_error_None in N0; lia].
            destruct (nth_error bits (2 * s + 1)) as [b1|] eqn:N1; [|apply nth_error_None in N1; lia].
            rewrite !fill_bases_nth by lia.
            repeat (apply wpc_assoc; eapply wpc_bind_lift; [reflexivity|]). apply wpc_assoc.
            assert (J0 : (b0 < num_vars c)%nat) by (rewrite Forall_forall in Hl; eapply Hl, nth_error_In; eauto).
            assert (J1 : (b1 < num_vars c)%nat) by (rewrite Forall_forall in Hl; eapply Hl, nth_error_In; eauto).
            assert (GI : forall w : nat -> K, Forall isb (map w bits) -> isb (w b0) /\ isb (w b1)).
            { intros w G. rewrite Forall_forall in G. split; apply G, in_map; eapply nth_error_In; eauto. }
            destruct (GI _ Il) as [I0 I1].
            useh quaternary_point_select_spec; auto.
            assert (Val : forall w : nat -> K, pv w a = (if feqb (w b1) 1 then if feqb (w b0) 1 then cval (gmul (4 ^ Z.of_nat s)%Z (gadd (gadd B0 B0) B0) : E)
                  else cval (gmul (4 ^ Z.of_nat s)%Z (gadd B0 B0) : E) else if feqb (w b0) 1 then cval (gmul (4 ^ Z.of_nat s)%Z B0 : E) else te_default) ->
                pv w a = cval (gmul (4 ^ Z.of_nat s * (bit w b0 + 2 * bit w b1))%Z B0 : E)).
            { intros w ->. unfold bit, k2b. rewrite gmul_mul.
              replace (gadd (gadd B0 B0) B0 : E) with (gmul 3 B0 : E) by (replace 3%Z with (1 + 1 + 1)%Z by lia; now rewrite !gmul_add, gmul_1).
              replace (gadd B0 B0 : E) with (gmul 2 B0 : E) by (replace 2%Z with (1 + 1)%Z by lia; now rewrite !gmul_add, gmul_1).
              destruct (feqb (w b1) 1); destruct (feqb (w b0) 1).
              - reflexivity.
              - reflexivity.
              - change (1 + 2 * 0)%Z with 1%Z. now rewrite gmul_1.
              - change (0 + 2 * 0)%Z with 0%Z. now rewrite gmul_0, gmul_0_r. }
            assert (Oz : on (pv (hon (capp c d)) a)).
            { rewrite Val; [apply cval_on|]. apply Hn; now rewrite hon_capp. }
            useh ecc_add_group; auto using pout_capp, wf_capp.
            { now rewrite pv_capp. }
            use IH; auto.
            { hb. }
            { apply on_cval in Oa as [Q0 EQ0]. apply on_cval in Oz as [Qa EQa].
              rewrite (Hn0 Q0 Qa); [apply cval_on|..]; rewrite !pv_capp by auto using wf_capp, pout_capp; auto. }
            { eapply Forall_impl; [|exact Hl]. intros v Hv. cbn beta in Hv. bnd. }
            { replace (map (hon (capp (capp c d) d0)) bits) with (map (hon c) bits); [exact Il|]. apply map_ext_in. intros v Hv.
              rewrite Forall_forall in Hl. specialize (Hl v Hv). rewrite !hon_capp; auto using wf_capp. bnd. }
            leaf; auto; [|destruct R1; split; bnd].
            intros Iw Q EQ. destruct (GI _ Iw) as [Iw0 Iw1]. rewrite (F Iw (gadd Q (gmul (4 ^ Z.of_nat s * (bit w b0 + 2 * bit w b1))%Z B0))); auto.
            f_equal. rewrite <- gadd_assoc, <- gmul_add. do 2 f_equal.
            assert (ES : firstn (2 * S k) (skipn (2 * s) bits) = b0 :: b1 :: firstn (2 * k) (skipn (2 * S s) bits)).
            { replace (2 * S k)%nat with (S (S (2 * k))) by lia. replace (2 * S s)%nat with (S (S (2 * s))) by lia.
              assert (G : forall (l : list nat) i x, nth_error l i = Some x -> skipn i l = x :: skipn (S i) l).
              { clear. intros l i. revert l. induction i as [|i IH]; intros [|y l] x E; try discriminate; cbn in *; [now injection E as ->|]. now apply IH. }
              rewrite (G _ _ _ N0). replace (2 * s + 1)%nat with (S (2 * s)) in N1 by lia. rewrite (G _ _ _ N1). reflexivity. }
            rewrite ES. cbn [map]. unfold chunk_val. cbn [fold_right]. fold (chunk_val (map k2b (map w (firstn (2 * k) (skipn (2 * S s) bits))))).
            fold (bit w b0) (bit w b1). rewrite Nat2Z.inj_succ, Z.pow_succ_r by lia. lia.
        Qed.
        Definition fb_bits (sbits : nat) : nat := if Nat.odd sbits then (sbits + 1)%nat else sbits.
        Lemma fb_bits_even sbits : (2 * (fb_bits sbits / 2) = fb_bits sbits)%nat.
        Proof.
          unfold fb_bits. destruct (Nat.odd sbits) eqn:O; [apply Nat.odd_spec in O as [m ->]|].
          - replace (2 * m + 1 + 1)%nat with ((m + 1) * 2)%nat by lia. rewrite Nat.div_mul; lia.
          - rewrite <- Nat.negb_even in O. apply Bool.negb_false_iff, Nat.even_spec in O as [m ->]. rewrite (Nat.mul_comm 2 m), Nat.div_mul; lia.
        Qed.
        Lemma fixed_base_spec sbits c s (B0 : E) : wf c -> base (hon c) -> (s < num_vars c)%nat ->
          (1 <= sbits)%nat -> (fb_bits sbits <= nb)%nat -> (zval (hon c s) < 2 ^ Z.of_nat (fb_bits sbits))%Z ->
          gspec (fixed_base_scalar_mul A D zval p nb L sbits s (cval B0)) c (fun w o => pv w o = cval (gmul (zval (w s)) B0)) T pout.
        Proof.
          intros W B Hs H1 H2 H3. unfold CircuitProofs.gspec. unfold fixed_base_scalar_mul. fold (fb_bits sbits).
          pose proof (fb_bits_even sbits) as EV. assert (1 <= fb_bits sbits)%nat by (unfold fb_bits; destruct (Nat.odd sbits); lia).
          wstep. useh (unpack_spec zval p nb L HF). auto.
          destruct R as [R1 R2]. destruct Hn as [Hn1 Hn2].
          assert (0 < fb_bits sbits / 2)%nat by lia.
          eapply wpc_bind_lift.
          { unfold compute_base_points. destruct (Nat.eqb_spec (fb_bits sbits / 2) 0); [lia|]. reflexivity. }
          change (foldM _ neutral_point_variable (seq 0 (fb_bits sbits / 2))) with
            (foldM (fb_body a (fill_bases A D (cval B0) (fb_bits sbits / 2), fill_bases A D (cval (gadd B0 B0 : E)) (fb_bits sbits / 2),
               fill_bases A D (cval (gadd (gadd B0 B0) B0 : E)) (fb_bits sbits / 2))) neutral_point_variable (seq 0 (fb_bits sbits / 2))).
          use fb_loop_spec; auto using wf_capp, neutral_pout.
          { hb. }
          { rewrite neutral_pv; [apply cval_on|hb]. }
          leaf; auto; [|destruct R; split; bnd].
          destruct F0 as [F1 F2]. rewrite (F F1 g0) by auto using neutral_pv.
          rewrite gadd_0_l. change (4 ^ Z.of_nat 0)%Z with 1%Z. rewrite Z.mul_1_l, EV, Nat.mul_0_r. cbn [skipn].
          rewrite firstn_all2 by lia. now rewrite F2.
        Qed.
      End Scalars.
    End Complete.
  End Curve.
End Specs.
