(** Soundness and completeness of the arithmetic and logic gadgets. *)

From Coq Require Import List Arith ZArith Bool Lia.
From Verif Require Import Base ListAux Alg CircuitModel CircuitProofs GadgetModel.
Import ListNotations.
Local Open Scope fld_scope.
Local Open Scope circ_scope.

(** Bounds on the variables a gadget returns. *)
Definition out (v n : nat) : Prop := (v < n)%nat.
Definition noout (_ : unit) (n : nat) : Prop := True.

Ltac wfs := repeat apply wf_capp; assumption.
Ltac bnd :=
  cbn [capp num_vars dval dgate drange dnil dcat d_vals length app] in *;
  rewrite ?app_length in *; cbn [length] in *; lia.

Section GateLemmas.
  Context {K : fld}.
  Add Field Kfield_gl : (fth K).

  Lemma eq_iff_sub (a b x y : K) : a - b = x - y -> (a = b <-> x = y).
  Proof. intros E. rewrite <- (fsub_eq_0 K a b), <- (fsub_eq_0 K x y), E. tauto. Qed.
  Lemma eq_iff_opp (a b x y : K) : a - b = y - x -> (a = b <-> x = y).
  Proof. intros E. rewrite <- (fsub_eq_0 K a b), E, (fsub_eq_0 K y x). split; auto. Qed.

  Variable w : nat -> K.
  Ltac gl := unfold gsat, gate_expected, gate_output, pow5; cbn; apply eq_iff_opp; ring.
  Lemma gsat_const x a b c d o : gsat w 0 (constant_gate K x) (mk_row a b c d o) <-> w o = x.
  Proof. gl. Qed.
  Lemma gsat_add a b c d o : gsat w 0 (addition_gate K) (mk_row a b c d o) <-> w o = w a + w b.
  Proof. gl. Qed.
  Lemma gsat_sub a b c d o : gsat w 0 (subtraction_gate K) (mk_row a b c d o) <-> w o = w a - w b.
  Proof. gl. Qed.
  Lemma gsat_mul a b c d o : gsat w 0 (multiplication_gate K) (mk_row a b c d o) <-> w o = w a * w b.
  Proof. gl. Qed.
  Lemma gsat_cadd x a b c d o : gsat w 0 (constant_addition_gate K x) (mk_row a b c d o) <-> w o = w a + x.
  Proof. gl. Qed.
  Lemma gsat_cmul x a b c d o : gsat w 0 (constant_multiplication_gate K x) (mk_row a b c d o) <-> w o = x * w a.
  Proof. gl. Qed.
  Lemma gsat_bool a c d : gsat w 0 (bool_gate K) (mk_row a a c d a) <-> (w a = 0 \/ w a = 1).
  Proof.
    transitivity (w a = w a * w a); [gl|]. split.
    - intros H. assert (E : w a * (w a - 1) = 0) by (transitivity (w a * w a - w a); [ring|rewrite <- H; ring]).
      apply fmul_eq_0 in E as [E|E]; auto. right. now apply fsub_0_eq.
    - intros [E|E]; rewrite E; ring.
  Qed.
  Lemma gsat_eq a b c d o : gsat w 0 (equality_gate K) (mk_row a b c d o) <-> w o = w a - w b.
  Proof. gl. Qed.
  Lemma gsat_fifth a b c d o : gsat w 0 (fifth_root_gate K) (mk_row a b c d o) <-> w o = pow5 (w a).
  Proof. gl. Qed.
  Lemma gsat_quad l0 l1 l2 l3 m0 m1 q k a b c d o :
    gsat w 0 (quad_poly_g K l0 l1 l2 l3 m0 m1 q k) (mk_row a b c d o)
    <-> q * w o = l0 * w a + l1 * w b + l2 * w c + l3 * w d + m0 * w a * w b + m1 * w c * w d + k.
  Proof. gl. Qed.
  Lemma gsat_lc c0 c1 c2 c3 a b c d o : gsat w 0 (lin_comb_gate K c0 c1 c2 c3) (mk_row a b c d o)
    <-> w o = c0 * w a + c1 * w b + c2 * w c + c3 * w d.
  Proof. gl. Qed.
  Lemma gsat_muladd m0 m1 a b c d o : gsat w 0 (mul_add_g K m0 m1) (mk_row a b c d o)
    <-> w o = m0 * w a * w b + m1 * w c * w d.
  Proof. gl. Qed.
  Lemma gsat_sel a b c d o : gsat w 0 (cond_select_gate K) (mk_row a b c d o)
    <-> w o = w b - w a * w b + w c * w d.
  Proof. gl. Qed.
  Lemma gsat_or a b c d o : gsat w 0 (logic_or_g K) (mk_row a b c d o)
    <-> w a + w b - w a * w b = 1.
  Proof. unfold gsat, gate_expected, gate_output, pow5; cbn; apply eq_iff_sub; ring. Qed.
  Lemma gsat_orout a b c d o : gsat w 0 (logic_or_output_gate K) (mk_row a b c d o)
    <-> w o = w a + w b - w a * w b.
  Proof. gl. Qed.
End GateLemmas.

Section Unwrap.
  Context {K : fld}.
  Lemma wpc_bind_unwrap {A B} (m : circ K A) (k : A -> circ K B) c Q :
    wpc (cbind m k) c Q -> wpc (cbind (unwrap m) k) c Q.
  Proof.
    intros (a & d & E & H). exists a, d. split; auto.
    unfold cbind, unwrap in *. destruct (m c) as [[?|?|] ?]; auto; discriminate.
  Qed.
  Lemma wpc_bind_ret {A B} (a : A) (k : A -> circ K B) c Q : wpc (k a) c Q -> wpc (cbind (ret a) k) c Q.
  Proof. intros H; exact H. Qed.
End Unwrap.

Ltac pgate :=
  unfold plain_gate, row_lt; cbn [fst snd r0 r1 r2 r3 r4];
  repeat match goal with |- _ /\ _ => split end; try reflexivity;
  repeat match goal with Hw : wf _ |- _ => pose proof (wf_two _ Hw); clear Hw end; bnd.
Ltac wstep :=
  lazymatch goal with
  | |- wpc (cbind (cbind _ _) _) _ _ => apply wpc_assoc
  | |- wpc (cbind (check_var_bound _) _) _ _ => apply wpc_chk; [bnd|]
  | |- wpc (cbind (check_vars_bound _) _) _ _ => apply wpc_chks; [repeat constructor; bnd|]
  | |- wpc (cbind (get_witness _) _) _ _ => apply wpc_wit; [wfs|bnd|]
  | |- wpc (cbind (create_variable _) _) _ _ => apply wpc_bind_var; [wfs|]
  | |- wpc (cbind (insert_gate _ _) _) _ _ => apply wpc_bind_insert; [wfs|pgate|]
  | |- wpc (insert_gate _ _) _ _ => apply wpc_insert; [wfs|pgate|]
  | |- wpc (create_variable _) _ _ => apply wpc_var; [wfs|]
  | |- wpc (cbind (unwrap _) _) _ _ => apply wpc_bind_unwrap
  | |- wpc (cbind (ret _) _) _ _ => apply wpc_bind_ret
  | |- wpc (ret _) _ _ => apply wpc_ret
  end.

(** Apply the specification of a sub-gadget. *)
Tactic Notation "use" uconstr(L) :=
  lazymatch goal with
  | |- wpc (cbind _ _) _ _ => apply wpc_bind
  | _ => idtac
  end;
  eapply wpc_mono;
  [ eapply L; try wfs; try bnd
  | let a := fresh "a" in let d := fresh "d" in let S := fresh "Snd" in let Cc := fresh "Cmp" in
    let R := fresh "R" in
    intros a d _ (S & Cc & R); cbn [fst snd] in *; unfold out, noout in R ].

Ltac dsplit H := rewrite ?dsat_cat, ?dsat_val in H.

(** Collect everything an extension of the honest witness tells us. *)
Ltac hx :=
  repeat match goal with
  | H : hext (capp ?c ?d) ?w |- _ =>
      lazymatch goal with
      | _ : hext c w |- _ => fail
      | _ =>
          lazymatch d with
          | dval ?x => let E := fresh "E" in
              assert (E : w (num_vars c) = x) by (apply hext_val; [wfs|exact H])
          | _ => idtac
          end;
          assert (hext c w) by (apply (hext_app1 c d w); [wfs|exact H])
      end
  end.
Ltac hw :=
  repeat match goal with
  | H : hext ?c ?w, E : context [hon ?c ?v] |- _ => rewrite <- (H v) in E by bnd
  end.

Ltac gs_iff :=
  rewrite ?gsat_bool, ?gsat_const, ?gsat_add, ?gsat_sub, ?gsat_mul, ?gsat_cadd, ?gsat_cmul, ?gsat_bool, ?gsat_eq,
    ?gsat_fifth, ?gsat_quad, ?gsat_lc, ?gsat_muladd, ?gsat_sel, ?gsat_or, ?gsat_orout.
Ltac gs_iff_in H :=
  rewrite ?gsat_bool, ?gsat_const, ?gsat_add, ?gsat_sub, ?gsat_mul, ?gsat_cadd, ?gsat_cmul, ?gsat_bool, ?gsat_eq,
    ?gsat_fifth, ?gsat_quad, ?gsat_lc, ?gsat_muladd, ?gsat_sel, ?gsat_or, ?gsat_orout in H.

(** Use the soundness of the sub-gadgets whose constraints hold under [w]. *)
Ltac sfwd :=
  repeat match goal with
  | S : forall w, base w -> dsat _ _ w ?d -> _, Hb : base ?w, H : dsat _ _ ?w ?d |- _ =>
      let E := fresh "F" in pose proof (S w Hb H) as E; clear H; cbn beta in E
  end.
(** The honest assignment satisfies the sub-gadgets. *)
Ltac cfwd :=
  repeat match goal with
  | C : forall w, base w -> hext ?c w -> @?P w -> dsat ?z ?t w ?d, Hb : base ?w, H : hext ?c ?w,
    S : forall w, base w -> dsat ?z ?t w ?d -> _ |- _ =>
      let D := fresh "D" in
      assert (D : dsat z t w d) by (apply C; [exact Hb|exact H|solve [exact I | auto]]);
      let E := fresh "F" in pose proof (S w Hb D) as E; cbn beta in E; clear C S
  end.

(** Close a specification: leaves the soundness and completeness algebra. *)
Ltac leaf :=
  split; [|split];
  [ let w := fresh "w" in let Hb := fresh "Hb" in let Hs := fresh "Hs" in
    intros w Hb Hs; rewrite ?dsat_cat, ?dsat_val in Hs; rewrite ?dsat_gate in Hs by reflexivity;
    gs_iff_in Hs; pose proof Hb as [Hb0 Hb1];
    repeat match goal with H : _ /\ _ |- _ => destruct H end; sfwd
  | let w := fresh "w" in let Hb := fresh "Hb" in let Hh := fresh "Hh" in let HC := fresh "HC" in
    intros w Hb Hh HC; rewrite <- ?capp_cat in Hh; rewrite ?dsat_cat, ?dsat_val;
    rewrite ?dsat_gate by reflexivity; gs_iff; hx; hw;
    pose proof Hb as [Hb0 Hb1]; cfwd;
    repeat match goal with |- _ /\ _ => split | |- True => exact I | |- dsat _ _ _ dnil => apply dsat_nil
      | H : dsat _ _ ?w ?d |- dsat _ _ ?w ?d => exact H end
  | try bnd ].

Section Specs.
  Context {K : fld}.
  Variable zval : K -> Z.
  Add Field Kfield_gp : (fth K).
  Notation gspec := (gspec zval).
  Notation dsat := (dsat zval).

  Ltac start := unfold gspec, CircuitProofs.gspec, out, noout.

  Lemma enforce_constant_spec c v x : wf c -> (v < num_vars c)%nat ->
    gspec (enforce_constant v x) c (fun w _ => w v = x) (fun w => w v = x) noout.
  Proof. intros Hw Hv; start; unfold enforce_constant. repeat wstep. leaf; auto. Qed.

  Lemma create_constant_variable_spec c x : wf c ->
    gspec (create_constant_variable x) c (fun w v => w v = x) (fun _ => True) out.
  Proof.
    intros Hw; start; unfold create_constant_variable. repeat wstep.
    use enforce_constant_spec. repeat wstep. leaf; auto.
  Qed.

  Lemma gate3_add c a b o : wf c -> (a < num_vars c)%nat -> (b < num_vars c)%nat -> (o < num_vars c)%nat ->
    gspec (add_gate a b o) c (fun w _ => w o = w a + w b) (fun w => w o = w a + w b) noout.
  Proof. intros; start; unfold add_gate, gate3. repeat wstep. leaf; auto. Qed.
  Lemma gate3_sub c a b o : wf c -> (a < num_vars c)%nat -> (b < num_vars c)%nat -> (o < num_vars c)%nat ->
    gspec (sub_gate a b o) c (fun w _ => w o = w a - w b) (fun w => w o = w a - w b) noout.
  Proof. intros; start; unfold sub_gate, gate3. repeat wstep. leaf; auto. Qed.
  Lemma gate3_mul c a b o : wf c -> (a < num_vars c)%nat -> (b < num_vars c)%nat -> (o < num_vars c)%nat ->
    gspec (mul_gate a b o) c (fun w _ => w o = w a * w b) (fun w => w o = w a * w b) noout.
  Proof. intros; start; unfold mul_gate, gate3. repeat wstep. leaf; auto. Qed.

  Lemma add_spec c a b : wf c -> (a < num_vars c)%nat -> (b < num_vars c)%nat ->
    gspec (add a b) c (fun w o => w o = w a + w b) (fun _ => True) out.
  Proof. intros; start; unfold add, add_gate, gate3. repeat wstep. leaf; auto. Qed.
  Lemma sub_spec c a b : wf c -> (a < num_vars c)%nat -> (b < num_vars c)%nat ->
    gspec (sub a b) c (fun w o => w o = w a - w b) (fun _ => True) out.
  Proof. intros; start; unfold sub, sub_gate, gate3. repeat wstep. leaf; auto. Qed.
  Lemma mul_spec c a b : wf c -> (a < num_vars c)%nat -> (b < num_vars c)%nat ->
    gspec (mul a b) c (fun w o => w o = w a * w b) (fun _ => True) out.
  Proof. intros; start; unfold mul, mul_gate, gate3. repeat wstep. leaf; auto. Qed.

  Lemma enforce_bool_spec c a : wf c -> (a < num_vars c)%nat ->
    gspec (enforce_bool a) c (fun w _ => w a = 0 \/ w a = 1) (fun w => w a = 0 \/ w a = 1) noout.
  Proof. intros; start; unfold enforce_bool. repeat wstep. leaf; auto. Qed.

  Lemma enforce_equal_spec c a b : wf c -> (a < num_vars c)%nat -> (b < num_vars c)%nat ->
    gspec (enforce_equal a b) c (fun w _ => w a = w b) (fun w => w a = w b) noout.
  Proof.
    intros; start; unfold enforce_equal. repeat wstep. leaf; auto.
    - rewrite Hb0 in Hs. symmetry in Hs. now apply fsub_0_eq.
    - rewrite HC, Hb0. ring.
  Qed.

  Lemma create_boolean_variable_spec c b : wf c ->
    gspec (create_boolean_variable b) c (fun w v => w v = 0 \/ w v = 1) (fun _ => True) out.
  Proof.
    intros; start; unfold create_boolean_variable, enforce_bool. repeat wstep. leaf; auto.
    rewrite E. destruct b; auto.
  Qed.

  Lemma gen_quad_poly_spec c a b x y l0 l1 l2 l3 m0 m1 k : wf c ->
    (a < num_vars c)%nat -> (b < num_vars c)%nat -> (x < num_vars c)%nat -> (y < num_vars c)%nat ->
    gspec (gen_quad_poly a b x y l0 l1 l2 l3 m0 m1 k) c
      (fun w o => w o = l0 * w a + l1 * w b + l2 * w x + l3 * w y + m0 * w a * w b + m1 * w x * w y + k)
      (fun _ => True) out.
  Proof.
    intros; start; unfold gen_quad_poly. repeat wstep. leaf; auto.
    - rewrite <- H5. ring.
    - rewrite <- E. ring.
  Qed.

  Lemma quad_poly_gate_spec c r l0 l1 l2 l3 m0 m1 q k : wf c ->
    (r0 r < num_vars c)%nat -> (r1 r < num_vars c)%nat -> (r2 r < num_vars c)%nat ->
    (r3 r < num_vars c)%nat -> (r4 r < num_vars c)%nat ->
    gspec (quad_poly_gate r l0 l1 l2 l3 m0 m1 q k) c
      (fun w _ => q * w (r4 r) = l0 * w (r0 r) + l1 * w (r1 r) + l2 * w (r2 r) + l3 * w (r3 r)
                                 + m0 * w (r0 r) * w (r1 r) + m1 * w (r2 r) * w (r3 r) + k)
      (fun w => q * w (r4 r) = l0 * w (r0 r) + l1 * w (r1 r) + l2 * w (r2 r) + l3 * w (r3 r)
                                 + m0 * w (r0 r) * w (r1 r) + m1 * w (r2 r) * w (r3 r) + k) noout.
  Proof. intros; destruct r as [v0 v1 v2 v3 v4]; start; unfold quad_poly_gate; cbn [r0 r1 r2 r3 r4] in *. repeat wstep. leaf; auto. Qed.

  Lemma lc_gate_spec c a b x y o c0 c1 c2 c3 : wf c ->
    (a < num_vars c)%nat -> (b < num_vars c)%nat -> (x < num_vars c)%nat -> (y < num_vars c)%nat ->
    (o < num_vars c)%nat ->
    gspec (lc_gate a b x y o c0 c1 c2 c3) c
      (fun w _ => w o = c0 * w a + c1 * w b + c2 * w x + c3 * w y)
      (fun w => w o = c0 * w a + c1 * w b + c2 * w x + c3 * w y) noout.
  Proof. intros; start; unfold lc_gate. repeat wstep. leaf; auto. Qed.

  Lemma lc_spec c a b x y c0 c1 c2 c3 : wf c ->
    (a < num_vars c)%nat -> (b < num_vars c)%nat -> (x < num_vars c)%nat -> (y < num_vars c)%nat ->
    gspec (lc a b x y c0 c1 c2 c3) c
      (fun w o => w o = c0 * w a + c1 * w b + c2 * w x + c3 * w y) (fun _ => True) out.
  Proof.
    intros; start; unfold lc, lc_gate. repeat wstep. leaf; auto. rewrite E. ring.
  Qed.

  Lemma mul_add_gate_spec c a b x y o m0 m1 : wf c ->
    (a < num_vars c)%nat -> (b < num_vars c)%nat -> (x < num_vars c)%nat -> (y < num_vars c)%nat ->
    (o < num_vars c)%nat ->
    gspec (mul_add_gate a b x y o m0 m1) c
      (fun w _ => w o = m0 * w a * w b + m1 * w x * w y)
      (fun w => w o = m0 * w a * w b + m1 * w x * w y) noout.
  Proof. intros; start; unfold mul_add_gate. repeat wstep. leaf; auto. Qed.

  Lemma mul_add_spec c a b x y m0 m1 : wf c ->
    (a < num_vars c)%nat -> (b < num_vars c)%nat -> (x < num_vars c)%nat -> (y < num_vars c)%nat ->
    gspec (mul_add a b x y m0 m1) c
      (fun w o => w o = m0 * w a * w b + m1 * w x * w y) (fun _ => True) out.
  Proof. intros; start; unfold mul_add, mul_add_gate. repeat wstep. leaf; auto. Qed.

  Lemma add_constant_spec c x k : wf c -> (x < num_vars c)%nat ->
    gspec (add_constant x k) c (fun w o => w o = w x + k) (fun _ => True) out.
  Proof.
    intros; pose proof (wf_two _ H); start; unfold add_constant, add_constant_gate. repeat wstep.
    leaf; auto. rewrite E. ring.
  Qed.
  Lemma mul_constant_spec c x k : wf c -> (x < num_vars c)%nat ->
    gspec (mul_constant x k) c (fun w o => w o = k * w x) (fun _ => True) out.
  Proof.
    intros; start; unfold mul_constant, mul_constant_gate. repeat wstep. leaf; auto.
  Qed.

  Lemma power_11_gen_spec c x : wf c -> (x < num_vars c)%nat ->
    gspec (power_11_gen x) c (fun w o => w o = fpow (w x) 11) (fun _ => True) out.
  Proof.
    intros; start; unfold power_11_gen. repeat wstep.
    use mul_spec. use mul_spec. leaf; auto.
    rewrite F, F0, H2. unfold pow5. cbn [fpow]. ring.
  Qed.
  Lemma power_11_gate_spec c x y : wf c -> (x < num_vars c)%nat -> (y < num_vars c)%nat ->
    gspec (power_11_gate x y) c (fun w _ => w y = fpow (w x) 11) (fun w => w y = fpow (w x) 11) noout.
  Proof.
    intros; start; unfold power_11_gate. repeat wstep.
    use mul_spec. use gate3_mul. leaf; auto.
    - rewrite F, F0, H3. unfold pow5. cbn [fpow]. ring.
    - apply Cmp0; auto. rewrite HC, F, E. unfold pow5; cbn [fpow]. ring.
  Qed.

  (** Boolean inputs. *)
  Definition isb (x : K) : Prop := x = 0 \/ x = 1.
  Definition b2k (b : bool) : K := if b then 1 else 0.

  Lemma is_zero_spec c a : wf c -> (a < num_vars c)%nat ->
    gspec (is_zero a) c (fun w y => w y = b2k (feqb (w a) 0)) (fun _ => True) out.
  Proof.
    intros Hw Ha; pose proof (wf_two _ Hw); start; unfold is_zero.
    repeat wstep. use mul_add_gate_spec. use gate3_mul. repeat wstep. leaf; auto.
    - rename F into F1, F0 into F; rename F1 into F0.
      set (y := num_vars c) in *. rewrite Hb0 in F0. rewrite Hb1 in F.
      destruct (feqb (w a) 0) eqn:E; cbn [b2k].
      + apply feqb_eq in E. rewrite E in F. rewrite F. ring.
      + apply feqb_neq in E. symmetry in F0. apply fmul_eq_0 in F0 as [F0|F0]; auto. contradiction.
    - apply Cmp; auto. rewrite Hb1, E0, E. destruct (feqb (w a) 0) eqn:Ez.
      + ring.
      + apply feqb_neq in Ez. transitivity (finv (w a) * w a); [symmetry; apply finv_l; auto|ring].
    - apply Cmp0; auto. rewrite Hb0, E0. destruct (feqb (w a) 0) eqn:Ez; [|ring].
      apply feqb_eq in Ez. rewrite Ez. ring.
  Qed.

  Lemma is_equal_spec c a b : wf c -> (a < num_vars c)%nat -> (b < num_vars c)%nat ->
    gspec (is_equal a b) c (fun w y => w y = b2k (feqb (w a) (w b))) (fun _ => True) out.
  Proof.
    intros; start; unfold is_equal. repeat wstep. use sub_spec. use is_zero_spec. leaf; auto.
    rewrite F, F0. f_equal.
    destruct (feqb (w a) (w b)) eqn:E.
    - apply feqb_eq in E. apply feqb_eq. rewrite E. ring.
    - apply feqb_neq in E. apply feqb_neq. intros H4. apply E. now apply fsub_0_eq.
  Qed.

  Lemma non_zero_gate_spec c a : wf c -> (a < num_vars c)%nat ->
    gspec (non_zero_gate a) c (fun w _ => w a <> 0) (fun w => w a <> 0) noout.
  Proof.
    intros Hw Ha; pose proof (wf_two _ Hw); start; unfold non_zero_gate. repeat wstep. use gate3_mul. leaf; auto.
    - intros E. rewrite E, Hb1 in F. apply (f1_neq_0 K). rewrite F. ring.
    - apply Cmp; auto. rewrite Hb1, E. destruct (feqb (w a) 0) eqn:Ez.
      + apply feqb_eq in Ez. contradiction.
      + transitivity (finv (w a) * w a); [symmetry; apply finv_l; auto|ring].
  Qed.

  Lemma logic_and_spec c a b : wf c -> (a < num_vars c)%nat -> (b < num_vars c)%nat ->
    gspec (logic_and a b) c (fun w o => w o = w a * w b) (fun _ => True) out.
  Proof. intros; start; unfold logic_and, mul_gate, gate3. repeat wstep. leaf; auto. Qed.

  Lemma logic_or_spec c a b : wf c -> (a < num_vars c)%nat -> (b < num_vars c)%nat ->
    gspec (logic_or a b) c (fun w o => w o = w a + w b - w a * w b) (fun _ => True) out.
  Proof. intros; start; unfold logic_or. repeat wstep. leaf; auto. Qed.

  Lemma logic_or_gate_spec c a b : wf c -> (a < num_vars c)%nat -> (b < num_vars c)%nat ->
    gspec (logic_or_gate a b) c (fun w _ => w a + w b - w a * w b = 1) (fun w => w a + w b - w a * w b = 1) noout.
  Proof. intros; start; unfold logic_or_gate. repeat wstep. leaf; auto. Qed.
End Specs.
