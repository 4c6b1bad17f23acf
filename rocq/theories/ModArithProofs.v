(** What the non-native gates enforce. *)

From Coq Require Import List Arith ZArith Bool Lia Ring Field.
From Verif Require Import Base ListAux Alg Poly CircuitModel CircuitProofs GadgetModel GadgetProofs RangeProofs
  BitProofs CmpProofs RangeLookup SatProofs SatGadget IndepProofs ModArithModel.
Import ListNotations.
Local Open Scope fld_scope.
Local Open Scope circ_scope.

(** ** Integer arithmetic of the limbs *)
Section Ints.
  Local Open Scope Z_scope.
  Variables M x0 x1 y0 y1 p0 p1 : Z.
  Hypothesis HM : 2 <= M.
  Hypothesis Hx : 0 <= x0 < M /\ 0 <= x1 < M.
  Hypothesis Hy : 0 <= y0 < M /\ 0 <= y1 < M.
  Hypothesis Hp : 0 <= p0 < M /\ 0 <= p1 < M.

  Lemma carry_exact hi lo base t k : 0 < t -> hi - lo = t * k -> 0 <= base + k -> 0 <= base ->
    carry hi lo base t = Ok (base + k).
  Proof.
    intros Ht E Hb Hb0. unfold carry. destruct (Z.leb_spec lo hi).
    - rewrite E, Z.mul_comm, Z.div_mul by lia. reflexivity.
    - replace (lo - hi) with ((- k) * t) by lia. rewrite Z.div_mul by lia.
      destruct (Z.ltb_spec base (- k)); [lia|]. f_equal. lia.
  Qed.

  (** The carries of an honest multiplication. *)
  Lemma honest_carries w0 w1 z0 z1 : 0 <= w0 < M -> 0 <= w1 < M -> 0 <= z0 < M -> 0 <= z1 < M ->
    (x0 + M * x1) * (y0 + M * y1) = (z0 + M * z1) + (w0 + M * w1) * (p0 + M * p1) ->
    exists k0 k1, z0 + p0 * w0 - x0 * y0 = M * k0 /\ z1 + p0 * w1 + p1 * w0 + k0 - (x0 * y1 + x1 * y0) = M * k1 /\
      x1 * y1 - p1 * w1 = k1 /\ - M < k0 < M /\ - (2 * M) < k1 < 2 * M.
  Proof.
    intros Hw0 Hw1 Hz0 Hz1 E.
    assert (D0 : (M | z0 + p0 * w0 - x0 * y0)).
    { exists (x0 * y1 + x1 * y0 + M * x1 * y1 - z1 - w0 * p1 - w1 * p0 - M * w1 * p1). nia. }
    destruct D0 as [k0 E0]. rewrite Z.mul_comm in E0.
    assert (E1 : z1 + p0 * w1 + p1 * w0 + k0 - (x0 * y1 + x1 * y0) = M * (x1 * y1 - p1 * w1)).
    { apply Z.mul_reg_l with M; nia. }
    exists k0, (x1 * y1 - p1 * w1).
    assert (Hk0 : - M < k0 < M).
    { assert (B : forall a b, 0 <= a < M -> 0 <= b < M -> 0 <= a * b <= (M - 1) * (M - 1)) by (intros; nia).
      pose proof (B p0 w0). pose proof (B x0 y0). assert ((M - 1) * (M - 1) = M * M - 2 * M + 1) by ring. clear E E1.
      set (a := p0 * w0) in *. set (b := x0 * y0) in *. clearbody a b. split; apply Z.mul_lt_mono_pos_l with M; nia. }
    repeat split; auto; try lia.
    - assert (B : forall a b, 0 <= a < M -> 0 <= b < M -> 0 <= a * b <= (M - 1) * (M - 1)) by (intros; nia).
      pose proof (B p0 w1). pose proof (B p1 w0). pose proof (B x0 y1). pose proof (B x1 y0).
      assert ((M - 1) * (M - 1) = M * M - 2 * M + 1) by ring. clear E E0.
      set (a := p0 * w1) in *. set (b := p1 * w0) in *. set (c := x0 * y1) in *. set (d := x1 * y0) in *.
      set (e := x1 * y1 - p1 * w1) in *. clearbody a b c d e. apply Z.mul_lt_mono_pos_l with M; lia.
    - assert (B : forall a b, 0 <= a < M -> 0 <= b < M -> 0 <= a * b <= (M - 1) * (M - 1)) by (intros; nia).
      pose proof (B p0 w1). pose proof (B p1 w0). pose proof (B x0 y1). pose proof (B x1 y0).
      assert ((M - 1) * (M - 1) = M * M - 2 * M + 1) by ring. clear E E0.
      set (a := p0 * w1) in *. set (b := p1 * w0) in *. set (c := x0 * y1) in *. set (d := x1 * y0) in *.
      set (e := x1 * y1 - p1 * w1) in *. clearbody a b c d e. apply Z.mul_lt_mono_pos_l with M; lia.
  Qed.
End Ints.

Section Values.
  Context {K : fld}.
  Variable zval : K -> Z.
  Variable q : Z.
  Variable nb L : nat.
  Hypothesis HF : pfield K zval q nb L.
  Add Field Kfield_mav : (fth K).

  Lemma fZ_inj_small a b : (fZ a : K) = fZ b -> (- q < a - b < q)%Z -> a = b.
  Proof.
    intros E Hb. pose proof (pf_pos zval q nb L HF) as Hq.
    assert (E' : zval (fZ a) = zval (fZ b)) by now rewrite E.
    rewrite !(pf_zval _ _ _ _ _ HF) in E'.
    assert (D : ((a - b) mod q = 0)%Z) by (rewrite Zminus_mod, E', Z.sub_diag; apply Z.mod_0_l; lia).
    apply Z.mod_divide in D; [|lia]. destruct D as [k D]. assert (k = 0)%Z by nia. nia.
  Qed.

  (** The field equations hold over the integers when the modulus is large enough. *)
  Lemma mul_sound (B M x0 x1 y0 y1 p0 p1 w0 w1 z0 z1 c0 c1 : Z) :
    (2 <= M)%Z -> (2 <= B)%Z -> (M * M * (B + 4) <= q)%Z ->
    (0 <= x0 < M)%Z -> (0 <= x1 < M)%Z -> (0 <= y0 < M)%Z -> (0 <= y1 < M)%Z -> (0 <= p0 < M)%Z -> (0 <= p1 < M)%Z ->
    (0 <= w0 < M)%Z -> (0 <= w1 < M)%Z -> (0 <= z0 < M)%Z -> (0 <= z1 < M)%Z -> (0 <= c0 < M * B)%Z -> (0 <= c1 < M * B)%Z ->
    (fZ z0 : K) = fZ x0 * fZ y0 - fZ p0 * fZ w0 + fZ M * fZ c0 - fZ M * fZ M ->
    (fZ z1 : K) = fZ x0 * fZ y1 + fZ x1 * fZ y0 - (fZ p0 * fZ w1 + fZ p1 * fZ w0) - fZ c0 + fZ M * fZ c1
                  + (fZ M - (fZ M * fZ M + fZ M * fZ M)) ->
    (fZ c1 : K) = fZ x1 * fZ y1 - fZ p1 * fZ w1 + (fZ M + fZ M) ->
    ((x0 + M * x1) * (y0 + M * y1) = (z0 + M * z1) + (w0 + M * w1) * (p0 + M * p1))%Z.
  Proof.
    intros HM HB Hq Hx0 Hx1 Hy0 Hy1 Hp0 Hp1 Hw0 Hw1 Hz0 Hz1 Hc0 Hc1 E3 E4 E5.
    assert (2 * (M * B) <= M * (M * B))%Z by (clear -HM HB; nia).
    assert (4 <= M * B)%Z by (clear -HM HB; nia). assert (2 * M <= M * M)%Z by (clear -HM; nia).
    assert (Bd : forall a b, (0 <= a < M)%Z -> (0 <= b < M)%Z -> (0 <= a * b <= (M - 1) * (M - 1))%Z) by (clear; intros; nia).
    assert (I3 : (z0 = x0 * y0 - p0 * w0 + M * c0 - M * M)%Z).
    { apply fZ_inj_small; [rewrite E3, fZ_sub, fZ_add, fZ_sub, !fZ_mul; reflexivity|].
      pose proof (Bd x0 y0 Hx0 Hy0). pose proof (Bd p0 w0 Hp0 Hw0).
      assert (0 <= M * c0 <= M * (M * B))%Z by nia. nia. }
    assert (I4 : (z1 = x0 * y1 + x1 * y0 - (p0 * w1 + p1 * w0) - c0 + M * c1 + (M - (M * M + M * M)))%Z).
    { apply fZ_inj_small; [rewrite E4, fZ_add, fZ_sub, fZ_add, fZ_add, fZ_sub, fZ_sub, !fZ_add, !fZ_mul; reflexivity|].
      pose proof (Bd x0 y1 Hx0 Hy1). pose proof (Bd x1 y0 Hx1 Hy0). pose proof (Bd p0 w1 Hp0 Hw1). pose proof (Bd p1 w0 Hp1 Hw0).
      assert (0 <= M * c1 <= M * (M * B))%Z by nia. clear E3 E4 E5 I3 Bd. set (a := (x0 * y1)%Z) in *. set (b := (x1 * y0)%Z) in *. set (c := (p0 * w1)%Z) in *. set (d := (p1 * w0)%Z) in *.
      set (e := (M * c1)%Z) in *. clearbody a b c d e. replace (M * M * (B + 4))%Z with (M * (M * B) + 4 * (M * M))%Z in Hq by ring.
      replace ((M - 1) * (M - 1))%Z with (M * M - 2 * M + 1)%Z in * by ring.
      set (g := (M * (M * B))%Z) in *. set (h := (M * B)%Z) in *. set (i := (M * M)%Z) in *. clearbody g h i. lia. }
    assert (I5 : (c1 = x1 * y1 - p1 * w1 + (M + M))%Z).
    { apply fZ_inj_small; [rewrite E5, fZ_add, fZ_sub, fZ_add, !fZ_mul; reflexivity|].
      pose proof (Bd x1 y1 Hx1 Hy1). pose proof (Bd p1 w1 Hp1 Hw1).
      clear E3 E4 E5 I3 I4 Bd. set (a := (x1 * y1)%Z) in *. set (b := (p1 * w1)%Z) in *. clearbody a b.
      replace (M * M * (B + 4))%Z with (M * (M * B) + 4 * (M * M))%Z in Hq by ring.
      replace ((M - 1) * (M - 1))%Z with (M * M - 2 * M + 1)%Z in * by ring.
      set (g := (M * (M * B))%Z) in *. set (h := (M * B)%Z) in *. set (i := (M * M)%Z) in *. clearbody g h i. lia. }
    clear -I3 I4 I5. subst z0 z1 c1. ring.
  Qed.
End Values.

(** ** The gates of a multiplication *)
Section Gates.
  Context {K : fld}.
  Variable zval : K -> Z.
  Add Field Kfield_mag : (fth K).
  Notation gspec := (gspec zval).
  Notation dsat := (dsat zval).
  Ltac start := unfold gspec, CircuitProofs.gspec; unfold out, noout.

  Definition prod_eqs (x0 x1 y0 y1 w0 w1 z0 z1 c0 c1 P0 P1 t : K) : Prop :=
    z0 = x0 * y0 - P0 * w0 + t * c0 - t * t /\
    z1 = x0 * y1 + x1 * y0 - (P0 * w1 + P1 * w0) - c0 + t * c1 + (t - (t * t + t * t)) /\
    c1 = x1 * y1 - P1 * w1 + (t + t).

  Lemma mul_gates_spec (c : circuit K) x0 x1 y0 y1 w0 w1 z0 z1 c0 c1 P0 P1 t (o : fvar (K := K)) : wf c ->
    (x0 < num_vars c)%nat -> (x1 < num_vars c)%nat -> (y0 < num_vars c)%nat -> (y1 < num_vars c)%nat ->
    (w0 < num_vars c)%nat -> (w1 < num_vars c)%nat -> (z0 < num_vars c)%nat -> (z1 < num_vars c)%nat ->
    (c0 < num_vars c)%nat -> (c1 < num_vars c)%nat ->
    gspec (quad_poly_gate (mk_row x0 y0 w0 c0 z0) 0 0 (- P0) t 1 0 1 (- (t * t)) >>
      (t1 <- mul_add x0 y1 x1 y0 1 1 ;; t2 <- lc w1 w0 0 0 P0 P1 0 0 ;;
       quad_poly_gate (mk_row t1 t2 c0 c1 z1) 1 (- (1)) (- (1)) t 0 0 1 (t - (t * t + t * t)) >>
       quad_poly_gate (mk_row x1 y1 w1 0 c1) 0 0 (- P1) 0 1 0 1 (t + t) >> ret o)) c
      (fun w _ => prod_eqs (w x0) (w x1) (w y0) (w y1) (w w0) (w w1) (w z0) (w z1) (w c0) (w c1) P0 P1 t)
      (fun w => prod_eqs (w x0) (w x1) (w y0) (w y1) (w w0) (w w1) (w z0) (w z1) (w c0) (w c1) P0 P1 t) (fun o' _ => o' = o).
  Proof.
    intros Hw H1 H2 H3 H4 H5 H6 H7 H8 H9 H10. start. pose proof (wf_two _ Hw) as H11.
    apply wpc_bind. eapply wpc_mono; [apply quad_poly_gate_spec; cbn [r0 r1 r2 r3 r4]; auto|]. intros [] d1 _ (S1 & C1 & _). cbn [r0 r1 r2 r3 r4] in S1, C1.
    apply wpc_bind. eapply wpc_mono; [apply mul_add_spec; [wfs|bnd..]|]. intros t1 d2 _ (S2 & C2 & O2). unfold out in O2.
    apply wpc_bind. eapply wpc_mono; [apply lc_spec; [wfs|bnd..]|]. intros t2 d3 _ (S3 & C3 & O3). unfold out in O3.
    apply wpc_bind. eapply wpc_mono; [apply quad_poly_gate_spec; cbn [r0 r1 r2 r3 r4]; [wfs|bnd..]|]. intros [] d4 _ (S4 & C4 & _). cbn [r0 r1 r2 r3 r4] in S4, C4.
    apply wpc_bind. eapply wpc_mono; [apply quad_poly_gate_spec; cbn [r0 r1 r2 r3 r4]; [wfs|bnd..]|]. intros [] d5 _ (S5 & C5 & _). cbn [r0 r1 r2 r3 r4] in S5, C5.
    wstep. rewrite !ptype_capp in *. split; [|split; [|reflexivity]].
    - intros w Hb Hs. rewrite !dsat_cat in Hs. destruct Hs as (D1 & D2 & D3 & D4 & D5 & _).
      specialize (S1 w Hb D1). specialize (S2 w Hb D2). specialize (S3 w Hb D3). specialize (S4 w Hb D4). specialize (S5 w Hb D5).
      destruct Hb as [Hb0 Hb1]. rewrite Hb0 in *. clear -S1 S2 S3 S4 S5. unfold prod_eqs. split; [|split].
      + transitivity (1 * w z0); [ring|]. rewrite S1. ring.
      + transitivity (1 * w z1); [ring|]. rewrite S4, S2, S3. ring.
      + transitivity (1 * w c1); [ring|]. rewrite S5. ring.
    - intros w Hb Hh (E1 & E2 & E3). rewrite <- !capp_cat in Hh.
      apply hext_app1 in Hh; [|wfs]. pose proof Hh as Hh5. apply hext_app1 in Hh; [|wfs]. pose proof Hh as Hh4.
      apply hext_app1 in Hh; [|wfs]. pose proof Hh as Hh3. apply hext_app1 in Hh; [|wfs]. pose proof Hh as Hh2. apply hext_app1 in Hh; [|wfs].
      specialize (C2 w Hb Hh2 I). specialize (C3 w Hb Hh3 I). pose proof (S2 w Hb C2) as F2. pose proof (S3 w Hb C3) as F3.
      pose proof (proj1 Hb) as Hb0. rewrite !dsat_cat. split; [|split; [|split; [|split; [|split; [|apply dsat_nil]]]]]; auto.
      + apply C1; auto. rewrite E1. ring.
      + apply C4; auto. rewrite F2, F3, Hb0, E2. ring.
      + apply C5; auto. rewrite E3, Hb0. ring.
  Qed.

  Lemma mulc_gates_spec (c : circuit K) x0 x1 y0 y1 w0 w1 z0 z1 c0 c1 P0 P1 t (o : fvar (K := K)) : wf c ->
    (x0 < num_vars c)%nat -> (x1 < num_vars c)%nat ->
    (w0 < num_vars c)%nat -> (w1 < num_vars c)%nat -> (z0 < num_vars c)%nat -> (z1 < num_vars c)%nat ->
    (c0 < num_vars c)%nat -> (c1 < num_vars c)%nat ->
    gspec (quad_poly_gate (mk_row x0 w0 c0 z0 0) y0 (- P0) t (- (1)) 0 0 0 (- (t * t)) >>
      (t1 <- lc x0 x1 w1 w0 y1 y0 (- P0) (- P1) ;;
       quad_poly_gate (mk_row t1 z1 c0 c1 0) 1 (- (1)) (- (1)) t 0 0 0 (t - (t * t + t * t)) >>
       quad_poly_gate (mk_row x1 w1 c1 0 0) y1 (- P1) (- (1)) 0 0 0 0 (t + t) >> ret o)) c
      (fun w _ => prod_eqs (w x0) (w x1) y0 y1 (w w0) (w w1) (w z0) (w z1) (w c0) (w c1) P0 P1 t)
      (fun w => prod_eqs (w x0) (w x1) y0 y1 (w w0) (w w1) (w z0) (w z1) (w c0) (w c1) P0 P1 t) (fun o' _ => o' = o).
  Proof.
    intros Hw H1 H2 H5 H6 H7 H8 H9 H10. start. pose proof (wf_two _ Hw) as H11.
    apply wpc_bind. eapply wpc_mono; [apply quad_poly_gate_spec; cbn [r0 r1 r2 r3 r4]; [wfs|bnd..]|]. intros [] d1 _ (S1 & C1 & _). cbn [r0 r1 r2 r3 r4] in S1, C1.
    apply wpc_bind. eapply wpc_mono; [apply lc_spec; [wfs|bnd..]|]. intros t2 d3 _ (S3 & C3 & O3). unfold out in O3.
    apply wpc_bind. eapply wpc_mono; [apply quad_poly_gate_spec; cbn [r0 r1 r2 r3 r4]; [wfs|bnd..]|]. intros [] d4 _ (S4 & C4 & _). cbn [r0 r1 r2 r3 r4] in S4, C4.
    apply wpc_bind. eapply wpc_mono; [apply quad_poly_gate_spec; cbn [r0 r1 r2 r3 r4]; [wfs|bnd..]|]. intros [] d5 _ (S5 & C5 & _). cbn [r0 r1 r2 r3 r4] in S5, C5.
    wstep. rewrite !ptype_capp in *. split; [|split; [|reflexivity]].
    - intros w Hb Hs. rewrite !dsat_cat in Hs. destruct Hs as (D1 & D3 & D4 & D5 & _).
      specialize (S1 w Hb D1). specialize (S3 w Hb D3). specialize (S4 w Hb D4). specialize (S5 w Hb D5).
      destruct Hb as [Hb0 Hb1]. rewrite Hb0 in *. clear -S1 S3 S4 S5. unfold prod_eqs. split; [|split]; apply (fsub_eq_0 K).
      + match type of S1 with ?a = ?b => transitivity (a - b) end; [ring|rewrite S1; ring].
      + match type of S4 with ?a = ?b => transitivity (a - b) end; [rewrite S3; ring|rewrite S4; ring].
      + match type of S5 with ?a = ?b => transitivity (a - b) end; [ring|rewrite S5 at 1; ring].
    - intros w Hb Hh (E1 & E2 & E3). rewrite <- !capp_cat in Hh.
      apply hext_app1 in Hh; [|wfs]. pose proof Hh as Hh5. apply hext_app1 in Hh; [|wfs]. pose proof Hh as Hh4.
      apply hext_app1 in Hh; [|wfs]. pose proof Hh as Hh3. apply hext_app1 in Hh; [|wfs].
      specialize (C3 w Hb Hh3 I). pose proof (S3 w Hb C3) as F3.
      pose proof (proj1 Hb) as Hb0. rewrite !dsat_cat. split; [|split; [|split; [|split; [|apply dsat_nil]]]]; auto.
      + apply C1; auto. rewrite E1, Hb0. ring.
      + apply C4; auto. rewrite F3, Hb0, E2. ring.
      + apply C5; auto. rewrite E3, Hb0. ring.
  Qed.
End Gates.

Section Specs.
  Context {K : fld}.
  Variable zval : K -> Z.
  Variable q : Z.
  Variable nb L : nat.
  Hypothesis HF : pfield K zval q nb L.
  Add Field Kfield_mas : (fth K).
  Notation gspec := (gspec zval).
  Notation dsat := (dsat zval).
  Notation TT := (fun _ : nat -> K => True).
  Ltac start := unfold gspec, CircuitProofs.gspec; unfold out, noout.

  (** The split parameter and its power. *)
  Variable m rb : nat.
  Notation M := (2 ^ Z.of_nat m)%Z.
  Notation B := (2 ^ Z.of_nat rb)%Z.
  Hypothesis Hm : (1 <= m)%nat.
  Hypothesis Hm2 : (m <= nb / 2)%nat.
  Hypothesis Hrb : (1 <= rb <= 31)%nat.
  Hypothesis Hrn : (rb < nb)%nat.
  Hypothesis Hmr : (m mod rb = 0)%nat.
  Hypothesis HMq : (M * M < q)%Z.

  Definition fvout (x : fvar (K := K)) (n : nat) : Prop := (v0 x < n)%nat /\ (v1 x < n)%nat.
  (** The integer the limbs stand for, and that the limbs are in range. *)
  Definition fval (w : nat -> K) (x : fvar (K := K)) : Z := (zval (w (v0 x)) + M * zval (w (v1 x)))%Z.
  Definition small (w : nat -> K) (x : fvar (K := K)) : Prop := (zval (w (v0 x)) < M)%Z /\ (zval (w (v1 x)) < M)%Z.
  (** The constant [a + M * b]. *)
  Definition esplit (a b : Z) : felem (K := K) := mk_felem (fZ a) (fZ b) m (fZ M).

  Lemma M_ge : (2 <= M)%Z.
  Proof. change 2%Z with (2 ^ 1)%Z at 1. apply Z.pow_le_mono_r; lia. Qed.
  Lemma B_ge : (2 <= B)%Z.
  Proof. change 2%Z with (2 ^ 1)%Z at 1. apply Z.pow_le_mono_r; lia. Qed.
  Lemma M_lt : (M < q)%Z.
  Proof. pose proof M_ge. nia. Qed.
  Lemma zval_Z z : (0 <= z < q)%Z -> zval (fZ z) = z.
  Proof. apply (zval_small zval q nb L HF). Qed.
  Lemma felem_new_eq v : (0 <= v < M * M)%Z ->
    felem_new zval nb (fZ v) m (Some (fZ M)) = Ok (esplit (v mod M) (v / M)).
  Proof.
    intros Hv. pose proof M_ge. pose proof M_lt. unfold felem_new. destruct (Nat.ltb_spec (nb / 2) m); [lia|].
    unfold two_pow, div_rem. rewrite (zval_Z M) by lia. destruct (Z.eqb_spec M 0); [lia|]. rewrite (zval_Z v) by lia. cbn [bind fst snd].
    unfold esplit. do 2 f_equal. rewrite <- fZ_mul, <- fZ_sub. f_equal. rewrite Z.mod_eq by lia. reflexivity.
  Qed.
  Lemma split_eq v : (0 <= v < M * M)%Z -> v = (v mod M + M * (v / M))%Z /\ (0 <= v mod M < M)%Z /\ (0 <= v / M < M)%Z.
  Proof.
    intros Hv. pose proof M_ge. split; [|split].
    - rewrite Z.add_comm. apply Z.div_mod. lia.
    - apply Z.mod_pos_bound. lia.
    - split; [apply Z.div_pos; lia|]. apply Z.div_lt_upper_bound; lia.
  Qed.

  (** What the prover computes for a product. *)
  Lemma mul_values_ok x0 x1 y0 y1 p0 p1 : (0 <= x0 < M)%Z -> (0 <= x1 < M)%Z -> (0 <= y0 < M)%Z -> (0 <= y1 < M)%Z ->
    (0 <= p0 < M)%Z -> (0 <= p1 < M)%Z -> (0 < p0 + M * p1)%Z ->
    ((x0 + M * x1) * (y0 + M * y1) < M * M * (p0 + M * p1))%Z ->
    exists w0 w1 z0 z1 k0 k1,
      mul_values zval nb x0 x1 y0 y1 (esplit p0 p1) = Ok (esplit w0 w1, esplit z0 z1, (M + k0, M + M + k1)%Z) /\
      (0 <= w0 < M)%Z /\ (0 <= w1 < M)%Z /\ (0 <= z0 < M)%Z /\ (0 <= z1 < M)%Z /\
      (z0 + M * z1 = ((x0 + M * x1) * (y0 + M * y1)) mod (p0 + M * p1))%Z /\
      (z0 + p0 * w0 - x0 * y0 = M * k0)%Z /\ (z1 + p0 * w1 + p1 * w0 + k0 - (x0 * y1 + x1 * y0) = M * k1)%Z /\
      (x1 * y1 - p1 * w1 = k1)%Z /\ (- M < k0 < M)%Z /\ (- (2 * M) < k1 < 2 * M)%Z.
  Proof.
    intros Hx0 Hx1 Hy0 Hy1 Hp0 Hp1 Hp Hxy. pose proof M_ge as HM. pose proof M_lt as HMl.
    set (X := (x0 + M * x1)%Z) in *. set (Y := (y0 + M * y1)%Z) in *. set (P := (p0 + M * p1)%Z) in *.
    assert (HP : (P <= M * M)%Z) by (unfold P; nia).
    assert (HX : (0 <= X)%Z) by (unfold X; nia). assert (HY : (0 <= Y)%Z) by (unfold Y; nia).
    set (W := (X * Y / P)%Z).
    assert (HW : (0 <= W < M * M)%Z).
    { unfold W. split; [apply Z.div_pos; nia|]. apply Z.div_lt_upper_bound; [lia|]. rewrite (Z.mul_comm P). exact Hxy. }
    assert (EZ : (X * Y - W * P = (X * Y) mod P)%Z) by (rewrite Z.mod_eq by lia; unfold W; ring).
    assert (HZ : (0 <= X * Y - W * P < M * M)%Z) by (rewrite EZ; pose proof (Z.mod_pos_bound (X * Y) P Hp); lia).
    destruct (split_eq W HW) as (EW & HW0 & HW1). set (w0 := (W mod M)%Z) in *. set (w1 := (W / M)%Z) in *.
    destruct (split_eq _ HZ) as (EZ' & HZ0 & HZ1). set (z0 := ((X * Y - W * P) mod M)%Z) in *. set (z1 := ((X * Y - W * P) / M)%Z) in *.
    destruct (honest_carries M x0 x1 y0 y1 p0 p1 HM (conj Hx0 Hx1) (conj Hy0 Hy1) (conj Hp0 Hp1) w0 w1 z0 z1)
      as (k0 & k1 & K0 & K1 & K2 & B0 & B1); auto.
    { rewrite <- EZ', <- EW. fold X Y P. ring. }
    exists w0, w1, z0, z1, k0, k1. split; [|repeat split; auto; try lia; now rewrite <- EZ', EZ].
    assert (Et : forall a b, zval (etwo (esplit a b)) = M) by (intros; apply zval_Z; lia).
    assert (Ea : forall a b, (0 <= a < M)%Z -> zval (e0 (esplit a b)) = a) by (intros; apply zval_Z; lia).
    assert (Eb : forall a b, (0 <= b < M)%Z -> zval (e1 (esplit a b)) = b) by (intros; apply zval_Z; lia).
    unfold mul_values. rewrite (Et p0 p1), (Ea p0 p1), (Eb p0 p1) by assumption. cbv zeta. fold X Y P. destruct (Z.eqb_spec P 0); [lia|]. fold W.
    change (em (esplit p0 p1)) with m. change (etwo (esplit p0 p1)) with (fZ M : K).
    rewrite felem_new_eq by exact HW. cbn [bind]. rewrite felem_new_eq by exact HZ. cbn [bind].
    fold w0 w1 z0 z1. rewrite !Ea, !Eb by assumption.
    rewrite (carry_exact _ _ M M k0) by lia. cbn [bind].
    rewrite (carry_exact _ _ (M + M)%Z M k1) by lia. reflexivity.
  Qed.

  Lemma rg_spec c a n : wf c -> ptype c = Ultra rb -> (a < num_vars c)%nat -> (1 <= n)%nat ->
    gspec (range_gate_with_lookup zval q nb L a n) c (fun w _ => (zval (w a) < 2 ^ Z.of_nat n)%Z) (fun w => (zval (w a) < 2 ^ Z.of_nat n)%Z) noout.
  Proof. intros. now apply (range_gate_with_lookup_spec zval q nb L HF c a n rb). Qed.
  Lemma rgs_spec l : forall c, wf c -> ptype c = Ultra rb ->
    Forall (fun an => (fst an < num_vars c)%nat /\ (1 <= snd an)%nat) l ->
    gspec (iterM (fun an => range_gate_with_lookup zval q nb L (fst an) (snd an)) l) c
      (fun w _ => Forall (fun an => zval (w (fst an)) < 2 ^ Z.of_nat (snd an))%Z l)
      (fun w => Forall (fun an => zval (w (fst an)) < 2 ^ Z.of_nat (snd an))%Z l) noout.
  Proof.
    induction l as [|an l IH]; intros c Hw Ht Hl; start; cbn [iterM].
    - wstep. split; [constructor|]. split; auto. intros. apply dsat_nil.
    - apply Forall_cons_iff in Hl as [[Ha Hn] Hl].
      apply wpc_bind. eapply wpc_mono; [apply (rg_spec c (fst an) (snd an)); auto|]. intros [] d _ (S1 & C1 & _).
      eapply wpc_mono; [apply (IH (capp c d)); [wfs|exact Ht|]|].
      { eapply Forall_impl; [|exact Hl]. cbn beta. intros x [H1 H2]. split; auto. bnd. }
      intros [] d' _ (S2 & C2 & _). split; [|split; [|exact I]].
      + intros w Hb Hs. apply dsat_cat in Hs as [Hs1 Hs2]. constructor; [now apply S1|now apply S2].
      + intros w Hb Hh HC. apply Forall_cons_iff in HC as [HC1 HC2]. rewrite <- capp_cat in Hh. apply dsat_cat. split.
        * apply C1; auto. apply (hext_app1 _ d'); [wfs|exact Hh].
        * apply C2; auto.
  Qed.

  Definition six (w : nat -> K) (vs : nat * nat * nat * nat * nat * nat) : Prop :=
    let '(w0v, w1v, z0v, z1v, c0v, c1v) := vs in
    (zval (w w0v) < M)%Z /\ (zval (w w1v) < M)%Z /\ (zval (w z0v) < M)%Z /\ (zval (w z1v) < M)%Z /\
    (zval (w c0v) < M * B)%Z /\ (zval (w c1v) < M * B)%Z.
  Definition sixout (vs : nat * nat * nat * nat * nat * nat) (n : nat) : Prop :=
    let '(w0v, w1v, z0v, z1v, c0v, c1v) := vs in
    (w0v < n)%nat /\ (w1v < n)%nat /\ (z0v < n)%nat /\ (z1v < n)%nat /\ (c0v < n)%nat /\ (c1v < n)%nat.
  Definition sixval (w : nat -> K) (vs : nat * nat * nat * nat * nat * nat) (l : list Z) : Prop :=
    let '(w0v, w1v, z0v, z1v, c0v, c1v) := vs in map w [w0v; w1v; z0v; z1v; c0v; c1v] = map (fun z => fZ z) l.
  Lemma mul_vars_spec c w0 w1 z0 z1 c0 c1 : wf c -> ptype c = Ultra rb ->
    (0 <= w0 < M)%Z -> (0 <= w1 < M)%Z -> (0 <= z0 < M)%Z -> (0 <= z1 < M)%Z -> (0 <= c0 < M * B)%Z -> (0 <= c1 < M * B)%Z ->
    (M * B < q)%Z ->
    wpc (mul_vars zval q nb L (esplit w0 w1, esplit z0 z1, (c0, c1)) m rb) c (fun vs d =>
      (forall w, base w -> dsat (Ultra rb) w d -> six w vs) /\
      (forall w, base w -> hext (capp c d) w -> dsat (Ultra rb) w d /\ sixval w vs [w0; w1; z0; z1; c0; c1]) /\
      sixout vs (num_vars c + length (d_vals d))%nat).
  Proof.
    intros Hw Ht Hw0 Hw1 Hz0 Hz1 Hc0 Hc1 HMB. pose proof M_ge as HM. pose proof M_lt as HMl. unfold mul_vars, esplit. cbn [e0 e1].
    rewrite !zval_Z by lia. set (xs := [fZ w0; fZ w1; fZ z0; fZ z1; fZ c0; fZ c1]).
    apply wpc_bind. eapply wpc_mono; [apply (mapM_var_spec zval xs c Hw)|]. intros vs d _ (Evs & Ed & Hsat).
    change (length xs) with 6%nat in Evs. cbn [seq] in Evs. rewrite Evs. cbn [nth]. clear vs Evs.
    assert (Ld : length (d_vals d) = 6%nat) by (rewrite Ed; reflexivity).
    set (n := num_vars c) in *.
    apply wpc_bind. eapply wpc_mono; [apply rgs_spec; [wfs|exact Ht|]|].
    { cbn [capp num_vars]. fold n. repeat constructor; cbn [fst snd]; lia. }
    intros [] d' _ (S1 & C1 & _). wstep. change (ptype (capp c d)) with (ptype c) in *. rewrite Ht in *.
    assert (EMB : (2 ^ Z.of_nat (m + rb) = M * B)%Z) by (rewrite Nat2Z.inj_add, Z.pow_add_r by lia; reflexivity).
    split; [|split].
    - intros w Hb Hs. rewrite !dsat_cat in Hs. destruct Hs as (_ & Hs & _). pose proof (S1 w Hb Hs) as HS. clear -HS EMB.
      repeat (apply Forall_cons_iff in HS as [? HS]). cbn [fst snd] in *. rewrite EMB in *. unfold six. tauto.
    - intros w Hb Hh. rewrite <- !capp_cat in Hh. assert (Hh1 : hext (capp c d) w) by (do 2 (apply hext_app1 in Hh; [|wfs]); exact Hh).
      assert (Hh2 : hext (capp (capp c d) d') w) by (apply hext_app1 in Hh; [exact Hh|wfs]).
      pose proof (hext_seq c d w Hw Hh1) as E. rewrite Ld, Ed in E. cbn [seq] in E. fold n in E.
      split; [|exact E]. rewrite !dsat_cat. split; auto. split; [|apply dsat_nil]. apply C1; auto.
      unfold xs in E. cbn [map] in E. injection E as E1 E2 E3 E4 E5 E6.
      repeat constructor; cbn [fst snd]; rewrite ?EMB; [rewrite E1|rewrite E2|rewrite E3|rewrite E4|rewrite E5|rewrite E6]; rewrite zval_Z; lia.
    - cbn [dcat d_vals dnil]. rewrite !app_length. cbn [length]. unfold sixout. rewrite Ld. fold n. lia.
  Qed.

  (** The result of a product: limbs in range, congruent to the product. *)
  Variables p0 p1 : Z.
  Notation P := (p0 + M * p1)%Z.
  Hypothesis Hp0 : (0 <= p0 < M)%Z.
  Hypothesis Hp1 : (0 <= p1 < M)%Z.
  Hypothesis HP : (0 < P)%Z.
  Hypothesis Hq : (M * M * (B + 4) <= q)%Z.
  Hypothesis Hrb2 : (2 <= rb)%nat.

  Lemma MB_lt : (M * B < q)%Z.
  Proof. pose proof M_ge. pose proof B_ge. nia. Qed.
  Lemma B_ge4 : (4 <= B)%Z.
  Proof. change 4%Z with (2 ^ 2)%Z at 1. apply Z.pow_le_mono_r; lia. Qed.

  Definition is_prod (w : nat -> K) (XY : Z) (o : fvar (K := K)) : Prop :=
    small w o /\ exists W, (0 <= W < M * M)%Z /\ XY = (fval w o + W * P)%Z.
  Definition fvok (x : fvar (K := K)) : Prop := vm x = m /\ vtwo x = fZ M.

  Lemma checks_pass {A} (k : circ K A) c (Q : A -> delta K -> Prop) ms ts : wpc k c Q ->
    Forall (fun x => x = m) ms -> Forall (fun x => x = fZ M) ts ->
    wpc (check_m ms m >> check_two ts (fZ M) >> check_split m rb >> k) c Q.
  Proof.
    intros Hk H1 H2.
    assert (E1 : forallb (fun x => (x =? m)%nat) ms = true).
    { apply forallb_forall. intros x Hx. apply Nat.eqb_eq. rewrite Forall_forall in H1. auto. }
    assert (E2 : forallb (fun x => feqb x (fZ M : K)) ts = true).
    { apply forallb_forall. intros x Hx. apply feqb_eq. rewrite Forall_forall in H2. auto. }
    unfold check_m, check_two, check_split. rewrite E1, E2. destruct (Nat.eqb_spec rb 0); [lia|].
    rewrite (proj2 (Nat.eqb_eq _ _) Hmr). repeat wstep. exact Hk.
  Qed.

  Lemma zval_ge (x : K) : (0 <= zval x)%Z.
  Proof. apply (pf_range _ _ _ _ _ HF). Qed.
  (** The gates of a product, read over the integers. *)
  Lemma prod_sound (x0 x1 y0 y1 w0 w1 z0 z1 c0 c1 : K) :
    (zval x0 < M)%Z -> (zval x1 < M)%Z -> (zval y0 < M)%Z -> (zval y1 < M)%Z ->
    (zval w0 < M)%Z /\ (zval w1 < M)%Z /\ (zval z0 < M)%Z /\ (zval z1 < M)%Z /\
    (zval c0 < M * B)%Z /\ (zval c1 < M * B)%Z ->
    prod_eqs x0 x1 y0 y1 w0 w1 z0 z1 c0 c1 (fZ p0) (fZ p1) (fZ M) ->
    ((zval z0 < M) /\ (zval z1 < M) /\ exists W, 0 <= W < M * M /\
      (zval x0 + M * zval x1) * (zval y0 + M * zval y1) = (zval z0 + M * zval z1) + W * P)%Z.
  Proof.
    intros Hx0 Hx1 Hy0 Hy1 (Hw0 & Hw1 & Hz0 & Hz1 & Hc0 & Hc1) (E3 & E4 & E5).
    split; auto. split; auto. exists (zval w0 + M * zval w1)%Z.
    pose proof (zval_ge x0). pose proof (zval_ge x1). pose proof (zval_ge y0). pose proof (zval_ge y1).
    pose proof (zval_ge w0). pose proof (zval_ge w1). pose proof (zval_ge z0). pose proof (zval_ge z1).
    pose proof (zval_ge c0). pose proof (zval_ge c1). pose proof M_ge. pose proof B_ge.
    split; [nia|]. apply (mul_sound zval q nb L HF B M _ _ _ _ p0 p1 _ _ _ _ (zval c0) (zval c1)); try lia;
      rewrite !(pf_fZ _ _ _ _ _ HF); assumption.
  Qed.
  (** The honest values pass the gates. *)
  Lemma prod_complete x0 x1 y0 y1 w0 w1 z0 z1 k0 k1 : 
    (z0 + p0 * w0 - x0 * y0 = M * k0)%Z -> (z1 + p0 * w1 + p1 * w0 + k0 - (x0 * y1 + x1 * y0) = M * k1)%Z ->
    (x1 * y1 - p1 * w1 = k1)%Z ->
    prod_eqs (fZ x0) (fZ x1) (fZ y0) (fZ y1) (fZ w0) (fZ w1) (fZ z0) (fZ z1) (fZ (M + k0)) (fZ (M + M + k1)) (fZ p0 : K) (fZ p1) (fZ M).
  Proof.
    intros E3 E4 E5.
    assert (F3 : z0 = (x0 * y0 - p0 * w0 + M * (M + k0) - M * M)%Z) by lia.
    assert (F4 : z1 = (x0 * y1 + x1 * y0 - (p0 * w1 + p1 * w0) - (M + k0) + M * (M + M + k1) + (M - (M * M + M * M)))%Z) by lia.
    assert (F5 : (M + M + k1)%Z = (x1 * y1 - p1 * w1 + (M + M))%Z) by lia.
    unfold prod_eqs. split; [|split].
    - rewrite F3 at 1. repeat rewrite ?fZ_sub, ?fZ_add, ?fZ_mul. ring.
    - rewrite F4 at 1. repeat rewrite ?fZ_sub, ?fZ_add, ?fZ_mul. ring.
    - rewrite F5. repeat rewrite ?fZ_sub, ?fZ_add, ?fZ_mul. ring.
  Qed.

  Lemma mod_mul_spec c x y : wf c -> ptype c = Ultra rb -> fvok x -> fvok y -> fvout x (num_vars c) -> fvout y (num_vars c) ->
    small (hon c) x -> small (hon c) y -> (fval (hon c) x * fval (hon c) y < M * M * P)%Z ->
    wpc (mod_mul zval q nb L x y (esplit p0 p1)) c (fun o d =>
      (forall w, base w -> dsat (Ultra rb) w d -> small w x -> small w y -> is_prod w (fval w x * fval w y) o) /\
      (forall w, base w -> hext (capp c d) w -> dsat (Ultra rb) w d /\ small w o /\ fval w o = ((fval w x * fval w y) mod P)%Z) /\
      fvout o (num_vars c + length (d_vals d)) /\ fvok o).
  Proof.
    intros Hw Ht [Ex Tx] [Ey Ty] Ox Oy Sx Sy Hxy. pose proof M_ge as HM. pose proof M_lt as HMl. pose proof MB_lt as HMB. pose proof B_ge4 as HB4.
    unfold mod_mul. apply wpc_bind_lift with (a := rb); [unfold range_bit_len; now rewrite Ht|].
    rewrite Ex, Ey, Tx, Ty. change (em (esplit p0 p1)) with m. change (etwo (esplit p0 p1)) with (fZ M : K).
    apply checks_pass; [|repeat constructor..].
    destruct Ox as [Ox0 Ox1]. destruct Oy as [Oy0 Oy1].
    do 4 (apply wpc_wit; [assumption|assumption|]).
    pose proof (zval_ge (hon c (v0 x))) as R0. pose proof (zval_ge (hon c (v1 x))) as R1.
    pose proof (zval_ge (hon c (v0 y))) as R2. pose proof (zval_ge (hon c (v1 y))) as R3.
    destruct Sx as [Sx0 Sx1]. destruct Sy as [Sy0 Sy1].
    destruct (mul_values_ok (zval (hon c (v0 x))) (zval (hon c (v1 x))) (zval (hon c (v0 y))) (zval (hon c (v1 y))) p0 p1)
      as (w0 & w1 & z0 & z1 & k0 & k1 & Ev & Hw0 & Hw1 & Hz0 & Hz1 & EZ & E3 & E4 & E5 & B0 & B1); try lia; try exact Hxy.
    apply wpc_bind_lift with (1 := Ev).
    assert (HMB4 : (4 * M <= M * B)%Z) by (clear -HM HB4; nia).
    apply wpc_bind. eapply wpc_mono; [apply (mul_vars_spec c w0 w1 z0 z1 (M + k0) (M + M + k1)); auto; lia|].
    intros [[[[[w0v w1v] z0v] z1v] c0v] c1v] d _ (S1 & C1 & O1). 
    unfold six, sixval, sixout in *. destruct O1 as (O1 & O2 & O3 & O4 & O5 & O6).
    change (e0 (esplit p0 p1)) with (fZ p0 : K). change (e1 (esplit p0 p1)) with (fZ p1 : K).
    eapply wpc_mono; [apply mul_gates_spec; [wfs|cbn [capp num_vars]; lia..]|]. intros o d' _ (S2 & C2 & ->).
    change (ptype (capp c d)) with (ptype c) in *. rewrite Ht in *.
    split; [|split; [|split; [|split; reflexivity]]].
    - intros w Hb Hs [X0 X1] [Y0 Y1]. apply dsat_cat in Hs as [D1 D2].
      destruct (prod_sound _ _ _ _ _ _ _ _ _ _ X0 X1 Y0 Y1 (S1 w Hb D1) (S2 w Hb D2)) as (Z0 & Z1 & HW).
      split; [split; [exact Z0|exact Z1]|exact HW].
    - intros w Hb Hh. rewrite <- capp_cat in Hh. assert (Hh1 : hext (capp c d) w) by (apply hext_app1 in Hh; [exact Hh|wfs]).
      assert (Hh0 : hext c w) by (apply hext_app1 in Hh1; [exact Hh1|exact Hw]).
      destruct (C1 w Hb Hh1) as [D1 E]. cbn [map] in E. injection E as F1 F2 F3 F4 F5 F6.
      assert (Hx : forall v, (v < num_vars c)%nat -> w v = hon c v) by (intros v Hv; apply Hh0; exact Hv).
      assert (EV : forall v, (v < num_vars c)%nat -> w v = fZ (zval (hon c v))) by (intros v Hv; rewrite (pf_fZ _ _ _ _ _ HF); auto).
      rewrite dsat_cat. split; [split; [exact D1|]|].
      + apply C2; auto. rewrite F1, F2, F3, F4, F5, F6, !EV by assumption. now apply prod_complete.
      + unfold small, fval. cbn [v0 v1]. rewrite F3, F4, !Hx by assumption. rewrite !zval_Z by lia. split; [split; lia|exact EZ].
    - unfold fvout. cbn [v0 v1 dcat d_vals]. rewrite app_length. lia.
  Qed.

  Lemma mod_mul_constant_spec c x y0 y1 : wf c -> ptype c = Ultra rb -> fvok x -> fvout x (num_vars c) ->
    (0 <= y0 < M)%Z -> (0 <= y1 < M)%Z ->
    small (hon c) x -> (fval (hon c) x * (y0 + M * y1) < M * M * P)%Z ->
    wpc (mod_mul_constant zval q nb L x (esplit y0 y1) (esplit p0 p1)) c (fun o d =>
      (forall w, base w -> dsat (Ultra rb) w d -> small w x -> is_prod w (fval w x * (y0 + M * y1)) o) /\
      (forall w, base w -> hext (capp c d) w -> dsat (Ultra rb) w d /\ small w o /\ fval w o = ((fval w x * (y0 + M * y1)) mod P)%Z) /\
      fvout o (num_vars c + length (d_vals d)) /\ fvok o).
  Proof.
    intros Hw Ht [Ex Tx] Ox Y0 Y1 Sx Hxy. pose proof M_ge as HM. pose proof M_lt as HMl. pose proof MB_lt as HMB. pose proof B_ge4 as HB4.
    unfold mod_mul_constant. apply wpc_bind_lift with (a := rb); [unfold range_bit_len; now rewrite Ht|].
    rewrite Ex, Tx. change (em (esplit p0 p1)) with m. change (etwo (esplit p0 p1)) with (fZ M : K). change (em (esplit y0 y1)) with m. change (etwo (esplit y0 y1)) with (fZ M : K).
    apply checks_pass; [|repeat constructor..].
    destruct Ox as [Ox0 Ox1].
    do 2 (apply wpc_wit; [assumption|assumption|]).
    pose proof (zval_ge (hon c (v0 x))) as R0. pose proof (zval_ge (hon c (v1 x))) as R1.
    destruct Sx as [Sx0 Sx1]. 
    change (e0 (esplit y0 y1)) with (fZ y0 : K). change (e1 (esplit y0 y1)) with (fZ y1 : K).
    assert (Zy0 : zval (fZ y0) = y0) by (apply zval_Z; lia). assert (Zy1 : zval (fZ y1) = y1) by (apply zval_Z; lia).
    rewrite Zy0, Zy1.
    destruct (mul_values_ok (zval (hon c (v0 x))) (zval (hon c (v1 x))) y0 y1 p0 p1)
      as (w0 & w1 & z0 & z1 & k0 & k1 & Ev & Hw0 & Hw1 & Hz0 & Hz1 & EZ & E3 & E4 & E5 & B0 & B1); try lia; try exact Hxy.
    apply wpc_bind_lift with (1 := Ev).
    assert (HMB4 : (4 * M <= M * B)%Z) by (clear -HM HB4; nia).
    apply wpc_bind. eapply wpc_mono; [apply (mul_vars_spec c w0 w1 z0 z1 (M + k0) (M + M + k1)); auto; lia|].
    intros [[[[[w0v w1v] z0v] z1v] c0v] c1v] d _ (S1 & C1 & O1). 
    unfold six, sixval, sixout in *. destruct O1 as (O1 & O2 & O3 & O4 & O5 & O6).
    change (e0 (esplit p0 p1)) with (fZ p0 : K). change (e1 (esplit p0 p1)) with (fZ p1 : K).
    eapply wpc_mono; [apply mulc_gates_spec; [wfs|cbn [capp num_vars]; lia..]|]. intros o d' _ (S2 & C2 & ->).
    change (ptype (capp c d)) with (ptype c) in *. rewrite Ht in *.
    split; [|split; [|split; [|split; reflexivity]]].
    - intros w Hb Hs [X0 X1]. apply dsat_cat in Hs as [D1 D2].
      assert (L0 : (zval (fZ y0) < M)%Z) by lia. assert (L1 : (zval (fZ y1) < M)%Z) by lia.
      destruct (prod_sound _ _ (fZ y0) (fZ y1) _ _ _ _ _ _ X0 X1 L0 L1 (S1 w Hb D1) (S2 w Hb D2)) as (Z0 & Z1 & HW).
      rewrite Zy0, Zy1 in HW. split; [split; [exact Z0|exact Z1]|exact HW].
    - intros w Hb Hh. rewrite <- capp_cat in Hh. assert (Hh1 : hext (capp c d) w) by (apply hext_app1 in Hh; [exact Hh|wfs]).
      assert (Hh0 : hext c w) by (apply hext_app1 in Hh1; [exact Hh1|exact Hw]).
      destruct (C1 w Hb Hh1) as [D1 E]. cbn [map] in E. injection E as F1 F2 F3 F4 F5 F6.
      assert (Hx : forall v, (v < num_vars c)%nat -> w v = hon c v) by (intros v Hv; apply Hh0; exact Hv).
      assert (EV : forall v, (v < num_vars c)%nat -> w v = fZ (zval (hon c v))) by (intros v Hv; rewrite (pf_fZ _ _ _ _ _ HF); auto).
      rewrite dsat_cat. split; [split; [exact D1|]|].
      + apply C2; auto. rewrite F1, F2, F3, F4, F5, F6, !EV by assumption. now apply prod_complete.
      + unfold small, fval. cbn [v0 v1]. rewrite F3, F4, !Hx by assumption. rewrite !zval_Z by lia. split; [split; lia|exact EZ].
    - unfold fvout. cbn [v0 v1 dcat d_vals]. rewrite app_length. lia.
  Qed.

  (** ** Sums *)
  (** The chain of additions of [mod_add_internal]. *)
  Definition sum_chain (pf : K) (z : nat) (vars : list nat) (y : nat) : circ K nat :=
    padded_len <- lift (fun _ => let* n := next_multiple (length vars) 3 in Ok (n + 1)%nat) ;;
    let padded := resize (z :: vars) padded_len 0%nat in
    acc0 <- idx padded (padded_len - 1) ;;
    acc <- foldM (fun acc i =>
              a <- idx padded (padded_len - 1 - 3 * i + 2) ;; b <- idx padded (padded_len - 1 - 3 * i + 1) ;;
              c <- idx padded (padded_len - 1 - 3 * i) ;;
              lc acc a b c 1 1 1 1) acc0 (seq 1 (padded_len / 3 - 1)) ;;
    a <- idx padded 2 ;; b <- idx padded 1 ;; c <- idx padded 0 ;;
    lc_gate acc a b c y 1 1 1 (- pf) >> ret y.
  (** [mod_add_internal] with given witnesses. *)
  Definition add_core (vars : list nat) (pf : K) (l_p : nat) (zz yy : K) : circ K nat :=
    z <- create_variable zz ;;
    range_gate_with_lookup zval q nb L z rb >>
    (y <- create_variable yy ;; range_gate_with_lookup zval q nb L y (rb * l_p) >> sum_chain pf z vars y).

  Definition add_body (p : list nat) (k : nat) (acc i : nat) : circ K nat :=
    x <- idx p (3 * k + 1 - 1 - 3 * i + 2) ;; y <- idx p (3 * k + 1 - 1 - 3 * i + 1) ;;
    z <- idx p (3 * k + 1 - 1 - 3 * i) ;; lc acc x y z 1 1 1 1.
  Lemma add_fold_spec (p : list nat) n k : length p = (3 * n + 1)%nat ->
    forall s c acc, wf c -> (acc < num_vars c)%nat ->
    Forall (fun v => v < num_vars c)%nat p -> (1 <= s)%nat -> (s + k <= n)%nat ->
    gspec (foldM (add_body p n) acc (seq s k)) c
      (fun w o => w o = fsum (map w (firstn (3 * k) (skipn (3 * (n - s - k + 1)) p))) + w acc)
      (fun _ => True) out.
  Proof.
    clear. intros Hlp. induction k as [|k IH]; intros s c acc Hw Ha Hp Hs Hk; start.
    - cbn [seq foldM]. wstep. leaf; auto. cbn. ring.
    - cbn [seq foldM]. unfold add_body at 1. pose proof (wf_two _ Hw).
      pose proof (fun i => Forall_nth_lt p (num_vars c) i Hp ltac:(lia)) as Hn.
      wstep. apply (wpc_bind_idx p 0%nat); [lia|]. wstep.
      apply (wpc_bind_idx p 0%nat); [lia|]. wstep. apply (wpc_bind_idx p 0%nat); [lia|].
      use lc_spec; try apply Hn.
      use IH; try lia.
      { eapply Forall_impl; [|eassumption]. cbn beta. intros. bnd. }
      leaf; auto. rewrite F, F0.
      replace (3 * S k)%nat with (3 * k + 3)%nat by lia. rewrite firstn_plus.
      replace (n - s - S k + 1)%nat with (n - S s - k + 1)%nat by lia.
      rewrite skipn_skipn.
      replace (3 * k + 3 * (n - S s - k + 1))%nat with (3 * (n - s))%nat by lia.
      rewrite (skipn_nth_cons p 0%nat (3 * (n - s))) by lia.
      rewrite (skipn_nth_cons p 0%nat (S (3 * (n - s)))) by lia.
      rewrite (skipn_nth_cons p 0%nat (S (S (3 * (n - s))))) by lia.
      replace (3 * n + 1 - 1 - 3 * s + 2)%nat with (S (S (3 * (n - s)))) by lia.
      replace (3 * n + 1 - 1 - 3 * s + 1)%nat with (S (3 * (n - s))) by lia.
      replace (3 * n + 1 - 1 - 3 * s)%nat with (3 * (n - s))%nat by lia.
      cbn [firstn]. rewrite map_app, fsum_app. cbn [map]. rewrite !fsum_cons. cbn [fsum fold_right]. ring.
  Qed.

  Lemma sum_chain_spec c pf z vars y : wf c -> (z < num_vars c)%nat -> Forall (fun v => v < num_vars c)%nat vars -> (y < num_vars c)%nat ->
    gspec (sum_chain pf z vars y) c (fun w _ => w y = fsum (map w vars) - pf * w z) (fun w => w y = fsum (map w vars) - pf * w z)
      (fun o _ => o = y).
  Proof.
    clear. intros Hw Hz Hvs Hy; start. pose proof (wf_two _ Hw) as H2. unfold sum_chain.
    destruct (next_multiple_3 (length vars)) as (n & En & Hn1 & Hn2).
    apply wpc_bind_lift with (a := (3 * n + 1)%nat); [rewrite En; reflexivity|]. cbn zeta.
    set (p := resize (z :: vars) (3 * n + 1) 0%nat).
    assert (Hlp : length p = (3 * n + 1)%nat) by apply length_resize.
    assert (Hp : Forall (fun v => v < num_vars c)%nat p) by (apply Forall_resize; auto; lia).
    pose proof (fun i => Forall_nth_lt p (num_vars c) i Hp ltac:(lia)) as Hn.
    assert (Ed : ((3 * n + 1) / 3 = n)%nat).
    { rewrite Nat.mul_comm, Nat.add_comm, Nat.div_add by lia. reflexivity. }
    rewrite Ed. apply (wpc_bind_idx p 0%nat); [lia|].
    set (acc0 := nth (3 * n + 1 - 1) p 0%nat).
    change (foldM _ acc0 (seq 1 (n - 1))) with (foldM (add_body p n) acc0 (seq 1 (n - 1))).
    assert (Ha0 : (acc0 < num_vars c)%nat) by apply Hn.
    assert (Hev : forall w : nat -> K, w 0%nat = 0 -> w z + fsum (map w vars) =
       w (nth 0 p 0%nat) + (w (nth 1 p 0%nat) + (w (nth 2 p 0%nat)
         + (fsum (map w (firstn (3 * (n - 1)) (skipn (3 * (n - 1 - (n - 1) + 1)) p))) + w acc0)))).
    { intros w Hw0. replace (n - 1 - (n - 1) + 1)%nat with 1%nat by lia.
      transitivity (fsum (map w p)).
      - unfold p. rewrite resize_ge by (cbn [length]; lia). rewrite map_app, fsum_app, map_repeat, Hw0, fsum_zeros. cbn [map]. rewrite fsum_cons. ring.
      - rewrite <- (firstn_skipn (3 + 3 * (n - 1)) p) at 1. rewrite firstn_plus.
        rewrite (skipn_nth_cons p 0%nat (3 + 3 * (n - 1))) by lia.
        rewrite (skipn_all2 (n := S (3 + 3 * (n - 1))) p) by lia.
        replace (3 + 3 * (n - 1))%nat with (3 * n + 1 - 1)%nat by lia.
        fold acc0. rewrite !map_app, !fsum_app. change (3 * 1)%nat with 3%nat.
        replace (firstn 3 p) with [nth 0 p 0%nat; nth 1 p 0%nat; nth 2 p 0%nat].
        + cbn [map]. rewrite !fsum_cons. cbn [fsum fold_right]. ring.
        + destruct p as [|x0 [|x1 [|x2 p']]]; try (cbn in Hlp; lia). reflexivity. }
    assert (E0 : nth 0 p 0%nat = z).
    { unfold p. rewrite resize_ge by (cbn [length]; lia). reflexivity. }
    assert (Hev' : forall w : nat -> K, w 0%nat = 0 -> fsum (map w vars) =
       w (nth 1 p 0%nat) + (w (nth 2 p 0%nat)
         + (fsum (map w (firstn (3 * (n - 1)) (skipn (3 * (n - 1 - (n - 1) + 1)) p))) + w acc0))).
    { intros w Hw0. transitivity (w z + fsum (map w vars) - w z); [ring|]. rewrite (Hev w Hw0), E0. ring. }
    clear Hev. clearbody p acc0.
    use (add_fold_spec p n (n - 1) Hlp 1 c acc0); try lia; auto.
    apply (wpc_bind_idx p 0%nat); [lia|]. apply (wpc_bind_idx p 0%nat); [lia|].
    apply (wpc_bind_idx p 0%nat); [lia|].
    assert (Hn' : forall d i, (nth i p 0 < num_vars (capp c d))%nat).
    { intros d' i. specialize (Hn i). bnd. }
    use lc_gate_spec; auto. wstep.
    leaf; auto.
    - rewrite (Hev' w Hb0), F, F0, E0. ring.
    - apply Cmp0; auto. rewrite HC, (Hev' w Hb0), F, E0. ring.
  Qed.

  (** A call whose witnesses have known values [V]. *)
  Definition vspec {A} (mm : circ K A) (c : circuit K) (S : (nat -> K) -> A -> Prop) (C0 : (nat -> K) -> Prop)
      (V : (nat -> K) -> A -> Prop) (R : A -> nat -> Prop) : Prop :=
    wpc mm c (fun a d => (forall w, base w -> dsat (ptype c) w d -> S w a) /\
      (forall w, base w -> hext (capp c d) w -> C0 w -> dsat (ptype c) w d) /\
      (forall w, hext (capp c d) w -> V w a) /\ R a (num_vars c + length (d_vals d))%nat).

  Lemma var_spec c (x : K) : wf c -> wpc (create_variable x) c (fun v d => v = num_vars c /\ d_vals d = [x] /\
      (forall w, dsat (ptype c) w d) /\ (forall w, hext (capp c d) w -> w v = x)).
  Proof.
    clear. intros Hw. apply wpc_var; auto. split; auto. split; auto. split.
    - intros w. split; constructor.
    - intros w Hh. pose proof (hext_seq c (dval x) w Hw Hh) as E. injection E. auto.
  Qed.

  Definition chain_holds (vars : list nat) (pf : K) (n : nat) (w : nat -> K) (y : nat) : Prop :=
    (zval (w y) < 2 ^ Z.of_nat n)%Z /\
    exists k, (0 <= k < B)%Z /\ w y = fsum (map w vars) - pf * fZ k.
  Lemma add_core_spec c vars pf l_p (zz yy : K) : wf c -> ptype c = Ultra rb -> (1 <= l_p)%nat ->
    Forall (fun v => v < num_vars c)%nat vars ->
    vspec (add_core vars pf l_p zz yy) c (chain_holds vars pf (rb * l_p))
      (fun w => (zval zz < B)%Z /\ (zval yy < 2 ^ Z.of_nat (rb * l_p))%Z /\ yy = fsum (map w vars) - pf * zz)
      (fun w y => w y = yy) out.
  Proof.
    clear Hp0 Hp1 HP Hq Hrb2 HMq. intros Hw Ht Hl Hvs. unfold vspec, add_core, out. pose proof (wf_two _ Hw) as H2.
    apply wpc_bind. eapply wpc_mono; [apply var_spec; auto|]. intros z d1 _ (Ez & L1 & D1 & V1).
    assert (Ld1 : length (d_vals d1) = 1%nat) by now rewrite L1.
    apply wpc_bind. eapply wpc_mono; [apply (rg_spec (capp c d1) z rb); [wfs|exact Ht|cbn [capp num_vars]; lia|lia]|]. intros [] d2 _ (S2 & C2 & _).
    apply wpc_bind. eapply wpc_mono; [apply var_spec; wfs|]. intros y d3 _ (Ey & L3 & D3 & V3).
    assert (Ld3 : length (d_vals d3) = 1%nat) by now rewrite L3.
    cbn [capp num_vars] in Ey.
    apply wpc_bind. eapply wpc_mono; [apply (rg_spec _ y (rb * l_p)); [wfs|exact Ht|cbn [capp num_vars]; lia|nia]|]. intros [] d4 _ (S4 & C4 & _).
    eapply wpc_mono; [apply sum_chain_spec; [wfs|cbn [capp num_vars]; lia| |cbn [capp num_vars]; lia]|].
    { eapply Forall_impl; [|exact Hvs]. cbn beta. intros. cbn [capp num_vars]; lia. }
    intros o d5 _ (S5 & C5 & ->). rewrite !ptype_capp in *. cbn [ptype capp] in *.
    split; [|split; [|split]].
    - intros w Hb Hs. rewrite !dsat_cat in Hs. destruct Hs as (_ & Q2 & _ & Q4 & Q5). specialize (S2 w Hb Q2). specialize (S4 w Hb Q4). specialize (S5 w Hb Q5).
      split; [exact S4|]. exists (zval (w z)). split; [split; [apply zval_ge|exact S2]|]. rewrite (pf_fZ _ _ _ _ _ HF). exact S5.
    - intros w Hb Hh (H3 & H4 & H5). rewrite <- !capp_cat in Hh. 
      apply hext_app1 in Hh as Hh4; [|wfs]. apply hext_app1 in Hh4 as Hh3; [|wfs].
      apply hext_app1 in Hh3 as Hh2; [|wfs]. apply hext_app1 in Hh2 as Hh1; [|wfs].
      specialize (V1 w Hh1). specialize (V3 w Hh3). rewrite !dsat_cat. rewrite <- V3, <- V1 in *.
      split; [apply D1|]. split; [apply C2; auto|]. split; [apply D3|]. split; [apply C4; auto|]. apply C5; auto.
    - intros w Hh. rewrite <- !capp_cat in Hh. do 2 (apply hext_app1 in Hh; [|wfs]). auto.
    - cbn [dcat d_vals]. rewrite !app_length. lia.
  Qed.

  (** [FpElemVar::new_unchecked] with given limbs. *)
  Definition split_core (var : nat) (a b : K) : circ K (fvar (K := K)) :=
    av <- create_variable a ;; bv <- create_variable b ;;
    lc_gate av bv 0 0 var 1 (fZ M) 0 0 >> ret (mk_fvar av bv m (fZ M)).
  Definition limbs_of (w : nat -> K) (o : fvar (K := K)) : K := w (v0 o) + fZ M * w (v1 o).
  Lemma split_core_spec c var (a b : K) : wf c -> (var < num_vars c)%nat ->
    vspec (split_core var a b) c (fun w o => w var = limbs_of w o) (fun w => w var = a + fZ M * b)
      (fun w o => w (v0 o) = a /\ w (v1 o) = b) (fun o n => fvout o n /\ fvok o).
  Proof.
    clear. intros Hw Hv. unfold vspec, split_core, limbs_of. pose proof (wf_two _ Hw) as H2.
    apply wpc_bind. eapply wpc_mono; [apply var_spec; auto|]. intros x d1 _ (Ex & L1 & D1 & V1).
    apply wpc_bind. eapply wpc_mono; [apply var_spec; wfs|]. intros y d2 _ (Ey & L2 & D2 & V2).
    assert (Ld1 : length (d_vals d1) = 1%nat) by now rewrite L1. assert (Ld2 : length (d_vals d2) = 1%nat) by now rewrite L2.
    cbn [capp num_vars] in Ey.
    apply wpc_bind. eapply wpc_mono; [apply lc_gate_spec; [wfs|cbn [capp num_vars]; lia..]|]. intros [] d3 _ (S3 & C3 & _).
    wstep. rewrite !ptype_capp in *. cbn [v0 v1]. split; [|split; [|split; [|split; [split|split; reflexivity]]]].
    - intros w Hb Hs. rewrite !dsat_cat in Hs. rewrite (S3 w Hb (proj1 (proj2 (proj2 Hs)))). ring.
    - intros w Hb Hh E. rewrite <- !capp_cat in Hh. apply hext_app1 in Hh; [|wfs].
      apply hext_app1 in Hh as Hh2; [|wfs]. apply hext_app1 in Hh2 as Hh1; [|wfs].
      specialize (V1 w Hh1). specialize (V2 w Hh2). rewrite !dsat_cat.
      split; [apply D1|]. split; [apply D2|]. split; [|apply dsat_nil]. apply C3; auto. rewrite V1, V2, E. ring.
    - intros w Hh. rewrite <- !capp_cat in Hh. do 2 (apply hext_app1 in Hh; [|wfs]). apply hext_app1 in Hh as Hh1; [|wfs]. auto.
    - cbn [v0 dcat d_vals dnil]. rewrite !app_length. lia.
    - cbn [v1 dcat d_vals dnil]. rewrite !app_length. lia.
  Qed.

  (** What the sums enforce: the limbs stand for the sum minus a small multiple of
      the modulus, in the native field.  The limbs themselves are not constrained. *)
  Definition is_sum (w : nat -> K) (XY : K) (o : fvar (K := K)) : Prop :=
    exists k, (0 <= k < B)%Z /\ limbs_of w o = XY - fZ P * fZ k.
  (** What the prover computes for a sum. *)
  Definition honest_sum (w : nat -> K) (XY : Z) (o : fvar (K := K)) : Prop :=
    small w o /\ fval w o = (XY mod P)%Z.

  Lemma P_lt : (P < M * M)%Z.
  Proof. pose proof M_ge. nia. Qed.
  Lemma P_field : field_elem (esplit p0 p1) = (fZ P : K).
  Proof. unfold field_elem. cbn [e0 e1 etwo esplit]. rewrite fZ_add, fZ_mul. reflexivity. Qed.
  Lemma nblocks_wide (x : K) : (zval x < 2 ^ Z.of_nat (rb * (nb / rb + 1)))%Z.
  Proof.
    pose proof (pf_range _ _ _ _ _ HF x). pose proof (pf_hi _ _ _ _ _ HF).
    assert (nb <= rb * (nb / rb + 1))%nat by (pose proof (Nat.div_mod nb rb ltac:(lia)); pose proof (Nat.mod_upper_bound nb rb ltac:(lia)); nia).
    assert (2 ^ Z.of_nat nb <= 2 ^ Z.of_nat (rb * (nb / rb + 1)))%Z by (apply Z.pow_le_mono_r; lia). lia.
  Qed.

  (** A sum with all witnesses given. *)
  Definition sum_with (vars : list nat) (zz yy a b : K) : circ K (fvar (K := K)) :=
    y <- add_core vars (fZ P) (nb / rb + 1) zz yy ;; split_core y a b.
  Lemma sum_with_spec c vars (zz yy a b : K) : wf c -> ptype c = Ultra rb -> Forall (fun v => v < num_vars c)%nat vars ->
    vspec (sum_with vars zz yy a b) c (fun w o => is_sum w (fsum (map w vars)) o)
      (fun w => (zval zz < B)%Z /\ yy = fsum (map w vars) - fZ P * zz /\ yy = a + fZ M * b)
      (fun w o => w (v0 o) = a /\ w (v1 o) = b) (fun o n => fvout o n /\ fvok o).
  Proof.
    intros Hw Ht Hvs. unfold vspec, sum_with.
    apply wpc_bind. eapply wpc_mono; [apply add_core_spec; auto; lia|]. intros y d1 _ (S1 & C1 & V1 & O1). unfold out in O1.
    eapply wpc_mono; [apply split_core_spec; [wfs|exact O1]|]. intros o d2 _ (S2 & C2 & V2 & O2 & F2).
    change (ptype (capp c d1)) with (ptype c) in *. split; [|split; [|split]].
    - intros w Hb Hs. apply dsat_cat in Hs as [Q1 Q2]. destruct (S1 w Hb Q1) as (_ & k & Hk & E). exists k. split; auto.
      rewrite <- (S2 w Hb Q2). exact E.
    - intros w Hb Hh (H1 & H2 & H3). rewrite <- capp_cat in Hh. apply hext_app1 in Hh as Hh1; [|wfs].
      apply dsat_cat. split; [apply C1; auto|].
      + split; [auto|split; [apply nblocks_wide|auto]].
      + apply C2; auto. rewrite (V1 w Hh1). exact H3.
    - intros w Hh. rewrite <- capp_cat in Hh. auto.
    - split; auto. cbn [dcat d_vals]. rewrite app_length. cbn [capp num_vars] in O2. rewrite Nat.add_assoc. exact O2.
  Qed.

  (** The honest witnesses of a sum. *)
  Lemma sum_honest (S : K) : exists a b : Z,
    (0 <= a < M)%Z /\ (0 <= b < M)%Z /\ (a + M * b = zval S mod P)%Z /\
    div_rem zval S (fZ P) = Ok (fZ (zval S / P), fZ (a + M * b))%Z /\
    felem_new zval nb (fZ (a + M * b)) m (Some (fZ M)) = Ok (esplit a b) /\
    (fZ (a + M * b) : K) = S - fZ P * fZ (zval S / P).
  Proof.
    pose proof P_lt as HPl. pose proof (Z.mod_pos_bound (zval S) P HP) as Hr.
    assert (Hv : (0 <= zval S mod P < M * M)%Z) by lia.
    destruct (split_eq _ Hv) as (E & Ha & Hb). exists ((zval S mod P) mod M)%Z, ((zval S mod P) / M)%Z.
    split; [auto|]. split; [auto|]. rewrite <- E. split; [auto|].
    assert (ES : (fZ (zval S mod P) : K) = S - fZ P * fZ (zval S / P)).
    { rewrite Z.mod_eq by lia. rewrite fZ_sub, fZ_mul, (pf_fZ _ _ _ _ _ HF). reflexivity. }
    split; [|split; [apply felem_new_eq; exact Hv|exact ES]].
    unfold div_rem. rewrite (zval_Z P) by lia. destruct (Z.eqb_spec P 0); [lia|]. now rewrite ES.
  Qed.

  Lemma get_wit (c : circuit K) v : wf c -> (v < num_vars c)%nat -> get_witness v c = (Ok (hon c v), c).
  Proof.
    clear. intros Hw Hv. unfold get_witness, check_var_bound, lift, cbind. destruct (Nat.leb_spec (num_vars c) v); [lia|].
    unfold index. rewrite (nth_error_nth' _ 0) by (rewrite (wf_wit _ Hw); auto). reflexivity.
  Qed.
  Lemma unchecked_spec c var a b : wf c -> (var < num_vars c)%nat -> (0 <= a < M)%Z -> (0 <= b < M)%Z ->
    hon c var = fZ (a + M * b) ->
    vspec (fvar_new_unchecked zval nb var m (Some (fZ M))) c (fun w o => w var = limbs_of w o) (fun w => w var = fZ a + fZ M * fZ b)
      (fun w o => w (v0 o) = fZ a /\ w (v1 o) = fZ b) (fun o n => fvout o n /\ fvok o).
  Proof.
    intros Hw Hv Ha Hb E. pose proof M_ge as HM.
    assert (Hab : (0 <= a + M * b < M * M)%Z) by nia.
    pose proof (felem_new_eq _ Hab) as Ef.
    replace ((a + M * b) mod M)%Z with a in Ef by (rewrite Z.mul_comm, Z.mod_add, Z.mod_small; lia).
    replace ((a + M * b) / M)%Z with b in Ef by (rewrite Z.mul_comm, Z.div_add, Z.div_small; lia).
    pose proof (split_core_spec c var (fZ a) (fZ b) Hw Hv) as H. unfold vspec, wpc in *.
    replace (fvar_new_unchecked zval nb var m (Some (fZ M)) c) with (split_core var (fZ a) (fZ b) c); [exact H|].
    symmetry. unfold fvar_new_unchecked. unfold cbind at 1. rewrite get_wit by auto. rewrite E. unfold cbind at 1. unfold lift at 1.
    rewrite Ef. reflexivity.
  Qed.

  (** The tail shared by [mod_add] and [mod_add_vec]. *)
  Definition sum_tail (vars : list nat) : circ K (fvar (K := K)) :=
    n <- num_range_blocks nb ;; r <- mod_add_internal zval q nb L vars (fZ P) n ;; fvar_new_unchecked zval nb r m (Some (fZ M)).

  Lemma sum_tail_spec c vars : wf c -> ptype c = Ultra rb -> Forall (fun v => v < num_vars c)%nat vars ->
    (zval (fsum (map (hon c) vars)) < P * B)%Z ->
    vspec (sum_tail vars) c (fun w o => is_sum w (fsum (map w vars)) o) (fun _ => True)
      (fun w o => honest_sum w (zval (fsum (map w vars))) o) (fun o n => fvout o n /\ fvok o).
  Proof.
    intros Hw Ht Hvs HB. set (S := fsum (map (hon c) vars)) in *.
    destruct (sum_honest S) as (a & b & Ha & Hb & Eab & Ed & Ef & Efz).
    assert (Hrbl : range_bit_len c = Ok rb) by (unfold range_bit_len; now rewrite Ht).
    assert (Hk : (0 <= zval S / P < B)%Z).
    { split; [apply Z.div_pos; [apply zval_ge|exact HP]|]. apply Z.div_lt_upper_bound; auto. }
    assert (HBq : (B < 2 ^ 32 /\ B < q)%Z).
    { pose proof M_ge. pose proof B_ge. split; [|nia]. apply Z.pow_lt_mono_r; lia. }
    assert (HS : forall w, hext c w -> fsum (map w vars) = S).
    { intros w Hh. unfold S. f_equal. apply map_ext_in. intros v Hv. apply Hh. rewrite Forall_forall in Hvs. auto. }
    assert (EM : vspec (sum_with vars (fZ (zval S / P)) (fZ (a + M * b)) (fZ a) (fZ b)) c (fun w o => is_sum w (fsum (map w vars)) o)
      (fun w => (zval (fZ (zval S / P)) < B)%Z /\ (fZ (a + M * b) : K) = fsum (map w vars) - fZ P * fZ (zval S / P) /\ (fZ (a + M * b) : K) = fZ a + fZ M * fZ b)
      (fun w o => w (v0 o) = fZ a /\ w (v1 o) = fZ b) (fun o n => fvout o n /\ fvok o)) by (apply sum_with_spec; auto).
    (* the program is [sum_with] with the honest witnesses *)
    assert (Eq : sum_tail vars c = sum_with vars (fZ (zval S / P)) (fZ (a + M * b)) (fZ a) (fZ b) c).
    { assert (E1 : num_range_blocks nb c = (Ok (nb / rb + 1)%nat, c)).
      { unfold num_range_blocks, cbind, lift. rewrite Hrbl. destruct (Nat.eqb_spec rb 0); [lia|reflexivity]. }
      set (n := (nb / rb + 1)%nat) in *.
      assert (E2 : mod_add_internal zval q nb L vars (fZ P) n c = add_core vars (fZ P) n (fZ (zval S / P)) (fZ (a + M * b)) c).
      { unfold mod_add_internal. unfold cbind at 1. unfold lift at 1. rewrite Hrbl.
        unfold cbind at 1. unfold lift at 1. unfold range_size. rewrite Hrbl. cbn [bind].
        unfold cbind at 1. rewrite mapM_wit by auto.
        unfold cbind at 1. unfold lift at 1. fold S. rewrite Ed. cbn [fst snd].
        rewrite (Z.mod_small B) by lia. rewrite !zval_Z by lia.
        destruct (Z.leb_spec B (zval S / P)); [lia|]. reflexivity. }
      unfold sum_tail, sum_with. unfold cbind at 1. rewrite E1. unfold cbind at 1 2. rewrite E2.
      destruct (add_core_spec c vars (fZ P) n (fZ (zval S / P)) (fZ (a + M * b)) Hw Ht ltac:(unfold n; lia) Hvs)
        as (y & d & Ey & Pl & _ & _ & Vy & Oy). rewrite Ey. unfold out in Oy.
      unfold fvar_new_unchecked. unfold cbind at 1. rewrite get_wit by (auto; wfs). rewrite (Vy _ (hext_hon _)).
      unfold cbind at 1. unfold lift at 1. rewrite Ef. fold n. rewrite Ey. reflexivity. }
    unfold vspec, wpc in *. rewrite Eq. destruct EM as (o & d & E & Pl & S1 & C1 & V1 & O1).
    exists o, d. split; auto. split; auto. split; auto. split; [|split; auto].
    - intros w Hb' Hh _. apply C1; auto. assert (Hh0 : hext c w) by (apply hext_app1 in Hh; auto).
      rewrite (HS w Hh0), zval_Z by lia. split; [lia|]. split; [exact Efz|]. now rewrite fZ_add, fZ_mul.
    - intros w Hh. assert (Hh0 : hext c w) by (apply hext_app1 in Hh; auto). rewrite (HS w Hh0).
      destruct (V1 w Hh) as [E0 E1]. unfold honest_sum, small, fval. rewrite E0, E1, !zval_Z by (pose proof M_lt; lia). split; [lia|exact Eab].
  Qed.

  Lemma convert_spec c x : wf c -> fvok x -> fvout x (num_vars c) ->
    vspec (convert_to_var x) c (fun w o => w o = limbs_of w x) TT (fun w o => w o = limbs_of w x) out.
  Proof.
    clear. intros Hw [_ E] [H0 H1]. pose proof (wf_two _ Hw). unfold vspec, convert_to_var, limbs_of, lc, out. rewrite E.
    apply wpc_chks; [repeat constructor; lia|]. do 4 (apply wpc_wit; [auto|lia|]).
    apply wpc_bind. eapply wpc_mono; [apply var_spec; auto|]. intros y d1 _ (Ey & L1 & D1 & V1).
    apply wpc_bind. eapply wpc_mono; [apply lc_gate_spec; [wfs|cbn [capp num_vars]; rewrite ?L1; cbn [length]; lia..]|]. intros [] d2 _ (S2 & C2 & _).
    wstep. change (ptype (capp c d1)) with (ptype c) in *.
    assert (V : forall w, hext (capp (capp c d1) d2) w -> w y = w (v0 x) + fZ M * w (v1 x)).
    { intros w Hh. apply hext_app1 in Hh; [|wfs]. rewrite (V1 w Hh). apply hext_app1 in Hh; [|wfs].
      rewrite <- !Hh by lia. ring. }
    split; [|split; [|split]].
    - intros w Hb Hs. rewrite !dsat_cat in Hs. rewrite (S2 w Hb (proj1 (proj2 Hs))). ring.
    - intros w Hb Hh _. rewrite <- !capp_cat in Hh. apply hext_app1 in Hh; [|wfs]. rewrite !dsat_cat. split; [auto|]. split; [|apply dsat_nil].
      apply C2; auto. rewrite (V w Hh). ring.
    - intros w Hh. rewrite <- !capp_cat in Hh. apply hext_app1 in Hh; [|wfs]. apply V; auto.
    - cbn [dcat d_vals dnil]. rewrite !app_length, L1. cbn [length]. lia.
  Qed.
  Lemma converts_spec xs : forall c, wf c -> Forall fvok xs -> Forall (fun x => fvout x (num_vars c)) xs ->
    vspec (mapM convert_to_var xs) c (fun w os => map w os = map (limbs_of w) xs) TT (fun w os => map w os = map (limbs_of w) xs)
      (fun os n => Forall (fun v => v < n)%nat os).
  Proof.
    clear. induction xs as [|x xs IH]; intros c Hw Ho Hb; unfold vspec; cbn [mapM].
    - wstep. split; [reflexivity|]. split; [|split; [reflexivity|constructor]]. intros; apply dsat_nil.
    - inversion_clear Ho as [|? ? Hx Hxs]. inversion_clear Hb as [|? ? Bx Bxs].
      apply wpc_bind. eapply wpc_mono; [apply convert_spec; auto|]. intros o d1 _ (S1 & C1 & V1 & O1). unfold out in O1.
      apply wpc_bind. eapply wpc_mono; [apply (IH (capp c d1)); [wfs|auto|]|].
      { eapply Forall_impl; [|exact Bxs]. cbn beta. intros y [Y0 Y1]. split; cbn [capp num_vars]; lia. }
      intros os d2 _ (S2 & C2 & V2 & O2). wstep. change (ptype (capp c d1)) with (ptype c) in *. split; [|split; [|split]].
      + intros w Hb Hs. rewrite !dsat_cat in Hs. destruct Hs as (Q1 & Q2 & _). cbn [map]. rewrite (S1 w Hb Q1), (S2 w Hb Q2). reflexivity.
      + intros w Hb Hh _. rewrite <- !capp_cat in Hh. apply hext_app1 in Hh; [|wfs]. apply hext_app1 in Hh as Hh1; [|wfs].
        rewrite !dsat_cat. split; [auto|]. split; [auto|apply dsat_nil].
      + intros w Hh. rewrite <- !capp_cat in Hh. apply hext_app1 in Hh; [|wfs]. apply hext_app1 in Hh as Hh1; [|wfs].
        cbn [map]. rewrite (V1 w Hh1), (V2 w Hh). reflexivity.
      + cbn [dcat d_vals dnil]. rewrite !app_length. cbn [length capp num_vars] in *. constructor; [lia|].
        eapply Forall_impl; [|exact O2]. cbn beta. intros. lia.
  Qed.
  Lemma limbs_local w w' x n : fvout x n -> (forall v, (v < n)%nat -> w v = w' v) -> limbs_of w x = limbs_of w' x.
  Proof. intros [H0 H1] E. unfold limbs_of. now rewrite !E. Qed.

  (** The conversions followed by the sum, with any witnesses. *)
  Lemma vec_tail_spec xs tl c : wf c -> ptype c = Ultra rb -> Forall fvok xs -> Forall (fun x => fvout x (num_vars c)) xs ->
    forall C0 V,
    (forall d vars, wf (capp c d) -> Forall (fun v => v < num_vars (capp c d))%nat vars ->
      (forall w, hext (capp c d) w -> map w vars = map (limbs_of w) xs) ->
      vspec (tl vars) (capp c d) (fun w o => is_sum w (fsum (map w vars)) o) (fun w => C0 (fsum (map w vars)))
        (fun w o => V (fsum (map w vars)) w o) (fun o n => fvout o n /\ fvok o)) ->
    vspec (vars <- mapM convert_to_var xs ;; tl vars) c (fun w o => is_sum w (fsum (map (limbs_of w) xs)) o)
      (fun w => C0 (fsum (map (limbs_of w) xs))) (fun w o => V (fsum (map (limbs_of w) xs)) w o) (fun o n => fvout o n /\ fvok o).
  Proof.
    intros Hw Ht Hok Hb C0 V Htl. unfold vspec at 1.
    apply wpc_bind. eapply wpc_mono; [apply (converts_spec xs c); auto|]. intros vars d1 _ (S1 & C1 & V1 & O1).
    eapply wpc_mono; [apply (Htl d1 vars); [wfs|exact O1|exact V1]|]. intros o d2 _ (S2 & C2 & V2 & O2 & F2).
    change (ptype (capp c d1)) with (ptype c) in *. split; [|split; [|split; [|split]]]; auto.
    - intros w Hb' Hs. apply dsat_cat in Hs as [Q1 Q2]. rewrite <- (S1 w Hb' Q1). auto.
    - intros w Hb' Hh HC. rewrite <- capp_cat in Hh. apply hext_app1 in Hh as Hh1; [|wfs]. apply dsat_cat. split; auto. apply C2; auto. now rewrite (V1 w Hh1).
    - intros w Hh. rewrite <- capp_cat in Hh. apply hext_app1 in Hh as Hh1; [|wfs]. rewrite <- (V1 w Hh1). auto.
    - cbn [dcat d_vals]. rewrite app_length, Nat.add_assoc. exact O2.
  Qed.

  Definition zsum (w : nat -> K) (xs : list (fvar (K := K))) : K := fsum (map (limbs_of w) xs).
  Lemma vec_honest_spec xs c : wf c -> ptype c = Ultra rb -> Forall fvok xs -> Forall (fun x => fvout x (num_vars c)) xs ->
    (zval (zsum (hon c) xs) < P * B)%Z ->
    vspec (vars <- mapM convert_to_var xs ;; sum_tail vars) c (fun w o => is_sum w (zsum w xs) o) TT
      (fun w o => honest_sum w (zval (zsum w xs)) o) (fun o n => fvout o n /\ fvok o).
  Proof.
    intros Hw Ht Hok Hb HB.
    apply (vec_tail_spec xs sum_tail c Hw Ht Hok Hb (fun _ => True) (fun S w o => honest_sum w (zval S) o)).
    intros d vars Wd Bd Vd. apply sum_tail_spec; auto.
    rewrite (Vd _ (hext_hon _)). replace (map (limbs_of (hon (capp c d))) xs) with (map (limbs_of (hon c)) xs); [exact HB|].
    apply map_ext_in. intros x Hx. rewrite Forall_forall in Hb. apply (limbs_local _ _ _ (num_vars c) (Hb x Hx)).
    intros v Hv. symmetry. apply (hext_app1 c d (hon (capp c d)) Hw (hext_hon _)). exact Hv.
  Qed.
  Lemma vec_with_spec xs (zz yy a b : K) c : wf c -> ptype c = Ultra rb -> Forall fvok xs -> Forall (fun x => fvout x (num_vars c)) xs ->
    vspec (vars <- mapM convert_to_var xs ;; sum_with vars zz yy a b) c (fun w o => is_sum w (zsum w xs) o)
      (fun w => (zval zz < B)%Z /\ yy = zsum w xs - fZ P * zz /\ yy = a + fZ M * b)
      (fun w o => w (v0 o) = a /\ w (v1 o) = b) (fun o n => fvout o n /\ fvok o).
  Proof.
    intros Hw Ht Hok Hb.
    apply (vec_tail_spec xs (fun vars => sum_with vars zz yy a b) c Hw Ht Hok Hb
      (fun S => (zval zz < B)%Z /\ yy = S - fZ P * zz /\ yy = a + fZ M * b) (fun S w o => w (v0 o) = a /\ w (v1 o) = b)).
    intros d vars Wd Bd Vd. apply sum_with_spec; auto.
  Qed.

  (** [mod_add_vec] and [mod_add] reduce to this. *)
  Lemma mod_add_vec_eq xs c : wf c -> ptype c = Ultra rb -> Forall fvok xs ->
    mod_add_vec zval q nb L xs (esplit p0 p1) c = (vars <- mapM convert_to_var xs ;; sum_tail vars) c.
  Proof.
    intros Hw Ht Hok. unfold mod_add_vec. unfold cbind at 1. unfold lift at 1. unfold range_bit_len at 1. rewrite Ht.
    change (em (esplit p0 p1)) with m. change (etwo (esplit p0 p1)) with (fZ M : K). rewrite P_field.
    unfold check_m, check_two, check_split.
    assert (E1 : forallb (fun x => (x =? m)%nat) (map vm xs) = true).
    { apply forallb_forall. intros x Hx. apply in_map_iff in Hx as (y & <- & Hy). apply Nat.eqb_eq. rewrite Forall_forall in Hok. apply (Hok y Hy). }
    assert (E2 : forallb (fun x => feqb x (fZ M : K)) (map vtwo xs) = true).
    { apply forallb_forall. intros x Hx. apply in_map_iff in Hx as (y & <- & Hy). apply feqb_eq. rewrite Forall_forall in Hok. apply (Hok y Hy). }
    rewrite E1, E2. destruct (Nat.eqb_spec rb 0); [lia|]. rewrite (proj2 (Nat.eqb_eq _ _) Hmr). reflexivity.
  Qed.
  Lemma mod_add_eq x y c : wf c -> ptype c = Ultra rb -> fvok x -> fvok y -> fvout x (num_vars c) -> fvout y (num_vars c) ->
    mod_add zval q nb L x y (esplit p0 p1) c = (vars <- mapM convert_to_var [x; y] ;; sum_tail vars) c.
  Proof.
    intros Hw Ht [Ex Tx] [Ey Ty] [X0 X1] [Y0 Y1]. unfold mod_add. unfold cbind at 1. unfold lift at 1. unfold range_bit_len at 1. rewrite Ht.
    rewrite Ex, Ey, Tx, Ty. change (em (esplit p0 p1)) with m. change (etwo (esplit p0 p1)) with (fZ M : K). rewrite P_field.
    assert (E0 : check_vars_bound [v0 x; v1 x; v0 y; v1 y] c = (Ok tt, c)).
    { assert (H : forall v, (v < num_vars c)%nat -> check_var_bound v c = (Ok tt, c)).
      { intros v Hv. unfold check_var_bound, lift. destruct (Nat.leb_spec (num_vars c) v); [lia|reflexivity]. }
      unfold check_vars_bound. cbn [iterM]. unfold cbind. rewrite !H by auto. reflexivity. }
    unfold cbind at 1. rewrite E0.
    unfold check_m, check_two, check_split. cbn [forallb]. rewrite Nat.eqb_refl, (proj2 (feqb_eq K (fZ M) (fZ M)) eq_refl). cbn [andb].
    destruct (Nat.eqb_spec rb 0); [lia|]. rewrite (proj2 (Nat.eqb_eq _ _) Hmr).
    unfold sum_tail. cbn [mapM]. unfold cbind, ret. 
    destruct (convert_to_var x c) as [[xv| |] c1]; try reflexivity. destruct (convert_to_var y c1) as [[yv| |] c2]; reflexivity.
  Qed.

  (** ** From the constraints to what the code accepts *)
  Notation accepts := (accepts zval).
  Lemma vspec_gadget {A} (mm : circ K A) c S C0 V R : good c -> local (num_vars c) C0 -> vspec mm c S C0 V R ->
    exists a c', mm c = (Ok a, c') /\ good c' /\ extends c c' /\ R a (num_vars c') /\
      (forall c'' ws pub, extends c' c'' -> bounded c'' -> accepts c'' ws pub -> S (asg ws) a) /\
      (forall pub, accepts c (witness c) pub -> C0 (asg (witness c)) -> accepts c' (witness c') pub) /\
      V (asg (witness c')) a.
  Proof.
    clear. intros G Hl (a & d & E & Pl & Snd & Cmp & HV & HR).
    assert (Hg : gspec mm c S C0 R) by (exists a, d; auto).
    destruct (gspec_gadget zval mm c S C0 R G Hl Hg) as (a' & c' & E' & G' & Ex & HR' & _ & H1 & _ & H2).
    exists a', c'. repeat (split; auto). rewrite E in E'. injection E' as <- <-. apply HV. intros v Hv. reflexivity.
  Qed.

  (** An accepted assignment extends by the witnesses of any program with the same
      constraints. *)
  Lemma call_transfer {A} (mm m' : circ K A) c a c' ws pub S C0 V R :
    rel mm m' eq -> mm c = (Ok a, c') -> good c -> accepts c ws pub ->
    vspec m' (with_witness c ws) S C0 V R -> local (num_vars c) C0 -> C0 (asg ws) ->
    exists l, accepts c' (ws ++ l) pub /\ V (asg (ws ++ l)) a.
  Proof.
    clear. intros Hr E G Hacc Hm' Hl HC. pose proof (proj1 Hacc) as HL.
    pose proof (good_with c ws G HL) as Gw.
    destruct (vspec_gadget m' _ S C0 V R Gw Hl Hm') as (a' & c1 & E' & G1 & Ex & _ & _ & Cmp & HV).
    assert (Hwit : exists l, witness c1 = ws ++ l).
    { destruct Hm' as (a2 & d & E2 & _). rewrite E' in E2. injection E2 as _ ->. cbn. eauto. }
    destruct Hwit as [l Hwit].
    specialize (Hr c ws). rewrite E, E' in Hr. destruct Hr as [<- [ws' ->]]. cbn [witness with_witness] in Hwit. subst ws'.
    exists l. split; [|exact HV].
    apply (proj1 (accepts_with zval c' (ws ++ l) (ws ++ l) pub)). apply Cmp; auto.
  Qed.

  Lemma rel_skip {A A' B'} (mm : circ K A) (f : A -> circ K B') (m' : circ K A') R :
    pure mm -> (forall a, rel (f a) m' R) -> rel (a <- mm ;; f a) m' R.
  Proof.
    clear. intros Hp Hf c ws. unfold cbind. specialize (Hp c). destruct (mm c) as [[a| |] c1]; auto. cbn [snd] in Hp. subst c1. apply Hf.
  Qed.
  Lemma chain_ind pf z vars y : indep (sum_chain pf z vars y).
  Proof. clear. unfold sum_chain. pose proof (@lc_ind K). pose proof (@lc_gate_ind K). rauto. Qed.
  Lemma core_rel vars pf n zz yy zz' yy' : rel (add_core vars pf n zz yy) (add_core vars pf n zz' yy') eq.
  Proof.
    clear. unfold add_core. pose proof (fun a n => @range_lookup_ind K zval q nb L a n). pose proof chain_ind. rauto.
  Qed.
  Lemma convert_ind x : indep (convert_to_var x : circ K _).
  Proof. clear. unfold convert_to_var. apply lc_ind. Qed.
  (** Only circuits with ranges of [rb] bits. *)
  Definition guarded {A} (mm : circ K A) : circ K A := fun c => match ptype c with Ultra r => if (r =? rb)%nat then mm c else (Panic, c) | Turbo => (Panic, c) end.
  Lemma rel_guarded {A} (mm m1 m' : circ K A) : (forall c, ptype c = Ultra rb -> mm c = m1 c) -> rel m1 m' eq -> rel mm (guarded m') eq.
  Proof.
    clear. intros He Hr c ws. unfold guarded. 
    change (ptype (with_witness c ws)) with (ptype c).
    destruct (ptype c) as [|r] eqn:Et; [destruct (mm c) as [[]]; exact I|].
    destruct (Nat.eqb_spec r rb) as [->|]; [|destruct (mm c) as [[]]; exact I].
    rewrite (He c Et). apply Hr.
  Qed.
  Lemma vspec_guarded {A} (mm : circ K A) c S C0 V R : ptype c = Ultra rb -> vspec mm c S C0 V R -> vspec (guarded mm) c S C0 V R.
  Proof. clear. intros Et. unfold vspec, wpc, guarded. rewrite Et, Nat.eqb_refl. auto. Qed.

  Lemma rel_lift_l {A A' B'} (o : outcome cerr A) (f : A -> circ K B') (m' : circ K A') R :
    (forall a, o = Ok a -> rel (f a) m' R) -> rel (a <- lift (fun _ => o) ;; f a) m' R.
  Proof. clear. intros H c ws. unfold cbind, lift. destruct o as [a| |]; try exact I. apply H. reflexivity. Qed.
  Lemma unchecked_rel r (a b : K) : rel (fvar_new_unchecked zval nb r m (Some (fZ M))) (split_core r a b) eq.
  Proof.
    clear. unfold fvar_new_unchecked, split_core. apply rel_skip; [apply pure_wit|]. intros x.
    apply rel_lift_l. intros e He.
    assert (Et : etwo e = fZ M).
    { unfold felem_new in He. destruct (nb / 2 <? m)%nat; [discriminate|]. destruct (div_rem _ _ _) as [qr| |]; try discriminate.
      injection He as <-. reflexivity. }
    rewrite Et. pose proof (@lc_gate_ind K). rauto.
  Qed.
  Lemma sum_rel vars (zz yy a b : K) : rel (sum_tail vars) (guarded (sum_with vars zz yy a b)) eq.
  Proof.
    clear -Hrb. eapply rel_guarded with (m1 :=
      r <- (xs <- mapM get_witness vars ;; zy <- lift (fun _ => div_rem zval (fsum xs) (fZ P)) ;;
            if (zval (fZ (B mod 2 ^ 32)%Z : K) <=? zval (fst zy))%Z then fail ParameterError else
            add_core vars (fZ P) (nb / rb + 1) (fst zy) (snd zy)) ;;
      fvar_new_unchecked zval nb r m (Some (fZ M))).
    - intros c Ht. unfold sum_tail, num_range_blocks, mod_add_internal, range_size, range_bit_len.
      unfold cbind, lift. rewrite Ht. destruct (Nat.eqb_spec rb 0); [lia|]. unfold ret. rewrite Ht. cbn [bind]. reflexivity.
    - unfold sum_with. apply rel_bind_eq; [|intros; apply unchecked_rel].
      apply rel_skip; [repeat pstep|]. intros xs. apply rel_lift_l. intros zy _.
      destruct (_ <=? _)%Z; [rauto|apply core_rel].
  Qed.

  (** The limbs that a sum can return. *)
  Theorem vec_exact xs c : good c -> ptype c = Ultra rb -> Forall fvok xs -> Forall (fun x => fvout x (num_vars c)) xs ->
    (zval (zsum (hon c) xs) < P * B)%Z ->
    exists o c', (vars <- mapM convert_to_var xs ;; sum_tail vars) c = (Ok o, c') /\ good c' /\ extends c c' /\ fvout o (num_vars c') /\ fvok o /\
      (forall pub, accepts c (witness c) pub -> accepts c' (witness c') pub) /\
      honest_sum (asg (witness c')) (zval (zsum (hon c) xs)) o /\
      forall ws pub a b, accepts c ws pub ->
        ((exists l, accepts c' (ws ++ l) pub /\ asg (ws ++ l) (v0 o) = a /\ asg (ws ++ l) (v1 o) = b) <->
         exists k, (0 <= k < B)%Z /\ a + fZ M * b = zsum (asg ws) xs - fZ P * fZ k).
  Proof.
    intros G Ht Hok Hb HB. pose proof (gd_wf _ G) as W.
    assert (Hloc : forall w w' : nat -> K, (forall v, (v < num_vars c)%nat -> w v = w' v) -> zsum w xs = zsum w' xs).
    { intros w w' E. unfold zsum. f_equal. apply map_ext_in. intros x Hx. rewrite Forall_forall in Hb. eapply limbs_local; eauto. }
    destruct (vspec_gadget _ c _ TT _ _ G (fun _ _ _ H => H) (vec_honest_spec xs c W Ht Hok Hb HB))
      as (o & c' & E & G' & Ex & (Bo & Oo) & Snd & Cmp & HV).
    exists o, c'. split; [exact E|]. do 4 (split; [assumption|]). split; [auto|].
    assert (Ez : zsum (asg (witness c')) xs = zsum (hon c) xs).
    { apply Hloc. intros v Hv. destruct (vec_honest_spec xs c W Ht Hok Hb HB) as (o2 & d & E2 & _). rewrite E in E2. injection E2 as _ ->.
      unfold asg. cbn. rewrite app_nth1; [reflexivity|]. rewrite (wf_wit _ W). exact Hv. }
    split; [now rewrite <- Ez|]. intros ws pub a b Hacc. pose proof (proj1 Hacc) as HL.
    assert (Hag : forall l, zsum (asg (ws ++ l)) xs = zsum (asg ws) xs).
    { intros l. apply Hloc. intros v Hv. unfold asg. rewrite app_nth1; auto; lia. }
    split.
    - intros (l & Hl & <- & <-). destruct (Snd c' _ pub (extends_refl _) (gd_bd _ G') Hl) as (k & Hk & Ek). exists k. split; auto.
      unfold limbs_of in Ek. now rewrite <- (Hag l).
    - intros (k & Hk & Ek).
      eapply (call_transfer _ (vars <- mapM convert_to_var xs ;; guarded (sum_with vars (fZ k) (a + fZ M * b) a b))
        c o c' ws pub (fun w o => is_sum w (zsum w xs) o)
        (fun w => (zval (fZ k : K) < B)%Z /\ a + fZ M * b = zsum w xs - fZ P * fZ k /\ a + fZ M * b = a + fZ M * b)
        (fun w o => w (v0 o) = a /\ w (v1 o) = b) (fun o n => fvout o n /\ fvok o)); [|exact E|exact G|exact Hacc| | |].
      + pose proof convert_ind. apply rel_bind_eq; [rauto|]. intros vars. apply sum_rel.
      + pose proof (vec_with_spec xs (fZ k) (a + fZ M * b) a b (with_witness c ws)) as H.
        assert (Hs : forall d vars, sum_with vars (fZ k) (a + fZ M * b) a b (capp (with_witness c ws) d) = guarded (sum_with vars (fZ k) (a + fZ M * b) a b) (capp (with_witness c ws) d)).
        { intros d vars. unfold guarded. cbn [capp ptype with_witness]. now rewrite Ht, Nat.eqb_refl. }
        pose proof (gd_wf _ (good_with c ws G HL)) as Ww. specialize (H Ww Ht Hok Hb).
        destruct (converts_spec xs (with_witness c ws) Ww Hok Hb) as (vars & d & Ev & _).
        unfold vspec, wpc in *. unfold cbind in *. rewrite Ev in *. rewrite <- Hs. exact H.
      + intros w w' Hw' (H1 & H2 & H3). rewrite <- (Hloc w w'); auto.
      + rewrite zval_Z; [|pose proof M_ge; pose proof B_ge; nia]. split; [lia|]. split; [exact Ek|reflexivity].
  Qed.

  (** ** Adding a constant *)
  (** [mod_add_constant] with given witnesses. *)
  Definition const_with (x : fvar (K := K)) (yc : felem (K := K)) (zz yy a b : K) : circ K (fvar (K := K)) :=
    rb <- lift range_bit_len ;; rs <- lift range_size ;;
    check_vars_bound [v0 x; v1 x] >>
    check_m [vm x; em yc] m >> check_two [vtwo x; etwo yc] (fZ M) >> check_split m rb >>
    (xv <- convert_to_var x ;;
     dv <- create_variable zz ;;
     range_gate_with_lookup zval q nb L dv rb >>
     (rv <- create_variable yy ;;
      n <- num_range_blocks nb ;;
      range_gate_with_lookup zval q nb L rv (rb * n) >>
      quad_poly_gate (mk_row xv rv dv 0 0) 1 (- (1)) (- fZ P) 0 0 0 0 (field_elem yc) >>
      split_core rv a b)).
  Lemma wpc_nblocks {A} (f : nat -> circ K A) c Q : ptype c = Ultra rb -> wpc (f (nb / rb + 1)%nat) c Q -> wpc (n <- num_range_blocks nb ;; f n) c Q.
  Proof.
    clear -Hrb. intros Ht H. unfold wpc, cbind, num_range_blocks, lift, range_bit_len in *. unfold cbind at 1. rewrite Ht.
    destruct (Nat.eqb_spec rb 0); [lia|]. exact H.
  Qed.
  Lemma const_with_spec c x yc (zz yy a b : K) : wf c -> ptype c = Ultra rb -> fvok x -> fvout x (num_vars c) -> em yc = m -> etwo yc = fZ M ->
    vspec (const_with x yc zz yy a b) c (fun w o => is_sum w (limbs_of w x + field_elem yc) o)
      (fun w => (zval zz < B)%Z /\ yy = limbs_of w x + field_elem yc - fZ P * zz /\ yy = a + fZ M * b)
      (fun w o => w (v0 o) = a /\ w (v1 o) = b) (fun o n => fvout o n /\ fvok o).
  Proof.
    intros Hw Ht Hx Bx Ey Ty. unfold vspec, const_with, out. pose proof (wf_two _ Hw) as H2.
    apply wpc_bind_lift with (a := rb); [unfold range_bit_len; now rewrite Ht|].
    apply wpc_bind_lift with (a := B); [unfold range_size, range_bit_len; now rewrite Ht|].
    destruct Bx as [B0 B1]. apply wpc_chks; [repeat constructor; auto|].
    rewrite (proj1 Hx), (proj2 Hx), Ey, Ty. apply checks_pass; [|repeat constructor..].
    apply wpc_bind. eapply wpc_mono; [apply convert_spec; [auto|auto|split; auto]|]. intros xv d0 _ (S0 & C0 & V0 & O0). unfold out in O0.
    apply wpc_bind. eapply wpc_mono; [apply var_spec; wfs|]. intros z d1 _ (Ez & L1 & D1 & V1).
    assert (Ld1 : length (d_vals d1) = 1%nat) by now rewrite L1. cbn [capp num_vars] in Ez.
    apply wpc_bind. eapply wpc_mono; [apply (rg_spec _ z rb); [wfs|exact Ht|cbn [capp num_vars]; lia|lia]|]. intros [] d2 _ (S2 & C2 & _).
    apply wpc_bind. eapply wpc_mono; [apply var_spec; wfs|]. intros y d3 _ (Ey' & L3 & D3 & V3).
    assert (Ld3 : length (d_vals d3) = 1%nat) by now rewrite L3.
    cbn [capp num_vars] in Ey'. apply wpc_nblocks; [exact Ht|].
    apply wpc_bind. eapply wpc_mono; [apply (rg_spec _ y (rb * (nb / rb + 1))); [wfs|exact Ht|cbn [capp num_vars]; lia|lia]|]. intros [] d4 _ (S4 & C4 & _).
    apply wpc_bind. eapply wpc_mono; [apply quad_poly_gate_spec; [wfs|cbn [capp num_vars r0 r1 r2 r3 r4]; lia..]|].
    intros o d5 _ (S5 & C5 & _). cbn [r0 r1 r2 r3 r4] in S5, C5.
    eapply wpc_mono; [apply split_core_spec; [wfs|cbn [capp num_vars]; lia]|]. intros o2 d6 _ (S6 & C6 & V6 & O6 & F6).
    rewrite !ptype_capp in *. cbn [ptype capp] in *.
    split; [|split; [|split]].
    - intros w Hb Hs. rewrite !dsat_cat in Hs. destruct Hs as (Q0 & _ & Q2 & _ & Q4 & Q5 & Q6). specialize (S2 w Hb Q2). specialize (S5 w Hb Q5).
      exists (zval (w z)). split; [split; [apply zval_ge|exact S2]|]. rewrite (pf_fZ _ _ _ _ _ HF).
      rewrite <- (S6 w Hb Q6), <- (S0 w Hb Q0).
      symmetry. apply fsub_eq_0. transitivity (0 * w 0%nat : K); [rewrite S5|]; ring.
    - intros w Hb Hh (H3 & H5 & H6). rewrite <- !capp_cat in Hh. apply hext_app1 in Hh as Hh5; [|wfs].
      apply hext_app1 in Hh5 as Hh4; [|wfs]. apply hext_app1 in Hh4 as Hh3; [|wfs].
      apply hext_app1 in Hh3 as Hh2; [|wfs]. apply hext_app1 in Hh2 as Hh1; [|wfs]. apply hext_app1 in Hh1 as Hh0; [|wfs].
      specialize (V1 w Hh1). specialize (V3 w Hh3). rewrite !dsat_cat. rewrite <- (V0 w Hh0) in H5.
      split; [auto|]. split; [apply D1|]. split; [apply C2; auto; now rewrite V1|]. split; [apply D3|]. split; [apply C4; auto; apply nblocks_wide|].
      split; [apply C5; auto; rewrite V1, V3, H5; ring|]. apply C6; auto. now rewrite V3.
    - intros w Hh. rewrite <- !capp_cat in Hh. auto.
    - split; auto. cbn [dcat d_vals]. rewrite !app_length. cbn [num_vars] in O6. rewrite !Nat.add_assoc in *. exact O6.
  Qed.

  Variables y0 y1 : Z.
  Notation Y := (y0 + M * y1)%Z.
  Lemma Y_field : field_elem (esplit y0 y1) = (fZ Y : K).
  Proof. unfold field_elem. cbn [e0 e1 etwo esplit]. rewrite fZ_add, fZ_mul. reflexivity. Qed.
  Notation addc x := (mod_add_constant zval q nb L x (esplit y0 y1) (esplit p0 p1)).
  Lemma const_honest_spec c x : wf c -> ptype c = Ultra rb -> fvok x -> fvout x (num_vars c) ->
    (zval (limbs_of (hon c) x + fZ Y) < P * B)%Z ->
    vspec (addc x) c (fun w o => is_sum w (limbs_of w x + fZ Y) o) TT
      (fun w o => honest_sum w (zval (limbs_of w x + fZ Y)) o) (fun o n => fvout o n /\ fvok o).
  Proof.
    intros Hw Ht Hx Bx HB. set (S := limbs_of (hon c) x + fZ Y) in *.
    destruct (sum_honest S) as (a & b & Ha & Hb & Eab & Ed & Ef & Efz).
    assert (Hrbl : range_bit_len c = Ok rb) by (unfold range_bit_len; now rewrite Ht).
    assert (Hk : (0 <= zval S / P < B)%Z).
    { split; [apply Z.div_pos; [apply zval_ge|exact HP]|]. apply Z.div_lt_upper_bound; auto. }
    assert (HBq : (B < 2 ^ 32 /\ B < q)%Z).
    { pose proof M_ge. pose proof B_ge. split; [|nia]. apply Z.pow_lt_mono_r; lia. }
    assert (HS : forall w, hext c w -> limbs_of w x + fZ Y = S).
    { intros w Hh. unfold S. f_equal. eapply limbs_local; eauto. }
    unfold vspec, mod_add_constant, out. pose proof (wf_two _ Hw) as H2.
    change (em (esplit p0 p1)) with m. change (etwo (esplit p0 p1)) with (fZ M : K).
    change (em (esplit y0 y1)) with m. change (etwo (esplit y0 y1)) with (fZ M : K). rewrite P_field, Y_field.
    apply wpc_bind_lift with (a := rb); [exact Hrbl|].
    apply wpc_bind_lift with (a := B); [unfold range_size, range_bit_len; now rewrite Ht|].
    destruct Bx as [B0 B1]. apply wpc_chks; [repeat constructor; auto|].
    rewrite (proj1 Hx), (proj2 Hx). apply checks_pass; [|repeat constructor..].
    apply wpc_bind. eapply wpc_mono; [apply convert_spec; [auto|auto|split; auto]|]. intros xv d0 _ (S0 & C0 & V0 & O0). unfold out in O0.
    apply wpc_wit; [wfs|exact O0|].
    assert (E0 : hon (capp c d0) xv + fZ Y = S).
    { rewrite (V0 _ (hext_hon _)). apply HS. apply (hext_app1 c d0 _ Hw (hext_hon _)). }
    rewrite E0. apply wpc_bind_lift with (1 := Ed). cbn [fst snd]. rewrite (Z.mod_small B) by lia. rewrite !zval_Z by lia.
    destruct (Z.leb_spec B (zval S / P)); [lia|].
    apply wpc_bind. eapply wpc_mono; [apply var_spec; wfs|]. intros z d1 _ (Ez & L1 & D1 & V1).
    assert (Ld1 : length (d_vals d1) = 1%nat) by now rewrite L1. cbn [capp num_vars] in Ez.
    apply wpc_bind. eapply wpc_mono; [apply (rg_spec _ z rb); [wfs|exact Ht|cbn [capp num_vars]; lia|lia]|]. intros [] d2 _ (S2 & C2 & _).
    apply wpc_bind. eapply wpc_mono; [apply var_spec; wfs|]. intros y d3 _ (Ey' & L3 & D3 & V3).
    assert (Ld3 : length (d_vals d3) = 1%nat) by now rewrite L3.
    cbn [capp num_vars] in Ey'. apply wpc_nblocks; [exact Ht|].
    apply wpc_bind. eapply wpc_mono; [apply (rg_spec _ y (rb * (nb / rb + 1))); [wfs|exact Ht|cbn [capp num_vars]; lia|lia]|]. intros [] d4 _ (S4 & C4 & _).
    apply wpc_bind. eapply wpc_mono; [apply quad_poly_gate_spec; [wfs|cbn [capp num_vars r0 r1 r2 r3 r4]; lia..]|].
    intros o d5 _ (S5 & C5 & _). cbn [r0 r1 r2 r3 r4] in S5, C5.
    eapply wpc_mono; [apply (unchecked_spec _ y a b); [wfs|cbn [capp num_vars]; lia|lia|lia| ]|].
    { apply V3. pose proof (hext_hon (capp (capp (capp (capp (capp (capp c d0) d1) d2) d3) d4) d5)) as Hh.
      do 2 (apply hext_app1 in Hh; [|wfs]). exact Hh. }
    intros o2 d6 _ (S6 & C6 & V6 & O6 & F6).
    rewrite !ptype_capp in *. cbn [ptype capp] in *.
    split; [|split; [|split]].
    - intros w Hb' Hs. rewrite !dsat_cat in Hs. destruct Hs as (Q0 & _ & Q2 & _ & Q4 & Q5 & Q6). specialize (S2 w Hb' Q2). specialize (S5 w Hb' Q5).
      exists (zval (w z)). split; [split; [apply zval_ge|exact S2]|]. rewrite (pf_fZ _ _ _ _ _ HF).
      rewrite <- (S6 w Hb' Q6), <- (S0 w Hb' Q0).
      symmetry. apply fsub_eq_0. transitivity (0 * w 0%nat : K); [rewrite S5|]; ring.
    - intros w Hb' Hh _. rewrite <- !capp_cat in Hh. apply hext_app1 in Hh as Hh5; [|wfs].
      apply hext_app1 in Hh5 as Hh4; [|wfs]. apply hext_app1 in Hh4 as Hh3; [|wfs].
      apply hext_app1 in Hh3 as Hh2; [|wfs]. apply hext_app1 in Hh2 as Hh1; [|wfs]. apply hext_app1 in Hh1 as Hh0; [|wfs].
      apply hext_app1 in Hh0 as Hhc; [|wfs].
      specialize (V1 w Hh1). specialize (V3 w Hh3). rewrite !dsat_cat.
      split; [auto|]. split; [apply D1|]. split; [apply C2; auto; rewrite V1, zval_Z; lia|]. split; [apply D3|]. split; [apply C4; auto; apply nblocks_wide|].
      split; [apply C5; auto; rewrite V1, V3, Efz, (V0 w Hh0), <- (HS w Hhc); ring|]. apply C6; auto. rewrite V3. now rewrite fZ_add, fZ_mul.
    - intros w Hh. rewrite <- !capp_cat in Hh. destruct (V6 w Hh) as [E3 E4]. do 7 (apply hext_app1 in Hh; [|wfs]). rewrite (HS w Hh).
      unfold honest_sum, small, fval. rewrite E3, E4, !zval_Z by (pose proof M_lt; lia). split; [lia|exact Eab].
    - split; auto. cbn [dcat d_vals]. rewrite !app_length. cbn [num_vars] in O6. rewrite !Nat.add_assoc in *. exact O6.
  Qed.
  Lemma const_rel x (zz yy a b : K) : fvok x -> rel (addc x) (const_with x (esplit y0 y1) zz yy a b) eq.
  Proof.
    clear. intros [Hvm _]. unfold mod_add_constant, const_with. rewrite Hvm. change (em (esplit p0 p1)) with m. change (etwo (esplit p0 p1)) with (fZ M : K). rewrite P_field.
    pose proof (@quad_poly_gate_ind K). pose proof convert_ind. pose proof (fun a n => @range_lookup_ind K zval q nb L a n).
    assert (Hn : indep (num_range_blocks nb : circ K nat)) by (unfold num_range_blocks; rauto).
    apply rel_bind_eq; [rauto|]. intros rb'. apply rel_bind_eq; [rauto|]. intros rs.
    apply rel_bind_eq; [unfold check_vars_bound; rauto|]. intros _. apply rel_bind_eq; [unfold check_m; rauto|]. intros _.
    apply rel_bind_eq; [unfold check_two; rauto|]. intros _. apply rel_bind_eq; [unfold check_split; rauto|]. intros _.
    apply rel_bind_eq; [rauto|]. intros xv. apply rel_skip; [apply pure_wit|]. intros w.
    apply rel_lift_l. intros zy _. destruct (_ <=? _)%Z; [rauto|].
    pose proof unchecked_rel. rauto.
  Qed.

  (** The limbs that a call can return, from its honest run and the runs with other
      witnesses. *)
  Lemma limbs_exact (mm : circ K (fvar (K := K))) c (Rl : (nat -> K) -> K -> Prop) (V : (nat -> K) -> fvar (K := K) -> Prop) R :
    good c -> (forall w w' v, (forall i, (i < num_vars c)%nat -> w i = w' i) -> Rl w v -> Rl w' v) ->
    vspec mm c (fun w o => Rl w (limbs_of w o)) TT V R ->
    (forall ws a b, length ws = num_vars c -> Rl (asg ws) (a + fZ M * b) ->
      exists m' S C0 R', rel mm m' eq /\ vspec m' (with_witness c ws) S C0 (fun w o => w (v0 o) = a /\ w (v1 o) = b) R' /\
        local (num_vars c) C0 /\ C0 (asg ws)) ->
    exists o c', mm c = (Ok o, c') /\ good c' /\ extends c c' /\ R o (num_vars c') /\
      (forall pub, accepts c (witness c) pub -> accepts c' (witness c') pub) /\ V (asg (witness c')) o /\
      (exists l, witness c' = witness c ++ l) /\
      forall ws pub a b, accepts c ws pub ->
        ((exists l, accepts c' (ws ++ l) pub /\ asg (ws ++ l) (v0 o) = a /\ asg (ws ++ l) (v1 o) = b) <-> Rl (asg ws) (a + fZ M * b)).
  Proof.
    clear. intros G Hloc Hs Hw. pose proof (gd_wf _ G) as W.
    destruct (vspec_gadget _ c _ TT _ _ G (fun _ _ _ H => H) Hs) as (o & c' & E & G' & Ex & Ro & Snd & Cmp & HV).
    exists o, c'. split; [exact E|]. do 3 (split; [assumption|]). split; [auto|]. split; [auto|].
    split. { destruct Hs as (o2 & d & E2 & _). rewrite E in E2. injection E2 as _ ->. cbn. eauto. }
    intros ws pub a b Hacc. pose proof (proj1 Hacc) as HL. split.
    - intros (l & Hl & <- & <-). pose proof (Snd c' _ pub (extends_refl _) (gd_bd _ G') Hl) as H. cbn beta in H.
      revert H. apply Hloc. intros i Hi. unfold asg. rewrite app_nth1; auto; lia.
    - intros HR. destruct (Hw ws a b HL HR) as (m' & S & C0 & R' & Hrel & Hs' & Hl & HC).
      eapply (call_transfer mm m' c o c' ws pub S C0 (fun w o => w (v0 o) = a /\ w (v1 o) = b) R'); eauto.
  Qed.
  Theorem const_exact x c : good c -> ptype c = Ultra rb -> fvok x -> fvout x (num_vars c) ->
    (zval (limbs_of (hon c) x + fZ Y) < P * B)%Z ->
    exists o c', addc x c = (Ok o, c') /\ good c' /\ extends c c' /\ (fvout o (num_vars c') /\ fvok o) /\
      (forall pub, accepts c (witness c) pub -> accepts c' (witness c') pub) /\
      honest_sum (asg (witness c')) (zval (limbs_of (asg (witness c')) x + fZ Y)) o /\
      (exists l, witness c' = witness c ++ l) /\
      forall ws pub a b, accepts c ws pub ->
        ((exists l, accepts c' (ws ++ l) pub /\ asg (ws ++ l) (v0 o) = a /\ asg (ws ++ l) (v1 o) = b) <->
         exists k, (0 <= k < B)%Z /\ a + fZ M * b = limbs_of (asg ws) x + fZ Y - fZ P * fZ k).
  Proof.
    intros G Ht Hok Hb HB. pose proof (gd_wf _ G) as W.
    apply (limbs_exact (addc x) c (fun w v => exists k, (0 <= k < B)%Z /\ v = limbs_of w x + fZ Y - fZ P * fZ k)
      (fun w o => honest_sum w (zval (limbs_of w x + fZ Y)) o) (fun o n => fvout o n /\ fvok o) G).
    - intros w w' v E (k & Hk & Ek). exists k. split; auto. now rewrite <- (limbs_local w w' x (num_vars c) Hb E).
    - apply const_honest_spec; auto.
    - intros ws a b HL (k & Hk & Ek).
      exists (const_with x (esplit y0 y1) (fZ k) (a + fZ M * b) a b),
        (fun w o => is_sum w (limbs_of w x + field_elem (esplit y0 y1)) o),
        (fun w => (zval (fZ k : K) < B)%Z /\ a + fZ M * b = limbs_of w x + field_elem (esplit y0 y1) - fZ P * fZ k /\ a + fZ M * b = a + fZ M * b),
        (fun o n => fvout o n /\ fvok o).
      split; [apply const_rel; auto|]. split; [apply const_with_spec; auto; apply (gd_wf _ (good_with c ws G HL))|].
      split; [|rewrite Y_field, zval_Z; [auto with zarith|pose proof M_ge; pose proof B_ge; nia]].
      intros w w' E (H1 & H2 & H3). rewrite <- (limbs_local w w' x (num_vars c) Hb E). auto.
  Qed.

  (** ** Negation *)
  Definition neg_with (x : fvar (K := K)) (pf nn a b : K) : circ K (fvar (K := K)) :=
    rb <- lift range_bit_len ;; check_split (vm x) rb >>
    (xv <- convert_to_var x ;; nv <- create_variable nn ;;
     lc_gate xv nv 1 0 0 1 1 (- pf) 0 >> split_core nv a b).
  Lemma neg_with_spec c x (pf nn a b : K) : wf c -> ptype c = Ultra rb -> fvok x -> fvout x (num_vars c) ->
    vspec (neg_with x pf nn a b) c (fun w o => limbs_of w o = pf - limbs_of w x)
      (fun w => nn = pf - limbs_of w x /\ nn = a + fZ M * b)
      (fun w o => w (v0 o) = a /\ w (v1 o) = b) (fun o n => fvout o n /\ fvok o).
  Proof.
    clear Hp0 Hp1 HP Hq Hrb2 HMq. intros Hw Ht Hx Bx. unfold vspec, neg_with. pose proof (wf_two _ Hw) as H2.
    apply wpc_bind_lift with (a := rb); [unfold range_bit_len; now rewrite Ht|].
    rewrite (proj1 Hx). unfold check_split. destruct (Nat.eqb_spec rb 0); [lia|]. rewrite (proj2 (Nat.eqb_eq _ _) Hmr). wstep.
    apply wpc_bind. eapply wpc_mono; [apply convert_spec; auto|]. intros xv d0 _ (S0 & C0 & V0 & O0). unfold out in O0.
    apply wpc_bind. eapply wpc_mono; [apply var_spec; wfs|]. intros z d1 _ (Ez & L1 & D1 & V1).
    assert (Ld1 : length (d_vals d1) = 1%nat) by now rewrite L1. cbn [capp num_vars] in Ez.
    apply wpc_bind. eapply wpc_mono; [apply lc_gate_spec; [wfs|cbn [capp num_vars]; lia..]|]. intros [] d2 _ (S2 & C2 & _).
    eapply wpc_mono; [apply split_core_spec; [wfs|cbn [capp num_vars]; lia]|]. intros o d3 _ (S3 & C3 & V3 & O3 & F3).
    rewrite !ptype_capp in *. cbn [ptype capp] in *.
    split; [|split; [|split]].
    - intros w Hb Hs. rewrite !dsat_cat in Hs. destruct Hs as (Q0 & _ & Q2 & Q3).
      rewrite <- (S3 w Hb Q3), <- (S0 w Hb Q0). specialize (S2 w Hb Q2). destruct Hb as [B0 B1]. rewrite B0, B1 in S2.
      apply fsub_eq_0. transitivity (0 : K); [rewrite S2|]; ring.
    - intros w Hb Hh (H3 & H4). rewrite <- !capp_cat in Hh. apply hext_app1 in Hh as Hh2; [|wfs].
      apply hext_app1 in Hh2 as Hh1; [|wfs]. apply hext_app1 in Hh1 as Hh0; [|wfs].
      specialize (V1 w Hh1). rewrite !dsat_cat. split; [auto|]. split; [apply D1|]. split.
      + apply C2; auto. destruct Hb as [B0 B1]. rewrite B0, B1, V1, H3, (V0 w Hh0). ring.
      + apply C3; auto. now rewrite V1.
    - intros w Hh. rewrite <- !capp_cat in Hh. auto.
    - split; auto. cbn [dcat d_vals]. rewrite !app_length. cbn [num_vars] in O3. rewrite !Nat.add_assoc in *. exact O3.
  Qed.
  Notation neg x := (mod_negate zval nb x (fZ P)).
  Lemma fval_limbs (w : nat -> K) x : limbs_of w x = fZ (fval w x).
  Proof. clear -HF. unfold limbs_of, fval. rewrite fZ_add, fZ_mul, !(pf_fZ _ _ _ _ _ HF). reflexivity. Qed.
  Lemma fval_local w w' x n : fvout x n -> (forall v, (v < n)%nat -> w v = w' v) -> fval w x = fval w' x.
  Proof. clear. intros [H0 H1] E. unfold fval. now rewrite !E. Qed.
  Lemma neg_honest_spec c x : wf c -> ptype c = Ultra rb -> fvok x -> fvout x (num_vars c) -> (fval (hon c) x < P)%Z ->
    vspec (neg x) c (fun w o => limbs_of w o = fZ P - limbs_of w x) TT
      (fun w o => small w o /\ fval w o = (P - fval w x)%Z) (fun o n => fvout o n /\ fvok o).
  Proof.
    intros Hw Ht Hx Bx HX. unfold vspec, mod_negate. pose proof (wf_two _ Hw) as H2. pose proof M_ge as HM. pose proof P_lt as HPl.
    set (X := fval (hon c) x) in *.
    assert (HX0 : (0 <= X)%Z) by (unfold X, fval; pose proof (zval_ge (hon c (v0 x))); pose proof (zval_ge (hon c (v1 x))); nia).
    assert (HN : (0 <= P - X < M * M)%Z) by lia.
    destruct (split_eq _ HN) as (EN & Ha & Hb). set (a := ((P - X) mod M)%Z) in *. set (b := ((P - X) / M)%Z) in *.
    apply wpc_bind_lift with (a := rb); [unfold range_bit_len; now rewrite Ht|].
    rewrite (proj1 Hx), (proj2 Hx). unfold check_split. destruct (Nat.eqb_spec rb 0); [lia|]. rewrite (proj2 (Nat.eqb_eq _ _) Hmr). wstep.
    destruct Bx as [B0 B1]. apply wpc_wit; [auto|auto|]. apply wpc_wit; [auto|auto|].
    rewrite (zval_Z M), (zval_Z P) by (pose proof M_lt; lia). fold (fval (hon c) x). fold X.
    destruct (Z.leb_spec P X); [lia|].
    apply wpc_bind. eapply wpc_mono; [apply convert_spec; [auto|auto|split; auto]|]. intros xv d0 _ (S0 & C0 & V0 & O0). unfold out in O0.
    apply wpc_bind. eapply wpc_mono; [apply var_spec; wfs|]. intros z d1 _ (Ez & L1 & D1 & V1).
    assert (Ld1 : length (d_vals d1) = 1%nat) by now rewrite L1. cbn [capp num_vars] in Ez.
    apply wpc_bind. eapply wpc_mono; [apply lc_gate_spec; [wfs|cbn [capp num_vars]; lia..]|]. intros [] d2 _ (S2 & C2 & _).
    eapply wpc_mono; [apply (unchecked_spec _ z a b); [wfs|cbn [capp num_vars]; lia|lia|lia| ]|].
    { rewrite <- EN. apply V1. pose proof (hext_hon (capp (capp (capp c d0) d1) d2)) as Hh. apply hext_app1 in Hh; [|wfs]. exact Hh. }
    intros o d3 _ (S3 & C3 & V3 & O3 & F3).
    rewrite !ptype_capp in *. cbn [ptype capp] in *.
    split; [|split; [|split]].
    - intros w Hb' Hs. rewrite !dsat_cat in Hs. destruct Hs as (Q0 & _ & Q2 & Q3).
      rewrite <- (S3 w Hb' Q3), <- (S0 w Hb' Q0). specialize (S2 w Hb' Q2). destruct Hb' as [B0' B1']. rewrite B0', B1' in S2.
      apply fsub_eq_0. transitivity (0 : K); [rewrite S2|]; ring.
    - intros w Hb' Hh _. rewrite <- !capp_cat in Hh. apply hext_app1 in Hh as Hh2; [|wfs].
      apply hext_app1 in Hh2 as Hh1; [|wfs]. apply hext_app1 in Hh1 as Hh0; [|wfs]. apply hext_app1 in Hh0 as Hhc; [|wfs].
      specialize (V1 w Hh1). rewrite !dsat_cat. split; [auto|]. split; [apply D1|]. split.
      + apply C2; auto. destruct Hb' as [B0' B1']. rewrite B0', B1', V1, (V0 w Hh0), fval_limbs.
        replace (fval w x) with X by (unfold X; apply (fval_local _ _ x (num_vars c)); [split; auto|intros v Hv; symmetry; apply Hhc; auto]).
        rewrite fZ_sub. ring.
      + apply C3; auto. rewrite V1, EN, fZ_add, fZ_mul. reflexivity.
    - intros w Hh. rewrite <- !capp_cat in Hh. destruct (V3 w Hh) as [E3 E4]. do 4 (apply hext_app1 in Hh; [|wfs]).
      replace (fval w x) with X by (unfold X; apply (fval_local _ _ x (num_vars c)); [split; auto|intros v Hv; symmetry; apply Hh; auto]).
      unfold small, fval. rewrite E3, E4, !zval_Z by (pose proof M_lt; lia). split; [lia|symmetry; exact EN].
    - split; auto. cbn [dcat d_vals]. rewrite !app_length. cbn [num_vars] in O3. rewrite !Nat.add_assoc in *. exact O3.
  Qed.
  Lemma neg_rel x (nn a b : K) : fvok x -> rel (neg x) (neg_with x (fZ P) nn a b) eq.
  Proof.
    clear. intros [Hvm Ht]. unfold mod_negate, neg_with. rewrite Hvm, Ht.
    pose proof (@lc_gate_ind K). pose proof convert_ind.
    apply rel_bind_eq; [rauto|]. intros rb'. apply rel_bind_eq; [unfold check_split; rauto|]. intros _.
    apply rel_skip; [apply pure_wit|]. intros w. apply rel_skip; [apply pure_wit|]. intros w'.
    destruct (_ <=? _)%Z; [rauto|]. pose proof unchecked_rel. rauto.
  Qed.
  Theorem neg_exact x c : good c -> ptype c = Ultra rb -> fvok x -> fvout x (num_vars c) -> (fval (hon c) x < P)%Z ->
    exists o c', neg x c = (Ok o, c') /\ good c' /\ extends c c' /\ (fvout o (num_vars c') /\ fvok o) /\
      (forall pub, accepts c (witness c) pub -> accepts c' (witness c') pub) /\
      (small (asg (witness c')) o /\ fval (asg (witness c')) o = (P - fval (asg (witness c')) x)%Z) /\
      (exists l, witness c' = witness c ++ l) /\
      forall ws pub a b, accepts c ws pub ->
        ((exists l, accepts c' (ws ++ l) pub /\ asg (ws ++ l) (v0 o) = a /\ asg (ws ++ l) (v1 o) = b) <->
         a + fZ M * b = fZ P - limbs_of (asg ws) x).
  Proof.
    intros G Ht Hok Hb HB. pose proof (gd_wf _ G) as W.
    apply (limbs_exact (neg x) c (fun w v => v = fZ P - limbs_of w x)
      (fun w o => small w o /\ fval w o = (P - fval w x)%Z) (fun o n => fvout o n /\ fvok o) G).
    - intros w w' v E ->. now rewrite <- (limbs_local w w' x (num_vars c) Hb E).
    - apply neg_honest_spec; auto.
    - intros ws a b HL Ek.
      exists (neg_with x (fZ P) (a + fZ M * b) a b), (fun w o => limbs_of w o = fZ P - limbs_of w x),
        (fun w => a + fZ M * b = fZ P - limbs_of w x /\ a + fZ M * b = a + fZ M * b), (fun o n => fvout o n /\ fvok o).
      split; [apply neg_rel; auto|]. split; [apply neg_with_spec; auto; apply (gd_wf _ (good_with c ws G HL))|].
      split; [|auto]. intros w w' E (H1 & H2). rewrite <- (limbs_local w w' x (num_vars c) Hb E). auto.
  Qed.

  (** ** Powers *)
  Definition congr (a b : Z) : Prop := (a mod P = b mod P)%Z.
  Lemma congr_mul a a' b b' : congr a a' -> congr b b' -> congr (a * b) (a' * b').
  Proof. clear -HP. unfold congr. intros Ha Hb. rewrite Z.mul_mod, Ha, Hb, <- Z.mul_mod by lia. reflexivity. Qed.
  (** A product, as used in a chain: [S] is what any satisfying assignment obeys,
      the honest value is below the modulus. *)
  Lemma mul_step c x y : wf c -> ptype c = Ultra rb -> fvok x -> fvok y -> fvout x (num_vars c) -> fvout y (num_vars c) ->
    small (hon c) x -> small (hon c) y -> (fval (hon c) x * fval (hon c) y < M * M * P)%Z ->
    wpc (mod_mul zval q nb L x y (esplit p0 p1)) c (fun o d =>
      (forall w, base w -> dsat (Ultra rb) w d -> small w x -> small w y -> small w o /\ congr (fval w o) (fval w x * fval w y)) /\
      (forall w, base w -> hext (capp c d) w -> dsat (Ultra rb) w d) /\
      (forall w, base w -> hext (capp c d) w -> small w o /\ fval w o = ((fval w x * fval w y) mod P)%Z /\ (0 <= fval w o < P)%Z) /\
      fvout o (num_vars c + length (d_vals d)) /\ fvok o).
  Proof.
    intros Hw Ht Hx Hy Bx By Sx Sy Hxy. eapply wpc_mono; [apply mod_mul_spec; auto|]. intros o d _ (S1 & C1 & O1 & F1).
    split; [|split; [|split; [|split; auto]]].
    - intros w Hb Hs HX HY. destruct (S1 w Hb Hs HX HY) as (So & W & HW & E). split; auto. unfold congr. rewrite E, Z.mod_add; lia.
    - intros w Hb Hh. apply C1; auto.
    - intros w Hb Hh. destruct (C1 w Hb Hh) as (_ & So & E). split; auto. split; auto. rewrite E. apply Z.mod_pos_bound. exact HP.
  Qed.
  Lemma target_eq tmod mm t : mm = m -> t = fZ M -> tmod = P -> target zval nb tmod mm t = Ok (esplit p0 p1).
  Proof.
    intros -> -> ->. unfold target. pose proof M_ge. pose proof P_lt. rewrite felem_new_eq by nia.
    replace ((p0 + M * p1) mod M)%Z with p0 by (rewrite Z.mul_comm, Z.mod_add, Z.mod_small; lia).
    replace ((p0 + M * p1) / M)%Z with p1 by (rewrite Z.mul_comm, Z.div_add, Z.div_small; lia). reflexivity.
  Qed.

  (** The state of a chain of products: an element with known honest value. *)
  Definition ready (c : circuit K) (x : fvar (K := K)) (X : Z) : Prop :=
    fvok x /\ fvout x (num_vars c) /\ small (hon c) x /\ fval (hon c) x = X.
  Lemma hon_capp (c : circuit K) d w : wf c -> hext (capp c d) w -> forall v, (v < num_vars c)%nat -> w v = hon c v.
  Proof. clear. intros Hw Hh v Hv. apply (hext_app1 c d w Hw Hh). exact Hv. Qed.
  Lemma ready_capp c d x X : wf c -> ready c x X -> ready (capp c d) x X.
  Proof.
    clear. intros Hw (A1 & [A2 A3] & A4 & A5). pose proof (hon_capp c d _ Hw (hext_hon _)) as H.
    split; auto. split; [split; cbn [capp num_vars]; lia|]. unfold small, fval in *. rewrite !H by auto. auto.
  Qed.
  Lemma base_capp (c : circuit K) d : wf c -> base (hon c) -> base (hon (capp c d)).
  Proof. clear. intros Hw [H0 H1]. pose proof (wf_two _ Hw). pose proof (hon_capp c d _ Hw (hext_hon _)) as H'. split; rewrite H' by lia; auto. Qed.
  Lemma mul_chain c x y X Y' : wf c -> ptype c = Ultra rb -> base (hon c) -> ready c x X -> ready c y Y' -> (X * Y' < M * M * P)%Z ->
    wpc (mod_mul zval q nb L x y (esplit p0 p1)) c (fun o d =>
      (forall w, base w -> dsat (Ultra rb) w d -> small w x -> small w y -> small w o /\ congr (fval w o) (fval w x * fval w y)) /\
      (forall w, base w -> hext (capp c d) w -> dsat (Ultra rb) w d) /\ ready (capp c d) o ((X * Y') mod P)%Z /\ base (hon (capp c d))).
  Proof.
    intros Hw Ht Hb (A1 & A2 & A3 & A4) (D1 & D2 & D3 & D4) HXY. eapply wpc_mono; [apply mul_step; auto; now rewrite A4, D4|].
    intros o d _ (S1 & C1 & V1 & O1 & F1). split; auto. split; auto. assert (Hb' : base (hon (capp c d))) by (apply base_capp; auto).
    split; auto. destruct (V1 _ Hb' (hext_hon _)) as (V2 & V3 & _). split; auto. split; [exact O1|]. split; auto. rewrite V3.
    pose proof (hon_capp c d _ Hw (hext_hon _)) as H. 
    rewrite (fval_local _ (hon c) x _ A2 H), (fval_local _ (hon c) y _ D2 H), A4, D4. reflexivity.
  Qed.
  Definition pspec {A} (mm : circ K A) (c : circuit K) (S : (nat -> K) -> A -> Prop) (R : A -> circuit K -> Prop) : Prop :=
    wpc mm c (fun a d => (forall w, base w -> dsat (Ultra rb) w d -> S w a) /\
      (forall w, base w -> hext (capp c d) w -> dsat (Ultra rb) w d) /\ R a (capp c d)).
  Lemma pow5_spec tmod tbits c x X : wf c -> ptype c = Ultra rb -> base (hon c) -> ready c x X -> (X * X < M * M * P)%Z ->
    tmod = P -> (tbits < nb)%nat ->
    pspec (non_native_power_5_gen zval q nb L tmod tbits x) c
      (fun w o => small w x -> small w o /\ congr (fval w o) (fval w x ^ 5)) (fun o c' => ready c' o (X ^ 5 mod P)%Z).
  Proof.
    intros Hw Ht Hb HX HXX Htm Htb. unfold pspec, non_native_power_5_gen. destruct (Nat.leb_spec nb tbits); [lia|].
    apply wpc_bind_lift with (a := esplit p0 p1); [destruct HX as ((E1 & E2) & _); apply target_eq; auto|].
    assert (RX : (0 <= X < M * M)%Z).
    { destruct HX as (_ & _ & [V0 V1] & <-). unfold fval. pose proof (zval_ge (hon c (v0 x))). pose proof (zval_ge (hon c (v1 x))). pose proof M_ge. nia. }
    pose proof P_lt as HPl.
    apply wpc_bind. eapply wpc_mono; [apply (mul_chain c x x X X); auto|]. intros x2 d2 _ (S2 & C2 & R2 & B2).
    pose proof (Z.mod_pos_bound (X * X) P HP) as M2. set (X2 := (X * X mod P)%Z) in *.
    apply wpc_bind. eapply wpc_mono; [apply (mul_chain _ x2 x X2 X); [wfs|exact Ht|exact B2|exact R2|apply ready_capp; auto|nia]|].
    intros x3 d3 _ (S3 & C3 & R3 & B3).
    pose proof (Z.mod_pos_bound (X2 * X) P HP) as M3. set (X3 := (X2 * X mod P)%Z) in *.
    eapply wpc_mono; [apply (mul_chain _ x2 x3 X2 X3); [wfs|exact Ht|exact B3|apply ready_capp; [wfs|auto]|exact R3|nia]|].
    intros x5 d5 _ (S5 & C5 & R5 & B5). split; [|split].
    - intros w Hb' Hs Sx. rewrite !dsat_cat in Hs. destruct Hs as (Q2 & Q3 & Q5).
      destruct (S2 w Hb' Q2 Sx Sx) as [W2 E2]. destruct (S3 w Hb' Q3 W2 Sx) as [W3 E3]. destruct (S5 w Hb' Q5 W2 W3) as [W5 E5].
      split; auto. set (x0 := fval w x) in *. unfold congr in *.
      replace (x0 ^ 5)%Z with ((x0 * x0) * ((x0 * x0) * x0))%Z by ring.
      etransitivity; [exact E5|]. apply congr_mul; auto. unfold congr. etransitivity; [exact E3|]. apply congr_mul; [exact E2|reflexivity].
    - intros w Hb' Hh. rewrite <- !capp_cat in Hh. apply hext_app1 in Hh as Hh3; [|wfs]. apply hext_app1 in Hh3 as Hh2; [|wfs].
      rewrite !dsat_cat. auto.
    - rewrite <- !capp_cat. replace (X ^ 5 mod P)%Z with (X2 * X3 mod P)%Z; [exact R5|].
      assert (E2 : congr X2 (X * X)) by (unfold congr, X2; now rewrite Z.mod_mod by lia).
      assert (E3 : congr X3 (X2 * X)) by (unfold congr, X3; now rewrite Z.mod_mod by lia).
      replace (X ^ 5)%Z with ((X * X) * ((X * X) * X))%Z by ring. apply congr_mul; [exact E2|].
      unfold congr. etransitivity; [exact E3|]. apply congr_mul; [exact E2|reflexivity].
  Qed.
  Lemma pow11_spec tmod c x X : wf c -> ptype c = Ultra rb -> base (hon c) -> ready c x X -> (X * X < M * M * P)%Z ->
    tmod = P ->
    pspec (non_native_power_11_gen zval q nb L tmod x) c
      (fun w o => small w x -> small w o /\ congr (fval w o) (fval w x ^ 11)) (fun o c' => ready c' o (X ^ 11 mod P)%Z).
  Proof.
    intros Hw Ht Hb HX HXX Htm. unfold pspec, non_native_power_11_gen.
    apply wpc_bind_lift with (a := esplit p0 p1); [destruct HX as ((E1 & E2) & _); apply target_eq; auto|].
    assert (RX : (0 <= X < M * M)%Z).
    { destruct HX as (_ & _ & [V0 V1] & <-). unfold fval. pose proof (zval_ge (hon c (v0 x))). pose proof (zval_ge (hon c (v1 x))). pose proof M_ge. nia. }
    pose proof P_lt as HPl.
    assert (Hlt : forall u v : Z, (0 <= u < P)%Z -> (0 <= v < M * M)%Z -> (u * v < M * M * P)%Z) by (clear -HP; intros; nia).
    apply wpc_bind. eapply wpc_mono; [apply (mul_chain c x x X X); auto|]. intros x2 d2 _ (S2 & C2 & R2 & B2).
    pose proof (Z.mod_pos_bound (X * X) P HP) as M2. set (X2 := (X * X mod P)%Z) in *.
    apply wpc_bind. eapply wpc_mono; [apply (mul_chain _ x2 x X2 X); [wfs|exact Ht|exact B2|exact R2|apply ready_capp; auto|apply Hlt; lia]|].
    intros x3 d3 _ (S3 & C3 & R3 & B3).
    pose proof (Z.mod_pos_bound (X2 * X) P HP) as M3. set (X3 := (X2 * X mod P)%Z) in *.
    apply (ready_capp _ d3) in R2; [|wfs].
    apply wpc_bind. eapply wpc_mono; [apply (mul_chain _ x2 x2 X2 X2); [wfs|exact Ht|exact B3|exact R2|exact R2|apply Hlt; lia]|].
    intros x4 d4 _ (S4 & C4 & R4 & B4).
    pose proof (Z.mod_pos_bound (X2 * X2) P HP) as M4. set (X4 := (X2 * X2 mod P)%Z) in *.
    apply (ready_capp _ d4) in R3; [|wfs].
    apply wpc_bind. eapply wpc_mono; [apply (mul_chain _ x4 x4 X4 X4); [wfs|exact Ht|exact B4|exact R4|exact R4|apply Hlt; lia]|].
    intros x8 d8 _ (S8 & C8 & R8 & B8).
    pose proof (Z.mod_pos_bound (X4 * X4) P HP) as M8. set (X8 := (X4 * X4 mod P)%Z) in *.
    apply (ready_capp _ d8) in R3; [|wfs].
    eapply wpc_mono; [apply (mul_chain _ x3 x8 X3 X8); [wfs|exact Ht|exact B8|exact R3|exact R8|apply Hlt; lia]|].
    intros x11 d11 _ (S11 & C11 & R11 & B11).
    assert (Alg : forall a a2 a3 a4 a8 : Z, congr a2 (a * a) -> congr a3 (a2 * a) -> congr a4 (a2 * a2) -> congr a8 (a4 * a4) -> congr (a3 * a8) (a ^ 11)).
    { clear -HP. intros a a2 a3 a4 a8 E2 E3 E4 E8.
      assert (F3 : congr a3 (a * a * a)) by (unfold congr; etransitivity; [exact E3|]; apply congr_mul; [exact E2|reflexivity]).
      assert (F4 : congr a4 (a * a * (a * a))) by (unfold congr; etransitivity; [exact E4|]; apply congr_mul; exact E2).
      assert (F8 : congr a8 (a * a * (a * a) * (a * a * (a * a)))) by (unfold congr; etransitivity; [exact E8|]; apply congr_mul; exact F4).
      replace (a ^ 11)%Z with (a * a * a * (a * a * (a * a) * (a * a * (a * a))))%Z by ring. apply congr_mul; auto. }
    split; [|split].
    - intros w Hb' Hs Sx. rewrite !dsat_cat in Hs. destruct Hs as (Q2 & Q3 & Q4 & Q8 & Q11).
      destruct (S2 w Hb' Q2 Sx Sx) as [W2 E2]. destruct (S3 w Hb' Q3 W2 Sx) as [W3 E3]. destruct (S4 w Hb' Q4 W2 W2) as [W4 E4].
      destruct (S8 w Hb' Q8 W4 W4) as [W8 E8]. destruct (S11 w Hb' Q11 W3 W8) as [W11 E11].
      split; auto. unfold congr in *. etransitivity; [exact E11|]. apply (Alg (fval w x) (fval w x2) (fval w x3) (fval w x4) (fval w x8)); auto.
    - intros w Hb' Hh. rewrite <- !capp_cat in Hh. apply hext_app1 in Hh as Hh8; [|wfs]. apply hext_app1 in Hh8 as Hh4; [|wfs].
      apply hext_app1 in Hh4 as Hh3; [|wfs]. apply hext_app1 in Hh3 as Hh2; [|wfs]. rewrite !dsat_cat. auto 10.
    - rewrite <- !capp_cat. replace (X ^ 11 mod P)%Z with (X3 * X8 mod P)%Z; [exact R11|].
      apply (Alg X X2 X3 X4 X8); unfold congr, X2, X3, X4, X8; rewrite Z.mod_mod by lia; reflexivity.
  Qed.

  (** ** Linear combinations with constants *)
  Definition evok (e : felem (K := K)) (z : Z) : Prop :=
    exists a b, e = esplit a b /\ (0 <= a < M)%Z /\ (0 <= b < M)%Z /\ z = (a + M * b)%Z.
  Lemma mulc_chain c x e X E : wf c -> ptype c = Ultra rb -> base (hon c) -> ready c x X -> evok e E -> (X * E < M * M * P)%Z ->
    pspec (mod_mul_constant zval q nb L x e (esplit p0 p1)) c
      (fun w o => small w x -> small w o /\ congr (fval w o) (fval w x * E)) (fun o c' => ready c' o ((X * E) mod P)%Z).
  Proof.
    intros Hw Ht Hb (A1 & A2 & A3 & A4) (a & b & -> & Ha & Hb' & ->) HXY. unfold pspec.
    eapply wpc_mono; [apply mod_mul_constant_spec; auto; now rewrite A4|].
    intros o d _ (S1 & C1 & O1 & F1). split; [|split].
    - intros w Hbw Hs Sx. destruct (S1 w Hbw Hs Sx) as (So & W & HW & E). split; auto. unfold congr. rewrite E, Z.mod_add; lia.
    - intros w Hbw Hh. apply C1; auto.
    - assert (Hb2 : base (hon (capp c d))) by (apply base_capp; auto).
      destruct (C1 _ Hb2 (hext_hon _)) as (_ & V2 & V3). split; auto. split; [exact O1|]. split; auto. rewrite V3.
      pose proof (hon_capp c d _ Hw (hext_hon _)) as H. rewrite (fval_local _ (hon c) x _ A2 H), A4. reflexivity.
  Qed.
  Lemma f2_impl {A B} (R R' : A -> B -> Prop) l l' : (forall a b, R a b -> R' a b) -> Forall2 R l l' -> Forall2 R' l l'.
  Proof. clear. intros H. induction 1; constructor; auto. Qed.
  Lemma mulcs_chain : forall l lz c, wf c -> ptype c = Ultra rb -> base (hon c) ->
    Forall2 (fun (xe : fvar (K := K) * felem (K := K)) (z : Z * Z) => ready c (fst xe) (fst z) /\ evok (snd xe) (snd z) /\ (fst z * snd z < M * M * P)%Z) l lz ->
    pspec (mapM (fun a => mod_mul_constant zval q nb L (fst a) (snd a) (esplit p0 p1)) l) c
      (fun w os => Forall (fun xe => small w (fst xe)) l ->
        Forall2 (fun o xz => small w o /\ congr (fval w o) (fval w (fst (fst xz)) * snd (snd xz))) os (combine l lz))
      (fun os c' => Forall2 (fun o z => ready c' o ((fst z * snd z) mod P)%Z) os lz).
  Proof.
    induction l as [|[x e] l IH]; intros lz c Hw Ht Hb HF2; inversion HF2 as [|? [X E] ? lz' (R1 & R2 & R3) HF2']; subst; unfold pspec; cbn [mapM].
    - wstep. split; [constructor|]. split; [intros; apply dsat_nil|constructor].
    - cbn [fst snd] in *.
      apply wpc_bind. eapply wpc_mono; [apply (mulc_chain c x e X E); auto|]. intros o d1 _ (S1 & C1 & V1).
      apply wpc_bind. eapply wpc_mono; [apply (IH lz' (capp c d1)); [wfs|exact Ht|apply base_capp; auto|]|].
      { eapply f2_impl; [|exact HF2']. cbn beta. intros [x' e'] [X' E'] (Q1 & Q2 & Q3). split; [apply ready_capp; auto|auto]. }
      intros os d2 _ (S2 & C2 & V2). wstep. split; [|split].
      + intros w Hbw Hs Hsm. rewrite !dsat_cat in Hs. destruct Hs as (Q1 & Q2 & _). inversion_clear Hsm as [|? ? H1 H2]. cbn [fst] in H1.
        cbn [combine]. constructor; [cbn [fst snd]; auto|auto].
      + intros w Hbw Hh. rewrite <- !capp_cat in Hh. apply hext_app1 in Hh; [|wfs]. apply hext_app1 in Hh as Hh1; [|wfs].
        rewrite !dsat_cat. split; [auto|]. split; [auto|apply dsat_nil].
      + rewrite <- !capp_cat. cbn [fst snd]. constructor; [apply ready_capp; [wfs|]; apply ready_capp; [wfs|]; exact V1|].
        eapply f2_impl; [|exact V2]. cbn beta. intros o' z' Hr. apply ready_capp; [wfs|exact Hr].
  Qed.

  Definition zadd (l : list Z) : Z := fold_right Z.add 0%Z l.
  Lemma zsum_vals (w : nat -> K) os : zsum w os = fZ (zadd (map (fval w) os)).
  Proof.
    clear -HF. unfold zsum. induction os as [|o os IH]; [reflexivity|]. cbn [map zadd fold_right]. rewrite fsum_cons, fZ_add, IH, fval_limbs. reflexivity.
  Qed.
  Lemma zadd_le (l : list Z) b : Forall (fun z => 0 <= z < b)%Z l -> (0 <= zadd l <= Z.of_nat (length l) * b)%Z.
  Proof. clear. induction 1 as [|z l Hz _ IH]; cbn [zadd fold_right length] in *; [lia|]. unfold zadd in *. nia. Qed.
  Lemma zadd_congr l l' : Forall2 congr l l' -> congr (zadd l) (zadd l').
  Proof.
    clear -HP. induction 1 as [|z z' l l' Hz _ IH]; cbn [zadd fold_right]; [reflexivity|]. unfold congr, zadd in *.
    rewrite Z.add_mod, Hz, IH, <- Z.add_mod by lia. reflexivity.
  Qed.
  (** What a linear combination enforces: its limbs stand for a sum of elements
      congruent to the products, plus the constant, minus a multiple of the modulus. *)
  Definition is_linear (w : nat -> K) (XE : list (Z * Z)) (o : fvar (K := K)) : Prop :=
    exists zs k, Forall2 (fun z xe => (0 <= z < M * M)%Z /\ congr z (fst xe * snd xe)) zs XE /\ (0 <= k < 2 * B)%Z /\
      limbs_of w o = fZ (zadd zs + Y - P * k).
  Lemma small_range (w : nat -> K) x : small w x -> (0 <= fval w x < M * M)%Z.
  Proof. clear Hq HMq. intros [V0 V1]. unfold fval. pose proof (zval_ge (w (v0 x))). pose proof (zval_ge (w (v1 x))). pose proof M_ge. nia. Qed.
  Lemma linear_spec tmod tbits c xs es XE : wf c -> ptype c = Ultra rb -> base (hon c) -> tmod = P -> (tbits < nb)%nat ->
    (0 <= y0 < M)%Z -> (0 <= y1 < M)%Z -> (Y < P)%Z ->
    length xs = length es -> (Z.of_nat (length xs) < B)%Z ->
    Forall2 (fun (xe : fvar (K := K) * felem (K := K)) (z : Z * Z) => ready c (fst xe) (fst z) /\ evok (snd xe) (snd z) /\ (fst z * snd z < M * M * P)%Z) (combine xs es) XE ->
    pspec (non_native_linear_gen zval q nb L tmod tbits xs es (esplit y0 y1)) c
      (fun w o => Forall (small w) xs -> is_linear w (combine (map (fval w) xs) (map snd XE)) o)
      (fun o c' => ready c' o ((zadd (map (fun z => fst z * snd z) XE) + Y) mod P)%Z).
  Proof.
    intros Hw Ht Hb Htm Htb Hy0 Hy1 HYP Hlen Hn HF2. unfold pspec, non_native_linear_gen. pose proof M_ge as HM. pose proof P_lt as HPl. pose proof B_ge4 as HB4.
    destruct (Nat.leb_spec nb tbits); [lia|]. rewrite Hlen, Nat.eqb_refl. cbn [negb].
    change (em (esplit y0 y1)) with m. change (etwo (esplit y0 y1)) with (fZ M : K).
    assert (Hl : forall x e, In (x, e) (combine xs es) -> (fvok x /\ fvout x (num_vars c)) /\ em e = m).
    { intros x e Hi. clear -HF2 Hi. induction HF2 as [|? ? ? ? (R & (a & b & E & _) & _) _ IH]; [destruct Hi|]. destruct Hi as [->|Hi]; auto.
      cbn [fst snd] in *. destruct R as (R1 & R2 & _). rewrite E. auto. }
    assert (Hxs : Forall (fun x => fvok x) xs /\ Forall (fun e => em e = m) es).
    { clear -Hl Hlen. revert es Hlen Hl. induction xs as [|x xs IH]; intros [|e es] Hlen Hl; try discriminate; [split; constructor|].
      injection Hlen as Hlen. destruct (IH es Hlen) as [I1 I2]; [intros; apply Hl; now right|].
      destruct (Hl x e) as [[H1 _] H2]; [now left|]. split; constructor; auto. }
    destruct Hxs as [Hxs Hes].
    assert (E1 : forallb (fun x => (x =? m)%nat) (map vm xs) = true).
    { apply forallb_forall. intros x Hx. apply in_map_iff in Hx as (y & <- & Hy). apply Nat.eqb_eq. rewrite Forall_forall in Hxs. apply (Hxs y Hy). }
    assert (E2 : forallb (fun x => (x =? m)%nat) (map em es) = true).
    { apply forallb_forall. intros x Hx. apply in_map_iff in Hx as (y & <- & Hy). apply Nat.eqb_eq. rewrite Forall_forall in Hes. apply (Hes y Hy). }
    unfold check_m. rewrite E1, E2. wstep. wstep.
    apply wpc_bind_lift with (a := esplit p0 p1); [apply target_eq; auto|].
    apply wpc_bind. eapply wpc_mono; [apply (mulcs_chain _ XE c); auto|]. intros os d1 _ (S1 & C1 & V1).
    assert (Hos : Forall fvok os /\ Forall (fun o => fvout o (num_vars (capp c d1))) os /\
      map (fval (hon (capp c d1))) os = map (fun z => ((fst z * snd z) mod P)%Z) XE).
    { clear -V1. induction V1 as [|o z os XE (R1 & R2 & R3 & R4) _ (I1 & I2 & I3)]; [repeat split; constructor|].
      split; [constructor; auto|]. split; [constructor; auto|]. cbn [map]. now rewrite I3, R4. }
    destruct Hos as (Oos & Bos & Vos).
    assert (LXE : length XE = length xs).
    { clear -HF2 Hlen. apply Forall2_length in HF2 || idtac.
      assert (length (combine xs es) = length XE) by (clear Hlen; induction HF2; cbn; auto). rewrite combine_length in H. lia. }
    set (T := zadd (map (fun z => ((fst z * snd z) mod P)%Z) XE)) in *.
    assert (HT : (0 <= T <= Z.of_nat (length xs) * P)%Z).
    { rewrite <- LXE, <- (map_length (fun z => ((fst z * snd z) mod P)%Z) XE). apply zadd_le.
      clear -HP. induction XE; cbn [map]; constructor; auto. apply Z.mod_pos_bound; auto. }
    assert (HTB : (T < P * B)%Z) by (clear -HT Hn HP; nia).
    assert (HTq : (P * B < q)%Z) by (clear -HPl Hq HB4 HM; nia).
    assert (ET : zval (zsum (hon (capp c d1)) os) = T) by (rewrite zsum_vals, Vos; fold T; apply zval_Z; lia).
    assert (W1 : wf (capp c d1)) by wfs.
    assert (Ht1 : ptype (capp c d1) = Ultra rb) by exact Ht.
    pose proof (vec_honest_spec os (capp c d1) W1 Ht1 Oos Bos ltac:(now rewrite ET)) as Hv.
    apply wpc_bind. unfold vspec, wpc in Hv. rewrite <- (mod_add_vec_eq os _ W1 Ht1 Oos) in Hv.
    eapply wpc_mono; [exact Hv|]. intros s d2 _ (S2 & C2 & V2 & O2 & F2). change (ptype (capp c d1)) with (ptype c) in *. rewrite Ht in *.
    pose proof (V2 _ (hext_hon _)) as [Vs1 Vs2].
    assert (ET2 : zval (zsum (hon (capp (capp c d1) d2)) os) = T).
    { rewrite <- ET. f_equal. unfold zsum. f_equal. apply map_ext_in. intros o Ho. rewrite Forall_forall in Bos.
      apply (limbs_local _ _ _ _ (Bos o Ho)). apply (hon_capp (capp c d1) d2 _ W1 (hext_hon _)). }
    rewrite ET2 in Vs2. pose proof (Z.mod_pos_bound T P HP) as HTP.
    assert (Es : zval (limbs_of (hon (capp (capp c d1) d2)) s + fZ Y) = (T mod P + Y)%Z).
    { rewrite fval_limbs, Vs2, <- fZ_add. apply zval_Z. clear -HTP HYP HTq HB4 HP Hy0 Hy1 HM. assert (0 <= Y)%Z by nia. nia. }
    assert (W2 : wf (capp (capp c d1) d2)) by wfs.
    eapply wpc_mono; [apply (const_honest_spec _ s W2 Ht F2 O2)|].
    { rewrite Es. clear -HTP HYP HB4 HP. nia. }
    intros o d3 _ (S3 & C3 & V3 & O3 & F3). rewrite !ptype_capp in *. cbn [ptype capp] in S3, C3. rewrite Ht in *.
    split; [|split].
    - intros w Hbw Hs Hsm. rewrite !dsat_cat in Hs. destruct Hs as (Q1 & Q2 & Q3).
      assert (Hsm' : Forall (fun xe : fvar (K := K) * felem (K := K) => small w (fst xe)) (combine xs es)).
      { apply Forall_forall. intros [x e] Hi. apply in_combine_l in Hi. rewrite Forall_forall in Hsm. apply Hsm; auto. }
      specialize (S1 w Hbw Q1 Hsm'). destruct (S2 w Hbw Q2) as (k1 & Hk1 & Ek1). destruct (S3 w Hbw Q3) as (k2 & Hk2 & Ek2).
      exists (map (fval w) os), (k1 + k2)%Z. split; [|split; [lia|]].
      + pose proof (small_range w) as Hsr. clear -S1 HF2 Hlen Hsr. revert es os XE HF2 S1 Hlen. induction xs as [|x xs IH]; intros [|e es] os XE HF2 S1 Hlen; try discriminate.
        * inversion HF2; subst. inversion S1; subst. constructor.
        * cbn [combine] in *. inversion HF2 as [|? xe ? XE' _ HF2']; subst. cbn [combine] in S1. inversion S1 as [|o ? os' ? [H1 H2] S1']; subst.
          cbn [map combine fst snd] in *. constructor; [split; [apply Hsr; auto|exact H2]|]. apply (IH es os' XE'); auto.
      + rewrite Ek2, Ek1, zsum_vals. repeat rewrite ?fZ_sub, ?fZ_add, ?fZ_mul. ring.
    - intros w Hbw Hh. rewrite <- !capp_cat in Hh. apply hext_app1 in Hh as Hh2; [|wfs]. apply hext_app1 in Hh2 as Hh1; [|wfs].
      rewrite !dsat_cat. auto.
    - rewrite <- !capp_cat. split; auto. split; [exact O3|]. destruct (V3 _ (hext_hon _)) as [V4 V5]. split; auto. rewrite V5.
      rewrite (limbs_local _ (hon (capp (capp c d1) d2)) s _ O2); [|apply (hon_capp (capp (capp c d1) d2) d3 _ W2 (hext_hon _))].
      rewrite Es, Zplus_mod_idemp_l. rewrite Z.add_mod, (Z.add_mod (zadd _)) by lia. do 2 f_equal. unfold T. apply zadd_congr.
      clear -HP. induction XE; cbn [map]; constructor; auto. unfold congr. now rewrite Z.mod_mod by lia.
  Qed.

  (** ** Creating elements *)
  Lemma new_spec c (f : K) : wf c -> ptype c = Ultra rb ->
    vspec (fvar_new_from_field_element zval q nb L f m None) c (fun w o => small w o) (fun _ => (zval f < M * M)%Z)
      (fun w o => fval w o = zval f) (fun o n => fvout o n /\ fvok o).
  Proof.
    clear p0 p1 Hp0 Hp1 HP Hq y0 y1. intros Hw Ht. unfold vspec, fvar_new_from_field_element, fvar_new_from_fp_elem. pose proof M_ge as HM. pose proof M_lt as HMl. 
    assert (E2 : fpow (fZ 2) m = (fZ M : K)) by apply fpow_two.
    pose proof (zval_ge f) as Hf0. pose proof (proj2 (pf_range _ _ _ _ _ HF f)) as Hfq.
    assert (Hd : (0 <= zval f / M < q)%Z) by (split; [apply Z.div_pos; lia|apply Z.div_lt_upper_bound; nia]).
    pose proof (Z.mod_pos_bound (zval f) M ltac:(lia)) as Hmd.
    assert (Ed : div_rem zval f (fZ M) = Ok (fZ (zval f / M), fZ (zval f mod M))%Z).
    { unfold div_rem. rewrite (zval_Z M) by lia. destruct (Z.eqb_spec M 0); [lia|]. do 2 f_equal.
      rewrite Z.mod_eq, fZ_sub, fZ_mul, (pf_fZ _ _ _ _ _ HF) by lia. reflexivity. }
    apply wpc_bind_lift with (a := mk_felem (fZ (zval f mod M)) (fZ (zval f / M)) m (fZ M)).
    { unfold felem_new, two_pow. rewrite E2, Ed. destruct (Nat.ltb_spec (nb / 2) m); [lia|]. reflexivity. }
    cbn [e0 e1 two_pow]. rewrite E2.
    apply wpc_bind. eapply wpc_mono; [apply var_spec; auto|]. intros x1 d1 _ (E1' & L1 & D1 & V1).
    assert (Ld1 : length (d_vals d1) = 1%nat) by now rewrite L1.
    apply wpc_bind. eapply wpc_mono; [apply var_spec; wfs|]. intros x2 d2 _ (E2' & L2 & D2 & V2).
    assert (Ld2 : length (d_vals d2) = 1%nat) by now rewrite L2. cbn [capp num_vars] in E2'.
    apply wpc_bind. eapply wpc_mono; [apply (rg_spec _ x1 m); [wfs|exact Ht|cbn [capp num_vars]; lia|lia]|]. intros [] d3 _ (S3 & C3 & _).
    apply wpc_bind. eapply wpc_mono; [apply (rg_spec _ x2 m); [wfs|exact Ht|cbn [capp num_vars]; lia|lia]|]. intros [] d4 _ (S4 & C4 & _).
    wstep. rewrite !ptype_capp in *. split; [|split; [|split; [|split; [split|split; reflexivity]]]].
    - intros w Hb Hs. rewrite !dsat_cat in Hs. destruct Hs as (_ & _ & Q3 & Q4 & _). split; cbn [v0 v1]; auto.
    - intros w Hb Hh HC. rewrite <- !capp_cat in Hh. apply hext_app1 in Hh as Hh4; [|wfs]. apply hext_app1 in Hh4 as Hh3; [|wfs].
      apply hext_app1 in Hh3 as Hh2; [|wfs]. apply hext_app1 in Hh2 as Hh1; [|wfs].
      rewrite !dsat_cat. split; [auto|]. split; [auto|]. split; [apply C3; auto; rewrite (V1 w Hh1), zval_Z; lia|].
      split; [|apply dsat_nil]. apply C4; auto. rewrite (V2 w Hh2), zval_Z by lia. apply Z.div_lt_upper_bound; lia.
    - intros w Hh. rewrite <- !capp_cat in Hh. do 3 (apply hext_app1 in Hh; [|wfs]). apply hext_app1 in Hh as Hh1; [|wfs].
      unfold fval. cbn [v0 v1]. rewrite (V1 w Hh1), (V2 w Hh), !zval_Z by lia. pose proof (Z.div_mod (zval f) M). lia.
    - cbn [dcat d_vals dnil v0]. rewrite !app_length. lia.
    - cbn [dcat d_vals dnil v1]. rewrite !app_length. lia.
  Qed.
End Specs.
