(** Twisted Edwards curves [A x^2 + y^2 = 1 + D x^2 y^2]: the affine addition law, its
    completeness, and the group of points.

    This is the mathematics that the curve gadgets are compared with; it models no
    code of the repository (the curves come from ark-ec). *)

From Coq Require Import ZArith Bool Lia Ring Field Eqdep_dec.
From Verif Require Import Alg Group.
Local Open Scope fld_scope.

Section Edwards.
  Variable K : fld.
  Variables A D : K.
  Add Field Kedw : (fth K).

  Definition pt : Type := (K * K)%type.
  Definition on (P : pt) : Prop := A * fst P * fst P + snd P * snd P = 1 + D * fst P * fst P * snd P * snd P.
  (** The affine addition law. *)
  Definition tz (P Q : pt) : K := D * fst P * snd P * fst Q * snd Q.
  Definition tadd (P Q : pt) : pt :=
    ((fst P * snd Q + fst Q * snd P) / (1 + tz P Q), (snd P * snd Q - A * fst P * fst Q) / (1 - tz P Q)).
  Definition t0 : pt := (0, 1).
  Definition topp (P : pt) : pt := (- fst P, snd P).

  (** The law is complete if [A] is a square and [D] is not. *)
  Record complete : Prop := {
    cp_two : (1 + 1 : K) <> 0;
    cp_sq : exists s : K, s * s = A;
    cp_nonsq : forall s : K, s * s <> D }.

  Lemma on_0 : on t0.
  Proof. unfold on, t0. cbn. ring. Qed.
  Lemma on_opp P : on P -> on (topp P).
  Proof. unfold on, topp. destruct P as [x y]. cbn. intros H. rewrite <- (Radd_0_l (F_R (fth K)) (A * - x * - x + y * y)).
    replace (0 + (A * - x * - x + y * y)) with (A * x * x + y * y) by ring. rewrite H. ring. Qed.

  Lemma sq_eq_0 (x : K) : x * x = 0 -> x = 0.
  Proof.
    intros H. destruct (feqb x 0) eqn:E; [now apply feqb_eq|]. exfalso.
    assert (x <> 0) by (intros ->; rewrite (proj2 (feqb_eq K 0 0) eq_refl) in E; discriminate).
    apply H0. transitivity (finv x * (x * x)); [field; auto|]. rewrite H. ring.
  Qed.

  (** The polynomial identities behind the group law, with explicit cofactors. *)
  Definition ev (x y : K) : K := A * x * x + y * y - 1 - D * x * x * y * y.
  Lemma on_ev x y : on (x, y) -> ev x y = 0.
  Proof. unfold on, ev. cbn. intros H. rewrite H. ring. Qed.
  Lemma poly_closure (x1 y1 x2 y2 : K) : ev x1 y1 = 0 -> ev x2 y2 = 0 ->
    let n := x1 * y2 + x2 * y1 in let m := y1 * y2 - A * x1 * x2 in
    let dp := 1 + D * x1 * y1 * x2 * y2 in let dm := 1 - D * x1 * y1 * x2 * y2 in
    A * (n * n) * (dm * dm) + m * m * (dp * dp) - dp * dp * (dm * dm) - D * (n * n) * (m * m) = 0.
  Proof.
    intros H1 H2 n m dp dm.
    transitivity (
      (0 - A*A*D*x1*x1*x2*x2*x2*x2*y2*y2 - (1+1)*A*A*x2*x2*x2*x2*y2*y2 + A*A*x2*x2*x2*x2 +
          A*D*D*x1*x1*x2*x2*x2*x2*y2*y2*y2*y2 - A*D*x1*x1*x2*x2*y2*y2*y2*y2 - A*D*y1*y1*x2*x2*x2*x2*y2*y2 +
          (1+1)*A*D*x2*x2*x2*x2*y2*y2*y2*y2 - (1+1)*A*x2*x2*y2*y2*y2*y2 + (1+1+1+1)*A*x2*x2*y2*y2 +
          D*D*D*x1*x1*y1*y1*x2*x2*x2*x2*y2*y2*y2*y2 + D*D*y1*y1*x2*x2*x2*x2*y2*y2*y2*y2 - D*D*x2*x2*x2*x2*y2*y2*y2*y2 -
          D*y1*y1*x2*x2*y2*y2*y2*y2 - (1+1)*D*x2*x2*y2*y2 + y2*y2*y2*y2) * ev x1 y1
      + (A*A*D*x1*x1*x1*x1*x2*x2*y2*y2 + (1+1)*A*A*x1*x1*x2*x2*y2*y2 - A*A*x1*x1*x2*x2 - (1+1)*A*D*x1*x1*x2*x2*y2*y2 -
          A*x1*x1*y2*y2 + (1+1)*A*y1*y1*x2*x2*y2*y2 - A*y1*y1*x2*x2 - (1+1)*A*x2*x2*y2*y2 + A*x2*x2 +
          D*y1*y1*y1*y1*x2*x2*y2*y2 - (1+1)*D*y1*y1*x2*x2*y2*y2 + D*x2*x2*y2*y2 - y1*y1*y2*y2 + y2*y2 + 1) * ev x2 y2).
    - unfold n, m, dp, dm, ev. ring.
    - rewrite H1, H2. ring.
  Qed.

  Lemma poly_assoc_x (x1 y1 x2 y2 x3 y3 : K) : ev x1 y1 = 0 -> ev x2 y2 = 0 -> ev x3 y3 = 0 ->
    let n12 := x1 * y2 + x2 * y1 in let m12 := y1 * y2 - A * x1 * x2 in
    let p12 := 1 + D * x1 * y1 * x2 * y2 in let q12 := 1 - D * x1 * y1 * x2 * y2 in
    let n23 := x2 * y3 + x3 * y2 in let m23 := y2 * y3 - A * x2 * x3 in
    let p23 := 1 + D * x2 * y2 * x3 * y3 in let q23 := 1 - D * x2 * y2 * x3 * y3 in
    (n12 * q12 * y3 + x3 * m12 * p12) * (p23 * q23 + D * n23 * m23 * x1 * y1)
    - (x1 * m23 * p23 + n23 * q23 * y1) * (p12 * q12 + D * n12 * m12 * x3 * y3) = 0.
  Proof.
    intros H1 H2 H3 n12 m12 p12 q12 n23 m23 p23 q23.
    transitivity (
      (0 - A*A*D*x1*x2*x2*x2*x2*y2*x3*x3*y3 - A*A*D*x1*x2*x2*x2*y2*y2*x3*x3*x3 +
          A*D*D*x1*x2*x2*x2*x2*y2*y2*y2*x3*x3*y3 + A*D*x1*x2*x2*x2*y2*y2*x3 - A*D*y1*x2*x2*x2*x2*y2*x3*y3*y3 +
          A*D*y1*x2*x2*y2*y2*y2*x3*x3*x3 - D*D*x1*x2*x2*x2*y2*y2*y2*y2*x3*y3*y3 + D*D*y1*x2*x2*x2*x2*y2*y2*y2*x3*y3*y3 +
          D*D*y1*x2*x2*x2*y2*y2*y2*y2*x3*x3*y3 + D*x1*x2*x2*y2*y2*y2*y3*y3*y3 - D*x1*x2*x2*y2*y2*y2*y3 +
          D*x1*x2*y2*y2*y2*y2*x3*y3*y3 + D*y1*x2*x2*x2*y2*y2*y3*y3*y3 - D*y1*x2*x2*x2*y2*y2*y3 - D*y1*x2*x2*y2*y2*y2*x3
          - D*y1*x2*y2*y2*y2*y2*x3*x3*y3) * ev x1 y1
      + (0 - A*A*A*x1*x1*x1*x2*x3*x3*x3 + A*A*D*x1*x1*x1*x2*x2*y2*x3*x3*y3 + A*A*D*x1*x1*x1*x2*x3*x3*x3*y3*y3 -
          A*A*x1*x1*x1*x2*x3*y3*y3 + A*A*x1*x1*x1*x2*x3 + A*A*x1*x1*x1*y2*x3*x3*y3 + A*A*x1*x1*y1*x2*x3*x3*y3 +
          A*A*x1*x1*y1*y2*x3*x3*x3 - A*A*x1*y1*y1*x2*x3*x3*x3 + A*A*x1*x2*x3*x3*x3 -
          A*D*D*x1*x1*y1*x2*x2*y2*x3*x3*x3*y3*y3 - A*D*x1*x1*x1*x2*y2*y2*x3*y3*y3 - A*D*x1*x1*x1*y2*x3*x3*y3*y3*y3 +
          A*D*x1*x1*y1*x2*x2*y2*x3*y3*y3 + A*D*x1*x1*y1*x2*y2*y2*x3*x3*y3 - A*D*x1*x1*y1*x2*x3*x3*y3*y3*y3 -
          A*D*x1*x1*y1*y2*x3*x3*x3*y3*y3 + A*D*x1*y1*y1*x2*x2*y2*x3*x3*y3 + A*D*x1*y1*y1*x2*x3*x3*x3*y3*y3 -
          A*D*x1*x2*x2*y2*x3*x3*y3 - A*D*x1*x2*x3*x3*x3*y3*y3 + A*x1*x1*x1*y2*y3*y3*y3 - A*x1*x1*x1*y2*y3 +
          A*x1*x1*y1*x2*y3*y3*y3 - A*x1*x1*y1*x2*y3 + A*x1*x1*y1*y2*x3*y3*y3 - A*x1*x1*y1*y2*x3 - A*x1*y1*y1*x2*x3*y3*y3
          + A*x1*y1*y1*x2*x3 + A*x1*y1*y1*y2*x3*x3*y3 + A*x1*x2*x3*y3*y3 - A*x1*x2*x3 - A*x1*y2*x3*x3*y3 +
          A*y1*y1*y1*x2*x3*x3*y3 + A*y1*y1*y1*y2*x3*x3*x3 - A*y1*x2*x3*x3*y3 - A*y1*y2*x3*x3*x3 -
          D*D*x1*x1*y1*x2*y2*y2*x3*x3*y3*y3*y3 - D*D*x1*y1*y1*x2*x2*y2*x3*x3*y3*y3*y3 +
          D*D*x1*y1*y1*x2*y2*y2*x3*x3*x3*y3*y3 - D*x1*y1*y1*x2*y2*y2*x3*y3*y3 - D*x1*y1*y1*y2*x3*x3*y3*y3*y3 +
          D*x1*x2*y2*y2*x3*y3*y3 + D*x1*y2*x3*x3*y3*y3*y3 + D*y1*y1*y1*x2*x2*y2*x3*y3*y3 + D*y1*y1*y1*x2*y2*y2*x3*x3*y3
          - D*y1*y1*y1*x2*x3*x3*y3*y3*y3 - D*y1*y1*y1*y2*x3*x3*x3*y3*y3 - D*y1*x2*x2*y2*x3*y3*y3 -
          D*y1*x2*y2*y2*x3*x3*y3 + D*y1*x2*x3*x3*y3*y3*y3 + D*y1*y2*x3*x3*x3*y3*y3 + x1*y1*y1*y2*y3*y3*y3 -
          x1*y1*y1*y2*y3 - x1*y2*y3*y3*y3 + x1*y2*y3 + y1*y1*y1*x2*y3*y3*y3 - y1*y1*y1*x2*y3 + y1*y1*y1*y2*x3*y3*y3 -
          y1*y1*y1*y2*x3 - y1*x2*y3*y3*y3 + y1*x2*y3 - y1*y2*x3*y3*y3 + y1*y2*x3) * ev x2 y2
      + (A*A*A*x1*x1*x1*x2*x2*x2*x3 - A*A*x1*x1*x1*x2*x2*y2*y3 + A*A*x1*x1*x1*x2*y2*y2*x3 - A*A*x1*x1*x1*x2*x3 -
          A*A*x1*x1*y1*x2*x2*x2*y3 - A*A*x1*x1*y1*x2*x2*y2*x3 + A*A*x1*y1*y1*x2*x2*x2*x3 - A*A*x1*x2*x2*x2*x3 +
          A*D*x1*x1*y1*x2*x2*y2*x3 - A*x1*x1*x1*y2*y2*y2*y3 + A*x1*x1*x1*y2*y3 - A*x1*x1*y1*x2*y2*y2*y3 +
          A*x1*x1*y1*x2*y3 - A*x1*x1*y1*y2*y2*y2*x3 + A*x1*x1*y1*y2*x3 - A*x1*y1*y1*x2*x2*y2*y3 + A*x1*y1*y1*x2*y2*y2*x3
          - A*x1*y1*y1*x2*x3 + A*x1*x2*x2*y2*y3 - A*x1*x2*y2*y2*x3 + A*x1*x2*x3 - A*y1*y1*y1*x2*x2*x2*y3 -
          A*y1*y1*y1*x2*x2*y2*x3 + A*y1*x2*x2*x2*y3 + A*y1*x2*x2*y2*x3 + D*x1*x1*y1*x2*y2*y2*y3 + D*x1*y1*y1*x2*x2*y2*y3
          - D*x1*y1*y1*x2*y2*y2*x3 - x1*y1*y1*y2*y2*y2*y3 + x1*y1*y1*y2*y3 + x1*y2*y2*y2*y3 - x1*y2*y3 -
          y1*y1*y1*x2*y2*y2*y3 + y1*y1*y1*x2*y3 - y1*y1*y1*y2*y2*y2*x3 + y1*y1*y1*y2*x3 + y1*x2*y2*y2*y3 - y1*x2*y3 +
          y1*y2*y2*y2*x3 - y1*y2*x3) * ev x3 y3).
    - unfold n12, m12, p12, q12, n23, m23, p23, q23, ev. ring.
    - rewrite H1, H2, H3. ring.
  Qed.

  Lemma poly_assoc_y (x1 y1 x2 y2 x3 y3 : K) : ev x1 y1 = 0 -> ev x2 y2 = 0 -> ev x3 y3 = 0 ->
    let n12 := x1 * y2 + x2 * y1 in let m12 := y1 * y2 - A * x1 * x2 in
    let p12 := 1 + D * x1 * y1 * x2 * y2 in let q12 := 1 - D * x1 * y1 * x2 * y2 in
    let n23 := x2 * y3 + x3 * y2 in let m23 := y2 * y3 - A * x2 * x3 in
    let p23 := 1 + D * x2 * y2 * x3 * y3 in let q23 := 1 - D * x2 * y2 * x3 * y3 in
    (m12 * p12 * y3 - A * n12 * q12 * x3) * (p23 * q23 - D * n23 * m23 * x1 * y1)
    - (y1 * m23 * p23 - A * x1 * n23 * q23) * (p12 * q12 - D * n12 * m12 * x3 * y3) = 0.
  Proof.
    intros H1 H2 H3 n12 m12 p12 q12 n23 m23 p23 q23.
    transitivity (
      (A*A*D*x1*x2*x2*x2*x2*y2*x3*y3*y3 - A*A*D*x1*x2*x2*y2*y2*y2*x3*x3*x3 - A*A*D*y1*x2*x2*x2*x2*y2*x3*x3*y3 -
          A*A*D*y1*x2*x2*x2*y2*y2*x3*x3*x3 - A*D*D*x1*x2*x2*x2*x2*y2*y2*y2*x3*y3*y3 -
          A*D*D*x1*x2*x2*x2*y2*y2*y2*y2*x3*x3*y3 + A*D*D*y1*x2*x2*x2*x2*y2*y2*y2*x3*x3*y3 -
          A*D*x1*x2*x2*x2*y2*y2*y3*y3*y3 + A*D*x1*x2*x2*x2*y2*y2*y3 + A*D*x1*x2*x2*y2*y2*y2*x3 +
          A*D*x1*x2*y2*y2*y2*y2*x3*x3*y3 + A*D*y1*x2*x2*x2*y2*y2*x3 - D*D*y1*x2*x2*x2*y2*y2*y2*y2*x3*y3*y3 +
          D*y1*x2*x2*y2*y2*y2*y3*y3*y3 - D*y1*x2*x2*y2*y2*y2*y3 + D*y1*x2*y2*y2*y2*y2*x3*y3*y3) * ev x1 y1
      + (0 - A*A*A*x1*x1*x1*x2*x3*x3*y3 - A*A*A*x1*x1*x1*y2*x3*x3*x3 - A*A*A*x1*x1*y1*x2*x3*x3*x3 -
          A*A*D*x1*x1*x1*x2*x2*y2*x3*y3*y3 - A*A*D*x1*x1*x1*x2*y2*y2*x3*x3*y3 + A*A*D*x1*x1*x1*x2*x3*x3*y3*y3*y3 +
          A*A*D*x1*x1*x1*y2*x3*x3*x3*y3*y3 + A*A*D*x1*x1*y1*x2*x2*y2*x3*x3*y3 + A*A*D*x1*x1*y1*x2*x3*x3*x3*y3*y3 -
          A*A*x1*x1*x1*x2*y3*y3*y3 + A*A*x1*x1*x1*x2*y3 - A*A*x1*x1*x1*y2*x3*y3*y3 + A*A*x1*x1*x1*y2*x3 -
          A*A*x1*x1*y1*x2*x3*y3*y3 + A*A*x1*x1*y1*x2*x3 + A*A*x1*x1*y1*y2*x3*x3*y3 - A*A*x1*y1*y1*x2*x3*x3*y3 -
          A*A*x1*y1*y1*y2*x3*x3*x3 + A*A*x1*x2*x3*x3*y3 + A*A*x1*y2*x3*x3*x3 - A*A*y1*y1*y1*x2*x3*x3*x3 +
          A*A*y1*x2*x3*x3*x3 - A*D*D*x1*x1*y1*x2*x2*y2*x3*x3*y3*y3*y3 + A*D*D*x1*x1*y1*x2*y2*y2*x3*x3*x3*y3*y3 +
          A*D*D*x1*y1*y1*x2*x2*y2*x3*x3*x3*y3*y3 - A*D*x1*x1*y1*x2*y2*y2*x3*y3*y3 - A*D*x1*x1*y1*y2*x3*x3*y3*y3*y3 -
          A*D*x1*y1*y1*x2*x2*y2*x3*y3*y3 - A*D*x1*y1*y1*x2*y2*y2*x3*x3*y3 + A*D*x1*y1*y1*x2*x3*x3*y3*y3*y3 +
          A*D*x1*y1*y1*y2*x3*x3*x3*y3*y3 + A*D*x1*x2*x2*y2*x3*y3*y3 + A*D*x1*x2*y2*y2*x3*x3*y3 -
          A*D*x1*x2*x3*x3*y3*y3*y3 - A*D*x1*y2*x3*x3*x3*y3*y3 + A*D*y1*y1*y1*x2*x2*y2*x3*x3*y3 +
          A*D*y1*y1*y1*x2*x3*x3*x3*y3*y3 - A*D*y1*x2*x2*y2*x3*x3*y3 - A*D*y1*x2*x3*x3*x3*y3*y3 + A*x1*x1*y1*y2*y3*y3*y3
          - A*x1*x1*y1*y2*y3 - A*x1*y1*y1*x2*y3*y3*y3 + A*x1*y1*y1*x2*y3 - A*x1*y1*y1*y2*x3*y3*y3 + A*x1*y1*y1*y2*x3 +
          A*x1*x2*y3*y3*y3 - A*x1*x2*y3 + A*x1*y2*x3*y3*y3 - A*x1*y2*x3 - A*y1*y1*y1*x2*x3*y3*y3 + A*y1*y1*y1*x2*x3 +
          A*y1*y1*y1*y2*x3*x3*y3 + A*y1*x2*x3*y3*y3 - A*y1*x2*x3 - A*y1*y2*x3*x3*y3 +
          D*D*x1*y1*y1*x2*y2*y2*x3*x3*y3*y3*y3 - D*y1*y1*y1*x2*y2*y2*x3*y3*y3 - D*y1*y1*y1*y2*x3*x3*y3*y3*y3 +
          D*y1*x2*y2*y2*x3*y3*y3 + D*y1*y2*x3*x3*y3*y3*y3 + y1*y1*y1*y2*y3*y3*y3 - y1*y1*y1*y2*y3 - y1*y2*y3*y3*y3 +
          y1*y2*y3) * ev x2 y2
      + (A*A*A*x1*x1*x1*x2*x2*x2*y3 + A*A*A*x1*x1*x1*x2*x2*y2*x3 + A*A*A*x1*x1*y1*x2*x2*x2*x3 +
          A*A*x1*x1*x1*x2*y2*y2*y3 - A*A*x1*x1*x1*x2*y3 + A*A*x1*x1*x1*y2*y2*y2*x3 - A*A*x1*x1*x1*y2*x3 -
          A*A*x1*x1*y1*x2*x2*y2*y3 + A*A*x1*x1*y1*x2*y2*y2*x3 - A*A*x1*x1*y1*x2*x3 + A*A*x1*y1*y1*x2*x2*x2*y3 +
          A*A*x1*y1*y1*x2*x2*y2*x3 - A*A*x1*x2*x2*x2*y3 - A*A*x1*x2*x2*y2*x3 + A*A*y1*y1*y1*x2*x2*x2*x3 -
          A*A*y1*x2*x2*x2*x3 + A*D*x1*x1*y1*x2*x2*y2*y3 - A*D*x1*x1*y1*x2*y2*y2*x3 - A*D*x1*y1*y1*x2*x2*y2*x3 -
          A*x1*x1*y1*y2*y2*y2*y3 + A*x1*x1*y1*y2*y3 + A*x1*y1*y1*x2*y2*y2*y3 - A*x1*y1*y1*x2*y3 + A*x1*y1*y1*y2*y2*y2*x3
          - A*x1*y1*y1*y2*x3 - A*x1*x2*y2*y2*y3 + A*x1*x2*y3 - A*x1*y2*y2*y2*x3 + A*x1*y2*x3 - A*y1*y1*y1*x2*x2*y2*y3 +
          A*y1*y1*y1*x2*y2*y2*x3 - A*y1*y1*y1*x2*x3 + A*y1*x2*x2*y2*y3 - A*y1*x2*y2*y2*x3 + A*y1*x2*x3 -
          D*x1*y1*y1*x2*y2*y2*y3 - y1*y1*y1*y2*y2*y2*y3 + y1*y1*y1*y2*y3 + y1*y2*y2*y2*y3 - y1*y2*y3) * ev x3 y3).
    - unfold n12, m12, p12, q12, n23, m23, p23, q23, ev. ring.
    - rewrite H1, H2, H3. ring.
  Qed.

  (** A set of points of the curve on which the law is defined and which is closed under it.
      On a complete curve all points are such a set; on the other curves in use (BLS12-377 in
      Edwards form, where [A] and [D] are squares, and Bandersnatch, where neither is) it
      is the subgroup of prime order. *)
  Record law : Type := {
    lw_in : pt -> bool;
    lw_on : forall P, lw_in P = true -> on P;
    lw_0 : lw_in t0 = true;
    lw_opp : forall P, lw_in P = true -> lw_in (topp P) = true;
    lw_add : forall P Q, lw_in P = true -> lw_in Q = true -> lw_in (tadd P Q) = true;
    lw_den : forall P Q, lw_in P = true -> lw_in Q = true -> 1 + tz P Q <> 0 /\ 1 - tz P Q <> 0 }.
  Definition ins (HL : law) (P : pt) : Prop := lw_in HL P = true.

  Lemma on_tadd P Q : on P -> on Q -> 1 + tz P Q <> 0 -> 1 - tz P Q <> 0 -> on (tadd P Q).
  Proof.
    intros HP HQ N1 N2. revert HP HQ N1 N2.
    destruct P as [x1 y1], Q as [x2 y2]. intros HP HQ. pose proof (poly_closure x1 y1 x2 y2 (on_ev _ _ HP) (on_ev _ _ HQ)) as E.
    cbv zeta in E. revert E. unfold on, tadd, tz. cbn [fst snd].
    set (n := x1 * y2 + x2 * y1). set (m := y1 * y2 - A * x1 * x2).
    set (dp := 1 + D * x1 * y1 * x2 * y2). set (dm := 1 - D * x1 * y1 * x2 * y2).
    clearbody n m dp dm. intros E N1 N2.
    replace (A * (n / dp) * (n / dp) + m / dm * (m / dm))
      with ((A * (n * n) * (dm * dm) + m * m * (dp * dp) - dp * dp * (dm * dm) - D * (n * n) * (m * m)) / (dp * dp * dm * dm)
            + (1 + D * (n / dp) * (n / dp) * (m / dm) * (m / dm))) by (field; auto).
    rewrite E. field. auto.
  Qed.
  Section Complete.
    Hypothesis HC : complete.

    (** If a denominator is zero, [D] is a square. *)
    Lemma den_aux (x1 y1 x2 y2 s z : K) : s * s = A -> on (x1, y1) -> on (x2, y2) ->
      z = D * x1 * y1 * x2 * y2 -> z * z = 1 -> s * x2 + y2 <> 0 -> False.
    Proof.
      unfold on. cbn. intros Hs H1 H2 Hz Hz1 Hne.
      assert (E1 : (s * x1 + z * y1) * (s * x1 + z * y1) = D * (x1 * y1 * (s * x2 + y2)) * (x1 * y1 * (s * x2 + y2))).
      { transitivity (A * x1 * x1 + y1 * y1 + (1 + 1) * z * s * x1 * y1).
        - replace ((s * x1 + z * y1) * (s * x1 + z * y1)) with (s * s * x1 * x1 + (z * z) * y1 * y1 + (1 + 1) * z * s * x1 * y1) by ring.
          rewrite Hs, Hz1. ring.
        - replace (D * (x1 * y1 * (s * x2 + y2)) * (x1 * y1 * (s * x2 + y2)))
            with (D * x1 * x1 * y1 * y1 * (s * s * x2 * x2 + y2 * y2) + (1 + 1) * (D * x1 * y1 * x2 * y2) * s * x1 * y1) by ring.
          rewrite Hs, H2, <- Hz.
          replace (D * x1 * x1 * y1 * y1 * (1 + D * x2 * x2 * y2 * y2))
            with (D * x1 * x1 * y1 * y1 + (D * x1 * y1 * x2 * y2) * (D * x1 * y1 * x2 * y2)) by ring.
          rewrite <- Hz, Hz1, H1. ring. }
      assert (N : x1 * y1 * (s * x2 + y2) <> 0).
      { assert (Hxy : x1 * y1 <> 0).
        { intros Hxy. apply (f1_neq_0 K). rewrite <- Hz1, Hz.
          replace (D * x1 * y1 * x2 * y2) with (D * (x1 * y1) * x2 * y2) by ring. rewrite Hxy. ring. }
        intros H0. apply Hne. apply (fmul_cancel_l K (x1 * y1)); auto. rewrite H0. ring. }
      set (u := x1 * y1 * (s * x2 + y2)) in *.
      apply (cp_nonsq HC ((s * x1 + z * y1) / u)).
      replace ((s * x1 + z * y1) / u * ((s * x1 + z * y1) / u)) with ((s * x1 + z * y1) * (s * x1 + z * y1) / (u * u)) by (field; auto).
      rewrite E1. field. auto.
    Qed.
    Lemma den (P Q : pt) : on P -> on Q -> tz P Q * tz P Q <> 1.
    Proof.
      destruct P as [x1 y1], Q as [x2 y2]. intros H1 H2 Hz. unfold tz in Hz. cbn in Hz.
      destruct (cp_sq HC) as [s Hs].
      destruct (feqb (s * x2 + y2) 0) eqn:E1.
      - apply feqb_eq in E1. destruct (feqb (- s * x2 + y2) 0) eqn:E2.
        + apply feqb_eq in E2. assert (H : (1 + 1) * y2 = 0) by (replace ((1 + 1) * y2) with ((s * x2 + y2) + (- s * x2 + y2)) by ring; rewrite E1, E2; ring).
          assert (Hy : y2 = 0) by (apply (fmul_cancel_l K (1 + 1)); [apply (cp_two HC)|rewrite H; ring]).
          apply (f1_neq_0 K). rewrite <- Hz, Hy. ring.
        + apply (den_aux x1 y1 x2 y2 (- s) (D * x1 * y1 * x2 * y2)); auto; [rewrite <- Hs; ring|].
          intros H. rewrite H, (proj2 (feqb_eq K 0 0) eq_refl) in E2. discriminate.
      - apply (den_aux x1 y1 x2 y2 s (D * x1 * y1 * x2 * y2)); auto.
        intros H. rewrite H, (proj2 (feqb_eq K 0 0) eq_refl) in E1. discriminate.
    Qed.
    Lemma cden_p P Q : on P -> on Q -> 1 + tz P Q <> 0.
    Proof.
      intros H1 H2 H. apply (den P Q H1 H2).
      replace (tz P Q) with (1 + tz P Q - 1) by ring. rewrite H. ring.
    Qed.
    Lemma cden_m P Q : on P -> on Q -> 1 - tz P Q <> 0.
    Proof.
      intros H1 H2 H. apply (den P Q H1 H2).
      replace (tz P Q) with (1 - (1 - tz P Q)) by ring. rewrite H. ring.
    Qed.

    Lemma con_add P Q : on P -> on Q -> on (tadd P Q).
    Proof. intros HP HQ. apply on_tadd; auto using cden_p, cden_m. Qed.
    Definition onb (P : pt) : bool := feqb (A * fst P * fst P + snd P * snd P) (1 + D * fst P * fst P * snd P * snd P).
    Lemma onb_on P : onb P = true <-> on P.
    Proof. unfold onb, on. apply feqb_eq. Qed.
    Definition complete_law : law.
    Proof.
      refine {| lw_in := onb |}.
      - intros P. apply onb_on.
      - apply onb_on, on_0.
      - intros P. rewrite !onb_on. apply on_opp.
      - intros P Q. rewrite !onb_on. apply con_add.
      - intros P Q. rewrite !onb_on. auto using cden_p, cden_m.
    Defined.
    Lemma complete_law_in P : ins complete_law P <-> on P.
    Proof. apply onb_on. Qed.
  End Complete.

  Section Law.
    Hypothesis HL : law.
    Notation ins := (ins HL).
    Lemma ins_on P : ins P -> on P.
    Proof. apply lw_on. Qed.
    Lemma den_p P Q : ins P -> ins Q -> 1 + tz P Q <> 0.
    Proof. intros H1 H2. now apply (lw_den HL). Qed.
    Lemma den_m P Q : ins P -> ins Q -> 1 - tz P Q <> 0.
    Proof. intros H1 H2. now apply (lw_den HL). Qed.
    Lemma on_add P Q : ins P -> ins Q -> ins (tadd P Q).
    Proof. apply lw_add. Qed.
    Lemma ins_opp P : ins P -> ins (topp P).
    Proof. apply lw_opp. Qed.
    Lemma tadd_comm P Q : tadd P Q = tadd Q P.
    Proof.
      unfold tadd. replace (tz Q P) with (tz P Q) by (unfold tz; ring). f_equal; f_equal; ring.
    Qed.
    Lemma tadd_0_l P : tadd t0 P = P.
    Proof.
      destruct P as [x y]. unfold tadd, t0, tz. cbn [fst snd]. 
      replace (1 + D * 0 * 1 * x * y) with (1 : K) by ring. replace (1 - D * 0 * 1 * x * y) with (1 : K) by ring.
      f_equal; field; apply (f1_neq_0 K).
    Qed.
    Lemma tadd_opp P : ins P -> tadd P (topp P) = t0.
    Proof.
      intros HP. pose proof (den_m P (topp P) HP (ins_opp P HP)) as N. apply ins_on in HP. revert HP N.
      destruct P as [x y]. unfold tadd, topp, t0, tz, on. cbn [fst snd]. intros HP N. f_equal.
      - replace (x * y + - x * y) with (0 : K) by ring. rewrite (Fdiv_def (fth K)). ring.
      - replace (y * y - A * x * - x) with (1 - D * x * y * - x * y) by (transitivity (A * x * x + y * y); [rewrite HP|]; ring).
        field. auto.
    Qed.
    Lemma frac_eq (a b c d : K) : b <> 0 -> d <> 0 -> a * d - c * b = 0 -> a / b = c / d.
    Proof.
      intros Hb Hd H. replace (a / b) with ((a * d - c * b) / (b * d) + c / d) by (field; auto). rewrite H. field; auto.
    Qed.
    Lemma tadd_assoc P Q R : ins P -> ins Q -> ins R -> tadd P (tadd Q R) = tadd (tadd P Q) R.
    Proof.
      intros HP HQ HR.
      pose proof (den_p P Q HP HQ) as N1. pose proof (den_m P Q HP HQ) as N2.
      pose proof (den_p Q R HQ HR) as N3. pose proof (den_m Q R HQ HR) as N4.
      pose proof (den_p P (tadd Q R) HP (on_add Q R HQ HR)) as M1. pose proof (den_m P (tadd Q R) HP (on_add Q R HQ HR)) as M2.
      pose proof (den_p (tadd P Q) R (on_add P Q HP HQ) HR) as M3. pose proof (den_m (tadd P Q) R (on_add P Q HP HQ) HR) as M4.
      apply ins_on in HP, HQ, HR.
      revert HP HQ HR N1 N2 N3 N4 M1 M2 M3 M4.
      destruct P as [x1 y1], Q as [x2 y2], R as [x3 y3]. intros HP HQ HR.
      pose proof (poly_assoc_x x1 y1 x2 y2 x3 y3 (on_ev _ _ HP) (on_ev _ _ HQ) (on_ev _ _ HR)) as EX.
      pose proof (poly_assoc_y x1 y1 x2 y2 x3 y3 (on_ev _ _ HP) (on_ev _ _ HQ) (on_ev _ _ HR)) as EY.
      cbv zeta in EX, EY. clear HP HQ HR. revert EX EY. unfold on, tadd, tz. cbn [fst snd].
      set (n12 := x1 * y2 + x2 * y1). set (m12 := y1 * y2 - A * x1 * x2).
      set (p12 := 1 + D * x1 * y1 * x2 * y2). set (q12 := 1 - D * x1 * y1 * x2 * y2).
      set (n23 := x2 * y3 + x3 * y2). set (m23 := y2 * y3 - A * x2 * x3).
      set (p23 := 1 + D * x2 * y2 * x3 * y3). set (q23 := 1 - D * x2 * y2 * x3 * y3).
      clearbody n12 m12 p12 q12 n23 m23 p23 q23.
      intros EX EY N1 N2 N3 N4 M1 M2 M3 M4.
      f_equal; apply frac_eq; auto.
      - match goal with |- ?l = 0 => replace l with (- ((n12 * q12 * y3 + x3 * m12 * p12) * (p23 * q23 + D * n23 * m23 * x1 * y1)
    - (x1 * m23 * p23 + n23 * q23 * y1) * (p12 * q12 + D * n12 * m12 * x3 * y3)) / (p12 * q12 * p23 * q23)) by (field; auto) end.
        rewrite EX. field; auto.
      - match goal with |- ?l = 0 => replace l with (- ((m12 * p12 * y3 - A * n12 * q12 * x3) * (p23 * q23 - D * n23 * m23 * x1 * y1)
    - (y1 * m23 * p23 - A * x1 * n23 * q23) * (p12 * q12 - D * n12 * m12 * x3 * y3)) / (p12 * q12 * p23 * q23)) by (field; auto) end.
        rewrite EY. field; auto.
    Qed.

    (** ** The group of points *)
    Definition cpt : Type := { P : pt | lw_in HL P = true }.
    Definition mkpt P (H : ins P) : cpt := exist _ P H.
    Definition cval (P : cpt) : pt := proj1_sig P.
    Lemma cval_on P : ins (cval P).
    Proof. apply (proj2_sig P). Qed.
    Lemma cpt_ext (P Q : cpt) : cval P = cval Q -> P = Q.
    Proof.
      destruct P as [P H], Q as [Q H']. cbn. intros <-. f_equal. apply (UIP_dec bool_dec).
    Qed.
    Lemma cval_mkpt P H : cval (mkpt P H) = P.
    Proof. reflexivity. Qed.
    Definition cadd (P Q : cpt) : cpt := mkpt (tadd (cval P) (cval Q)) (on_add _ _ (cval_on P) (cval_on Q)).
    Definition copp (P : cpt) : cpt := mkpt (topp (cval P)) (ins_opp _ (cval_on P)).
    Definition peqb (P Q : pt) : bool := feqb (fst P) (fst Q) && feqb (snd P) (snd Q).
    Lemma peqb_eq P Q : peqb P Q = true <-> P = Q.
    Proof.
      unfold peqb. rewrite andb_true_iff, !feqb_eq. destruct P, Q. cbn. split; [intros [-> ->]; auto|].
      intros H. injection H. auto.
    Qed.
    Definition curve : agrp.
    Proof.
      refine {| gcar := cpt; g0 := mkpt t0 (lw_0 HL); gadd := cadd; gopp := copp; geqb := fun P Q => peqb (cval P) (cval Q) |}.
      - intros P Q. apply cpt_ext. cbn. apply tadd_comm.
      - intros P Q R. apply cpt_ext. cbn. apply tadd_assoc; apply cval_on.
      - intros P. apply cpt_ext. cbn. apply tadd_0_l.
      - intros P. apply cpt_ext. cbn. apply tadd_opp, cval_on.
      - intros P Q. rewrite peqb_eq. split; [apply cpt_ext|intros ->; auto].
    Defined.
  End Law.
End Edwards.
