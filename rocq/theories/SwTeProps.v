(** C87: the conversion of points from short Weierstrass to twisted Edwards form
    (relation/src/gadgets/ecc/conversion.rs), the group law under it, and the Edwards form
    of BLS12-377 that the verifier circuit computes in. *)

From Coq Require Import List Arith ZArith Znumtheory Bool Lia Ring Field.
From Verif Require Import Base ListAux Alg Group FiniteField Poly PlonkModel CircuitModel CircuitProofs GadgetModel GadgetProofs SatProofs SatGadget CircuitProps
  Edwards EccModel EccProofs EccProps PlonkLin TranscriptModel TranscriptGadgetProps.
Import ListNotations.
Local Open Scope fld_scope.

(** ** Montgomery coordinates *)
Section Montgomery.
  Variable K : fld.
  Add Field Ksw : (fth K).
  Lemma fm0_r (x : K) : x * 0 = 0. Proof. ring. Qed.
  Lemma fm0_l (x : K) : 0 * x = 0. Proof. ring. Qed.
  Lemma div_eq (a b l : K) : b <> 0 -> l * b = a -> a / b = l. Proof. intros N <-. field. exact N. Qed.
  Lemma on_of_eq (A D x y : K) : A * (x * x) + y * y = 1 + D * (x * x) * (y * y) -> on K A D (x, y).
  Proof. unfold on. cbn [fst snd]. intros E. transitivity (A * (x * x) + y * y); [ring|]. rewrite E. ring. Qed.
  Variables A B : K.
  Notation mont u v := (B*v*v - u*u*u - A*u*u - u).
  (** The two identities behind the addition of two points with different abscissas. *)
  Lemma chord_y u1 v1 u2 v2 : mont u1 v1 = 0 -> mont u2 v2 = 0 ->
    let dl := u2 - u1 in let U := B*(v2 - v1)*(v2 - v1) - (A + u1 + u2)*dl*dl in
    let num := B*v1*v2*(u1 - 1)*(u2 - 1) - (A + (1+1))*u1*u2*(u1 + 1)*(u2 + 1) in
    let den := B*v1*v2*(u1 + 1)*(u2 + 1) - (A - (1+1))*u1*u2*(u1 - 1)*(u2 - 1) in
    (U - dl*dl)*den = (U + dl*dl)*num.
  Proof.
    intros H1 H2 dl U num den.
    transitivity ((U + dl*dl)*num + (0 + (1+1+1+1)*u1*u2 + (1+1+1+1)*u1*u1*u2*u2 - (1+1+1+1)*B*u2*v2*v2 + (1+1)*B*v1*u2*v2 - (1+1+1+1)*B*u1*v2*v2 +
          (1+1)*B*u1*v1*v2 + (1+1)*A*u1*u2*u2 + (1+1)*A*u1*u1*u2) * mont u1 v1
      + (0 - (1+1+1+1)*u1*u1 + (1+1+1+1)*u1*u1*u2*u2 - (1+1+1+1)*u1*u1*u1*u2 - (1+1+1+1)*u1*u1*u1*u1 + (1+1)*B*v1*u2*v2 +
          (1+1)*B*u1*v1*v2 + (1+1)*A*u1*u2*u2 - (1+1)*A*u1*u1*u2 - (1+1+1+1)*A*u1*u1*u1) * mont u2 v2).
    - unfold U, num, den, dl. ring.
    - rewrite H1, H2. ring.
  Qed.
  Lemma chord_x u1 v1 u2 v2 : mont u1 v1 = 0 -> mont u2 v2 = 0 ->
    let dl := u2 - u1 in let U := B*(v2 - v1)*(v2 - v1) - (A + u1 + u2)*dl*dl in
    let num := u1*v2*(u2 - 1)*(u1 + 1) + u2*v1*(u1 - 1)*(u2 + 1) in
    let den := B*v1*v2*(u1 + 1)*(u2 + 1) + (A - (1+1))*u1*u2*(u1 - 1)*(u2 - 1) in
    U*dl*den = B*num*((v2 - v1)*(u1*dl*dl - U) - v1*dl*dl*dl).
  Proof.
    intros H1 H2 dl U num den.
    transitivity (B*num*((v2 - v1)*(u1*dl*dl - U) - v1*dl*dl*dl) + (0 - (1+1)*u2*u2*u2*u2 - (1+1)*u2*u2*u2*u2*u2 + u1*u2 - u1*u2*u2 + (1+1+1+1+1)*u1*u2*u2*u2 + (1+1+1+1+1)*u1*u2*u2*u2*u2 +
          (1+1)*u1*u2*u2*u2*u2*u2 + u1*u1*u2 - u1*u1*u2*u2 - (1+1+1+1+1)*u1*u1*u2*u2*u2 - (1+1+1)*u1*u1*u2*u2*u2*u2 -
          (1+1)*u1*u1*u1*u2 + (1+1)*u1*u1*u1*u2*u2 + B*u2*v2*v2 + B*u2*u2*v2*v2 - (1+1)*B*v1*u2*v2 - (1+1)*B*v1*u2*u2*v2 +
          B*v1*v1*u2 + B*v1*v1*u2*u2 - B*u1*v2*v2 - (1+1+1+1+1)*B*u1*u2*u2*v2*v2 + (1+1)*B*u1*v1*u2*v2 +
          (1+1+1+1)*B*u1*v1*u2*u2*v2 - B*u1*v1*v1*u2 - B*u1*v1*v1*u2*u2 - B*u1*u1*v2*v2 + (1+1+1+1+1)*B*u1*u1*u2*v2*v2 -
          (1+1)*B*u1*u1*v1*u2*v2 - A*u2*u2*u2 - A*u2*u2*u2*u2 + (1+1+1)*A*u1*u2*u2 + (1+1)*A*u1*u2*u2*u2 + A*u1*u2*u2*u2*u2 -
          A*u1*u1*u2 - (1+1)*A*u1*u1*u2*u2 - A*u1*u1*u2*u2*u2 + A*u1*u1*u1*u2 - A*u1*u1*u1*u2*u2) * mont u1 v1
      + (0 + (1+1)*u1*u2*u2*u2 - u1*u1 + u1*u1*u2 - (1+1+1+1)*u1*u1*u2*u2 - (1+1)*u1*u1*u2*u2*u2 - u1*u1*u1 + u1*u1*u1*u2 +
          (1+1+1+1+1+1)*u1*u1*u1*u2*u2 + u1*u1*u1*u1 - (1+1+1+1+1)*u1*u1*u1*u1*u2 - (1+1)*u1*u1*u1*u1*u2*u2 + u1*u1*u1*u1*u1 +
          (1+1+1)*u1*u1*u1*u1*u1*u2 - B*u1*v2*v2 + B*u1*u2*v2*v2 + (1+1)*B*u1*v1*v2 - (1+1)*B*u1*v1*u2*v2 + (1+1)*B*u1*v1*u2*u2*v2
          - B*u1*u1*v2*v2 + B*u1*u1*u2*v2*v2 + (1+1)*B*u1*u1*v1*v2 - (1+1+1+1)*B*u1*u1*v1*u2*v2 + A*u1*u2*u2 - A*u1*u2*u2*u2 -
          (1+1)*A*u1*u1*u2 + (1+1+1)*A*u1*u1*u2*u2 + A*u1*u1*u2*u2*u2 - (1+1)*A*u1*u1*u1*u2 - (1+1+1+1)*A*u1*u1*u1*u2*u2 +
          (1+1+1+1)*A*u1*u1*u1*u1*u2) * mont u2 v2).
    - unfold U, num, den, dl. ring.
    - rewrite H1, H2. ring.
  Qed.
  (** Doubling. *)
  Lemma tangent_y u w : w = u*u*u + A*u*u + u ->
    let N := (1+1+1)*u*u + (1+1)*A*u + 1 in let U := N*N - (A + (1+1)*u)*((1+1+1+1)*w) in
    (U - (1+1+1+1)*w)*(w*(u + 1)*(u + 1) - (A - (1+1))*u*u*(u - 1)*(u - 1)) = (U + (1+1+1+1)*w)*(w*(u - 1)*(u - 1) - (A + (1+1))*u*u*(u + 1)*(u + 1)).
  Proof. intros -> N U. unfold U, N. ring. Qed.
  Lemma tangent_x u w : w = u*u*u + A*u*u + u ->
    let N := (1+1+1)*u*u + (1+1)*A*u + 1 in let U := N*N - (A + (1+1)*u)*((1+1+1+1)*w) in
    U*(w*(u + 1)*(u + 1) + (A - (1+1))*u*u*(u - 1)*(u - 1)) = (N*((1+1+1+1)*w*u - U) - (1+1+1+1+1+1+1+1)*w*w)*u*(u - 1)*(u + 1).
  Proof. intros -> N U. unfold U, N. ring. Qed.
End Montgomery.


(** ** The conversion *)
Section Conversion.
  (** A field, the curve [y^2 = x^3 + ca x + cb], the constants [S], [NEG_ALPHA] and [BETA] of
      the conversion, and the twisted Edwards curve. *)
  Variable K : fld.
  Add Field Kconv : (fth K).
  Variables ca cb s na be A D : K.
  Definition on_sw (P : option (K * K)) : Prop :=
    match P with None => True | Some (x, y) => y * y = x * x * x + ca * x + cb end.
  (** [- NEG_ALPHA] is a root of the cubic, [S] the inverse of a square root of its derivative
      there, and [BETA] scales the coefficients to [A] and [D]. *)
  Record converts : Prop := {
    cv_root : on_sw (Some (- na, 0));
    cv_s : s * s * ((1+1+1) * na * na + ca) = 1;
    cv_A : A * s * be * be = (1+1) - (1+1+1) * na * s;
    cv_D : D * s * be * be = - (1+1) - (1+1+1) * na * s;
    cv_two : (1 + 1 : K) <> 0 }.
  Hypothesis H : converts.
  (** The map between the curves, where it is defined. *)
  Definition image (P : option (K * K)) (p : K * K) : Prop :=
    match P with
    | None => p = (0, 1)
    | Some (x, y) => s * y <> 0 /\ s * (x + na) + 1 <> 0 /\ p = (be * (s * (x + na)) / (s * y), (s * (x + na) - 1) / (s * (x + na) + 1))
    end.
  (** The group law of the short Weierstrass curve. *)
  Definition sw_add (P Q : option (K * K)) : option (K * K) :=
    match P, Q with
    | None, _ => Q
    | _, None => P
    | Some (x1, y1), Some (x2, y2) =>
        if feqb x1 x2 && feqb (y1 + y2) 0 then None else
        let l := if feqb x1 x2 then ((1+1+1) * x1 * x1 + ca) / ((1+1) * y1) else (y2 - y1) / (x2 - x1) in
        let x3 := l * l - x1 - x2 in Some (x3, l * (x1 - x3) - y1)
    end.
  Definition sw_neg (P : option (K * K)) : option (K * K) := match P with None => None | Some (x, y) => Some (x, - y) end.

  Let B := s.
  Let Am : K := - ((1+1+1) * na * s).
  Lemma s_neq : s <> 0.
  Proof. intros E. pose proof (cv_s H) as X. rewrite E in X. apply (f1_neq_0 K). rewrite <- X. ring. Qed.
  Lemma be_neq : be <> 0.
  Proof.
    intros E. pose proof (cv_A H) as X. pose proof (cv_D H) as Y. rewrite E in X, Y. pose proof (cv_two H) as T.
    assert (Z : (1 + 1 : K) * (1 + 1) = 0).
    { transitivity (((1+1) - (1+1+1) * na * s) - (- (1+1) - (1+1+1) * na * s)); [ring|]. rewrite <- X, <- Y. ring. }
    apply T. apply (fmul_cancel_l K (1+1)); [exact T|]. rewrite Z. ring.
  Qed.
  Lemma AE : A = (Am + (1+1)) / (s * be * be).
  Proof. pose proof s_neq. pose proof be_neq. apply (fmul_cancel_l K (s * be * be)); [intros E; apply fmul_eq_0 in E as [E|E]; [apply fmul_eq_0 in E as [E|E]|]; auto|].
    transitivity (A * s * be * be); [ring|]. rewrite (cv_A H). unfold Am. field. auto. Qed.
  Lemma DE : D = (Am - (1+1)) / (s * be * be).
  Proof. pose proof s_neq. pose proof be_neq. apply (fmul_cancel_l K (s * be * be)); [intros E; apply fmul_eq_0 in E as [E|E]; [apply fmul_eq_0 in E as [E|E]|]; auto|].
    transitivity (D * s * be * be); [ring|]. rewrite (cv_D H). unfold Am. field. auto. Qed.
  (** Montgomery coordinates of a point of the curve. *)
  Lemma mont_of x y : on_sw (Some (x, y)) ->
    B * (s * y) * (s * y) - (s * (x + na)) * (s * (x + na)) * (s * (x + na)) - Am * (s * (x + na)) * (s * (x + na)) - s * (x + na) = 0.
  Proof.
    cbn [on_sw]. intros E. pose proof (cv_root H) as R. cbn [on_sw] in R. pose proof (cv_s H) as S.
    assert (C : cb = na * na * na + ca * na).
    { transitivity (0 * 0 + na * na * na + ca * na); [rewrite R|]; ring. }
    transitivity (s * s * s * (y * y) - s * s * s * (x + na) * (x + na) * (x + na) - Am * s * s * (x + na) * (x + na) - s * (x + na) * (s * s * ((1+1+1) * na * na + ca))).
    { rewrite S. unfold B. ring. }
    rewrite E, C. unfold Am. ring.
  Qed.

  Lemma image_fun P p p' : image P p -> image P p' -> p = p'.
  Proof. destruct P as [[x y]|]; cbn [image]; [intros (_ & _ & ->) (_ & _ & ->)|intros -> ->]; reflexivity. Qed.
  (** The image is on the Edwards curve. *)
  Lemma image_on P x y : on_sw P -> image P (x, y) -> A * (x * x) + y * y = 1 + D * (x * x) * (y * y).
  Proof.
    destruct P as [[px py]|]; intros O E.
    2:{ apply pair_equal_spec in E as [-> ->]. ring. }
    destruct E as (N1 & N2 & E). apply pair_equal_spec in E as [-> ->]. apply mont_of in O. set (u := s * (px + na)) in *. set (v := s * py) in *. unfold B in O.
    pose proof s_neq as Ns. pose proof be_neq as Nb. rewrite AE, DE. clearbody u v.
    assert (W : s * v * v = u * u * u + Am * u * u + u) by (transitivity (s * v * v - u * u * u - Am * u * u - u + (u * u * u + Am * u * u + u)); [ring|]; rewrite O; ring).
    assert (Nw : s * v * v <> 0) by (intros E; apply fmul_eq_0 in E as [E|E]; [apply fmul_eq_0 in E as [E|E]|]; auto).
    apply (fmul_cancel_l K (s * v * v * (u + 1) * (u + 1))); [intros E; apply fmul_eq_0 in E as [E|E]; [apply fmul_eq_0 in E as [E|E]|]; auto|].
    transitivity ((Am + (1+1)) * u * u * (u + 1) * (u + 1) + (s * v * v) * (u - 1) * (u - 1)); [field; auto|].
    transitivity ((s * v * v) * (u + 1) * (u + 1) + (Am - (1+1)) * u * u * (u - 1) * (u - 1)); [rewrite W; ring|field; auto].
  Qed.
  (** The sum of the images, as fractions. *)
  Lemma tadd_frac u1 v1 u2 v2 : v1 <> 0 -> v2 <> 0 -> u1 + 1 <> 0 -> u2 + 1 <> 0 ->
    let P := (be * u1 / v1, (u1 - 1) / (u1 + 1)) in let Q := (be * u2 / v2, (u2 - 1) / (u2 + 1)) in
    let dp := s*v1*v2*(u1 + 1)*(u2 + 1) + (Am - (1+1))*u1*u2*(u1 - 1)*(u2 - 1) in
    let dm := s*v1*v2*(u1 + 1)*(u2 + 1) - (Am - (1+1))*u1*u2*(u1 - 1)*(u2 - 1) in
    1 + tz K D P Q <> 0 -> 1 - tz K D P Q <> 0 ->
    dp <> 0 /\ dm <> 0 /\
    tadd K A D P Q = (s * be * (u1*v2*(u2 - 1)*(u1 + 1) + u2*v1*(u1 - 1)*(u2 + 1)) / dp, (s*v1*v2*(u1 - 1)*(u2 - 1) - (Am + (1+1))*u1*u2*(u1 + 1)*(u2 + 1)) / dm).
  Proof.
    intros N1 N2 M1 M2 P Q dp dm T1 T2. pose proof s_neq as Ns. pose proof be_neq as Nb.
    assert (NW : s*v1*v2*(u1 + 1)*(u2 + 1) <> 0).
    { intros E. apply fmul_eq_0 in E as [E|E]; auto. apply fmul_eq_0 in E as [E|E]; auto. apply fmul_eq_0 in E as [E|E]; auto. apply fmul_eq_0 in E as [E|E]; auto. }
    assert (Z : tz K D P Q = (Am - (1+1))*u1*u2*(u1 - 1)*(u2 - 1) / (s*v1*v2*(u1 + 1)*(u2 + 1))).
    { unfold tz, P, Q. cbn [fst snd]. rewrite DE. field. repeat split; auto. }
    assert (Ep : 1 + tz K D P Q = dp / (s*v1*v2*(u1 + 1)*(u2 + 1))) by (rewrite Z; unfold dp; field; repeat split; auto).
    assert (Em : 1 - tz K D P Q = dm / (s*v1*v2*(u1 + 1)*(u2 + 1))) by (rewrite Z; unfold dm; field; repeat split; auto).
    assert (Np : dp <> 0) by (intros E; apply T1; rewrite Ep, E; field; repeat split; auto).
    assert (Nm : dm <> 0) by (intros E; apply T2; rewrite Em, E; field; repeat split; auto).
    split; [exact Np|]. split; [exact Nm|]. unfold tadd. rewrite Ep, Em. unfold P, Q. cbn [fst snd]. rewrite AE. clearbody dp dm.
    f_equal; field; repeat split; auto.
  Qed.
  Local Ltac fin := repeat split; first [assumption | match goal with N : _ <> _ |- _ => exact N end].
  (** The map takes sums to sums, wherever the Edwards law does not divide by zero and the sum
      is not the point of order two that has no Montgomery slope. *)
  Lemma image_sum P Q p r : on_sw P -> on_sw Q -> image P p -> image Q r -> sw_add P Q <> Some (- na, 0) ->
    1 + tz K D p r <> 0 -> 1 - tz K D p r <> 0 -> image (sw_add P Q) (tadd K A D p r).
  Proof.
    pose proof s_neq as Ns. pose proof be_neq as Nb. pose proof (cv_two H) as N2.
    intros OP OQ EP EQ ER T1 T2. destruct P as [[x1 y1]|].
    2:{ cbn [image] in EP. subst p. cbn [sw_add]. replace (tadd K A D (0, 1) r) with r by (symmetry; apply (tadd_0_l K A D)). exact EQ. }
    destruct Q as [[x2 y2]|].
    2:{ cbn [image] in EQ. subst r. cbn [sw_add]. rewrite tadd_comm. replace (tadd K A D (0, 1) p) with p by (symmetry; apply (tadd_0_l K A D)). exact EP. }
    pose proof (image_on _ (fst p) (snd p) OP ltac:(now destruct p)) as OnP.
    destruct EP as (V1 & U1 & ->). destruct EQ as (V2 & U2 & ->).
    pose proof (mont_of x1 y1 OP) as M1. pose proof (mont_of x2 y2 OQ) as M2.
    cbn [sw_add] in *. destruct (feqb x1 x2 && feqb (y1 + y2) 0) eqn:Eo.
    { (* opposite points *)
      apply andb_prop in Eo as [Ex Ey]. apply feqb_eq in Ex, Ey. subst x2. assert (Y2 : y2 = - y1) by (transitivity (y1 + y2 - y1); [ring|rewrite Ey; ring]). subst y2.
      clear ER M2 OQ U2 Ey. set (u := s * (x1 + na)) in *. set (v := s * y1) in *.
      assert (E1 : be * u / (s * - y1) = - (be * u / v)) by (unfold v; replace (s * - y1) with (- (s * y1)) by ring; fold v; field; split; [exact V1|intros E; apply V1; transitivity (- - v); [ring|]; rewrite E; ring]).
      rewrite E1 in *. cbn [fst snd] in OnP. set (ex := be * u / v) in *. set (ey := (u - 1) / (u + 1)) in *. clearbody ex ey.
      cbn [image]. unfold tadd. cbn [fst snd]. f_equal.
      - replace (ex * ey + - ex * ey) with (0 : K) by ring. rewrite (Fdiv_def (fth K)). ring.
      - replace (ey * ey - A * ex * - ex) with (1 - tz K D (ex, ey) (- ex, ey)); [field; exact T2|].
        unfold tz. cbn [fst snd]. transitivity (1 + D * (ex * ex) * (ey * ey)); [ring|]. rewrite <- OnP. ring. }
    destruct (tadd_frac _ _ _ _ V1 V2 U1 U2 T1 T2) as (Np & Nm & ->). clear T1 T2. cbn [image]. cbv zeta in ER.
    unfold B in M1, M2.
    destruct (feqb x1 x2) eqn:Ex; cbn [andb] in Eo.
    - (* doubling *)
      apply feqb_eq in Ex. subst x2. apply feqb_neq in Eo.
      assert (Y : y2 = y1).
      { cbn [on_sw] in OP, OQ. apply (fmul_cancel_l K (y1 + y2)); [exact Eo|]. transitivity (y1 * y2 + y2 * y2); [ring|]. rewrite OQ, <- OP. ring. }
      subst y2. clear M2 OQ V2 U2.
      assert (Ny : y1 <> 0) by (intros E; apply V1; rewrite E; ring).
      set (l := ((1+1+1) * x1 * x1 + ca) / ((1+1) * y1)) in *. set (u := s * (x1 + na)) in *. set (v := s * y1) in *.
      assert (W : s * v * v = u * u * u + Am * u * u + u) by (transitivity (s * v * v - u * u * u - Am * u * u - u + (u * u * u + Am * u * u + u)); [ring|]; rewrite M1; ring).
      set (w := s * v * v) in *.
      assert (Nw : w <> 0) by (intros E; unfold w in E; apply fmul_eq_0 in E as [E|E]; [apply fmul_eq_0 in E as [E|E]|]; auto).
      set (N := (1+1+1)*u*u + (1+1)*Am*u + 1). set (U := N*N - (Am + (1+1)*u)*((1+1+1+1)*w)).
      assert (L : l = N / ((1+1) * s * v)).
      { assert (EN : N = s * s * ((1+1+1) * x1 * x1 + ca)).
        { transitivity (s * s * ((1+1+1) * x1 * x1 + ca) + (1 - s * s * ((1+1+1) * na * na + ca))); [unfold N, u, Am; ring|]. rewrite (cv_s H). ring. }
        rewrite EN. unfold l, v. field. repeat split; auto. }
      assert (N4 : (1+1+1+1 : K) <> 0) by (replace (1+1+1+1 : K) with ((1+1)*(1+1) : K) by ring; intros E; apply fmul_eq_0 in E as [E|E]; auto).
      assert (N22 : ((1+1)*(1+1) : K) <> 0) by (intros E; apply fmul_eq_0 in E as [E|E]; auto).
      assert (N24 : ((1+1)*((1+1)*(1+1)) : K) <> 0) by (intros E; apply fmul_eq_0 in E as [E|E]; auto).
      assert (N8 : (1+1+1+1+1+1+1+1 : K) <> 0) by (replace (1+1+1+1+1+1+1+1 : K) with ((1+1)*(1+1+1+1) : K) by ring; intros E; apply fmul_eq_0 in E as [E|E]; auto).
      assert (X3 : s * (l * l - x1 - x1 + na) = U / ((1+1+1+1) * w)).
      { transitivity (s * l * l - Am - (1+1) * u); [unfold u, Am; ring|]. rewrite L. unfold U, w. field; fin. }
      assert (Y3 : s * (l * (x1 - (l * l - x1 - x1)) - y1) = (N * ((1+1+1+1)*w*u - U) - (1+1+1+1+1+1+1+1)*w*w) / ((1+1+1+1+1+1+1+1) * s * s * v * v * v)).
      { transitivity (l * (u - s * (l * l - x1 - x1 + na)) - v); [unfold u, v; ring|]. rewrite X3, L. unfold w.
                field; fin. }
      set (x3 := l * l - x1 - x1) in *. set (y3 := l * (x1 - x3) - y1) in *.
      pose proof (tangent_y K Am u w W) as TY. pose proof (tangent_x K Am u w W) as TX. cbv zeta in TY, TX. fold N U in TY, TX.
      set (V := N * ((1+1+1+1)*w*u - U) - (1+1+1+1+1+1+1+1)*w*w) in *.
      assert (NV : V <> 0).
      { intros E. rewrite E in TX, Y3. assert (EU : U = 0).
        { apply (fmul_cancel_l K (w * (u + 1) * (u + 1) + (Am - (1+1)) * u * u * (u - 1) * (u - 1))); [exact Np|]. match type of TX with ?L = ?R => transitivity L; [ring|]; transitivity R; [exact TX|ring] end. }
        rewrite EU in X3. apply ER. f_equal. f_equal; apply (fmul_cancel_l K s); auto.
        - transitivity (s * (x3 + na) - s * na); [ring|]. rewrite X3. field; fin.
        - rewrite Y3. field; fin. }
      assert (NU : U + (1+1+1+1) * w <> 0).
      { intros E. assert (EU : U = - ((1+1+1+1) * w)) by (transitivity (U + (1+1+1+1) * w - (1+1+1+1) * w); [ring|]; rewrite E; ring).
        rewrite E, EU in TY. apply Nm. apply (fmul_cancel_l K (- ((1+1+1+1+1+1+1+1) * w))); [intros X; assert (X' : (1+1+1+1+1+1+1+1) * w = 0) by (transitivity (- - ((1+1+1+1+1+1+1+1) * w)); [ring|rewrite X; ring]); apply fmul_eq_0 in X' as [X'|X']; auto|].
        match type of TY with ?L = ?R => transitivity L; [ring|]; transitivity R; [exact TY|ring] end. }
      assert (V3 : s * y3 <> 0) by (rewrite Y3; intros E; apply NV; match type of E with ?a / ?b = 0 => transitivity (b * (a / b)); [field; fin|rewrite E; ring] end).
      assert (U3 : s * (x3 + na) + 1 <> 0) by (rewrite X3; intros E; apply NU; transitivity ((1+1+1+1) * w * (U / ((1+1+1+1) * w) + 1)); [field; fin|rewrite E; ring]).
      split; [exact V3|]. split; [exact U3|]. rewrite Y3 in V3 |- *. rewrite X3 in U3 |- *.
      f_equal.
      + apply frac_eq; auto.
        match goal with |- ?X = 0 => transitivity (be / ((1+1+1+1) * w) * (V * u * (u - 1) * (u + 1) - U * (w*(u + 1)*(u + 1) + (Am - (1+1))*u*u*(u - 1)*(u - 1)))) end.
        { unfold w. field; fin. }
        rewrite TX. ring.
      + apply frac_eq; auto.
        match goal with |- ?X = 0 => transitivity (((U + (1+1+1+1)*w)*(w*(u - 1)*(u - 1) - (Am + (1+1))*u*u*(u + 1)*(u + 1)) - (U - (1+1+1+1)*w)*(w*(u + 1)*(u + 1) - (Am - (1+1))*u*u*(u - 1)*(u - 1))) / ((1+1+1+1) * w)) end.
        { field; fin. }
        rewrite TY. field; fin.
    - (* different abscissas *)
      apply feqb_neq in Ex.
      set (u1 := s * (x1 + na)) in *. set (v1 := s * y1) in *. set (u2 := s * (x2 + na)) in *. set (v2 := s * y2) in *.
      set (l := (y2 - y1) / (x2 - x1)) in *. set (dl := u2 - u1).
      assert (Nx : x2 - x1 <> 0) by (intros E; apply Ex; transitivity (x2 - (x2 - x1)); [ring|]; rewrite E; ring).
      assert (Ed : dl = s * (x2 - x1)) by (unfold dl, u2, u1; ring).
      assert (Nd : dl <> 0) by (rewrite Ed; intros E; apply fmul_eq_0 in E as [E|E]; auto).
      assert (L : l = (v2 - v1) / dl) by (rewrite Ed; unfold l, v2, v1; field; auto).
      set (U := s*(v2 - v1)*(v2 - v1) - (Am + u1 + u2)*dl*dl). set (V := (v2 - v1)*(u1*dl*dl - U) - v1*dl*dl*dl).
      assert (X3 : s * (l * l - x1 - x2 + na) = U / (dl * dl)).
      { transitivity (s * l * l - Am - u1 - u2); [unfold u1, u2, Am; ring|]. rewrite L. unfold U. field. auto. }
      assert (Y3 : s * (l * (x1 - (l * l - x1 - x2)) - y1) = V / (dl * dl * dl)).
      { transitivity (l * (u1 - s * (l * l - x1 - x2 + na)) - v1); [unfold u1, v1; ring|]. rewrite X3, L. unfold V. field. auto. }
      set (x3 := l * l - x1 - x2) in *. set (y3 := l * (x1 - x3) - y1) in *.
      pose proof (chord_y K Am s u1 v1 u2 v2 M1 M2) as CY. pose proof (chord_x K Am s u1 v1 u2 v2 M1 M2) as CX. cbv zeta in CY, CX. fold dl in CY, CX. fold U in CY, CX. fold V in CX.
      clear OP OQ OnP M1 M2 L Ed. clearbody x3 y3 U V dl u1 v1 u2 v2. clear l.
      assert (NV : V <> 0).
      { intros E. rewrite E in CX, Y3. assert (EU : U = 0).
        { apply (fmul_cancel_l K (dl * (s*v1*v2*(u1 + 1)*(u2 + 1) + (Am - (1+1))*u1*u2*(u1 - 1)*(u2 - 1)))); [intros X; apply fmul_eq_0 in X as [X|X]; auto|].
          match type of CX with ?L = ?R => transitivity L; [ring|]; transitivity R; [exact CX|ring] end. }
        rewrite EU in X3. apply ER. f_equal. f_equal; apply (fmul_cancel_l K s); auto.
        - transitivity (s * (x3 + na) - s * na); [ring|]. rewrite X3. field; fin.
        - rewrite Y3. field; fin. }
      assert (NU : U + dl * dl <> 0).
      { intros E. assert (EU : U = - (dl * dl)) by (transitivity (U + dl * dl - dl * dl); [ring|]; rewrite E; ring).
        rewrite E, EU in CY. apply Nm. apply (fmul_cancel_l K (- ((1+1) * (dl * dl)))); [intros X; assert (X' : (1+1) * (dl * dl) = 0) by (transitivity (- - ((1+1) * (dl * dl))); [ring|rewrite X; ring]); apply fmul_eq_0 in X' as [X'|X']; auto; apply fmul_eq_0 in X' as [X'|X']; auto|].
        match type of CY with ?L = ?R => transitivity L; [ring|]; transitivity R; [exact CY|ring] end. }
      assert (V3 : s * y3 <> 0) by (rewrite Y3; intros E; apply NV; match type of E with ?a / ?b = 0 => transitivity (b * (a / b)); [field; fin|rewrite E; ring] end).
      assert (U3 : s * (x3 + na) + 1 <> 0) by (rewrite X3; intros E; apply NU; transitivity (dl * dl * (U / (dl * dl) + 1)); [field; fin|rewrite E; ring]).
      split; [exact V3|]. split; [exact U3|]. rewrite Y3 in V3 |- *. rewrite X3 in U3 |- *.
      f_equal.
      + apply frac_eq; auto.
        match goal with |- ?X = 0 => transitivity (be / (dl * dl * dl) * (s * (u1*v2*(u2 - 1)*(u1 + 1) + u2*v1*(u1 - 1)*(u2 + 1)) * V - U*dl*(s*v1*v2*(u1 + 1)*(u2 + 1) + (Am - (1+1))*u1*u2*(u1 - 1)*(u2 - 1)))) end.
        { field. auto. }
        rewrite CX. ring.
      + apply frac_eq; auto.
        match goal with |- ?X = 0 => transitivity (((U + dl*dl)*(s*v1*v2*(u1 - 1)*(u2 - 1) - (Am + (1+1))*u1*u2*(u1 + 1)*(u2 + 1)) - (U - dl*dl)*(s*v1*v2*(u1 + 1)*(u2 + 1) - (Am - (1+1))*u1*u2*(u1 - 1)*(u2 - 1))) / (dl * dl)) end.
        { field. auto. }
        rewrite CY. field. auto.
  Qed.
  (** Points with the same image are equal. *)
  Lemma image_inj P Q p : on_sw P -> on_sw Q -> image P p -> image Q p -> P = Q.
  Proof.
    pose proof s_neq as Ns. pose proof be_neq as Nb. pose proof (cv_two H) as N2.
    assert (F1 : forall u : K, u + 1 <> 0 -> (u - 1) / (u + 1) <> 1).
    { intros u Hu E. apply N2. transitivity ((u + 1) - (u - 1)); [ring|]. transitivity ((u + 1) * (1 - (u - 1) / (u + 1))); [field; exact Hu|]. rewrite E. ring. }
    intros OP OQ EP EQ. destruct P as [[x1 y1]|], Q as [[x2 y2]|]; cbn [image] in EP, EQ.
    - destruct EP as (V1 & U1 & ->). destruct EQ as (V2 & U2 & E). apply pair_equal_spec in E as [E1 E2].
      pose proof (mont_of x1 y1 OP) as M1. unfold B in M1. pose proof (mont_of x2 y2 OQ) as M2. clear OP OQ.
      assert (X : x1 = x2).
      { apply (fmul_cancel_l K s); [exact Ns|]. set (u1 := s * (x1 + na)) in *. set (u2 := s * (x2 + na)) in *.
        assert (E : u1 = u2).
        { apply (fmul_cancel_l K (1+1)); [exact N2|].
          transitivity ((u1 - 1) / (u1 + 1) * (u1 + 1) * (u2 + 1) - (u2 - 1) / (u2 + 1) * (u1 + 1) * (u2 + 1) + (1+1) * u2); [field; auto|]. rewrite E2. ring. }
        transitivity (u1 - s * na); [unfold u1; ring|]. rewrite E. unfold u2. ring. }
      subst x2. clear M2 E2 U2. set (u := s * (x1 + na)) in *.
      assert (Nu : u <> 0).
      { intros E. rewrite E in M1. assert (M : s * (s * y1) * (s * y1) = 0) by (rewrite <- M1; ring).
        apply fmul_eq_0 in M as [M|M]; [apply fmul_eq_0 in M as [M|M]|]; auto. }
      f_equal. f_equal. apply (fmul_cancel_l K s); [exact Ns|]. apply (fmul_cancel_l K (be * u)); [intros E; apply fmul_eq_0 in E as [E|E]; auto|].
      set (v1 := s * y1) in *. set (v2 := s * y2) in *. clearbody v1 v2 u.
      transitivity (be * u / v2 * v1 * v2); [field; auto|]. rewrite <- E1. field. auto.
    - destruct EP as (V1 & U1 & ->). apply pair_equal_spec in EQ as [_ E]. now apply F1 in E.
    - destruct EQ as (V1 & U1 & ->). apply pair_equal_spec in EP as [_ E]. now apply F1 in E.
    - reflexivity.
  Qed.
  (** Opposite points have opposite images. *)
  Lemma image_neg P x y : image P (x, y) -> image (sw_neg P) (- x, y).
  Proof.
    pose proof s_neq as Ns. destruct P as [[px py]|]; cbn [sw_neg image].
    - intros (N1 & N2 & E). apply pair_equal_spec in E as [-> ->].
      assert (N3 : s * - py <> 0) by (intros E; apply N1; transitivity (- (s * - py)); [ring|]; rewrite E; ring).
      assert (Ny : py <> 0) by (intros E; apply N1; rewrite E; ring). assert (Ny' : - py <> 0) by (intros E; apply N3; rewrite E; ring).
      split; [exact N3|]. split; [exact N2|]. apply pair_equal_spec. split; [|reflexivity]. field. repeat split; assumption.
    - intros E. apply pair_equal_spec in E as [-> ->]. apply pair_equal_spec. split; [ring|reflexivity].
  Qed.
  (** The coordinates of sums. *)
  Lemma sw_chord x1 y1 x2 y2 : x1 <> x2 ->
    let u1 := s * (x1 + na) in let v1 := s * y1 in let u2 := s * (x2 + na) in let v2 := s * y2 in
    let dl := u2 - u1 in let U := s*(v2 - v1)*(v2 - v1) - (Am + u1 + u2)*dl*dl in
    exists x3 y3, sw_add (Some (x1, y1)) (Some (x2, y2)) = Some (x3, y3) /\ dl <> 0 /\
      s * (x3 + na) * (dl * dl) = U /\ s * y3 * (dl * dl * dl) = (v2 - v1)*(u1*dl*dl - U) - v1*dl*dl*dl.
  Proof.
    intros Ex u1 v1 u2 v2 dl U. pose proof s_neq as Ns. cbn [sw_add]. destruct (feqb x1 x2) eqn:E; [apply feqb_eq in E; contradiction|]. cbn [andb].
    eexists _, _. split; [reflexivity|]. set (l := (y2 - y1) / (x2 - x1)).
    assert (Nx : x2 - x1 <> 0) by (intros E'; apply Ex; transitivity (x2 - (x2 - x1)); [ring|]; rewrite E'; ring).
    assert (Ed : dl = s * (x2 - x1)) by (unfold dl, u2, u1; ring).
    assert (Nd : dl <> 0) by (rewrite Ed; intros E'; apply fmul_eq_0 in E' as [E'|E']; auto).
    assert (L : l = (v2 - v1) / dl) by (rewrite Ed; unfold l, v2, v1; field; auto).
    assert (X3 : s * (l * l - x1 - x2 + na) = U / (dl * dl)).
    { transitivity (s * l * l - Am - u1 - u2); [unfold u1, u2, Am; ring|]. rewrite L. unfold U. field. auto. }
    assert (Y3 : s * (l * (x1 - (l * l - x1 - x2)) - y1) = ((v2 - v1)*(u1*dl*dl - U) - v1*dl*dl*dl) / (dl * dl * dl)).
    { transitivity (l * (u1 - s * (l * l - x1 - x2 + na)) - v1); [unfold u1, v1; ring|]. rewrite X3, L. field. auto. }
    split; [exact Nd|]. rewrite X3, Y3. split; field; auto.
  Qed.
  Lemma sw_tangent x y : y <> 0 ->
    let u := s * (x + na) in let v := s * y in let w := s * v * v in
    let N := (1+1+1)*u*u + (1+1)*Am*u + 1 in let U := N*N - (Am + (1+1)*u)*((1+1+1+1)*w) in
    exists x3 y3, sw_add (Some (x, y)) (Some (x, y)) = Some (x3, y3) /\
      s * (x3 + na) * ((1+1+1+1) * w) = U /\ s * y3 * ((1+1+1+1+1+1+1+1) * s * s * v * v * v) = N*((1+1+1+1)*w*u - U) - (1+1+1+1+1+1+1+1)*w*w.
  Proof.
    intros Ny u v w N U. pose proof s_neq as Ns. pose proof (cv_two H) as N2. cbn [sw_add]. rewrite feqb_refl. destruct (feqb (y + y) 0) eqn:E.
    { exfalso. apply feqb_eq in E. apply N2. apply (fmul_cancel_l K y); [exact Ny|]. transitivity (y + y); [ring|]. rewrite E. ring. }
    cbn [andb]. eexists _, _. split; [reflexivity|]. set (l := ((1+1+1) * x * x + ca) / ((1+1) * y)).
    assert (EN : N = s * s * ((1+1+1) * x * x + ca)).
    { transitivity (s * s * ((1+1+1) * x * x + ca) + (1 - s * s * ((1+1+1) * na * na + ca))); [unfold N, u, Am; ring|]. rewrite (cv_s H). ring. }
    assert (L : l * ((1+1) * v) * s = N) by (rewrite EN; unfold l, v; field; auto).
    assert (X3 : s * (l * l - x - x + na) * ((1+1+1+1) * w) = U).
    { unfold U. rewrite <- L. unfold w, u, Am. ring. }
    split; [exact X3|].
    transitivity (l * ((1+1) * v) * s * ((1+1+1+1) * w * u - s * (l * l - x - x + na) * ((1+1+1+1) * w)) - (1+1+1+1+1+1+1+1) * w * w); [unfold w, u, v; ring|].
    rewrite X3, L. reflexivity.
  Qed.

  (** A set of points closed under the group operations, without a point of order two. *)
  Record odd (G : option (K * K) -> Prop) : Prop := {
    od_on : forall P, G P -> on_sw P;
    od_0 : G None;
    od_add : forall P Q, G P -> G Q -> G (sw_add P Q);
    od_neg : forall P, G P -> G (sw_neg P);
    od_two : forall P, G P -> sw_add P P = None -> P = None }.
  Section Odd.
    Variable G : option (K * K) -> Prop.
    Hypothesis HG : odd G.
    Lemma odd_y x y : G (Some (x, y)) -> y <> 0.
    Proof.
      intros HP E. subst y. assert (X : Some (x, 0 : K) = None); [|discriminate]. apply (od_two _ HG _ HP). cbn [sw_add]. rewrite feqb_refl.
      replace (0 + 0 : K) with (0 : K) by ring. rewrite feqb_refl. reflexivity.
    Qed.
    Lemma k4 : (1+1+1+1 : K) <> 0.
    Proof. pose proof (cv_two H) as N2. replace (1+1+1+1 : K) with ((1+1)*(1+1) : K) by ring. intros E; apply fmul_eq_0 in E as [E|E]; auto. Qed.
    Lemma k8 : (1+1+1+1+1+1+1+1 : K) <> 0.
    Proof. pose proof (cv_two H) as N2. replace (1+1+1+1+1+1+1+1 : K) with ((1+1)*(1+1+1+1) : K) by ring. intros E; apply fmul_eq_0 in E as [E|E]; auto. now apply k4. Qed.
    Lemma v_neq y : y <> 0 -> s * y <> 0.
    Proof. intros Ny E. apply fmul_eq_0 in E as [E|E]; auto. now apply s_neq. Qed.
    (** A point whose double has [V = 0] is not in the set. *)
    Lemma odd_V x y : G (Some (x, y)) ->
      let u := s * (x + na) in let v := s * y in let w := s * v * v in
      let N := (1+1+1)*u*u + (1+1)*Am*u + 1 in let U := N*N - (Am + (1+1)*u)*((1+1+1+1)*w) in
      N*((1+1+1+1)*w*u - U) - (1+1+1+1+1+1+1+1)*w*w <> 0.
    Proof.
      intros HP u v w N U E. pose proof (odd_y x y HP) as Ny. destruct (sw_tangent x y Ny) as (x3 & y3 & ES & _ & EY). cbv zeta in EY. fold u v in EY. fold w in EY. fold N in EY. fold U in EY. rewrite E in EY.
      pose proof (od_add _ HG _ _ HP HP) as HD. rewrite ES in HD. apply (odd_y x3 y3 HD).
      apply fmul_eq_0 in EY as [EY|EY].
      - apply fmul_eq_0 in EY as [EY|EY]; [now apply s_neq in EY|exact EY].
      - exfalso. pose proof (v_neq y Ny) as Nv. fold v in Nv. repeat (apply fmul_eq_0 in EY as [EY|EY]; auto); try (now apply s_neq in EY); now apply k8 in EY.
    Qed.
    Lemma mont_w x y : on_sw (Some (x, y)) -> let u := s * (x + na) in let v := s * y in s * v * v = u * u * u + Am * u * u + u.
    Proof.
      intros O u v. apply mont_of in O. unfold B in O. fold u v in O. transitivity (s * v * v - u * u * u - Am * u * u - u + (u * u * u + Am * u * u + u)); [ring|]. rewrite O. ring.
    Qed.
    Lemma odd_u x y (e : K) : e = 1 \/ e = - (1) -> G (Some (x, y)) -> s * (x + na) <> e.
    Proof.
      intros He HP E. apply (odd_V x y HP). pose proof (mont_w x y (od_on _ HG _ HP)) as W. cbv zeta in *. rewrite W, E. destruct He as [-> | ->]; ring.
    Qed.
    Lemma odd_image P : G P -> exists p, image P p.
    Proof.
      destruct P as [[x y]|]; intros HP; [|eexists; reflexivity]. eexists. cbn [image]. split; [|split; [|reflexivity]].
      - apply v_neq. now apply (odd_y x y).
      - intros E. apply (odd_u x y (- (1)) (or_intror eq_refl) HP). transitivity (s * (x + na) + 1 - 1); [ring|]. rewrite E. ring.
    Qed.
    (** The Edwards law does not divide by zero on images of the set. *)
    Lemma odd_den P Q p r : G P -> G Q -> image P p -> image Q r -> 1 + tz K D p r <> 0.
    Proof.
      pose proof s_neq as Ns. pose proof be_neq as Nb. pose proof (cv_two H) as N2. pose proof k4 as N4. pose proof k8 as N8.
      intros HP HQ EP EQ T. destruct P as [[x1 y1]|].
      2:{ cbn [image] in EP. subst p. apply (f1_neq_0 K). rewrite <- T. unfold tz. cbn [fst snd]. ring. }
      destruct Q as [[x2 y2]|].
      2:{ cbn [image] in EQ. subst r. apply (f1_neq_0 K). rewrite <- T. unfold tz. cbn [fst snd]. ring. }
      pose proof (odd_y _ _ HP) as Y1. pose proof (odd_y _ _ HQ) as Y2.
      pose proof (odd_u _ _ 1 (or_introl eq_refl) HP) as O1.
      pose proof (od_on _ HG _ HP) as OP. pose proof (od_on _ HG _ HQ) as OQ.
      pose proof (odd_V _ _ HP) as V1'. pose proof (sw_tangent x1 y1 Y1) as TG.
      destruct EP as (V1 & U1 & ->). destruct EQ as (V2 & U2 & ->).
      pose proof (mont_w x1 y1 OP) as W1. pose proof (mont_of x1 y1 OP) as M1. pose proof (mont_of x2 y2 OQ) as M2. unfold B in M1, M2.
      (* the double of P has Montgomery abscissa other than 1 *)
      assert (D1 : forall x3 y3, sw_add (Some (x1, y1)) (Some (x1, y1)) = Some (x3, y3) -> s * (x3 + na) <> 1 /\ s * (x3 + na) <> - (1)).
      { intros x3 y3 E. pose proof (od_add _ HG _ _ HP HP) as HD. rewrite E in HD. split; apply (odd_u x3 y3); auto. }
      (* dp = 0 *)
      assert (DP : s*(s*y1)*(s*y2)*(s*(x1+na) + 1)*(s*(x2+na) + 1) + (Am - (1+1))*(s*(x1+na))*(s*(x2+na))*(s*(x1+na) - 1)*(s*(x2+na) - 1) = 0).
      { unfold tz in T. cbn [fst snd] in T. rewrite DE in T. clear - T Ns Nb V1 V2 U1 U2. set (u1 := s*(x1+na)) in *. set (u2 := s*(x2+na)) in *. set (v1 := s*y1) in *. set (v2 := s*y2) in *. clearbody u1 u2 v1 v2.
        match type of T with ?t = 0 => transitivity (s*v1*v2*(u1 + 1)*(u2 + 1) * t) end; [field; repeat split; auto|]. rewrite T. ring. }
      clear T.
      assert (Nu1 : s * (x1 + na) <> 0).
      { intros E. apply V1. cbv zeta in W1. rewrite E in W1. assert (Z : s * (s * y1) * (s * y1) = 0) by (rewrite W1; ring).
        apply fmul_eq_0 in Z as [Z|Z]; [|exact Z]. apply fmul_eq_0 in Z as [Z|Z]; [now apply Ns in Z|exact Z]. }
      (* numerators and denominators of the double of P that vanish together *)
      set (u1 := s * (x1 + na)) in *. set (v1 := s * y1) in *. cbv zeta in W1.
      assert (NN : s*v1*v1*(u1 - 1)*(u1 - 1) - (Am + (1+1))*u1*u1*(u1 + 1)*(u1 + 1) = 0 -> False).
      { intros EN. destruct (TG) as (x3 & y3 & ES & EX & EY). clear TG. destruct (D1 x3 y3 ES) as [D1a D1b]. cbv zeta in EX. clear EY.
        pose proof (tangent_y K Am u1 (s*v1*v1) W1) as TY. cbv zeta in TY. rewrite EN, <- EX in TY.
        assert (Nw : s*v1*v1 <> 0) by (intros E; apply fmul_eq_0 in E as [E|E]; auto; apply fmul_eq_0 in E as [E|E]; auto).
        assert (Z : ((1+1+1+1)*(s*v1*v1)) * ((s * (x3 + na) - 1) * (s*v1*v1*(u1 + 1)*(u1 + 1) - (Am - (1+1))*u1*u1*(u1 - 1)*(u1 - 1))) = 0).
        { match type of TY with ?L = ?R => transitivity L; [ring|]; rewrite TY; ring end. }
        apply fmul_eq_0 in Z as [Z|Z]; [apply fmul_eq_0 in Z as [Z|Z]; auto|]. apply fmul_eq_0 in Z as [Z|Z].
        { apply D1a. transitivity (s * (x3 + na) - 1 + 1); [ring|]. rewrite Z. ring. }
        (* both vanish: on the Edwards curve the ordinate is then 1 or -1 *)
        assert (Q0 : (1+1+1+1+1+1+1+1) * (s*v1*v1) * u1 = 0).
        { match type of Z with ?z = 0 => match type of EN with ?n = 0 => transitivity (z - n + (s*v1*v1*(u1 + 1)*(u1 + 1) + (Am - (1+1))*u1*u1*(u1 - 1)*(u1 - 1) - s*v1*v1*(u1 - 1)*(u1 - 1) - (Am + (1+1))*u1*u1*(u1 + 1)*(u1 + 1))) end end; [ring|].
          rewrite Z, EN, W1. ring. }
        apply fmul_eq_0 in Q0 as [Q0|Q0]; auto. apply fmul_eq_0 in Q0 as [Q0|Q0]; auto. }
      destruct (feq_dec x1 x2) as [Ex|Ex].
      - (* equal abscissas *)
        subst x2. fold u1 in DP, M2, U2.
        assert (Y : (y2 - y1) * (y2 + y1) = 0).
        { cbn [on_sw] in OP, OQ. transitivity (y2 * y2 - y1 * y1); [ring|]. rewrite OP, OQ. ring. }
        assert (Nw : s*v1*v1 <> 0) by (intros E; apply fmul_eq_0 in E as [E|E]; auto; apply fmul_eq_0 in E as [E|E]; auto).
        apply fmul_eq_0 in Y as [Y|Y].
        + assert (Ey : y2 = y1) by (transitivity (y2 - y1 + y1); [ring|]; rewrite Y; ring). subst y2. fold v1 in DP.
          pose proof (tangent_x K Am u1 (s*v1*v1) W1) as TX. cbv zeta in TX, V1'.
          assert (Z : (s*v1*v1*(u1 + 1)*(u1 + 1) + (Am - (1+1))*u1*u1*(u1 - 1)*(u1 - 1)) = 0) by (rewrite <- DP; ring).
          rewrite Z in TX. match type of TX with _ = ?V * u1 * (u1 - 1) * (u1 + 1) => assert (X : V * u1 * (u1 - 1) * (u1 + 1) = 0) by (rewrite <- TX; ring) end.
          apply fmul_eq_0 in X as [X|X]; auto. apply fmul_eq_0 in X as [X|X]; [|apply O1; transitivity (u1 - 1 + 1); [ring|]; rewrite X; ring]. apply fmul_eq_0 in X as [X|X]; auto.
        + assert (Ey : y2 = - y1) by (transitivity (y2 + y1 - y1); [ring|]; rewrite Y; ring). subst y2.
          destruct TG as (x3 & y3 & ES & EX & _). destruct (D1 x3 y3 ES) as [_ D1b]. cbv zeta in EX.
          pose proof (tangent_y K Am u1 (s*v1*v1) W1) as TY. cbv zeta in TY.
          assert (Z : s*v1*v1*(u1 + 1)*(u1 + 1) - (Am - (1+1))*u1*u1*(u1 - 1)*(u1 - 1) = 0).
          { match type of DP with ?d = 0 => transitivity (- d) end; [unfold v1; ring|]. rewrite DP. ring. }
          rewrite Z, <- EX in TY. apply NN.
          apply (fmul_cancel_l K ((1+1+1+1) * (s*v1*v1) * (s * (x3 + na) + 1))).
          { intros E. apply fmul_eq_0 in E as [E|E]; [apply fmul_eq_0 in E as [E|E]; auto|]. apply D1b. transitivity (s * (x3 + na) + 1 - 1); [ring|]. rewrite E. ring. }
          match type of TY with ?L = ?R => transitivity R; [ring|]; transitivity L; [symmetry; exact TY|ring] end.
      - (* different abscissas: P + Q and P - Q *)
        destruct (sw_chord x1 y1 x2 y2 Ex) as (x3 & y3 & ES & Nd & EX & EY). destruct (sw_chord x1 y1 x2 (- y2) Ex) as (x4 & y4 & ES' & _ & EX' & EY').
        pose proof (od_add _ HG _ _ HP HQ) as HS. rewrite ES in HS. pose proof (odd_y _ _ HS) as Y3. 
        pose proof (od_add _ HG _ _ HP (od_neg _ HG _ HQ)) as HS'. cbn [sw_neg] in HS'. rewrite ES' in HS'. pose proof (odd_u _ _ (- (1)) (or_intror eq_refl) HS') as U4.
        cbv zeta in EX, EY, EX', EY'. fold u1 v1 in EX, EY, EX', EY', Nd, M1. clear EY'.
        assert (M2' : s * (s * - y2) * (s * - y2) - (s * (x2 + na)) * (s * (x2 + na)) * (s * (x2 + na)) - Am * (s * (x2 + na)) * (s * (x2 + na)) - s * (x2 + na) = 0) by (rewrite <- M2; ring).
        pose proof (chord_x K Am s u1 v1 (s * (x2 + na)) (s * y2) M1 M2) as CX. pose proof (chord_y K Am s u1 v1 (s * (x2 + na)) (s * - y2) M1 M2') as CY.
        cbv zeta in CX, CY. set (u2 := s * (x2 + na)) in *. set (v2 := s * y2) in *. set (dl := u2 - u1) in *.
        assert (Nu2 : u2 <> 0).
        { intros E. rewrite E in M2. apply V2. assert (Z : s * v2 * v2 = 0) by (rewrite <- M2; ring). apply fmul_eq_0 in Z as [Z|Z]; auto. apply fmul_eq_0 in Z as [Z|Z]; auto. now apply Ns in Z. }
        assert (Cx : u1*v2*(u2 - 1)*(u1 + 1) + u2*v1*(u1 - 1)*(u2 + 1) = 0).
        { rewrite <- EY, DP in CX. apply (fmul_cancel_l K (s * (s * y3 * (dl * dl * dl)))).
          - intros E. apply fmul_eq_0 in E as [E|E]; auto. apply fmul_eq_0 in E as [E|E]; [apply fmul_eq_0 in E as [E|E]; auto|]. repeat (apply fmul_eq_0 in E as [E|E]; auto).
          - match type of CX with ?L = ?R => transitivity R; [ring|]; transitivity L; [symmetry; exact CX|ring] end. }
        assert (Cy : s*v1*v2*(u1 - 1)*(u2 - 1) + (Am + (1+1))*u1*u2*(u1 + 1)*(u2 + 1) = 0).
        { rewrite <- EX' in CY.
          assert (Z : s*v1*(s * - y2)*(u1 + 1)*(u2 + 1) - (Am - (1+1))*u1*u2*(u1 - 1)*(u2 - 1) = 0).
          { match type of DP with ?d = 0 => transitivity (- d) end; [unfold v2; ring|]. rewrite DP. ring. }
          rewrite Z in CY. apply (fmul_cancel_l K ((s * (x4 + na) + 1) * (dl * dl))).
          - intros E. apply fmul_eq_0 in E as [E|E]; [|repeat (apply fmul_eq_0 in E as [E|E]; auto)]. apply U4. transitivity (s * (x4 + na) + 1 - 1); [ring|]. rewrite E. ring.
          - match type of CY with ?L = ?R => transitivity (- R); [unfold v2; ring|]; transitivity (- L); [rewrite CY; ring|ring] end. }
        apply NN. apply (fmul_cancel_l K (- (u2 * (u2 + 1)))).
        { intros E. assert (Z : u2 * (u2 + 1) = 0) by (transitivity (- - (u2 * (u2 + 1))); [ring|]; rewrite E; ring). apply fmul_eq_0 in Z as [Z|Z]; auto. }
        match type of Cx with ?c = 0 => match type of Cy with ?d = 0 => transitivity (u1 * (u1 + 1) * d - s * v1 * (u1 - 1) * c) end end; [ring|]. rewrite Cx, Cy. ring.
    Qed.
    Lemma odd_den_m P Q p r : G P -> G Q -> image P p -> image Q r -> 1 - tz K D p r <> 0.
    Proof.
      intros HP HQ EP EQ T. destruct r as [x y]. apply (odd_den P (sw_neg Q) p (- x, y) HP (od_neg _ HG _ HQ) EP (image_neg _ _ _ EQ)).
      rewrite <- T. unfold tz. cbn [fst snd]. ring.
    Qed.
    Lemma odd_sum P Q p r : G P -> G Q -> image P p -> image Q r -> image (sw_add P Q) (tadd K A D p r).
    Proof.
      intros HP HQ EP EQ. apply image_sum; auto; try (now apply (od_on _ HG)); try (now apply (odd_den P Q)); try (now apply (odd_den_m P Q)).
      intros E. pose proof (od_add _ HG _ _ HP HQ) as HS. rewrite E in HS. now apply odd_y in HS.
    Qed.
  End Odd.
End Conversion.

(** ** [From<SWAffine> for TEPoint] *)
Section Convert.
  Variable q : Z.
  Hypothesis Hq : prime q.
  Notation K := (Zp q Hq).
  Variables ca cb s na be A D : K.
  Notation conv := (sw_to_te q Hq s na be).
  Notation on_sw := (on_sw K ca cb).
  Hypothesis H : converts K ca cb s na be A D.
  Lemma conv_image P p : conv P = Ok p <-> image K s na be P p.
  Proof.
    destruct P as [[x y]|]; cbn [image]; unfold sw_to_te.
    - unfold fdivp. destruct (feqb (fmul s y) f0) eqn:E1; cbn [bind].
      { split; [discriminate|]. intros (N & _). apply feqb_eq in E1. now apply N in E1. }
      destruct (feqb (fadd (fmul s (fadd x na)) f1) f0) eqn:E2; cbn [bind].
      { split; [discriminate|]. intros (_ & N & _). apply feqb_eq in E2. now apply N in E2. }
      apply feqb_neq in E1, E2. rewrite <- !(Fdiv_def (fth K)). split.
      + intros X. apply Ok_inj in X. subst p. auto.
      + now intros (_ & _ & ->).
    - split; [intros X; apply Ok_inj in X; auto|now intros ->].
  Qed.
  (** When the conversion succeeds: never with an error; for the point at infinity, and for
      every other point but those with a zero ordinate and those with Montgomery abscissa -1. *)
  Theorem C87_defined P : match P with
    | None => conv P = Ok (0, 1)
    | Some (x, y) => (conv P = Panic <-> y = 0 \/ s * (x + na) + 1 = 0) /\ (conv P = Panic \/ exists p, conv P = Ok p)
    end.
  Proof.
    destruct P as [[x y]|]; [|reflexivity]. pose proof (s_neq K ca cb s na be A D H) as Ns. unfold sw_to_te, fdivp.
    destruct (feqb (fmul s y) f0) eqn:E1; cbn [bind].
    - apply feqb_eq in E1. split; [|now left]. split; [intros _; left|reflexivity]. apply fmul_eq_0 in E1 as [E1|E1]; [now apply Ns in E1|exact E1].
    - apply feqb_neq in E1. destruct (feqb (fadd (fmul s (fadd x na)) f1) f0) eqn:E2; cbn [bind].
      + apply feqb_eq in E2. split; [|now left]. split; [intros _; right; exact E2|reflexivity].
      + apply feqb_neq in E2. split; [|right; eauto]. split; [discriminate|]. intros [E|E]; exfalso.
        * apply E1. rewrite E. apply (fm0_r K).
        * now apply E2.
  Qed.
  (** Converted points lie on the Edwards curve. *)
  Theorem C87_on_curve P x y : on_sw P -> conv P = Ok (x, y) -> A * (x * x) + y * y = 1 + D * (x * x) * (y * y).
  Proof. intros O E. apply (image_on K ca cb s na be A D H P); [exact O|]. now apply conv_image. Qed.
  (** No two points of the curve have the same image. *)
  Theorem C87_injective P Q p : on_sw P -> on_sw Q -> conv P = Ok p -> conv Q = Ok p -> P = Q.
  Proof. intros OP OQ EP EQ. apply conv_image in EP, EQ. now apply (image_inj K ca cb s na be A D H P Q p). Qed.
  (** Opposite points have opposite images. *)
  Theorem C87_negation P x y : conv P = Ok (x, y) -> conv (sw_neg K P) = Ok (- x, y).
  Proof. intros E. apply conv_image. apply conv_image in E. revert E. apply (image_neg K ca cb s na be A D H). Qed.
  (** Sums go to sums: when the Edwards law does not divide by zero on the images and the sum
      is not the point of order two at [- NEG_ALPHA], the sum converts to the Edwards sum. *)
  Theorem C87_homomorphism P Q p r : on_sw P -> on_sw Q -> conv P = Ok p -> conv Q = Ok r -> sw_add K ca P Q <> Some (- na, 0) ->
    1 + tz K D p r <> 0 -> 1 - tz K D p r <> 0 -> conv (sw_add K ca P Q) = Ok (tadd K A D p r).
  Proof. intros OP OQ EP EQ. apply conv_image in EP, EQ. intros. apply conv_image. now apply (image_sum K ca cb s na be A D H). Qed.
  (** So it is a homomorphism on the points whose images lie in a set where the Edwards law is
      defined, as C35 and C83 ask. *)
  Theorem C87_subgroup (HL : law K A D) P Q (p r : curve K A D HL) : on_sw P -> on_sw Q -> conv P = Ok (cval K A D HL p) -> conv Q = Ok (cval K A D HL r) ->
    sw_add K ca P Q <> Some (- na, 0) -> conv (sw_add K ca P Q) = Ok (cval K A D HL (gadd p r)).
  Proof.
    intros OP OQ EP EQ N. change (cval K A D HL (gadd p r)) with (tadd K A D (cval K A D HL p) (cval K A D HL r)).
    apply C87_homomorphism; auto; [apply (den_p K A D HL)|apply (den_m K A D HL)]; apply (cval_on K A D HL).
  Qed.
  (** The subgroups on which the circuit may compute: take any finite set of points of the curve
      that is closed under the group operations and has no point of order two, such as a
      subgroup of odd order.  Then all its points convert, the Edwards law never divides by
      zero on their images, and the conversion is a homomorphism onto a set of points as C35
      and C83 ask for. *)
  Theorem C87_odd_subgroup (G : list (option (K * K))) : odd K ca cb (fun P => In P G) ->
    exists HL : law K A D, (forall p, ins K A D HL p <-> exists P, In P G /\ conv P = Ok p) /\
      (forall P, In P G -> exists p : curve K A D HL, conv P = Ok (cval K A D HL p)) /\
      (forall P Q (p r : curve K A D HL), In P G -> In Q G -> conv P = Ok (cval K A D HL p) -> conv Q = Ok (cval K A D HL r) ->
        conv (sw_add K ca P Q) = Ok (cval K A D HL (gadd p r))).
  Proof.
    intros HG. set (l := flat_map (fun P => match conv P with Ok p => [p] | _ => [] end) G).
    assert (EL : forall p, In p l <-> exists P, In P G /\ image K s na be P p).
    { intros p. unfold l. rewrite in_flat_map. split; intros (P & HP & E); exists P; (split; [exact HP|]).
      - apply conv_image. destruct (conv P) as [p'| |]; cbn in E; try contradiction. destruct E as [<-|[]]. reflexivity.
      - apply conv_image in E. rewrite E. now left. }
    clearbody l.
    assert (L : exists HL : law K A D, forall p, ins K A D HL p <-> In p l).
    { unshelve eexists.
      - refine {| lw_in := mem K l |}.
        + intros [x y] HP. apply mem_in, EL in HP as (Q & HQ & HI). apply (on_of_eq K A D x y).
          apply (image_on K ca cb s na be A D H Q); [now apply (od_on _ _ _ _ HG)|exact HI].
        + apply mem_in, EL. exists None. split; [apply (od_0 _ _ _ _ HG)|reflexivity].
        + intros [x y] HP. apply mem_in, EL. apply mem_in, EL in HP as (Q & HQ & HI). exists (sw_neg K Q). split; [now apply (od_neg _ _ _ _ HG)|].
          exact (image_neg K ca cb s na be A D H Q x y HI).
        + intros p r Hp Hr. apply mem_in, EL. apply mem_in, EL in Hp as (P & HP & IP), Hr as (Q & HQ & IQ). exists (sw_add K ca P Q). split; [now apply (od_add _ _ _ _ HG)|].
          now apply (odd_sum K ca cb s na be A D H _ HG P Q).
        + intros p r Hp Hr. apply mem_in, EL in Hp as (P & HP & IP), Hr as (Q & HQ & IQ). split; [now apply (odd_den K ca cb s na be A D H _ HG P Q)|now apply (odd_den_m K ca cb s na be A D H _ HG P Q)].
      - intros p. exact (mem_in K l p). }
    destruct L as [HL IN]. exists HL. split; [|split].
    - intros p. rewrite IN, EL. split; intros (P & HP & E); exists P; (split; [exact HP|]); now apply conv_image.
    - intros P HP. destruct (odd_image K ca cb s na be A D H _ HG P HP) as [p Hp].
      assert (I : ins K A D HL p) by (apply IN, EL; now exists P). exists (mkpt K A D HL p I). now apply conv_image.
    - intros P Q p r HP HQ EP EQ. apply conv_image in EP, EQ. apply conv_image.
      exact (odd_sum K ca cb s na be A D H _ HG P Q _ _ HP HQ EP EQ).
  Qed.
End Convert.
(** The dummy constants of the other curves: every finite point panics. *)
Theorem C87_dummy_panics q Hq x y : sw_to_te q Hq 0 0 0 (Some (x, y)) = Panic.
Proof. unfold sw_to_te, fdivp. replace (feqb (fmul 0 y) f0) with true; [reflexivity|]. symmetry. apply feqb_eq. apply (fm0_l (Zp q Hq)). Qed.

(** ** A square coefficient [D] *)
Section Partner.
  Variable K : fld.
  Add Field Kpart : (fth K).
  Variables A D t : K.
  (** When [D] is a square, every point off the axes has a partner on the curve with which the
      addition panics, and with which the addition gate accepts every abscissa. *)
  Theorem C87_square_coefficient x y : t * t = D -> t <> 0 -> (1 + 1 : K) <> 0 -> A * (x * x) + y * y = 1 + D * (x * x) * (y * y) -> x <> 0 -> y <> 0 ->
    exists x' y', A * (x' * x') + y' * y' = 1 + D * (x' * x') * (y' * y') /\
      (forall c a b, wf c -> pout a (num_vars c) -> pout b (num_vars c) -> pv (hon c) a = (x, y) -> pv (hon c) b = (x', y') -> ecc_add A D a b c = (Panic, c)) /\
      exists y3, forall x3, let z := D * x * y * x' * y' in
        x3 * (1 + z) = x * y' + x' * y /\ y3 * (1 - z) = y * y' - A * x * x'.
  Proof.
    intros Et Nt N2 On Nx Ny. exists (- (1 / (t * y))), (1 / (t * x)).
    assert (Z : D * x * y * - (1 / (t * y)) * (1 / (t * x)) = - (1)) by (rewrite <- Et; field; auto).
    split; [|split].
    - apply (fmul_cancel_l K (t * t * (x * x) * (y * y))); [intros E; repeat (apply fmul_eq_0 in E as [E|E]; auto)|].
      transitivity (A * (x * x) + y * y); [field; auto|]. rewrite On, <- Et. field. auto.
    - intros c a b Hw Ha Hb Ea Eb. apply (ecc_add_panics A D c a b Hw Ha Hb). left. rewrite Ea, Eb. unfold tz. cbn [fst snd]. rewrite Z. ring.
    - exists ((y * (1 / (t * x)) - A * x * - (1 / (t * y))) / (1 + 1)). intros x3 z. subst z. rewrite Z. split.
      + transitivity (0 : K); [ring|]. field. auto.
      + replace (1 - - (1)) with (1 + 1 : K) by ring. field. auto.
  Qed.
End Partner.

(** ** BLS12-377 *)
Notation K377 := (Zp q377 Hq377).
(** little-endian 64-bit limbs of [BigInteger384::new] *)
Definition limbs64 (l : list Z) : Z := fold_right (fun d acc => d + 2^64 * acc)%Z 0%Z l.
(** conversion.rs:75-83 *)
Definition S377 : K377 := zmk q377 (limbs64 [0x3401d618f0339eab; 0x0f793b8504b428d4; 0x0ff643cca95ccc0d; 0xd7a504665d66cc8c; 0x1dc07a44b1eeea84; 0x10f272020f118a]%Z).
(** conversion.rs:85-86 *)
Definition NA377 : K377 := zmk q377 (limbs64 [1; 0; 0; 0; 0; 0]%Z).
(** conversion.rs:88-96 *)
Definition B377 : K377 := zmk q377 (limbs64 [0x450ae9206343e6e4; 0x7af39509df5027b6; 0xab82b31405cf8a30; 0x80d743e1f6c15c7c; 0x0cec22e650360183; 0x272fd56ac5c669]%Z).
(** conversion.rs:147-148 (the coefficients of the curve in ark_bls12_377) *)
Definition A377 : K377 := - (1).
Definition D377 : K377 := zmk q377 122268283598675559488486339158635529096981886914877139579534153582033676785385790730042363341236035746924960903179%Z.
Definition sqrtD377 : K377 := zmk q377 228097355113300204138531148905234651262148041026195375645000724271212049151994375092458297304264351187709081232382%Z.
Definition i377 : K377 := zmk q377 216465761340224619389371505802605247630151569547285782856803747159100223055385581585702401816380679166954762214499%Z.
Lemma some_pair {X Y} (a c : X) (b d : Y) : a = c -> b = d -> Some (a, b) = Some (c, d).
Proof. now intros -> ->. Qed.
Lemma feqb_f {K : fld} (x y : K) : x <> y -> feqb x y = false.
Proof. intros H. now apply feqb_neq. Qed.
Lemma eq_zv p Hp (x y : Zp p Hp) : zv p x = zv p y -> x = y.
Proof. apply zp_ext. Qed.
Lemma neq_zv p Hp (x y : Zp p Hp) : (zv p x =? zv p y)%Z = false -> x <> y.
Proof. intros H E. subst. rewrite Z.eqb_refl in H. discriminate. Qed.
Local Ltac calc := apply eq_zv; vm_compute; reflexivity.
Local Ltac differ := apply neq_zv; vm_compute; reflexivity.

(** The shipped constants convert [y^2 = x^3 + 1] to the Edwards curve the circuit computes
    in, so that C87 applies to BLS12-377. *)
Theorem C87_shipped : converts K377 0 1 S377 NA377 B377 A377 D377.
Proof. split; [cbn [on_sw]; calc|calc|calc|calc|differ]. Qed.
(** Both coefficients of that curve are squares: it is not complete, and points off the axes
    have partners with which additions panic or are not determined. *)
Theorem C87_shipped_not_complete : i377 * i377 = A377 /\ sqrtD377 * sqrtD377 = D377 /\ ~ complete K377 A377 D377 /\
  forall x y, A377 * (x * x) + y * y = 1 + D377 * (x * x) * (y * y) -> x <> 0 -> y <> 0 ->
    exists x' y', A377 * (x' * x') + y' * y' = 1 + D377 * (x' * x') * (y' * y') /\
      (forall c a b, wf c -> pout a (num_vars c) -> pout b (num_vars c) -> pv (hon c) a = (x, y) -> pv (hon c) b = (x', y') -> ecc_add A377 D377 a b c = (Panic, c)) /\
      exists y3, forall x3, let z := D377 * x * y * x' * y' in
        x3 * (1 + z) = x * y' + x' * y /\ y3 * (1 - z) = y * y' - A377 * x * x'.
Proof.
  assert (E : sqrtD377 * sqrtD377 = D377) by calc. split; [calc|]. split; [exact E|]. split.
  - intros C. now apply (cp_nonsq _ _ _ C sqrtD377).
  - intros x y. apply (C87_square_coefficient K377 A377 D377 sqrtD377); [exact E|differ|differ].
Qed.
(** Points of the curve that cannot be converted: the point of order two, and one of order
    four. *)
Theorem C87_panics_refuted : exists P Q, on_sw K377 0 1 P /\ on_sw K377 0 1 Q /\ P <> Q /\ sw_add K377 0 Q Q = P /\
  sw_to_te q377 Hq377 S377 NA377 B377 P = Panic /\ sw_to_te q377 Hq377 S377 NA377 B377 Q = Panic.
Proof.
  exists (Some (- (1), 0)),
    (Some (zmk q377 228097355113300204138531148905234651262148041026195375645000724271212049151994375092458297304264351187709081232383%Z,
           zmk q377 183248120370312093914300842873964025714947238860092572013797503794978351907865142483153210499531168963665210033314%Z)).
  split; [cbn [on_sw]; calc|]. split; [cbn [on_sw]; calc|]. split.
  { intros E. assert (X : forall a b c d : K377, Some (a, b) = Some (c, d) -> b = d) by (intros a b c d E'; congruence). apply X in E. revert E. differ. }
  split; [|split].
  - unfold sw_add. rewrite (feqb_refl K377).
    match goal with |- context [feqb ?a ?b] => replace (feqb a b) with false by (vm_compute; reflexivity) end. cbn [andb]. cbv zeta.
    match goal with |- context [?a / ?b] => replace (a / b) with (zmk q377 155260271560354258144080491299625797710927200165251431273520524969486176680026061071648289025200125990515258862142%Z : K377) by (symmetry; apply (div_eq K377); [differ|calc]) end.
    apply some_pair; calc.
  - apply (proj2 (proj1 (C87_defined q377 Hq377 0 1 S377 NA377 B377 A377 D377 C87_shipped (Some (- (1), 0))))). now left.
  - match goal with |- sw_to_te _ _ _ _ _ (Some (?x, ?y)) = _ =>
      apply (proj2 (proj1 (C87_defined q377 Hq377 0 1 S377 NA377 B377 A377 D377 C87_shipped (Some (x, y))))) end. right. calc.
Qed.

(** Points of the curve and their images. *)
Definition x23 : K377 := zmk q377 23560188534917577818843641916571445935985386319233886518929971599490231428764380923487987729215299304184915158756%Z.
Definition y23 : K377 := zmk q377 228097355113300204138531148905234651262148041026195375645000724271212049151994375092458297304264351187709081232386%Z.
Definition x01 : K377 := zmk q377 23560188534917577818843641916571445935985386319233886518929971599490231428764380923487987729215299304184915158756%Z.
Definition y01 : K377 := zmk q377 30567070899668889872121584789658882274245471728719284894883538395508419196346447682510590835309008936731240225791%Z.
Notation conv377 := (sw_to_te q377 Hq377 S377 NA377 B377).
Lemma image23 : image K377 S377 NA377 B377 (Some (1 + 1, 1 + 1 + 1)) (x23, y23).
Proof. cbn [image]. split; [differ|]. split; [differ|]. symmetry. apply pair_equal_spec. split; (apply (div_eq K377); [differ|calc]). Qed.
Lemma image01 : image K377 S377 NA377 B377 (Some (0, 1)) (x01, y01).
Proof. cbn [image]. split; [differ|]. split; [differ|]. symmetry. apply pair_equal_spec. split; (apply (div_eq K377); [differ|calc]). Qed.
Lemma image01n : image K377 S377 NA377 B377 (Some (0, - (1))) (- x01, y01).
Proof. exact (image_neg K377 0 1 S377 NA377 B377 A377 D377 C87_shipped (Some (0, 1)) x01 y01 image01). Qed.
(** Two points, their sum, and the sum of their images. *)
Theorem C87_instance : exists P Q p r t, on_sw K377 0 1 P /\ on_sw K377 0 1 Q /\ P <> None /\ Q <> None /\ P <> Q /\ conv377 P = Ok p /\ conv377 Q = Ok r /\
  sw_add K377 0 P Q = Some (1 + 1, - (1 + 1 + 1)) /\ conv377 (Some (1 + 1, - (1 + 1 + 1))) = Ok t /\ tadd K377 A377 D377 p r = t.
Proof.
  exists (Some (1 + 1, 1 + 1 + 1)), (Some (0, - (1))), (x23, y23), (- x01, y01), (- x23, y23).
  assert (O1 : on_sw K377 0 1 (Some (1 + 1, 1 + 1 + 1))) by (cbn [on_sw]; calc).
  assert (O2 : on_sw K377 0 1 (Some (0, - (1)))) by (cbn [on_sw]; calc).
  assert (E1 : conv377 (Some (1 + 1, 1 + 1 + 1)) = Ok (x23, y23)) by (apply conv_image, image23).
  assert (E2 : conv377 (Some (0, - (1))) = Ok (- x01, y01)) by (apply conv_image, image01n).
  assert (E3 : conv377 (Some (1 + 1, - (1 + 1 + 1))) = Ok (- x23, y23)) by exact (C87_negation q377 Hq377 0 1 S377 NA377 B377 A377 D377 C87_shipped (Some (1 + 1, 1 + 1 + 1)) x23 y23 E1).
  assert (ES : sw_add K377 0 (Some (1 + 1, 1 + 1 + 1)) (Some (0, - (1))) = Some (1 + 1, - (1 + 1 + 1))).
  { unfold sw_add. rewrite (feqb_f (1 + 1 : K377) 0) by differ. cbn [andb]. cbv zeta.
    match goal with |- context [?a / ?b] => replace (a / b) with (1 + 1 : K377) by (symmetry; apply (div_eq K377); [differ|calc]) end. apply some_pair; calc. }
  assert (SI : forall (P Q : K377 * K377), Some P = Some Q -> snd P = snd Q) by (intros P Q E; congruence).
  split; [exact O1|]. split; [exact O2|]. split; [discriminate|]. split; [discriminate|].
  split; [intros E; apply SI in E; cbn [snd] in E; revert E; differ|].
  split; [exact E1|]. split; [exact E2|]. split; [exact ES|]. split; [exact E3|].
  pose proof (C87_homomorphism q377 Hq377 0 1 S377 NA377 B377 A377 D377 C87_shipped _ _ _ _ O1 O2 E1 E2) as X. rewrite ES, E3 in X.
  symmetry. apply (Ok_inj (X := perr)). apply X.
  - intros E. apply SI in E. cbn [snd] in E. revert E. differ.
  - unfold tz. cbn [fst snd]. differ.
  - unfold tz. cbn [fst snd]. differ.
Qed.
(** A subgroup of the Edwards curve of BLS12-377 in which the law is defined, the images of the
    points of order three. *)
Definition three : list (pt K377) := [t0 K377; (x01, y01); (- x01, y01)].
Definition sw3 (P : option (K377 * K377)) : Prop := P = None \/ P = Some (0, 1) \/ P = Some (0, - (1)).
Lemma three_image p : In p three <-> exists P, sw3 P /\ image K377 S377 NA377 B377 P p.
Proof.
  split.
  - intros [<-|[<-|[<-|[]]]].
    + exists None. split; [now left|reflexivity].
    + exists (Some (0, 1)). split; [right; now left|exact image01].
    + exists (Some (0, - (1))). split; [right; now right|exact image01n].
  - intros (P & HP & HI). destruct HP as [->|[->| ->]].
    + left. symmetry. exact HI.
    + right. left. exact (image_fun K377 S377 NA377 B377 _ _ _ image01 HI).
    + right. right. left. exact (image_fun K377 S377 NA377 B377 _ _ _ image01n HI).
Qed.
Lemma sw3_on P : sw3 P -> on_sw K377 0 1 P.
Proof. intros [->|[->| ->]]; cbn [on_sw]; [exact I|calc|calc]. Qed.
Lemma sw3_sum P Q : sw3 P -> sw3 Q -> sw3 (sw_add K377 0 P Q).
Proof.
  assert (T : feqb (1 + - (1) : K377) 0 = true) by (apply feqb_eq; calc). assert (T' : feqb (- (1) + 1 : K377) 0 = true) by (apply feqb_eq; calc).
  assert (F : feqb (1 + 1 : K377) 0 = false) by (apply feqb_f; differ). assert (F' : feqb (- (1) + - (1) : K377) 0 = false) by (apply feqb_f; differ).
  intros HP HQ. destruct HP as [->|HP]; [exact HQ|]. destruct HQ as [->|HQ]; [destruct HP as [->| ->]; right; [now left|now right]|].
  destruct HP as [->| ->], HQ as [->| ->]; unfold sw_add; rewrite (feqb_refl K377), ?T, ?T', ?F, ?F'; cbn [andb]; cbv zeta.
  - right. right. match goal with |- context [?a / ?b] => replace (a / b) with (0 : K377) by (symmetry; apply (div_eq K377); [differ|calc]) end. apply some_pair; calc.
  - now left.
  - now left.
  - right. left. match goal with |- context [?a / ?b] => replace (a / b) with (0 : K377) by (symmetry; apply (div_eq K377); [differ|calc]) end. apply some_pair; calc.
Qed.
Lemma three_den p r : In p three -> In r three -> 1 + tz K377 D377 p r <> 0 /\ 1 - tz K377 D377 p r <> 0.
Proof. intros [<-|[<-|[<-|[]]]] [<-|[<-|[<-|[]]]]; unfold tz, t0; cbn [fst snd]; split; differ. Qed.
Definition law3 : law K377 A377 D377.
Proof.
  refine {| lw_in := mem K377 three |}.
  - intros P HP. apply mem_in, three_image in HP as (Q & HQ & HI). destruct P as [x y].
    pose proof (image_on K377 0 1 S377 NA377 B377 A377 D377 C87_shipped Q x y (sw3_on Q HQ) HI) as X. exact (on_of_eq K377 A377 D377 x y X).
  - apply mem_in. now left.
  - intros P HP. apply mem_in. apply mem_in, three_image in HP as (Q & HQ & HI). apply three_image. exists (sw_neg K377 Q). split.
    + destruct HQ as [->|[->| ->]]; [now left|right; right; reflexivity|right; left]. cbn [sw_neg]. apply some_pair; calc.
    + destruct P as [x y]. exact (image_neg K377 0 1 S377 NA377 B377 A377 D377 C87_shipped Q x y HI).
  - intros P Q HP HQ. apply mem_in in HP, HQ. destruct (three_den P Q HP HQ) as [N1 N2]. apply mem_in.
    apply three_image in HP as (P' & HP & IP), HQ as (Q' & HQ & IQ). apply three_image. exists (sw_add K377 0 P' Q'). pose proof (sw3_sum P' Q' HP HQ) as HS. split; [exact HS|].
    apply (image_sum K377 0 1 S377 NA377 B377 A377 D377 C87_shipped); auto using sw3_on.
    assert (SI : forall (P Q : K377 * K377), Some P = Some Q -> snd P = snd Q) by (intros a b E; congruence).
    destruct HS as [->|[->| ->]]; [discriminate| |]; intros E; apply SI in E; cbn [snd] in E; revert E; differ.
  - intros P Q HP HQ. apply mem_in in HP, HQ. now apply three_den.
Defined.
Theorem C87_subgroup_instance : exists (HL : law K377 A377 D377) (p : curve K377 A377 D377 HL), conv377 (Some (0, 1)) = Ok (cval K377 A377 D377 HL p) /\ p <> g0 /\ gadd p p <> g0 /\ gadd p (gadd p p) = g0.
Proof.
  assert (IN : forall P, ins K377 A377 D377 law3 P <-> In P three) by exact (mem_in K377 three).
  assert (I1 : ins K377 A377 D377 law3 (x01, y01)) by (apply IN; right; left; reflexivity).
  exists law3, (mkpt K377 A377 D377 law3 _ I1).
  assert (E1 : conv377 (Some (0, 1)) = Ok (x01, y01)) by (apply conv_image, image01).
  assert (E2 : conv377 (Some (0, - (1))) = Ok (- x01, y01)) by (apply conv_image, image01n).
  split; [exact E1|].
  assert (S : sw_add K377 0 (Some (0, 1)) (Some (0, 1)) = Some (0, - (1))).
  { unfold sw_add. rewrite (feqb_refl K377), (feqb_f (1 + 1 : K377) 0) by differ. cbn [andb]. cbv zeta.
    match goal with |- context [?a / ?b] => replace (a / b) with (0 : K377) by (symmetry; apply (div_eq K377); [differ|calc]) end. apply some_pair; calc. }
  assert (SI : forall (P Q : K377 * K377), Some P = Some Q -> snd P = snd Q) by (intros a b E; congruence).
  set (p := mkpt K377 A377 D377 law3 _ I1 : curve K377 A377 D377 law3).
  assert (D2 : cval K377 A377 D377 law3 (gadd p p) = (- x01, y01)).
  { symmetry. apply (Ok_inj (X := perr)). rewrite <- S in E2. refine (eq_trans (eq_sym E2) _).
    apply (C87_subgroup q377 Hq377 0 1 S377 NA377 B377 A377 D377 C87_shipped law3); try (apply sw3_on; right; now left); try exact E1.
    rewrite S. intros E. apply SI in E. cbn [snd] in E. revert E. differ. }
  assert (PI : forall a b : K377 * K377, a = b -> fst a = fst b) by (intros a b ->; reflexivity).
  assert (Z : cval K377 A377 D377 law3 (g0 : curve K377 A377 D377 law3) = (0, 1)) by reflexivity.
  split; [|split].
  - intros E. apply (f_equal (cval K377 A377 D377 law3)) in E. rewrite Z in E. apply PI in E. cbn [fst] in E. revert E. change (x01 = 0 -> False). differ.
  - intros E. apply (f_equal (cval K377 A377 D377 law3)) in E. rewrite Z, D2 in E. apply PI in E. cbn [fst] in E. revert E. differ.
  - apply cpt_ext. rewrite Z. symmetry. apply (Ok_inj (X := perr)). assert (E0 : conv377 None = Ok (0, 1)) by reflexivity.
    assert (S2 : sw_add K377 0 (Some (0, 1)) (Some (0, - (1))) = None).
    { unfold sw_add. rewrite (feqb_refl K377). replace (feqb (1 + - (1) : K377) 0) with true by (symmetry; apply feqb_eq; calc). reflexivity. }
    rewrite <- S2 in E0. refine (eq_trans (eq_sym E0) _). apply (C87_subgroup q377 Hq377 0 1 S377 NA377 B377 A377 D377 C87_shipped law3).
    + apply sw3_on. right. now left.
    + apply sw3_on. right. now right.
    + exact E1.
    + rewrite D2. exact E2.
    + rewrite S2. discriminate.
Qed.
(** Such a set of points of BLS12-377, the points of order three. *)
Theorem C87_odd_instance : odd K377 0 1 (fun P => In P [None; Some (0, 1); Some (0, - (1))]).
Proof.
  assert (E : forall P, In P [None; Some (0, 1); Some (0, - (1))] <-> sw3 P).
  { intros P. unfold sw3. cbn [In]. split; [intros [<-|[<-|[<-|[]]]]; auto|intros [->|[->| ->]]; auto]. }
  split.
  - intros P HP. now apply sw3_on, E.
  - now left.
  - intros P Q HP HQ. apply E. apply sw3_sum; now apply E.
  - intros P HP. apply E in HP. apply E. destruct HP as [->|[->| ->]]; [now left|right; right; reflexivity|right; left]. cbn [sw_neg]. apply some_pair; calc.
  - intros P HP E2. apply E in HP. destruct HP as [->|[->| ->]]; [reflexivity| |]; exfalso; revert E2; unfold sw_add; rewrite (feqb_refl K377).
    + rewrite (feqb_f (1 + 1 : K377) 0) by differ. discriminate.
    + rewrite (feqb_f (- (1) + - (1) : K377) 0) by differ. discriminate.
Qed.
Print Assumptions C87_odd_subgroup.
Print Assumptions C87_odd_instance.
Print Assumptions C87_defined.
Print Assumptions C87_on_curve.
Print Assumptions C87_injective.
Print Assumptions C87_negation.
Print Assumptions C87_homomorphism.
Print Assumptions C87_subgroup.
Print Assumptions C87_dummy_panics.
Print Assumptions C87_square_coefficient.
Print Assumptions C87_shipped.
Print Assumptions C87_shipped_not_complete.
Print Assumptions C87_panics_refuted.
Print Assumptions C87_instance.
Print Assumptions C87_subgroup_instance.
