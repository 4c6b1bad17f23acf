(** Model of the native twisted Edwards gadgets
    (/repo/relation/src/gadgets/ecc/mod.rs, msm.rs, glv.rs). *)

From Coq Require Import List Arith ZArith Bool.
From Verif Require Import Base Alg CircuitModel GadgetModel Edwards.
Import ListNotations.
Local Open Scope fld_scope.
Local Open Scope circ_scope.

Section Ecc.
  Context {K : fld}.
  Notation C := (circ K).
  Notation G := (@insert_gate K).

  (** ecc/mod.rs:110-124: [PointVariable] *)
  Definition pvar : Type := (nat * nat)%type.
  (** ecc/mod.rs:28-36: [TEPoint], with [Default] the neutral point. *)
  Definition te_default : pt K := (0, 1).
  (** ecc/mod.rs:66-70 [TEPoint::inverse] *)
  Definition te_inverse (P : pt K) : pt K := (- fst P, snd P).

  (** ecc/mod.rs:513-518 *)
  Definition check_point_var_bound (p : pvar) : C unit :=
    check_var_bound (fst p) >> check_var_bound (snd p).
  (** ecc/mod.rs:129-134 *)
  Definition point_witness (p : pvar) : C (pt K) :=
    check_point_var_bound p >> (x <- get_witness (fst p) ;; y <- get_witness (snd p) ;; ret (x, y)).
  (** ecc/mod.rs:137-144 *)
  Definition create_point_variable (P : pt K) : C pvar :=
    x <- create_variable (fst P) ;; y <- create_variable (snd P) ;; ret (x, y).
  (** ecc/mod.rs:147-154 *)
  Definition create_constant_point_variable (P : pt K) : C pvar :=
    x <- create_constant_variable (fst P) ;; y <- create_constant_variable (snd P) ;; ret (x, y).
  (** ecc/mod.rs:157-164 *)
  Definition create_public_point_variable (P : pt K) : C pvar :=
    x <- create_public_variable (fst P) ;; y <- create_public_variable (snd P) ;; ret (x, y).

  (** ecc/mod.rs:172-218.  The neutral point of ark-ec is (0, 1). *)
  Definition quaternary_point_select (b0 b1 : nat) (P1 P2 P3 : pt K) : C pvar :=
    check_var_bound b0 >> check_var_bound b1 >>
    (v0 <- get_witness b0 ;; v1 <- get_witness b1 ;;
     s <- create_point_variable
            (match feqb v0 1, feqb v1 1 with
             | false, false => te_default
             | true, false => P1
             | false, true => P2
             | true, true => P3
             end) ;;
     G (mk_row b0 b1 0 0 (fst s)) (quaternary_x_gate K (fst P1) (fst P2) (fst P3)) >>
     G (mk_row b0 b1 0 0 (snd s)) (quaternary_y_gate K (snd P1) (snd P2) (snd P3)) >>
     ret s).

  (** ecc/mod.rs:224-237 *)
  Definition binary_point_vars_select (b : nat) (p0 p1 : pvar) : C pvar :=
    check_var_bound b >> check_point_var_bound p0 >> check_point_var_bound p1 >>
    (x <- conditional_select b (fst p0) (fst p1) ;;
     y <- conditional_select b (snd p0) (snd p1) ;;
     ret (x, y)).

  (** ecc/mod.rs:241-252 *)
  Definition enforce_point_equal (p0 p1 : pvar) : C unit :=
    check_point_var_bound p0 >> check_point_var_bound p1 >>
    enforce_equal (fst p0) (fst p1) >> enforce_equal (snd p0) (snd p1).

  (** ecc/mod.rs:256-267 *)
  Definition is_point_equal (p0 p1 : pvar) : C nat :=
    check_point_var_bound p0 >> check_point_var_bound p1 >>
    (x <- is_equal (fst p0) (fst p1) ;; y <- is_equal (snd p0) (snd p1) ;; logic_and x y).

  (** ecc/mod.rs:272-278 *)
  Definition inverse_point (p : pvar) : C pvar :=
    x <- sub 0 (fst p) ;; ret (x, snd p).

  (** ecc/mod.rs:282-284 *)
  Definition neutral_point_variable : pvar := (0, 1)%nat.

  (** ecc/mod.rs:291-306 *)
  Definition neutral_point_gate (p : pvar) (e : nat) : C unit :=
    check_point_var_bound p >> check_var_bound e >>
    (bx <- is_equal (fst p) 0 ;; by_ <- is_equal (snd p) 1 ;; mul_gate bx by_ e).

  (** ecc/mod.rs:311-331 *)
  Definition is_neutral_point (p : pvar) : C nat :=
    check_point_var_bound p >>
    (P <- point_witness p ;;
     b <- create_boolean_variable (peqb K P te_default) ;;
     neutral_point_gate p b >> ret b).

  (** The parameters of the curve: [COEFF_A], [COEFF_D]. *)
  Variables A D : K.

  (** ecc/mod.rs:338-353 *)
  Definition enforce_on_curve (p : pvar) : C unit :=
    check_point_var_bound p >> G (mk_row (fst p) (fst p) (snd p) (snd p) 1) (edwards_eq_gate K A D).

  (** ecc/mod.rs:360-389 *)
  Definition ecc_add_gate (a b c : pvar) : C unit :=
    check_point_var_bound a >> check_point_var_bound b >> check_point_var_bound c >>
    G (mk_row (fst a) (snd b) (fst b) (snd a) (fst c)) (edwards_add_x_gate K A D) >>
    G (mk_row (fst a) (fst b) (snd a) (snd b) (snd c)) (edwards_add_y_gate K A D).

  (** ecc/mod.rs:396-417.  Division by zero panics in ark-ff. *)
  Definition ecc_add (a b : pvar) : C pvar :=
    x1 <- get_witness (fst a) ;; y1 <- get_witness (snd a) ;;
    x2 <- get_witness (fst b) ;; y2 <- get_witness (snd b) ;;
    let z := D * x1 * y1 * x2 * y2 in
    if feqb (1 + z) 0 || feqb (1 - z) 0 then cpanic else
    c <- create_point_variable ((x1 * y2 + x2 * y1) / (1 + z), (- A * x1 * x2 + y2 * y1) / (1 - z)) ;;
    ecc_add_gate a b c >> ret c.

  (** ecc/mod.rs:530-589.  Points are affine pairs; the projective arithmetic of
      ark-ec is replaced by the affine law [tadd].  [fill_bases] cannot fail, the
      vectors are never empty. *)
  Definition pdouble (P : pt K) : pt K := tadd K A D P P.
  Fixpoint fill_bases (P : pt K) (len : nat) : list (pt K) :=
    match len with
    | O => []
    | S n => P :: fill_bases (pdouble (pdouble P)) n
    end.
  Definition compute_base_points (B : pt K) (len : nat) : outcome cerr (list (pt K) * list (pt K) * list (pt K)) :=
    if (len =? 0)%nat then Err InternalError else
    let B2 := pdouble B in
    Ok (fill_bases B len, fill_bases B2 len, fill_bases (tadd K A D B2 B) len).

  (** ecc/mod.rs:495-513 *)
  Definition variable_base_binary_scalar_mul (bits : list nat) (p : pvar) : C pvar :=
    check_vars_bound bits >> check_point_var_bound p >>
    foldM (fun acc b =>
      z <- binary_point_vars_select b neutral_point_variable p ;;
      acc2 <- ecc_add acc acc ;;
      ecc_add acc2 z) neutral_point_variable (rev bits).

  Section PrimeField.
    (** The prime-field data of the circuit field (see [GadgetModel]). *)
    Variable zval : K -> Z.
    Variable modulus : Z.
    Variable nbits : nat.
    Variable repr_bits : nat.
    Notation unpack := (unpack zval modulus nbits repr_bits).

    (** [ScalarField::MODULUS_BIT_SIZE] and [ScalarField::MODULUS] *)
    Variable sbits : nat.
    Variable order : Z.

    (** ecc/mod.rs:421-466 *)
    Definition fixed_base_scalar_mul (scalar : nat) (B : pt K) : C pvar :=
      check_var_bound scalar >>
      let nb := if Nat.odd sbits then (sbits + 1)%nat else sbits in
      (bits <- unpack scalar nb ;;
       fb <- lift (fun _ => compute_base_points B (nb / 2)) ;;
       foldM (fun acc i =>
         b0 <- lift (fun _ => match nth_error bits (2 * i) with Some b => Ok b | None => Err InternalError end) ;;
         b1 <- lift (fun _ => match nth_error bits (2 * i + 1) with Some b => Ok b | None => Err InternalError end) ;;
         p1 <- lift (fun _ => match nth_error (fst (fst fb)) i with Some b => Ok b | None => Err InternalError end) ;;
         p2 <- lift (fun _ => match nth_error (snd (fst fb)) i with Some b => Ok b | None => Err InternalError end) ;;
         p3 <- lift (fun _ => match nth_error (snd fb) i with Some b => Ok b | None => Err InternalError end) ;;
         s <- quaternary_point_select b0 b1 p1 p2 p3 ;;
         ecc_add acc s) neutral_point_variable (seq 0 (nb / 2))).

    (** ecc/msm.rs:121-148; [scalars[0]] panics on an empty slice. *)
    Definition msm_naive (bases : list pvar) (scalars : list nat) (len : nat) : C pvar :=
      check_vars_bound scalars >> iterM check_point_var_bound bases >>
      (s0 <- idx scalars 0 ;;
       bits <- unpack s0 len ;;
       b0 <- idx bases 0 ;;
       r <- variable_base_binary_scalar_mul bits b0 ;;
       foldM (fun r bs =>
         bits <- unpack (snd bs) len ;;
         t <- variable_base_binary_scalar_mul bits (fst bs) ;;
         ecc_add r t) r (skipn 1 (combine bases scalars))).

    (** [Projective * ScalarField] *)
    Definition pmulz (k : Z) (P : pt K) : pt K :=
      match k with
      | Z0 => te_default
      | Zpos q => Pos.iter_op (tadd K A D) q P
      | Zneg q => te_inverse (Pos.iter_op (tadd K A D) q P)
      end.
    (** ecc/msm.rs:362-365; [ark_std::log2] is the ceiling of the logarithm. *)
    Definition ln_without_floats (a : nat) : nat := (Nat.log2_up a * 69 / 100)%nat.
    (** ecc/msm.rs:309-338.  [m] underflows for a zero length.  The limb
        [as_ref()[0]] holds 64 bits, [c] is below 64 for every length. *)
    Definition decompose_scalar_var (s c len : nat) : C (list nat) :=
      if (len =? 0)%nat then cpanic else
      let m := ((len - 1) / c + 1)%nat in
      v <- get_witness s ;;
      vars <- mapM (fun j => create_variable (fZ ((zval v / 2 ^ Z.of_nat (c * j)) mod 2 ^ Z.of_nat c)%Z)) (seq 0 m) ;;
      decomposition_gate vars s (fZ (2 ^ Z.of_nat c)%Z) >> ret vars.
    (** ecc/msm.rs:343-356; [fq_to_fr] reduces modulo the group order. *)
    Definition compute_scalar_mul_value (s : nat) (p : pvar) : C (pt K) :=
      P <- point_witness p ;; v <- get_witness s ;; ret (pmulz (zval v mod order)%Z P).
    (** ecc/msm.rs:284-306 *)
    Definition create_point_lookup_gates (table : list pvar) (ss : list nat) (ps : list pvar) : C unit :=
      create_table_and_lookup_variables (map (fun sp => (fst sp, fst (snd sp), snd (snd sp))) (combine ss ps)) table.
    (** The table [0 * base, 1 * base, ...] of ecc/msm.rs:227-231: [n] more entries
        after [last]. *)
    Fixpoint point_table (base last : pvar) (n : nat) : C (list pvar) :=
      match n with
      | O => ret []
      | S n' => p <- ecc_add base last ;; l <- point_table base p n' ;; ret (p :: l)
      end.
    (** ecc/msm.rs:184-281.  [window_sums.first().unwrap()] panics when there is
        no base; inside the final fold an error panics ([unwrap]). *)
    Definition pip_c (len : nat) : nat := if (len <? 32)%nat then 3%nat else ln_without_floats len.
    Definition pip_one (c len : nat) (base : pvar) (scalar : nat) : C (list pvar) :=
      ss <- decompose_scalar_var scalar c len ;;
      tl <- point_table base base (2 ^ c - 2)%nat ;;
      ps <- mapM (fun s => P <- compute_scalar_mul_value s base ;; create_point_variable P) ss ;;
      create_point_lookup_gates (neutral_point_variable :: base :: tl) ss ps >> ret ps.
    Definition pip_windows (c len : nat) (bs : list (pvar * nat)) : C (list pvar) :=
      foldM (fun sums bsv =>
        ps <- pip_one c len (fst bsv) (snd bsv) ;;
        match sums with
        | [] => ret ps
        | _ => mapM (fun xy => ecc_add (fst xy) (snd xy)) (combine sums ps)
        end) [] bs.
    Fixpoint doublings (p : pvar) (n : nat) : C pvar :=
      match n with
      | O => ret p
      | S n' => q <- unwrap (ecc_add p p) ;; doublings q n'
      end.
    Definition msm_pippenger (bases : list pvar) (scalars : list nat) (len : nat) : C pvar :=
      iterM (fun sb => check_var_bound (fst sb) >> check_point_var_bound (snd sb)) (combine scalars bases) >>
      let c := pip_c len in
      (sums <- pip_windows c len (combine bases scalars) ;;
       lowest <- idx sums 0 ;;
       b <- foldM (fun tot s => t <- unwrap (ecc_add tot s) ;; doublings t c) neutral_point_variable (rev (skipn 1 sums)) ;;
       ecc_add lowest b).
    (** ecc/msm.rs:60-83 *)
    Definition msm_with_var_scalar_length (bases : list pvar) (scalars : list nat) (len : nat) : C pvar :=
      if negb (length bases =? length scalars)%nat then fail ParameterError else
      l <- lift (fun c => Ok (support_lookup c)) ;;
      if (l : bool) then msm_pippenger bases scalars len else msm_naive bases scalars len.
    (** ecc/msm.rs:46-58 *)
    Definition msm (bases : list pvar) (scalars : list nat) : C pvar :=
      msm_with_var_scalar_length bases scalars sbits.
  End PrimeField.
End Ecc.
