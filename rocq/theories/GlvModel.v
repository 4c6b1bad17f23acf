(** Multiplication on Bandersnatch with its endomorphism
    (/repo/relation/src/gadgets/ecc/glv.rs). *)
From Coq Require Import List Arith ZArith Bool.
From Verif Require Import Base Alg Edwards CircuitModel GadgetModel EccModel.
Import ListNotations.
Local Open Scope fld_scope.
Local Open Scope circ_scope.

(** The constants of glv.rs:24-80 as integers, and the number of bits of a half scalar,
    which the code writes as 128 throughout. *)
Record glv_consts := mk_glv {
  gl_half : nat; gl_b : Z; gl_c : Z; gl_lam : Z; gl_lam1 : Z; gl_lam2 : Z; gl_r1 : Z; gl_r2 : Z;
  gl_n11 : Z; gl_n12 : Z; gl_n21 : Z; gl_n22 : Z }.
(** [from_le_bytes] before the reduction *)
Fixpoint le_Z (l : list Z) : Z := match l with [] => 0%Z | b :: l => (b + 256 * le_Z l)%Z end.
(** glv.rs:24-80; trailing zero bytes are left out *)
Definition glv_bandersnatch : glv_consts := mk_glv 128
  (le_Z [180; 16; 37; 23; 77; 1; 15; 238; 214; 244; 154; 13; 119; 18; 167; 46; 136; 26; 81; 99; 58; 13; 240; 97; 165; 38; 132; 130; 139; 242; 201; 82])%Z
  (le_Z [61; 11; 101; 223; 108; 128; 92; 81; 233; 244; 54; 255; 207; 171; 86; 132; 7; 209; 23; 108; 253; 110; 124; 169; 195; 87; 84; 134; 207; 36; 198; 108])%Z
  (le_Z [5; 223; 131; 135; 64; 33; 61; 209; 110; 5; 165; 112; 185; 157; 196; 207; 43; 199; 56; 43; 86; 73; 248; 237; 147; 164; 57; 74; 220; 243; 180; 19])%Z
  (le_Z [5; 223; 131; 135; 64; 33; 61; 209; 110; 5; 165; 112; 185; 157; 196; 207])%Z
  (le_Z [43; 199; 56; 43; 86; 73; 248; 237; 147; 164; 57; 74; 220; 243; 180; 19])%Z
  (le_Z [225; 231; 118; 40; 181; 6; 253; 116; 113; 4; 25; 116; 0; 135; 143; 255])%Z
  (le_Z [0; 118; 104; 2; 2; 118; 206; 12; 82; 95; 103; 202; 212; 105; 251; 28])%Z
  (le_Z [31; 24; 137; 151; 74; 249; 2; 75; 142; 146; 230; 75; 0; 226; 95; 85])%Z
  (le_Z [68; 31; 214; 35; 26; 89; 226; 248; 93; 143; 94; 229; 238; 179; 20; 8])%Z
  (le_Z [136; 62; 172; 71; 52; 178; 196; 241; 187; 30; 189; 202; 221; 103; 41; 16])%Z
  (le_Z [194; 207; 237; 144; 106; 13; 250; 41; 227; 113; 50; 40; 0; 165; 47; 170; 0; 118; 104; 2; 2; 118; 206; 12; 82; 95; 103; 202; 212; 105; 251; 28])%Z.

Section Glv.
  Context {K : fld}.
  Notation C := (circ K).
  (** The curve, the field and the modulus of the scalar field. *)
  Variables A D : K.
  Variable zval : K -> Z.
  Variable modulus : Z.
  Variables nbits repr_bits : nat.
  Variable order : Z.
  Variable G : glv_consts.

  (** glv.rs:218-256, with the numbers of a field in place of its elements.  The
      difference of two [BigUint] panics when it is negative. *)
  Definition scalar_decomposition (s : Z) : outcome cerr (Z * Z * bool) :=
    let n11 := (gl_n11 G mod order)%Z in
    let n12 := (gl_n12 G mod order)%Z in
    let n21 := (gl_n21 G mod order)%Z in
    let n22 := (gl_n22 G mod order)%Z in
    let beta1 := (s * n11 / order)%Z in
    let beta2 := (s * n12 / order)%Z in
    let b1 := (beta1 * n11 + beta2 * n21)%Z in
    let b2 := ((beta1 * n12 + beta2 * n22) mod order)%Z in
    if (s <? b1)%Z then Panic else
    let k1 := ((s - b1) mod order)%Z in
    let pos := (b2 <? order / 2)%Z in
    Ok (k1, if pos then b2 else ((- b2) mod order)%Z, pos).

  (** glv.rs:350-375: the numbers that the prover assigns.  [BigInt] division rounds to zero. *)
  Record glv_nums := mk_gn { gn_k1 : Z; gn_k2 : Z; gn_pos : bool; gn_t : Z; gn_tmp : Z; gn_tmp2 : Z }.
  Definition decomposition_numbers (s : Z) : outcome cerr glv_nums :=
    let* x := scalar_decomposition (s mod order) in
    let '(k1, k2, pos) := x in
    let k2s := if pos then k2 else (- k2)%Z in
    let t := Z.quot ((gl_lam G mod modulus) * k2s + s - k1) order in
    let tmp := ((gl_lam1 G mod modulus) * k2s + s - t * (gl_r1 G mod modulus) - k1)%Z in
    Ok (mk_gn k1 k2 pos t tmp (Z.quot tmp (2 ^ Z.of_nat (gl_half G)))).

  (** glv.rs:281-555; the gates come first, the whole at the end.  [int_to_fq!] takes the bytes of the magnitude and drops the sign.
      The test-only checks are left out. *)
  Definition int_to_fq (z : Z) : K := fZ (Z.abs z).
  (** glv.rs:482-519 *)
  Definition decomposition_low (s_var k1 k2 sg t tmp : nat) : C unit :=
    let lam1 := fZ (gl_lam1 G) : K in
    let r1 := fZ (gl_r1 G) : K in
    l <- lc tmp t k1 0 1 r1 1 0 ;;
    r <- lc k2 s_var 0 0 lam1 1 0 0 ;;
    pos <- is_equal l r ;;
    l <- lc k2 tmp k1 0 lam1 1 1 0 ;;
    r <- lc s_var t 0 0 1 r1 0 0 ;;
    neg <- is_equal l r ;;
    sat <- conditional_select sg neg pos ;;
    enforce_true sat.
  (** glv.rs:521-551 *)
  Definition decomposition_high (k2 sg t tmp2 : nat) : C unit :=
    let lam2 := fZ (gl_lam2 G) : K in
    let r2 := fZ (gl_r2 G) : K in
    l <- lc tmp2 k2 0 0 1 lam2 0 0 ;;
    r <- mul_constant t r2 ;;
    pos <- is_equal l r ;;
    l <- lc tmp2 t 0 0 1 r2 0 0 ;;
    r <- mul_constant k2 lam2 ;;
    neg <- is_equal l r ;;
    sat <- conditional_select sg neg pos ;;
    enforce_true sat.
  (** glv.rs:457-469 *)
  Record glv_vars := mk_gv { gv_k1 : nat; gv_k2 : nat; gv_sg : nat; gv_t : nat; gv_tmp : nat; gv_tmp2 : nat }.
  Definition decomposition_vars (x : glv_nums) : C glv_vars :=
    k1 <- create_variable (int_to_fq (gn_k1 x)) ;;
    k2 <- create_variable (int_to_fq (gn_k2 x)) ;;
    sg <- create_boolean_variable (gn_pos x) ;;
    t <- create_variable (int_to_fq (gn_t x)) ;;
    tmp <- create_variable (int_to_fq (gn_tmp x)) ;;
    tmp2 <- create_variable (int_to_fq (gn_tmp2 x)) ;;
    ret (mk_gv k1 k2 sg t tmp tmp2).
  (** glv.rs:457-555 *)
  Definition decomposition_gates (x : glv_nums) (s_var : nat) : C (nat * nat * nat) :=
    v <- decomposition_vars x ;;
    enforce_in_range zval modulus nbits repr_bits (gv_k1 v) (gl_half G) >>
    (enforce_in_range zval modulus nbits repr_bits (gv_k2 v) (gl_half G) >>
    (mul_constant_gate (gv_tmp2 v) (fZ (2 ^ Z.of_nat (gl_half G))) (gv_tmp v) >>
    (enforce_in_range zval modulus nbits repr_bits (gv_tmp2 v) (gl_half G) >>
    (decomposition_low s_var (gv_k1 v) (gv_k2 v) (gv_sg v) (gv_t v) (gv_tmp v) >>
    (decomposition_high (gv_k2 v) (gv_sg v) (gv_t v) (gv_tmp2 v) >> ret (gv_k1 v, gv_k2 v, gv_sg v)))))).
  Definition scalar_decomposition_gate (s_var : nat) : C (nat * nat * nat) :=
    s <- get_witness s_var ;;
    x <- lift (fun _ => decomposition_numbers (zval s)) ;;
    decomposition_gates x s_var.

  (** glv.rs:135-155.  [Projective::new] goes to affine coordinates, dividing by the third
      one, and asserts that the point is on the curve and in the subgroup of prime
      order; the first step panics on a zero denominator, since the second and third
      coordinates are then both zero. *)
  Variable in_subgroup : pt K -> bool.
  Definition on_curveb (P : pt K) : bool :=
    feqb (A * fst P * fst P + snd P * snd P) (1 + D * fst P * fst P * snd P * snd P).
  Definition endomorphism (P : pt K) : outcome cerr (pt K) :=
    let b := fZ (gl_b G) : K in
    let c := fZ (gl_c G) : K in
    let xy := fst P * snd P in
    let y2 := snd P * snd P in
    let f := c * (1 - y2) in
    let g := b * (y2 + b) in
    let h := y2 - b in
    let z := h * xy in
    if feqb z 0 then Panic else
    let Q := (f * h * finv z, g * xy * finv z) in
    if on_curveb Q && in_subgroup Q then Ok Q else Panic.
  (** glv.rs:158-212 *)
  Definition endomorphism_circuit (p : pvar) : C pvar :=
    let b := fZ (gl_b G) : K in
    let c := fZ (gl_c G) : K in
    P <- point_witness p ;;
    Q <- lift (fun _ => endomorphism P) ;;
    o <- create_point_variable Q ;;
    xy <- mul (fst p) (snd p) ;;
    f <- gen_quad_poly (snd p) (snd p) 0 0 0 0 0 0 (- c) 0 c ;;
    g <- gen_quad_poly (snd p) (snd p) 0 0 0 0 0 0 b 0 (b * b) ;;
    h <- gen_quad_poly (snd p) (snd p) 0 0 0 0 0 0 1 0 (- b) ;;
    mul_gate (fst o) xy f >> mul_gate (snd o) h g >> ret o.

  (** glv.rs:109-132 *)
  Definition multi_scalar_mul_circuit (base : pvar) (s1 : nat) (endo : pvar) (s2 sg : nat) : C pvar :=
    neg <- inverse_point endo ;;
    e <- binary_point_vars_select sg endo neg ;;
    msm_with_var_scalar_length A D zval modulus nbits repr_bits order [base; e] [s1; s2] (gl_half G).
  (** glv.rs:88-106 *)
  Definition glv_mul (scalar : nat) (base : pvar) : C pvar :=
    check_var_bound scalar >> check_point_var_bound base >>
    (d <- scalar_decomposition_gate scalar ;;
     e <- endomorphism_circuit base ;;
     multi_scalar_mul_circuit base (fst (fst d)) e (snd (fst d)) (snd d)).
End Glv.
