(** The decomposition of scalars in halves (glv.rs:218-256). *)
From Coq Require Import List Arith ZArith Bool Lia.
From Verif Require Import Base Alg CircuitModel GlvModel.
Import ListNotations.
Local Open Scope Z_scope.

(** What the constants have to satisfy: the rows (n11, n12) and (n21, - n11) are a basis of
    the lattice of the pairs (a, b) with a + lambda b = 0, of determinant the order. *)
Record glv_lattice (r : Z) (G : glv_consts) : Prop := {
  gk_n11 : 0 <= gl_n11 G; gk_n12 : 0 <= gl_n12 G; gk_n21 : 0 <= gl_n21 G;
  gk_det : gl_n11 G * gl_n11 G + gl_n12 G * gl_n21 G = r;
  gk_n22 : gl_n22 G mod r = (- gl_n11 G) mod r;
  gk_row1 : (gl_n11 G + gl_lam G * gl_n12 G) mod r = 0;
  gk_row2 : (gl_n21 G - gl_lam G * gl_n11 G) mod r = 0;
  gk_sum : gl_n11 G + gl_n21 G < r;
  gk_h1 : 2 * gl_n11 G + 1 < r; gk_h2 : 2 * gl_n12 G + 1 < r }.

Lemma mul_cancel_le a b c : 0 < a -> a * b <= a * c -> b <= c.
Proof. intros Ha H. now apply Z.mul_le_mono_pos_l in H. Qed.
Lemma mul_cancel_lt a b c : 0 < a -> a * b < a * c -> b < c.
Proof. intros Ha H. now apply Z.mul_lt_mono_pos_l in H. Qed.

Section Lattice.
  Variable r : Z.
  Variable G : glv_consts.
  Hypothesis HG : glv_lattice r G.
  Notation n11 := (gl_n11 G).
  Notation n12 := (gl_n12 G).
  Notation n21 := (gl_n21 G).
  Notation lam := (gl_lam G).

  Definition signed (pos : bool) (k : Z) : Z := if pos then k else - k.

  Theorem scalar_decomposition_ok s : 0 <= s < r ->
    exists k1 k2 pos, scalar_decomposition r G s = Ok (k1, k2, pos) /\ 0 <= k1 <= s /\ k1 <= n11 + n21 /\ 0 <= k2 /\ k2 <= (if pos then n11 else n12) /\
      (s - (k1 - signed pos k2 * lam)) mod r = 0.
  Proof.
    intros Hs. destruct HG as [A1 A2 A3 Dt E22 R1 R2 Sm H1 H2]. assert (Hr : 0 < r) by lia.
    assert (S11 : n11 mod r = n11) by (apply Z.mod_small; lia). assert (S12 : n12 mod r = n12) by (apply Z.mod_small; lia). assert (S21 : n21 mod r = n21) by (apply Z.mod_small; lia).
    unfold scalar_decomposition. rewrite S11, S12, S21. cbv zeta.
    pose proof (Z.div_mod (s * n11) r ltac:(lia)) as D1. pose proof (Z.div_mod (s * n12) r ltac:(lia)) as D2.
    pose proof (Z.mod_pos_bound (s * n11) r Hr) as M1. pose proof (Z.mod_pos_bound (s * n12) r Hr) as M2.
    set (x1 := s * n11 / r) in *. set (x2 := s * n12 / r) in *. set (e1 := (s * n11) mod r) in *. set (e2 := (s * n12) mod r) in *.
    assert (Eb : r * (s - (x1 * n11 + x2 * n21)) = e1 * n11 + e2 * n21).
    { replace (r * (s - (x1 * n11 + x2 * n21))) with (r * s - (r * x1) * n11 - (r * x2) * n21) by ring. replace (r * x1) with (s * n11 - e1) by lia. replace (r * x2) with (s * n12 - e2) by lia. rewrite <- Dt. ring. }
    assert (Ev : r * (x1 * n12 - x2 * n11) = e2 * n11 - e1 * n12).
    { replace (r * (x1 * n12 - x2 * n11)) with ((r * x1) * n12 - (r * x2) * n11) by ring. replace (r * x1) with (s * n11 - e1) by lia. replace (r * x2) with (s * n12 - e2) by lia. ring. }
    assert (X11 : 0 <= e1 * n11 <= r * n11) by (split; [apply Z.mul_nonneg_nonneg; lia|apply Z.mul_le_mono_nonneg_r; lia]).
    assert (X12 : 0 <= e1 * n12 <= r * n12) by (split; [apply Z.mul_nonneg_nonneg; lia|apply Z.mul_le_mono_nonneg_r; lia]).
    assert (X21 : 0 <= e2 * n21 <= r * n21) by (split; [apply Z.mul_nonneg_nonneg; lia|apply Z.mul_le_mono_nonneg_r; lia]).
    assert (X22 : 0 <= e2 * n11 <= r * n11) by (split; [apply Z.mul_nonneg_nonneg; lia|apply Z.mul_le_mono_nonneg_r; lia]).
    clearbody e1 e2.
    set (b1 := x1 * n11 + x2 * n21) in *. set (v := x1 * n12 - x2 * n11) in *.
    assert (B0 : 0 <= s - b1) by (apply (mul_cancel_le r); lia). assert (B1 : s - b1 <= n11 + n21) by (apply (mul_cancel_le r); lia).
    assert (V0 : - n12 <= v) by (apply (mul_cancel_le r); lia). assert (V1 : v <= n11) by (apply (mul_cancel_le r); lia).
    assert (Eb2 : (x1 * n12 + x2 * (gl_n22 G mod r)) mod r = v mod r).
    { rewrite <- Z.add_mod_idemp_r, <- Z.mul_mod_idemp_r, Z.mod_mod by lia. rewrite E22, Z.mul_mod_idemp_r, Z.add_mod_idemp_r by lia. f_equal. unfold v. ring. }
    rewrite Eb2. destruct (Z.ltb_spec s b1); [lia|]. rewrite (Z.mod_small (s - b1)) by lia.
    assert (Rel : (b1 + v * lam) mod r = 0).
    { apply Z.mod_divide in R1; [|lia]. apply Z.mod_divide in R2; [|lia]. apply Z.mod_divide; [lia|].
      replace (b1 + v * lam) with (x1 * (n11 + lam * n12) + x2 * (n21 - lam * n11)) by (unfold b1, v; ring). apply Z.divide_add_r; now apply Z.divide_mul_r. }
    assert (B2 : 0 <= b1).
    { unfold b1, x1, x2. apply Z.add_nonneg_nonneg; (apply Z.mul_nonneg_nonneg; [apply Z.div_pos; [apply Z.mul_nonneg_nonneg|]|]); lia. }
    clearbody b1 v x1 x2.
    assert (Hh : r / 2 * 2 <= r < r / 2 * 2 + 2). { pose proof (Z.div_mod r 2 ltac:(lia)). pose proof (Z.mod_pos_bound r 2 ltac:(lia)). lia. }
    destruct (Z.le_gt_cases 0 v) as [Hv|Hv].
    - rewrite (Z.mod_small v) by lia. destruct (Z.ltb_spec v (r / 2)).
      + exists (s - b1), v, true. split; [reflexivity|]. split; [lia|]. do 3 (split; [lia|]). cbn [signed]. now replace (s - (s - b1 - v * lam)) with (b1 + v * lam) by ring.
      + lia.
    - assert (Em : v mod r = v + r). { rewrite <- (Z.mod_small (v + r) r) by lia. rewrite <- (Z_mod_plus_full v 1 r). f_equal. ring. }
      rewrite Em. destruct (Z.ltb_spec (v + r) (r / 2)); [lia|]. replace (- (v + r)) with (- v + -1 * r) by ring. rewrite Z_mod_plus_full, Z.mod_small by lia.
      exists (s - b1), (- v), false. split; [reflexivity|]. split; [lia|]. do 3 (split; [lia|]). cbn [signed]. now replace (s - (s - b1 - - - v * lam)) with (b1 + v * lam) by ring.
  Qed.
End Lattice.

(** What the gates of [scalar_decomposition_gate] need beyond. *)
Record glv_halves (r q : Z) (G : glv_consts) : Prop := {
  gh_r : gl_r1 G + 2 ^ Z.of_nat (gl_half G) * gl_r2 G = r;
  gh_lam : gl_lam1 G + 2 ^ Z.of_nat (gl_half G) * gl_lam2 G = gl_lam G;
  gh_r1 : 0 <= gl_r1 G < q; gh_r2 : 0 < gl_r2 G < q; gh_lam1 : 0 <= gl_lam1 G < q; gh_lam2 : 0 <= gl_lam2 G < q; gh_lamq : 0 <= gl_lam G < q;
  gh_slope : gl_lam2 G * gl_r1 G <= gl_r2 G * gl_lam1 G;
  gh_k1 : gl_n11 G + gl_n21 G < 2 ^ Z.of_nat (gl_half G);
  gh_k2 : gl_n12 G < 2 ^ Z.of_nat (gl_half G);
  gh_top : gl_n11 G * (gl_r2 G * gl_lam1 G - gl_lam2 G * gl_r1 G) + gl_r2 G * q < 2 ^ Z.of_nat (gl_half G) * r;
  gh_low : gl_n12 G * (gl_r2 G * gl_lam1 G - gl_lam2 G * gl_r1 G) < 2 ^ Z.of_nat (gl_half G) * r;
  gh_half : 2 * 2 ^ Z.of_nat (gl_half G) < q;
  gh_two : 2 * gl_r2 G < r }.

Section Numbers.
  Variables r q : Z.
  Variable G : glv_consts.
  Hypothesis HG : glv_lattice r G.
  Hypothesis HH : glv_halves r q G.
  Notation n11 := (gl_n11 G).
  Notation n12 := (gl_n12 G).
  Notation n21 := (gl_n21 G).
  Notation lam := (gl_lam G).
  Notation lam1 := (gl_lam1 G).
  Notation lam2 := (gl_lam2 G).
  Notation r1 := (gl_r1 G).
  Notation r2 := (gl_r2 G).
  Notation M := (2 ^ Z.of_nat (gl_half G)).

  (** The numbers that the prover assigns: the equation over the integers is exact, and the
      carry is small; it is never negative when the second half is positive. *)
  Lemma numbers_ok s : 0 <= s < q -> exists x, decomposition_numbers q r G s = Ok x /\
    0 <= gn_k1 x < M /\ 0 <= gn_k2 x < M /\
    lam * signed (gn_pos x) (gn_k2 x) + s = gn_t x * r + gn_k1 x /\
    gn_tmp x = M * gn_tmp2 x /\ gn_tmp2 x = gn_t x * r2 - lam2 * signed (gn_pos x) (gn_k2 x) /\ - M < gn_tmp2 x < M /\
    (gn_pos x = true -> 0 <= gn_t x /\ 0 <= gn_tmp2 x) /\ (gn_pos x = false -> 0 < gn_t x -> 2 * (gn_t x * r2) < q) /\
    (gn_k1 x - signed (gn_pos x) (gn_k2 x) * lam) mod r = s mod r.
  Proof.
    intros Hs. pose proof HG as [A1 A2 A3 Dt E22 Rw1 Rw2 Sm H1 H2]. pose proof HH as [B1 B2 B3 B4 B5 B6 B7 Sl B8 B9 Tp Lw Hf Tw]. assert (Hr : 0 < r) by lia. assert (HM : 0 < M) by (apply Z.pow_pos_nonneg; lia).
    pose proof (Z.mod_pos_bound s r Hr) as Hm.
    destruct (scalar_decomposition_ok r G HG (s mod r) Hm) as (k1 & k2 & pos & E & K1 & K1' & K2 & K2' & Rel).
    unfold decomposition_numbers. rewrite E. cbn [bind]. rewrite (Z.mod_small lam), (Z.mod_small lam1), (Z.mod_small r1) by lia. fold (signed pos k2).
    assert (Hd : exists t, lam * signed pos k2 + s - k1 = t * r).
    { apply Z.mod_divide in Rel as [u Hu]; [|lia]. exists (s / r + u). pose proof (Z.div_mod s r ltac:(lia)) as Dv.
      replace ((s / r + u) * r) with (r * (s / r) + u * r) by ring. rewrite <- Hu. replace (r * (s / r)) with (s - s mod r) by lia. ring. }
    destruct Hd as [t Ht]. rewrite Ht, Z.quot_mul by lia.
    assert (Et : lam1 * signed pos k2 + s - t * r1 - k1 = M * (t * r2 - lam2 * signed pos k2)).
    { rewrite <- B1, <- B2 in Ht. replace (M * (t * r2 - lam2 * signed pos k2)) with (t * (r1 + M * r2) - t * r1 - M * lam2 * signed pos k2) by ring. rewrite <- Ht. ring. }
    rewrite Et. rewrite (Z.mul_comm M), Z.quot_mul by lia. rewrite (Z.mul_comm _ M).
    eexists. split; [reflexivity|]. cbn [gn_k1 gn_k2 gn_pos gn_t gn_tmp gn_tmp2]. set (u := t * r2 - lam2 * signed pos k2) in *.
    assert (Lm : s mod r <= s) by (apply Z.mod_le; lia).
    assert (Eu : r * u = signed pos k2 * (r2 * lam1 - lam2 * r1) + r2 * (s - k1)).
    { unfold u. replace (r * (t * r2 - lam2 * signed pos k2)) with (r2 * (t * r) - r * lam2 * signed pos k2) by ring. rewrite <- Ht, <- B1, <- B2. ring. }
    set (dl := r2 * lam1 - lam2 * r1) in *. assert (Hdl : 0 <= dl) by (unfold dl; lia).
    assert (KM : k2 < M) by (destruct pos; lia).
    assert (Hk2 : r2 * (s - k1) <= r2 * q) by (apply Z.mul_le_mono_nonneg_l; lia). assert (Hk3 : 0 <= r2 * (s - k1)) by (apply Z.mul_nonneg_nonneg; lia).
    assert (Hk4 : 0 <= k2 * dl) by (apply Z.mul_nonneg_nonneg; lia). assert (HrM : 0 < M * r) by (apply Z.mul_pos_pos; lia).
    assert (Hk5 : k2 * dl <= (if pos then n11 else n12) * dl) by (apply Z.mul_le_mono_nonneg_r; [lia|destruct pos; lia]).
    assert (Hn1 : 0 <= n11 * dl) by (apply Z.mul_nonneg_nonneg; lia). assert (Rc : r * M = M * r) by ring. assert (Rn : r * - M = - (M * r)) by ring.
    assert (Hlk : 0 <= lam * k2) by (apply Z.mul_nonneg_nonneg; lia).
    split; [lia|]. split; [lia|]. split; [lia|]. split; [reflexivity|]. split; [reflexivity|].
    split.
    { destruct pos; cbn [signed] in Eu.
      - split; apply (mul_cancel_lt r); lia.
      - rewrite Z.mul_opp_l in Eu. split; apply (mul_cancel_lt r); lia. }
    split. { intros ->. cbn [signed] in *. split; [|apply (mul_cancel_le r); lia]. apply (mul_cancel_le r); lia. }
    split. { intros -> Hp. cbn [signed] in *. rewrite Z.mul_opp_r in Ht. assert (t * r <= s) by lia. assert (t * (2 * r2) <= t * r) by (apply Z.mul_le_mono_nonneg_l; lia). lia. }
    replace (k1 - signed pos k2 * lam) with (s - t * r) by lia. rewrite Zminus_mod, Z_mod_mult, Z.sub_0_r, Z.mod_mod by lia. reflexivity.
  Qed.
End Numbers.
