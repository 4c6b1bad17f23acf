(** What multiplication on Bandersnatch with its endomorphism relies on: the decomposition of
    the scalar and the image of the base point (C84). *)
From Coq Require Import List Arith ZArith Bool Lia Ring Field Znumtheory.
From Verif Require Import Base ListAux Alg Edwards CircuitModel CircuitProofs GadgetModel GadgetProofs BitProofs CmpProofs RangeLookup SatProofs SatGadget EccModel EccProofs IndepProofs CircuitProps EccProps RescueConst Primes GlvModel GlvArith GlvProofs.
Import ListNotations.
Local Open Scope fld_scope.
Local Open Scope circ_scope.

(** *** Outside the circuit *)
(** The order of the group and the field of the curve. *)
Definition glv_order : Z := 13108968793781547619861935127046491459309155893440570251786403306729687672801.
Definition glv_field : Z := 52435875175126190479447740508185965837690552500527637822603658699938581184513.
Notation lambda := (gl_lam glv_bandersnatch).
Lemma bandersnatch_lattice : glv_lattice glv_order glv_bandersnatch.
Proof. split; vm_compute; try reflexivity; discriminate. Qed.
Lemma bandersnatch_halves : glv_halves glv_order glv_field glv_bandersnatch.
Proof. split; try split; vm_compute; try reflexivity; try discriminate. Qed.
(** Every scalar below the order decomposes in two halves below 2^128, without a panic. *)
Theorem C84_decomposition s : (0 <= s < glv_order)%Z ->
  exists k1 k2 (pos : bool), scalar_decomposition glv_order glv_bandersnatch s = Ok (k1, k2, pos) /\
    (0 <= k1 < 2 ^ 128)%Z /\ (0 <= k2 < 2 ^ 128)%Z /\ (k1 <= s)%Z /\
    ((k1 - (if pos then k2 else - k2) * lambda) mod glv_order = s)%Z.
Proof.
  intros Hs. destruct (scalar_decomposition_ok _ _ bandersnatch_lattice s Hs) as (k1 & k2 & pos & E & H1 & H2 & H3 & H4 & H5).
  exists k1, k2, pos. split; [exact E|].
  assert (X1 : (gl_n11 glv_bandersnatch + gl_n21 glv_bandersnatch < 2 ^ 128)%Z) by reflexivity.
  assert (X2 : (gl_n11 glv_bandersnatch < 2 ^ 128)%Z) by reflexivity. assert (X3 : (gl_n12 glv_bandersnatch < 2 ^ 128)%Z) by reflexivity.
  split; [lia|]. split; [destruct pos; lia|]. split; [lia|].
  change (if pos then k2 else (- k2)%Z) with (signed pos k2). set (y := (k1 - signed pos k2 * lambda)%Z) in *.
  apply Z.mod_divide in H5 as [m Hm]; [|lia]. replace y with (s + (- m) * glv_order)%Z by lia. rewrite Z.mod_add by lia. apply Z.mod_small. exact Hs.
Qed.
Theorem C84_decomposition_instance : scalar_decomposition glv_order glv_bandersnatch 1270671668881200298934572999198658960099 =
  Ok (114366713203691982513980636729349466917, 6069037870757814987117968656291323767, false)%Z.
Proof. vm_compute. reflexivity. Qed.

(** *** The gates of the decomposition *)
Section Gate.
  Context {K : fld}.
  Add Field Kgp : (fth K).
  Variable zval : K -> Z.
  Variables q r : Z.
  Variables nb L : nat.
  Hypothesis HF : pfield K zval q nb L.
  Variable G : glv_consts.
  Hypothesis HG : glv_lattice r G.
  Hypothesis HH : glv_halves r q G.
  Notation accepts := (accepts zval).
  Notation M := (2 ^ Z.of_nat (gl_half G))%Z.
  Notation gate := (scalar_decomposition_gate zval q nb L r G).

  Lemma transfer_vals {A} (m m' : circ K A) c S C R a c' ws pub :
    rel m m' eq -> m c = (Ok a, c') -> good c -> length ws = num_vars c ->
    gadget_ok zval m' (with_witness c ws) S C R -> accepts c ws pub -> C (asg ws) ->
    exists l c1, m' (with_witness c ws) = (Ok a, c1) /\ witness c1 = ws ++ l /\ accepts c' (ws ++ l) pub.
  Proof.
    intros Hr E G0 HL (a' & c1 & E' & G' & Ex & _ & (l & Hl) & _ & _ & Cmp) Hacc HC.
    specialize (Hr c ws). rewrite E, E' in Hr. destruct Hr as [<- [ws' ->]]. cbn in Hl.
    exists l. eexists. split; [exact E'|]. split; [exact Hl|]. specialize (Cmp pub). cbn [witness with_witness] in Cmp. rewrite Hl in Cmp.
    apply (proj1 (accepts_with zval c' (ws ++ l) ws' pub)). apply Cmp; auto.
  Qed.
  Lemma get_wit (c : circuit K) v : wf c -> (v < num_vars c)%nat -> get_witness v c = (Ok (honest c v), c).
  Proof.
    intros Hw Hv. unfold get_witness, check_var_bound, cbind, lift. destruct (Nat.leb_spec (num_vars c) v); [lia|].
    unfold index. rewrite (nth_error_nth' _ 0) by (rewrite (wf_wit _ Hw); auto). reflexivity.
  Qed.
  Lemma gates_rel x x' s : rel (decomposition_gates zval q nb L G x s) (decomposition_gates zval q nb L G x' s) (@eq (nat * nat * nat)).
  Proof.
    unfold decomposition_gates, decomposition_low, decomposition_high, decomposition_vars, enforce_true. apply rel_bind_eq.
    - apply rel_bind_eq; [apply var_rel|]; intros v1. apply rel_bind_eq; [apply var_rel|]; intros v2. apply rel_bind_eq; [apply boolean_rel|]; intros v3.
      apply rel_bind_eq; [apply var_rel|]; intros v4. apply rel_bind_eq; [apply var_rel|]; intros v5. apply rel_bind_eq; [apply var_rel|]; intros v6. apply rel_ret. reflexivity.
    - intros v. pose proof (in_range_ind zval q nb L). pose proof (@mul_constant_gate_ind K). pose proof (@lc_ind K). pose proof (@is_equal_ind K). pose proof (@conditional_select_ind K). pose proof (@mul_constant_ind K). pose proof (@enforce_constant_ind K).
      rauto.
  Qed.
  Lemma gate_rel s x : rel (gate s) (decomposition_gates zval q nb L G x s) (@eq (nat * nat * nat)).
  Proof.
    intros c ws. unfold scalar_decomposition_gate. pose proof (pure_wit s c) as P. unfold cbind at 1. destruct (get_witness s c) as [[v|e|] c1] eqn:E; cbn in P; subst c1; try exact I.
    unfold cbind at 1, lift. destruct (decomposition_numbers q r G (zval v)) as [y|e|] eqn:Ey; try exact I.
    exact (gates_rel y x s c ws).
  Qed.

  (** The second half is within the gates: there are a number of multiples of the order and a
      carry below 2^128 for which the two equations hold modulo the field. *)
  Definition allowed (pos : bool) (s k1 k2 : Z) : Prop := exists t u, (0 <= t < q)%Z /\ (0 <= u < M)%Z /\
    if pos then ((gl_lam G * k2 + s - (t * r + k1)) mod q = 0 /\ (t * gl_r2 G - gl_lam2 G * k2 - u) mod q = 0)%Z
    else ((gl_lam G * k2 + k1 - (t * r + s)) mod q = 0 /\ (gl_lam2 G * k2 - t * gl_r2 G - u) mod q = 0)%Z.
  Definition parts (w : nat -> K) (v : nat * nat * nat) (k1 k2 : Z) (pos : bool) : Prop :=
    zval (w (fst (fst v))) = k1 /\ zval (w (snd (fst v))) = k2 /\ w (snd v) = b2k pos.

  Lemma allowed_split pos s k1 k2 t u : split_eq q G pos s k1 k2 t u <->
    if pos then ((gl_lam G * k2 + s - (t * r + k1)) mod q = 0 /\ (t * gl_r2 G - gl_lam2 G * k2 - u) mod q = 0)%Z
    else ((gl_lam G * k2 + k1 - (t * r + s)) mod q = 0 /\ (gl_lam2 G * k2 - t * gl_r2 G - u) mod q = 0)%Z.
  Proof. unfold split_eq. rewrite (gh_r _ _ _ HH). reflexivity. Qed.
  Lemma isb_ex (x : K) : isb x -> exists b, x = b2k b.
  Proof. intros [->| ->]; [exists false|exists true]; reflexivity. Qed.
  Lemma dec_eq_iff (w : nat -> K) s n b : w (n + 2)%nat = b2k b ->
    (dec_eq zval G w s n <-> (zval (w n) < M)%Z /\ (zval (w (n + 1)%nat) < M)%Z /\ (zval (w (n + 5)%nat) < M)%Z /\ w (n + 4)%nat = fZ M * w (n + 5)%nat /\
      split_eq q G b (zval (w s)) (zval (w n)) (zval (w (n + 1)%nat)) (zval (w (n + 3)%nat)) (zval (w (n + 5)%nat))).
  Proof.
    intros Hb. unfold dec_eq. rewrite Hb. split.
    - intros (H1 & H2 & H3 & H4 & H5 & H6 & H7). repeat (split; [assumption|]). apply (split_iff zval q nb L HF G (gh_lam _ _ _ HH) b _ _ _ _ _ _ H5). auto.
    - intros (H2 & H3 & H4 & H5 & H6). split; [destruct b; [right|left]; reflexivity|]. repeat (split; [assumption|]). now apply (split_iff zval q nb L HF G (gh_lam _ _ _ HH) b _ _ _ _ _ _ H5).
  Qed.
  Lemma small_multiple a : (- q < a < q)%Z -> (a mod q = 0)%Z -> a = 0%Z.
  Proof.
    intros Ha H. destruct (Z.le_gt_cases 0 a).
    - now rewrite Z.mod_small in H by lia.
    - assert ((a + 1 * q) mod q = 0)%Z by (rewrite Z.mod_add by lia; exact H). rewrite Z.mod_small in * by lia. lia.
  Qed.
  Lemma M_lt_q : (0 < M < q)%Z.
  Proof. pose proof (gh_half _ _ _ HH). assert (0 < M)%Z by (apply Z.pow_pos_nonneg; lia). lia. Qed.

  (** The run of the gates on any numbers of a prover. *)
  Lemma gates_run c s x : good c -> inc c s -> half_ok nb L G (ptype c) ->
    exists d, let n := num_vars c in let c' := capp c d in
      decomposition_gates zval q nb L G x s c = (Ok (n, n + 1, n + 2)%nat, c') /\ good c' /\ extends c c' /\
      (forall c'' ws pub, extends c' c'' -> bounded c'' -> accepts c'' ws pub -> dec_eq zval G (asg ws) s n) /\
      (forall pub, accepts c (witness c) pub -> dec_eq zval G (asg (witness c')) s n -> accepts c' (witness c') pub) /\
      dec_vals (asg (witness c')) n x.
  Proof.
    intros G0 Hs Ht. pose proof (gd_wf _ G0) as W.
    destruct (gates_spec zval q nb L HF G c x s W Hs Ht) as (a & d & E & P & S & C & (-> & Hn) & V). exists d. cbv zeta.
    assert (V0 : dec_vals (asg (witness (capp c d))) (num_vars c) x) by (apply V; intros v Hv; reflexivity).
    assert (Hg : gspec zval (decomposition_gates zval q nb L G x s) c (fun w _ => dec_eq zval G w s (num_vars c)) (fun _ => dec_eq zval G (asg (witness (capp c d))) s (num_vars c)) (fun _ _ => True)).
    { exists (num_vars c, num_vars c + 1, num_vars c + 2)%nat, d. split; [exact E|]. split; [exact P|]. split; [exact S|]. split; [|exact I].
      intros w Hb Hx Hd. apply C; auto. revert Hd. unfold dec_eq. change (asg (witness (capp c d))) with (hon (capp c d)). rewrite <- !Hx by (rewrite num_vars_capp; lia). auto. }
    destruct (gspec_gadget zval _ c _ (fun _ => dec_eq zval G (asg (witness (capp c d))) s (num_vars c)) _ G0 (fun _ _ _ H => H) Hg) as (a & c' & E' & G' & Ex & _ & _ & Snd & _ & Cmp).
    rewrite E in E'. injection E' as <- <-. split; [exact E|]. split; [exact G'|]. split; [exact Ex|]. split; [exact Snd|]. split; [exact Cmp|exact V0].
  Qed.

  (** Exactly which halves the gates let a prover assign to a scalar. *)
  Theorem C84_gate_exact c s : good c -> inc c s -> half_ok nb L G (ptype c) ->
    exists v c', gate s c = (Ok v, c') /\ good c' /\ extends c c' /\
      (forall ws pub, accepts c' ws pub -> isb (asg ws (snd v))) /\
      (forall ws pub k1 k2 pos, accepts c ws pub ->
        ((exists l, accepts c' (ws ++ l) pub /\ parts (asg (ws ++ l)) v k1 k2 pos) <->
         (0 <= k1 < M)%Z /\ (0 <= k2 < M)%Z /\ allowed pos (zval (asg ws s)) k1 k2)).
  Proof.
    intros G0 Hs Ht. pose proof M_lt_q as HM.
    destruct (numbers_ok r q G HG HH (zval (honest c s)) (pf_range _ _ _ _ _ HF _)) as (x & Ex & _).
    destruct (gates_run c s x G0 Hs Ht) as (d & E & G' & Ext & Snd & Cmp & Vals). set (n := num_vars c) in *.
    assert (Eg : gate s c = (Ok (n, n + 1, n + 2)%nat, capp c d)).
    { unfold scalar_decomposition_gate, cbind at 1. rewrite (get_wit c s (gd_wf _ G0) Hs). unfold cbind, lift. rewrite Ex. exact E. }
    exists (n, n + 1, n + 2)%nat, (capp c d). split; [exact Eg|]. split; [exact G'|]. split; [exact Ext|].
    assert (Hd : forall ws pub, accepts (capp c d) ws pub -> dec_eq zval G (asg ws) s n).
    { intros ws pub Ha. apply (Snd (capp c d) ws pub (extends_refl _) (gd_bd _ G') Ha). }
    split; [intros ws pub Ha; apply (Hd ws pub Ha)|].
    intros ws pub k1 k2 pos Ha. assert (HL : length ws = n) by apply Ha. split.
    - intros (l & Hl & E1 & E2 & E3). cbn [fst snd] in *. pose proof (Hd _ _ Hl) as Hq'. apply (dec_eq_iff _ _ _ _ E3) in Hq' as (R1 & R2 & R3 & R4 & R5).
      rewrite E1, E2 in *. assert (Es : asg (ws ++ l) s = asg ws s) by (unfold asg; rewrite app_nth1; [reflexivity|lia]). rewrite Es in R5. apply allowed_split in R5.
      split; [split; [rewrite <- E1; apply (pf_range _ _ _ _ _ HF)|exact R1]|]. split; [split; [rewrite <- E2; apply (pf_range _ _ _ _ _ HF)|exact R2]|].
      exists (zval (asg (ws ++ l) (n + 3)%nat)), (zval (asg (ws ++ l) (n + 5)%nat)). split; [apply (pf_range _ _ _ _ _ HF)|]. split; [split; [apply (pf_range _ _ _ _ _ HF)|exact R3]|]. exact R5.
    - intros (R1 & R2 & t & u & Rt & Ru & R5). apply allowed_split in R5.
      pose (y := mk_gn k1 k2 pos t (M * u) u).
      destruct (gates_run (with_witness c ws) s y (good_with _ _ G0 HL) Hs Ht) as (d' & E' & G'' & Ext' & Snd' & Cmp' & V'). change (num_vars (with_witness c ws)) with n in *.
      specialize (gate_rel s y c ws) as Hr. rewrite Eg in Hr. rewrite E' in Hr. destruct Hr as [_ [ws' Ew]].
      exists (d_vals d'). cbn [capp witness with_witness] in V', Cmp'.
      assert (VV : parts (asg (ws ++ d_vals d')) (n, n + 1, n + 2)%nat k1 k2 pos /\ dec_eq zval G (asg (ws ++ d_vals d')) s n).
      { destruct V' as (V1 & V2 & V3 & V4 & V5 & V6). cbn [y gn_k1 gn_k2 gn_pos gn_t gn_tmp gn_tmp2] in *. unfold int_to_fq in *. rewrite Z.abs_eq in V1, V2, V4, V5, V6 by nia.
        assert (Z1 : forall v z, (0 <= z < q)%Z -> asg (ws ++ d_vals d') v = fZ z -> zval (asg (ws ++ d_vals d') v) = z).
        { intros v z Hz ->. rewrite (pf_zval _ _ _ _ _ HF). now apply Z.mod_small. }
        apply Z1 in V1; [|lia]. apply Z1 in V2; [|lia]. apply Z1 in V4; [|lia]. pose proof V6 as V6'. apply Z1 in V6; [|lia].
        split; [repeat split; assumption|]. apply (dec_eq_iff _ _ _ _ V3). rewrite V1, V2, V4, V6. assert (Es : asg (ws ++ d_vals d') s = asg ws s) by (unfold asg; rewrite app_nth1; [reflexivity|lia]). rewrite Es.
        split; [lia|]. split; [lia|]. split; [lia|]. split; [|exact R5]. rewrite V5, V6', fZ_mul. reflexivity. }
      destruct VV as [VV1 VV2]. split; [|exact VV1].
      assert (Hc : accepts (capp (with_witness c ws) d') (ws ++ d_vals d') pub) by (apply Cmp'; [apply accepts_with; exact Ha|exact VV2]).
      rewrite Ew in Hc. apply (accepts_with zval (capp c d) (ws ++ d_vals d') ws' pub). exact Hc.
  Qed.

  (** The halves make up the scalar when the equation does not wrap around the field; whether it does
      is left to the prover, since the number of multiples has no range check. *)
  Theorem C84_gate_sound_partial c s v c' : good c -> inc c s -> half_ok nb L G (ptype c) -> gate s c = (Ok v, c') ->
    forall ws l pub k1 k2 pos, accepts c ws pub -> accepts c' (ws ++ l) pub -> parts (asg (ws ++ l)) v k1 k2 pos ->
    exists t, (0 <= t < q)%Z /\ let s0 := zval (asg ws s) in
      let (a, b) := if pos then (gl_lam G * k2 + s0, t * r + k1)%Z else (t * r + s0, gl_lam G * k2 + k1)%Z in
      (a mod q = b mod q)%Z /\ ((a < q)%Z -> (b < q)%Z -> ((k1 - (if pos then k2 else - k2) * gl_lam G) mod r = s0 mod r)%Z).
  Proof.
    intros G0 Hs Ht E ws l pub k1 k2 pos Ha Hl Hp. destruct (C84_gate_exact c s G0 Hs Ht) as (v' & c1 & E' & _ & _ & _ & Hex). rewrite E in E'. injection E' as <- <-.
    destruct (proj1 (Hex ws pub k1 k2 pos Ha) (ex_intro _ l (conj Hl Hp))) as (R1 & R2 & t & u & Rt & _ & Heq). exists t. split; [exact Rt|]. cbv zeta.
    pose proof (pf_range _ _ _ _ _ HF (asg ws s)) as Rs. pose proof (gh_lamq _ _ _ HH) as Rl. pose proof (gk_h1 _ _ HG) as R11. pose proof (gk_n11 _ _ HG). set (s0 := zval (asg ws s)) in *.
    assert (Hr : (0 < r)%Z) by lia. assert (Ek : (0 <= gl_lam G * k2)%Z) by (apply Z.mul_nonneg_nonneg; lia). assert (Et : (0 <= t * r)%Z) by (apply Z.mul_nonneg_nonneg; lia).
    assert (EM : forall a b, ((a - b) mod q = 0)%Z -> (a mod q = b mod q)%Z).
    { intros a b Hab. apply Z.mod_divide in Hab as [m Hm]; [|lia]. replace a with (b + m * q)%Z by lia. apply Z.mod_add. lia. }
    destruct pos; destruct Heq as [Heq _].
    - apply EM in Heq. split; [exact Heq|]. intros La Lb. rewrite !Z.mod_small in Heq by lia.
      replace (k1 - k2 * gl_lam G)%Z with (s0 + (- t) * r)%Z by lia. apply Z.mod_add. lia.
    - apply EM in Heq. symmetry in Heq. split; [exact Heq|]. intros La Lb. rewrite !Z.mod_small in Heq by lia.
      replace (k1 - - k2 * gl_lam G)%Z with (s0 + t * r)%Z by lia. apply Z.mod_add. lia.
  Qed.

  (** The assignment of the prover of the library: its halves make up the scalar, and it is accepted exactly when the
      second half is positive or the numbers of the equation have the signs of the second case. *)
  Theorem C84_gate_honest c s : good c -> inc c s -> half_ok nb L G (ptype c) ->
    exists v c' k1 k2 (pos : bool) t u, let s0 := zval (honest c s) in let k2s := (if pos then k2 else - k2)%Z in
      gate s c = (Ok v, c') /\ scalar_decomposition r G (s0 mod r) = Ok (k1, k2, pos) /\
      (t * r + k1 = gl_lam G * k2s + s0)%Z /\ (u = t * gl_r2 G - gl_lam2 G * k2s)%Z /\
      ((k1 - k2s * gl_lam G) mod r = s0 mod r)%Z /\
      parts (honest c') v k1 k2 pos /\
      (forall pub, accepts c (witness c) pub -> (accepts c' (witness c') pub <-> pos = true \/ (t <= 0)%Z /\ (0 <= u)%Z)).
  Proof.
    intros G0 Hs Ht. pose proof M_lt_q as HM.
    destruct (numbers_ok r q G HG HH (zval (honest c s)) (pf_range _ _ _ _ _ HF _)) as (x & Ex & X1 & X2 & X3 & X4 & X5 & X6 & X7 & X8 & X9).
    destruct (gates_run c s x G0 Hs Ht) as (d & E & G' & Ext & Snd & Cmp & Vals). set (n := num_vars c) in *.
    exists (n, n + 1, n + 2)%nat, (capp c d), (gn_k1 x), (gn_k2 x), (gn_pos x), (gn_t x), (gn_tmp2 x). cbv zeta.
    change (if gn_pos x then gn_k2 x else (- gn_k2 x)%Z) with (signed (gn_pos x) (gn_k2 x)).
    split. { unfold scalar_decomposition_gate, cbind at 1. rewrite (get_wit c s (gd_wf _ G0) Hs). unfold cbind, lift. rewrite Ex. exact E. }
    split. { clear -Ex. unfold decomposition_numbers in Ex. destruct (scalar_decomposition r G (zval (honest c s) mod r)) as [[[k1 k2] pos]| |]; try discriminate. cbn [bind] in Ex. injection Ex as <-. reflexivity. }
    split; [symmetry; exact X3|]. split; [exact X5|]. split; [exact X9|].
    set (s0 := zval (honest c s)) in *. set (w := honest (capp c d)) in *.
    assert (Es : zval (w s) = s0) by (unfold w, s0; cbn [capp witness]; unfold asg; rewrite app_nth1; [reflexivity|rewrite (wf_wit _ (gd_wf _ G0)); exact Hs]).
    destruct Vals as (V1 & V2 & V3 & V4 & V5 & V6). unfold int_to_fq in *.
    assert (Z1 : zval (w n) = gn_k1 x) by (rewrite V1, (pf_zval _ _ _ _ _ HF), Z.abs_eq, Z.mod_small by lia; reflexivity).
    assert (Z2 : zval (w (n + 1)%nat) = gn_k2 x) by (rewrite V2, (pf_zval _ _ _ _ _ HF), Z.abs_eq, Z.mod_small by lia; reflexivity).
    assert (Z5 : zval (w (n + 5)%nat) = Z.abs (gn_tmp2 x)) by (rewrite V6, (pf_zval _ _ _ _ _ HF), Z.mod_small by lia; reflexivity).
    split; [repeat split; assumption|].
    intros pub Ha.
    assert (Hd : accepts (capp c d) (witness (capp c d)) pub <-> dec_eq zval G w s n).
    { split; [intros H; exact (Snd _ _ pub (extends_refl _) (gd_bd _ G') H)|intros H; exact (Cmp pub Ha H)]. }
    rewrite Hd, (dec_eq_iff w s n (gn_pos x) V3), allowed_split, Es, Z1, Z2, Z5.
    assert (Z3 : zval (w (n + 3)%nat) = (Z.abs (gn_t x) mod q)%Z) by (now rewrite V4, (pf_zval _ _ _ _ _ HF)). set (tt' := zval (w (n + 3)%nat)) in *.
    assert (M5 : w (n + 4)%nat = fZ M * w (n + 5)%nat). { rewrite V5, V6, X4, Z.abs_mul, (Z.abs_eq M), fZ_mul by lia. reflexivity. }
    assert (Tt : forall f g, ((f - Z.abs (gn_t x) * g) mod q = 0)%Z -> ((f - tt' * g) mod q = 0)%Z).
    { intros f g Hf. rewrite Z3. rewrite <- Hf. rewrite Zminus_mod, (Zminus_mod f). f_equal. f_equal. now rewrite Zmult_mod_idemp_l. }
    assert (Tt' : forall f g, ((f - tt' * g) mod q = 0)%Z -> ((f - Z.abs (gn_t x) * g) mod q = 0)%Z).
    { intros f g Hf. rewrite Z3 in Hf. rewrite <- Hf. rewrite Zminus_mod, (Zminus_mod f). f_equal. f_equal. now rewrite Zmult_mod_idemp_l. }
    pose proof (gh_r2 _ _ _ HH) as R2. assert (Hq0 : (0 mod q = 0)%Z) by (apply Z.mod_0_l; lia).
    destruct (gn_pos x) eqn:Ep; cbn [signed] in *.
    - split; [intros _; now left|]. intros _. destruct (X7 eq_refl) as [T0 U0]. split; [lia|]. split; [lia|]. split; [lia|]. split; [exact M5|].
      rewrite (Z.abs_eq (gn_tmp2 x)) by lia. split.
      + replace (gl_lam G * gn_k2 x + s0 - (tt' * r + gn_k1 x))%Z with ((gl_lam G * gn_k2 x + s0 - gn_k1 x) - tt' * r)%Z by ring. apply Tt. rewrite Z.abs_eq by lia. replace (gl_lam G * gn_k2 x + s0 - gn_k1 x - gn_t x * r)%Z with 0%Z by lia. exact Hq0.
      + replace (tt' * gl_r2 G - gl_lam2 G * gn_k2 x - gn_tmp2 x)%Z with ((- gl_lam2 G * gn_k2 x - gn_tmp2 x) - tt' * (- gl_r2 G))%Z by ring. apply Tt. rewrite Z.abs_eq by lia. replace (- gl_lam2 G * gn_k2 x - gn_tmp2 x - gn_t x * - gl_r2 G)%Z with 0%Z by (rewrite X5; ring). exact Hq0.
    - split.
      + intros (_ & _ & _ & _ & _ & H2). right.
        replace (gl_lam2 G * gn_k2 x - tt' * gl_r2 G - Z.abs (gn_tmp2 x))%Z with ((gl_lam2 G * gn_k2 x - Z.abs (gn_tmp2 x)) - tt' * gl_r2 G)%Z in H2 by ring. apply Tt' in H2.
        pose proof (gh_half _ _ _ HH) as Hh. pose proof (gh_lam2 _ _ _ HH) as Rl2. assert (Kl : (0 <= gl_lam2 G * gn_k2 x)%Z) by (apply Z.mul_nonneg_nonneg; lia).
        destruct (Z.le_gt_cases (gn_t x) 0) as [T0|T0].
        * split; [exact T0|]. destruct (Z.le_gt_cases 0 (gn_tmp2 x)) as [U0|U0]; [exact U0|exfalso].
          rewrite (Z.abs_neq (gn_t x)), (Z.abs_neq (gn_tmp2 x)) in H2 by lia.
          replace (gl_lam2 G * gn_k2 x - - gn_tmp2 x - - gn_t x * gl_r2 G)%Z with (2 * gn_tmp2 x)%Z in H2 by (rewrite X5; ring).
          apply small_multiple in H2; lia.
        * exfalso. specialize (X8 eq_refl T0). assert (P1 : (0 < gn_t x * gl_r2 G)%Z) by (apply Z.mul_pos_pos; lia).
          assert (U0 : (0 <= gn_tmp2 x)%Z) by (rewrite X5; lia).
          rewrite (Z.abs_eq (gn_t x)), (Z.abs_eq (gn_tmp2 x)) in H2 by lia.
          replace (gl_lam2 G * gn_k2 x - gn_tmp2 x - gn_t x * gl_r2 G)%Z with (- (2 * (gn_t x * gl_r2 G)))%Z in H2 by (rewrite X5; ring).
          apply small_multiple in H2; lia.
      + intros [H|[T0 U0]]; [discriminate|]. split; [lia|]. split; [lia|]. split; [lia|]. split; [exact M5|].
        rewrite (Z.abs_eq (gn_tmp2 x)) by lia. split.
        * replace (gl_lam G * gn_k2 x + gn_k1 x - (tt' * r + s0))%Z with ((gl_lam G * gn_k2 x + gn_k1 x - s0) - tt' * r)%Z by ring. apply Tt. rewrite Z.abs_neq by lia. replace (gl_lam G * gn_k2 x + gn_k1 x - s0 - - gn_t x * r)%Z with 0%Z by lia. exact Hq0.
        * replace (gl_lam2 G * gn_k2 x - tt' * gl_r2 G - gn_tmp2 x)%Z with ((gl_lam2 G * gn_k2 x - gn_tmp2 x) - tt' * gl_r2 G)%Z by ring. apply Tt. rewrite Z.abs_neq by lia. replace (gl_lam2 G * gn_k2 x - gn_tmp2 x - - gn_t x * gl_r2 G)%Z with 0%Z by (rewrite X5; ring). exact Hq0.
  Qed.
End Gate.

(** *** The shipped constants *)
Lemma prime_glv_field : prime glv_field.
Proof. exact prime_Ed381Fq. Qed.
Notation FB := (Zp glv_field prime_glv_field).
Notation zB := (zv glv_field : FB -> Z).
Lemma FB_pfield : pfield FB zB glv_field 255 256.
Proof. apply Zp_pfield; [vm_compute; reflexivity|vm_compute; reflexivity|apply Nat.leb_le; reflexivity]. Qed.
Notation bgate := (scalar_decomposition_gate zB glv_field 255 256 glv_order glv_bandersnatch).
Notation bhalf_ok := (half_ok 255 256 glv_bandersnatch).

(** In every circuit the scalar zero can be decomposed in the halves [(k1, 0)] with a nonzero [k1]: the
    product of the scalar zero with a point is then a nonzero multiple of it. *)
Theorem C84_wrong_multiple_refuted (c : circuit FB) s : good c -> inc c s -> bhalf_ok (ptype c) ->
  exists v c' k1, bgate s c = (Ok v, c') /\ (k1 mod glv_order <> 0)%Z /\
    forall ws pub, accepts zB c ws pub -> asg ws s = 0 ->
      exists l, accepts zB c' (ws ++ l) pub /\ parts zB (asg (ws ++ l)) v k1 0 true.
Proof.
  intros G0 Hs Ht. destruct (C84_gate_exact zB _ _ _ _ FB_pfield _ bandersnatch_lattice bandersnatch_halves c s G0 Hs Ht) as (v & c' & E & _ & _ & _ & Hex).
  exists v, c', 267404086116082993898543226656785941011%Z. split; [exact E|]. split; [vm_compute; discriminate|].
  intros ws pub Ha E0. apply (Hex ws pub _ _ _ Ha). rewrite E0. split; [split; [discriminate|reflexivity]|]. split; [split; [discriminate|reflexivity]|].
  exists 37119259608156318673790476968536665626212116290966366293599657996382390327381%Z, 321806839260319625558848046077373176234%Z.
  split; [split; [discriminate|reflexivity]|]. split; [split; [discriminate|reflexivity]|]. split; vm_compute; reflexivity.
Qed.
(** The prover of the library fails on some scalars below the order: its own assignment is refused. *)
Theorem C84_scalar_refused_refuted (c : circuit FB) s : good c -> inc c s -> bhalf_ok (ptype c) ->
  zB (honest c s) = 1270671668881200298934572999198658960099%Z ->
  exists v c', bgate s c = (Ok v, c') /\ forall pub, accepts zB c (witness c) pub -> ~ accepts zB c' (witness c') pub.
Proof.
  intros G0 Hs Ht E0. destruct (C84_gate_honest zB _ _ _ _ FB_pfield _ bandersnatch_lattice bandersnatch_halves c s G0 Hs Ht) as (v & c' & k1 & k2 & pos & t & u & H). cbv zeta in H.
  destruct H as (E & Ed & Et & Eu & _ & _ & Hacc). rewrite E0 in Ed, Et. rewrite Z.mod_small in Ed by (split; [discriminate|reflexivity]). rewrite C84_decomposition_instance in Ed. injection Ed as <- <- <-.
  exists v, c'. split; [exact E|]. intros pub Ha Hn. apply (Hacc pub Ha) in Hn as [Hn|[H1 H2]]; [discriminate|].
  assert (Tv : t = (-4126742452676738848390627045883409717)%Z).
  { apply Z.mul_cancel_r with (p := glv_order); [discriminate|]. apply Z.add_cancel_r with (p := 114366713203691982513980636729349466917%Z). rewrite Et. vm_compute. reflexivity. }
  rewrite Tv in Eu. vm_compute in Eu. rewrite Eu in H2. apply H2. reflexivity.
Qed.
(** A circuit with the scalar on its third variable, for both kinds of circuits. *)
Definition glv_circuit (t : plonk_type) (z : Z) : circuit FB := snd (create_variable (fZ z) (new_circuit FB t)).
Theorem C84_gate_instance z : forall t, t = Turbo \/ t = Ultra 8 ->
  let c := glv_circuit t z in good c /\ inc c 2 /\ bhalf_ok (ptype c) /\ zB (honest c 2) = (z mod glv_field)%Z /\ accepts zB c (witness c) [].
Proof.
  intros t Ht c. split; [split; try reflexivity; split; try reflexivity; cbn; try lia; repeat constructor; cbn; lia|]. split; [cbn; lia|].
  split; [destruct Ht as [-> | ->]; cbn; lia|]. split; [change (honest c 2) with (fZ z : FB); apply (pf_zval _ _ _ _ _ FB_pfield)|].
  destruct Ht as [-> | ->]; split; vm_compute; reflexivity.
Qed.

(** *** The endomorphism *)
Section Endo.
  Context {K : fld}.
  Add Field Kge : (fth K).
  Variable zval : K -> Z.
  Variables A D : K.
  Variable G : glv_consts.
  Variable sub : pt K -> bool.
  Notation accepts := (accepts zval).
  Notation b := (fZ (gl_b G) : K).
  Notation cc := (fZ (gl_c G) : K).

  (** The circuit on any point of a prover. *)
  Definition endo_with (Q : pt K) (p : pvar) : circ K pvar :=
    P <- point_witness p ;;
    o <- create_point_variable Q ;;
    xy <- mul (fst p) (snd p) ;;
    f <- gen_quad_poly (snd p) (snd p) 0 0 0 0 0 0 (- cc) 0 cc ;;
    g <- gen_quad_poly (snd p) (snd p) 0 0 0 0 0 0 b 0 (b * b) ;;
    h <- gen_quad_poly (snd p) (snd p) 0 0 0 0 0 0 1 0 (- b) ;;
    mul_gate (fst o) xy f >> mul_gate (snd o) h g >> ret o.
  Definition image (x y x' y' : K) : Prop := x' * (x * y) = cc * (1 - y * y) /\ y' * (y * y - b) = b * (y * y + b).
  Lemma endo_with_spec Q p c : wf c -> pinc c p ->
    wpc (endo_with Q p) c (fun o d =>
      (forall w, base w -> dsat zval (ptype c) w d -> image (w (fst p)) (w (snd p)) (w (fst o)) (w (snd o))) /\
      (forall w, base w -> hext (capp c d) w -> image (w (fst p)) (w (snd p)) (fst Q) (snd Q) -> dsat zval (ptype c) w d) /\
      (o = (num_vars c, num_vars c + 1)%nat /\ num_vars c + 1 < num_vars c + length (d_vals d))%nat /\
      (forall w, hext (capp c d) w -> w (num_vars c) = fst Q /\ w (num_vars c + 1)%nat = snd Q)).
  Proof.
    intros W [P1 P2]. pose proof (wf_two _ W). unfold endo_with, point_witness, check_point_var_bound, create_point_variable. destruct Q as [qx qy]. cbn [fst snd].
    repeat wstep. use mul_spec. use gen_quad_poly_spec. use gen_quad_poly_spec. use gen_quad_poly_spec. unfold mul_gate, gate3. repeat wstep.
    match goal with |- ?A /\ ?B /\ ?C /\ ?D => enough ((A /\ B /\ C) /\ D) by tauto end.
    split; [leaf|].
    - cbn [fst snd]. unfold image. rewrite num_vars_capp in *. cbn [d_vals dval length] in *. rewrite Hb0 in *. split.
      + rewrite <- F2. match goal with H : w a0 = w (num_vars c) * w a |- _ => rewrite <- H end. rewrite F1. ring.
      + transitivity (w (num_vars c + 1)%nat * w a2); [rewrite F; ring|]. match goal with H : w a1 = w (num_vars c + 1)%nat * w a2 |- _ => rewrite <- H end. rewrite F0. ring.
    - destruct HC as [I1 I2]. cbn [fst snd] in *. repeat match goal with E : w (num_vars c) = _ |- _ => rewrite E end. rewrite F1, F2, I1. rewrite Hb0. ring.
    - destruct HC as [I1 I2]. cbn [fst snd] in *. repeat match goal with E : w (num_vars (capp c _)) = _ |- _ => rewrite E end. rewrite F, F0, Hb0.
      transitivity (b * (w (snd p) * w (snd p) + b)); [ring|]. rewrite <- I2. ring.
    - rewrite num_vars_capp. cbn [d_vals dval length dcat]. split; [reflexivity|]. cbn [app length]. rewrite ?app_length; cbn [length]; lia.
    - intros w Hx. rewrite <- ?capp_cat in Hx. hx. cbn [fst snd]. rewrite num_vars_capp in *. cbn [d_vals dval length] in *. auto.
  Qed.
  Lemma endo_run Q p c : good c -> pinc c p ->
    exists d, let c' := capp c d in let o := (num_vars c, num_vars c + 1)%nat in
      endo_with Q p c = (Ok o, c') /\ good c' /\ extends c c' /\
      (forall c'' ws pub, extends c' c'' -> bounded c'' -> accepts c'' ws pub -> image (asg ws (fst p)) (asg ws (snd p)) (asg ws (fst o)) (asg ws (snd o))) /\
      (forall pub, accepts c (witness c) pub -> image (honest c (fst p)) (honest c (snd p)) (fst Q) (snd Q) -> accepts c' (witness c') pub) /\
      honest c' (fst o) = fst Q /\ honest c' (snd o) = snd Q.
  Proof.
    intros G0 Hp. pose proof (gd_wf _ G0) as W.
    destruct (endo_with_spec Q p c W Hp) as (a & d & E & P & S & C & (-> & Hn) & V). exists d. cbv zeta.
    assert (V0 : honest (capp c d) (num_vars c) = fst Q /\ honest (capp c d) (num_vars c + 1)%nat = snd Q) by (apply V; intros v Hv; reflexivity).
    assert (Hg : gspec zval (endo_with Q p) c (fun w o => image (w (fst p)) (w (snd p)) (w (fst o)) (w (snd o))) (fun w => image (w (fst p)) (w (snd p)) (fst Q) (snd Q)) (fun _ _ => True)).
    { exists (num_vars c, num_vars c + 1)%nat, d. split; [exact E|]. split; [exact P|]. split; [exact S|]. split; [exact C|exact I]. }
    assert (Lc : local (num_vars c) (fun w => image (w (fst p)) (w (snd p)) (fst Q) (snd Q))).
    { destruct Hp. intros w w' Hw. rewrite !Hw by assumption. auto. }
    destruct (gspec_gadget zval _ c _ _ _ G0 Lc Hg) as (a & c' & E' & G' & Ex & _ & _ & Snd & _ & Cmp).
    rewrite E in E'. injection E' as <- <-. split; [exact E|]. split; [exact G'|]. split; [exact Ex|]. split; [exact Snd|]. split; [exact Cmp|exact V0].
  Qed.
  Lemma point_wit (c : circuit K) p : wf c -> pinc c p -> point_witness p c = (Ok (honest c (fst p), honest c (snd p)), c).
  Proof.
    intros W [P1 P2]. unfold point_witness, check_point_var_bound, check_var_bound, cbind, lift. destruct (Nat.leb_spec (num_vars c) (fst p)); [lia|]. destruct (Nat.leb_spec (num_vars c) (snd p)); [lia|].
    rewrite (get_wit c _ W P1), (get_wit c _ W P2). reflexivity.
  Qed.
  Lemma endo_eq p c Q : wf c -> pinc c p -> endomorphism A D G sub (honest c (fst p), honest c (snd p)) = Ok Q ->
    endomorphism_circuit A D G sub p c = endo_with Q p c.
  Proof. intros W Hp E. unfold endomorphism_circuit, endo_with. unfold cbind at 1. rewrite (point_wit c p W Hp). unfold cbind at 1, lift. rewrite E. symmetry. unfold cbind at 1. rewrite (point_wit c p W Hp). reflexivity. Qed.
  Lemma endo_rel Q Q' p : rel (endo_with Q p) (endo_with Q' p) eq.
  Proof.
    unfold endo_with. pose proof (@mul_ind K). pose proof (@gen_quad_poly_ind K). pose proof (@mul_gate_ind K).
    apply rel_bind_any. { apply rel_pure; unfold point_witness, check_point_var_bound; repeat pstep. } intros _ _.
    apply rel_bind_eq. { unfold create_point_variable. apply rel_bind_eq; [apply var_rel|]; intros v1. apply rel_bind_eq; [apply var_rel|]; intros v2. apply rel_ret. reflexivity. }
    intros o. rauto.
  Qed.
  Lemma endomorphism_image P Q : endomorphism A D G sub P = Ok Q -> image (fst P) (snd P) (fst Q) (snd Q) /\ fst P * snd P <> 0 /\ snd P * snd P <> b.
  Proof.
    unfold endomorphism. destruct P as [x y]. cbn [fst snd]. destruct (feqb ((y * y - b) * (x * y)) 0) eqn:Z; [discriminate|]. apply feqb_neq in Z.
    assert (N1 : x * y <> 0) by (intros E; apply Z; rewrite E; ring). assert (N2 : y * y - b <> 0) by (intros E; apply Z; rewrite E; ring).
    assert (N3 : x <> 0) by (intros E; apply N1; rewrite E; ring). assert (N4 : y <> 0) by (intros E; apply N1; rewrite E; ring).
    match goal with |- (if on_curveb A D ?R && _ then _ else _) = _ -> _ => destruct (on_curveb A D R) eqn:C; cbn [andb]; [|discriminate] end.
    destruct (sub _); [|discriminate]. intros E. injection E as <-. cbn [fst snd]. unfold image.
    split; [|split; [exact N1|]].
    - split; field; auto.
    - intros E. apply N2. rewrite E. ring.
  Qed.

  (** The gates of the endomorphism: exactly which points they let a prover assign. *)
  Theorem C84_endomorphism p c Q : good c -> pinc c p ->
    endomorphism A D G sub (honest c (fst p), honest c (snd p)) = Ok Q ->
    exists o c', endomorphism_circuit A D G sub p c = (Ok o, c') /\ good c' /\ extends c c' /\
      (honest c' (fst o), honest c' (snd o)) = Q /\
      (forall pub, accepts c (witness c) pub -> accepts c' (witness c') pub) /\
      (forall ws pub x' y', accepts c ws pub ->
        ((exists l, accepts c' (ws ++ l) pub /\ (asg (ws ++ l) (fst o), asg (ws ++ l) (snd o)) = (x', y')) <->
         image (asg ws (fst p)) (asg ws (snd p)) x' y')).
  Proof.
    intros G0 Hp HQ. destruct (endo_run Q p c G0 Hp) as (d & E & G' & Ex & Snd & Cmp & V1 & V2). pose proof (endo_eq p c Q (gd_wf _ G0) Hp HQ) as Ee. rewrite E in Ee.
    exists (num_vars c, num_vars c + 1)%nat, (capp c d). split; [exact Ee|]. split; [exact G'|]. split; [exact Ex|]. split; [rewrite V1, V2; symmetry; apply surjective_pairing|].
    destruct (endomorphism_image _ _ HQ) as (Im & _). split; [intros pub Ha; exact (Cmp pub Ha Im)|].
    intros ws pub x' y' Ha. assert (HL : length ws = num_vars c) by apply Ha. destruct Hp as [P1 P2]. cbn [fst snd] in *.
    assert (Es : forall l v, (v < num_vars c)%nat -> asg (ws ++ l) v = asg ws v) by (intros l v Hv; unfold asg; rewrite app_nth1; [reflexivity|lia]).
    split.
    - intros (l & Hl & E'). injection E' as <- <-. pose proof (Snd _ _ _ (extends_refl _) (gd_bd _ G') Hl) as Hi. now rewrite !Es in Hi by assumption.
    - intros Hi. destruct (endo_run (x', y') p (with_witness c ws) (good_with _ _ G0 HL) (conj P1 P2)) as (d' & E' & G'' & Ext' & Snd' & Cmp' & V'). change (num_vars (with_witness c ws)) with (num_vars c) in *.
      pose proof (endo_rel Q (x', y') p c ws) as Hr. rewrite E, E' in Hr. destruct Hr as [_ [ws' Ew]].
      exists (d_vals d'). cbn [capp witness with_witness fst snd] in V', Cmp'. destruct V' as [V3 V4]. rewrite V3, V4. split; [|reflexivity].
      assert (Hc : accepts (capp (with_witness c ws) d') (ws ++ d_vals d') pub) by (apply Cmp'; [apply accepts_with; exact Ha|exact Hi]).
      rewrite Ew in Hc. apply (accepts_with zval (capp c d) (ws ++ d_vals d') ws' pub). exact Hc.
  Qed.
  (** The image is determined away from the zeros of the denominators. *)
  Theorem C84_image_unique x y x' y' : x * y <> 0 -> y * y <> b ->
    (image x y x' y' <-> x' = cc * (1 - y * y) / (x * y) /\ y' = b * (y * y + b) / (y * y - b)).
  Proof.
    intros N1 N2. assert (N3 : y * y - b <> 0) by (intros E; apply N2; now apply sub0). assert (N4 : x <> 0) by (intros E; apply N1; rewrite E; ring). assert (N5 : y <> 0) by (intros E; apply N1; rewrite E; ring).
    unfold image. split.
    - intros [I1 I2]. rewrite <- I1, <- I2. split; field; auto.
    - intros [-> ->]. split; field; auto.
  Qed.
  (** It is not for the neutral point: any first coordinate is accepted. *)
  Theorem C84_endomorphism_free_refuted p c Q : good c -> pinc c p ->
    endomorphism A D G sub (honest c (fst p), honest c (snd p)) = Ok Q -> 1 <> b ->
    exists o c', endomorphism_circuit A D G sub p c = (Ok o, c') /\
      forall ws pub x', accepts c ws pub -> asg ws (fst p) = 0 -> asg ws (snd p) = 1 ->
        exists l, accepts c' (ws ++ l) pub /\ asg (ws ++ l) (fst o) = x'.
  Proof.
    intros G0 Hp HQ Nb. destruct (C84_endomorphism p c Q G0 Hp HQ) as (o & c' & E & _ & _ & _ & _ & Hex). exists o, c'. split; [exact E|].
    intros ws pub x' Ha X Y. assert (N : 1 - b <> 0) by (intros H; apply Nb; now apply sub0).
    destruct (proj2 (Hex ws pub x' (b * (1 + b) / (1 - b)) Ha)) as (l & Hl & Ho).
    - rewrite X, Y. split; [ring|]. field. exact N.
    - exists l. split; [exact Hl|]. now injection Ho.
  Qed.
  (** The circuit cannot be built on such a point: the code divides by zero. *)
  Theorem C84_endomorphism_panics_refuted p c : good c -> pinc c p -> honest c (fst p) * honest c (snd p) = 0 ->
    endomorphism_circuit A D G sub p c = (Panic, c).
  Proof.
    intros G0 Hp Z. unfold endomorphism_circuit, cbind at 1. rewrite (point_wit c p (gd_wf _ G0) Hp). unfold cbind at 1, lift, endomorphism. cbn [fst snd].
    rewrite Z. rewrite (proj2 (feqb_eq _ _ _)) by ring. reflexivity.
  Qed.
  (** The image of a point of the curve is on the curve when a polynomial of the constants vanishes. *)
  Definition endo_poly (Y : K) : K :=
    A * (cc * cc) * ((1 - Y) * (A - D * Y)) * ((Y - b) * (Y - b)) + Y * ((b * (Y + b)) * (b * (Y + b))) - Y * ((Y - b) * (Y - b))
    - D * (cc * cc) * ((1 - Y) * (A - D * Y)) * ((b * (Y + b)) * (b * (Y + b))).
  Lemma endo_poly_0 :
    A * (cc * cc) * A * (b * b) - D * (cc * cc) * (b * b) * A * (b * b) = 0 ->
    A * (cc * cc) * (A * (- (b + b)) - (A + D) * (b * b)) + b * b * (b * b) - b * b - D * (cc * cc) * (b * b) * (A * (b + b) - (A + D) * (b * b)) = 0 ->
    A * (cc * cc) * (A + (A + D) * (b + b) + D * (b * b)) + b * b * (b + b) + (b + b) - D * (cc * cc) * (b * b) * (A - (A + D) * (b + b) + D * (b * b)) = 0 ->
    A * (cc * cc) * (- (A + D) - D * (b + b)) + b * b - 1 - D * (cc * cc) * (b * b) * (- (A + D) + D * (b + b)) = 0 ->
    A * (cc * cc) * D - D * (cc * cc) * (b * b) * D = 0 -> forall Y, endo_poly Y = 0.
  Proof.
    intros E0 E1 E2 E3 E4 Y. unfold endo_poly.
    transitivity ((A * (cc * cc) * A * (b * b) - D * (cc * cc) * (b * b) * A * (b * b))
      + (A * (cc * cc) * (A * (- (b + b)) - (A + D) * (b * b)) + b * b * (b * b) - b * b - D * (cc * cc) * (b * b) * (A * (b + b) - (A + D) * (b * b))) * Y
      + (A * (cc * cc) * (A + (A + D) * (b + b) + D * (b * b)) + b * b * (b + b) + (b + b) - D * (cc * cc) * (b * b) * (A - (A + D) * (b + b) + D * (b * b))) * (Y * Y)
      + (A * (cc * cc) * (- (A + D) - D * (b + b)) + b * b - 1 - D * (cc * cc) * (b * b) * (- (A + D) + D * (b + b))) * (Y * Y * Y)
      + (A * (cc * cc) * D - D * (cc * cc) * (b * b) * D) * (Y * Y * Y * Y)); [ring|].
    rewrite E0, E1, E2, E3, E4. ring.
  Qed.
  Lemma image_on_curve x y x' y' : (forall Y, endo_poly Y = 0) -> x * y <> 0 -> y * y <> b ->
    A * x * x + y * y = 1 + D * x * x * y * y -> image x y x' y' -> A * x' * x' + y' * y' = 1 + D * x' * x' * y' * y'.
  Proof.
    intros HP N1 N2 Hc [I1 I2]. assert (N3 : y * y - b <> 0) by (intros E; apply N2; now apply sub0). assert (N4 : x <> 0) by (intros E; apply N1; rewrite E; ring). assert (N5 : y <> 0) by (intros E; apply N1; rewrite E; ring).
    specialize (HP (y * y)). unfold endo_poly in HP. set (Y := y * y) in *. assert (NY : Y <> 0) by (intros E; unfold Y in E; apply N5; destruct (fmul_eq_0 K _ _ E); auto).
    assert (Ex : (x * x) * (A - D * Y) = 1 - Y) by (apply sub0; transitivity ((A * x * x + Y) - (1 + D * x * x * y * y)); [unfold Y; ring|]; rewrite Hc; ring).
    assert (E1 : x' * x' * Y = cc * cc * ((1 - Y) * (A - D * Y))).
    { apply (fmul_cancel_l K (x * x)); [intros E; apply N4; destruct (fmul_eq_0 K _ _ E); auto|].
      transitivity ((x' * (x * y)) * (x' * (x * y))); [unfold Y; ring|]. rewrite I1. transitivity (cc * cc * (1 - Y) * (x * x * (A - D * Y))); [rewrite Ex; ring|ring]. }
    apply sub0. apply (fmul_cancel_l K (Y * ((Y - b) * (Y - b)))).
    { intros E. destruct (fmul_eq_0 K _ _ E) as [E'|E']; [auto|]. destruct (fmul_eq_0 K _ _ E'); auto. }
    transitivity (A * (x' * x' * Y) * ((Y - b) * (Y - b)) + Y * ((y' * (Y - b)) * (y' * (Y - b))) - Y * ((Y - b) * (Y - b)) - D * (x' * x' * Y) * ((y' * (Y - b)) * (y' * (Y - b)))); [ring|].
    rewrite E1, I2. transitivity (0 : K); [|ring]. rewrite <- HP. ring.
  Qed.
  Lemma endomorphism_ok x y x' y' : image x y x' y' -> x * y <> 0 -> y * y <> b -> A * x' * x' + y' * y' = 1 + D * x' * x' * y' * y' ->
    endomorphism A D G sub (x, y) = if sub (x', y') then Ok (x', y') else Panic.
  Proof.
    intros [I1 I2] N1 N2 Hc. unfold endomorphism. cbn [fst snd].
    assert (N3 : y * y - b <> 0) by (intros E; apply N2; now apply sub0).
    rewrite (proj2 (feqb_neq _ _ _)) by (intros E; destruct (fmul_eq_0 K _ _ E); auto).
    assert (N4 : x <> 0) by (intros E; apply N1; rewrite E; ring). assert (N5 : y <> 0) by (intros E; apply N1; rewrite E; ring).
    replace (cc * (1 - y * y) * (y * y - b) * finv ((y * y - b) * (x * y))) with x' by (rewrite <- I1; field; auto).
    replace (b * (y * y + b) * (x * y) * finv ((y * y - b) * (x * y))) with y' by (rewrite <- I2; field; auto).
    unfold on_curveb. cbn [fst snd]. rewrite (proj2 (feqb_eq _ _ _) Hc). reflexivity.
  Qed.
End Endo.

(** The curve of Bandersnatch, with coefficients -5 and the quotient below. *)
Definition bander_a : FB := zmk glv_field (-5).
Definition bander_d : FB := zmk glv_field 45022363124591815672509500913686876175488063829319466900776701791074614335719.
Lemma bander_poly Y : endo_poly bander_a bander_d glv_bandersnatch Y = 0.
Proof. apply endo_poly_0; rewrite !fZ_Zp; apply zp_ext; vm_cast_no_check (eq_refl 0%Z). Qed.
(** The endomorphism maps the curve to itself: the code never panics on the curve equation. *)
Theorem C84_endomorphism_on_curve (x y x' y' : FB) : x * y <> 0 -> y * y <> fZ (gl_b glv_bandersnatch) ->
  bander_a * x * x + y * y = 1 + bander_d * x * x * y * y ->
  image glv_bandersnatch x y x' y' -> bander_a * x' * x' + y' * y' = 1 + bander_d * x' * x' * y' * y'.
Proof. intros. eapply (image_on_curve bander_a bander_d glv_bandersnatch x y); eauto using bander_poly. Qed.
(** Outside the circuit the endomorphism of a point of the curve is that image, when it is in the subgroup. *)
Theorem C84_endomorphism_outside sub (x y x' y' : FB) : x * y <> 0 -> y * y <> fZ (gl_b glv_bandersnatch) ->
  bander_a * x * x + y * y = 1 + bander_d * x * x * y * y ->
  image glv_bandersnatch x y x' y' ->
  endomorphism bander_a bander_d glv_bandersnatch sub (x, y) = if sub (x', y') then Ok (x', y') else Panic.
Proof.
  intros N1 N2 Hc Hi. exact (endomorphism_ok bander_a bander_d glv_bandersnatch sub x y x' y' Hi N1 N2 (C84_endomorphism_on_curve _ _ _ _ N1 N2 Hc Hi)).
Qed.
(** A point of the curve and its image; a circuit on it. *)
Definition bander_P : pt FB := (zmk glv_field 17684443284770386168030475050981299389220593598253843520325136412837686678362, zmk glv_field 2).
Definition bander_Q : pt FB := (zmk glv_field 3826923191690121862326912364376635671494865351578759175480769812315527825076, zmk glv_field 16932784766256614253313605275861162230918403176432135214550042162066487513515).
Definition bander_circuit : circuit FB := snd (create_point_variable bander_P (new_circuit FB Turbo)).
Theorem C84_endomorphism_instance : good bander_circuit /\ pinc bander_circuit (2, 3)%nat /\
  (honest bander_circuit 2, honest bander_circuit 3) = bander_P /\ accepts zB bander_circuit (witness bander_circuit) [] /\
  endomorphism bander_a bander_d glv_bandersnatch (fun _ => true) bander_P = Ok bander_Q.
Proof.
  split; [split; try reflexivity; split; try reflexivity; cbn; try lia; repeat constructor; cbn; lia|]. split; [split; cbn; lia|]. split; [reflexivity|]. split; [split; vm_compute; reflexivity|].
  assert (N : forall u v : FB, zB u <> zB v -> u <> v) by (intros u v Hn ->; now apply Hn).
  assert (X : image glv_bandersnatch (fst bander_P) (snd bander_P) (fst bander_Q) (snd bander_Q)) by (split; rewrite !fZ_Zp; apply zp_ext; vm_compute; reflexivity).
  assert (N1 : fst bander_P * snd bander_P <> 0) by (apply N; vm_compute; discriminate). assert (N2 : snd bander_P * snd bander_P <> fZ (gl_b glv_bandersnatch)) by (rewrite fZ_Zp; apply N; vm_compute; discriminate).
  refine (C84_endomorphism_outside (fun _ => true) _ _ _ _ N1 N2 _ X). apply zp_ext. vm_compute. reflexivity.
Qed.

Print Assumptions C84_decomposition.
Print Assumptions C84_gate_exact.
Print Assumptions C84_gate_sound_partial.
Print Assumptions C84_gate_honest.
Print Assumptions C84_wrong_multiple_refuted.
Print Assumptions C84_scalar_refused_refuted.
Print Assumptions C84_gate_instance.
Print Assumptions C84_endomorphism.
Print Assumptions C84_image_unique.
Print Assumptions C84_endomorphism_free_refuted.
Print Assumptions C84_endomorphism_panics_refuted.
Print Assumptions C84_endomorphism_on_curve.
Print Assumptions C84_endomorphism_instance.
