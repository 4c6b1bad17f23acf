(** Soundness and completeness of the emulated multiplication gates. *)

From Coq Require Import List Arith ZArith Bool Lia Znumtheory Zpow_facts Ring Field.
From Verif Require Import Base ListAux Alg Poly CircuitModel CircuitProofs GadgetModel GadgetProofs RangeProofs
  BitProofs CmpProofs RangeLookup EmulatedModel EmulatedProofs.
Import ListNotations.
Local Open Scope fld_scope.
Local Open Scope circ_scope.

Section Sums.
  Context {K : fld}.
  Add Field Kfield_ems : (fth K).
  Lemma fsum_pairs (f : nat -> K) m :
    fsum (map f (seq 0 (2 * m))) = fsum (map (fun h => f (2 * h)%nat + f (2 * h + 1)%nat) (seq 0 m)).
  Proof.
    induction m as [|m IH]; [reflexivity|].
    replace (2 * S m)%nat with (2 * m + 2)%nat by lia. rewrite seq_app, map_app, fsum_app, IH.
    rewrite (seq_S m), map_app, fsum_app. cbn [map seq plus]. rewrite !fsum_cons.
    replace (S (2 * m))%nat with (2 * m + 1)%nat by lia. change (fsum (@nil K)) with (0 : K). ring.
  Qed.
  Lemma fsum_fZ {A} (g : A -> Z) l : fsum (map (fun a => fZ (g a) : K) l) = fZ (zsum (map g l)).
  Proof.
    induction l as [|a l IH]; [reflexivity|]. cbn [map]. rewrite fsum_cons, IH.
    change (zsum (g a :: map g l)) with (g a + zsum (map g l))%Z. now rewrite fZ_add.
  Qed.
  (** Polynomial evaluation as an indexed sum. *)
  Lemma peval_fsum (l : list K) x : peval l x = fsum (map (fun i => fpow x i * nth i l 0) (seq 0 (length l))).
  Proof.
    induction l as [|a l IH]; [reflexivity|].
    cbn [peval length seq map]. rewrite fsum_cons, <- seq_shift, map_map, IH. cbn [fpow nth].
    rewrite <- fsum_map_scale. f_equal; [ring|]. apply fsum_map_ext. intros; ring.
  Qed.
End Sums.

Section Mul.
  Context {K : fld}.
  Variable zval : K -> Z.
  Variable p : Z.
  Variable nb L : nat.
  Hypothesis HF : pfield K zval p nb L.
  Variable q : Z.
  Variables T B NL : nat.
  Hypothesis HB : (1 <= B)%nat.
  Hypothesis HNL : (1 <= NL)%nat.
  Hypothesis HT : T = (B * NL)%nat.
  Hypothesis Hq : (0 < q < 2 ^ Z.of_nat T)%Z.
  Hypothesis Hroom : (4 * Z.of_nat NL * 2 ^ (2 * Z.of_nat B) <= p)%Z.
  Add Field Kfield_emm : (fth K).
  Notation gspec := (gspec zval).
  Notation dsat := (dsat zval).
  Notation Tr := (fun _ : nat -> K => True).
  Notation beta := (2 ^ Z.of_nat B)%Z.
  Notation bp := (@b_pow K B).
  Notation log := log_num_vals.
  Ltac start := unfold gspec, CircuitProofs.gspec; unfold out, noout.

  Lemma fmulC (x y : K) : x * y = y * x.
  Proof. ring. Qed.
  (** Range checks are available. *)
  Definition rok (t : plonk_type) : Prop := match t with Turbo => True | Ultra rb => (1 <= rb <= 31 /\ rb < nb)%nat end.

  Lemma beta_ge : (2 <= beta)%Z.
  Proof. change 2%Z with (2 ^ 1)%Z at 1. apply Z.pow_le_mono_r; lia. Qed.
  Lemma beta2 : (2 ^ (2 * Z.of_nat B) = beta * beta)%Z.
  Proof. rewrite <- Z.pow_add_r by lia. f_equal; lia. Qed.
  Lemma pow_T : (2 ^ Z.of_nat T = beta ^ Z.of_nat NL)%Z.
  Proof. rewrite HT, Nat2Z.inj_mul, Z.pow_mul_r by lia. reflexivity. Qed.
  Lemma p_big : (16 <= p)%Z.
  Proof. rewrite beta2 in Hroom. pose proof beta_ge. nia. Qed.
  Lemma beta_small : (beta < p)%Z.
  Proof. rewrite beta2 in Hroom. pose proof beta_ge. nia. Qed.
  Lemma bp_fZ : bp = fZ beta.
  Proof. apply fpow_two. Qed.
  Lemma fZ_0_iff z : (fZ z : K) = 0 <-> (z mod p = 0)%Z.
  Proof.
    rewrite <- (pf_zval _ _ _ _ _ HF z). split; intros H.
    - rewrite H. change (0 : K) with (fZ 0 : K). rewrite (pf_zval _ _ _ _ _ HF). apply Z.mod_0_l. pose proof p_big; lia.
    - apply (zval_inj zval p nb L HF). rewrite H. change (0 : K) with (fZ 0 : K). rewrite (pf_zval _ _ _ _ _ HF).
      symmetry. apply Z.mod_0_l. pose proof p_big; lia.
  Qed.
  Lemma fZ_eq_iff x y : (fZ x : K) = fZ y <-> ((x - y) mod p = 0)%Z.
  Proof. rewrite <- fZ_0_iff, fZ_sub, fsub_eq_0. reflexivity. Qed.
  Lemma p_odd : (p mod 2 = 1)%Z.
  Proof.
    pose proof p_big. destruct (Z.eq_dec (p mod 2) 0) as [E|E].
    - exfalso. assert (H1 : (fZ (p / 2 * 2) : K) = 0).
      { apply fZ_0_iff. replace (p / 2 * 2)%Z with p by (pose proof (Z.div_mod p 2); lia). apply Z.mod_same; lia. }
      rewrite fZ_mul in H1. apply fmul_eq_0 in H1. destruct H1 as [H1|H1]; apply fZ_0_iff in H1; rewrite Z.mod_small in H1.
      + pose proof (Z.div_mod p 2). lia.
      + split; [apply Z.div_pos; lia|apply Z.div_lt; lia].
      + lia.
      + lia.
    - pose proof (Z.mod_pos_bound p 2). lia.
  Qed.
  Lemma bp_neq_0 : bp <> 0.
  Proof. rewrite bp_fZ, fZ_0_iff. pose proof beta_small. pose proof beta_ge. rewrite Z.mod_small; lia. Qed.
  Lemma T_coprime : rel_prime (2 ^ Z.of_nat T) p.
  Proof.
    apply rel_prime_sym, rel_prime_Zpower_r; [lia|]. apply rel_prime_sym, prime_rel_prime; [apply prime_2|].
    intros H. apply Znumtheory.Zdivide_mod in H. rewrite p_odd in H. discriminate.
  Qed.

  Lemma pow_log i : (2 ^ Z.of_nat (B + log i) = beta * 2 ^ Z.of_nat (log i))%Z.
  Proof. rewrite Nat2Z.inj_add, Z.pow_add_r by lia. reflexivity. Qed.
  Lemma log_bounds i : (2 * Z.of_nat i + 2 < 2 ^ Z.of_nat (log i) <= 4 * Z.of_nat i + 4)%Z.
  Proof.
    unfold log_num_vals. pose proof (Nat.log2_spec (2 * i + 2)) as H.
    assert (H2 : (2 ^ Nat.log2 (2 * i + 2) <= 2 * i + 2 < 2 ^ S (Nat.log2 (2 * i + 2)))%nat) by (apply H; lia).
    destruct H2 as [H3 H4]. cbn [Nat.pow] in H4.
    rewrite Nat2Z.inj_succ, Z.pow_succ_r by lia.
    replace (2 ^ Z.of_nat (Nat.log2 (2 * i + 2)))%Z with (Z.of_nat (2 ^ Nat.log2 (2 * i + 2))) by (rewrite Nat2Z.inj_pow; reflexivity).
    lia.
  Qed.
  Lemma width_ok t n : rok t -> (1 <= n)%nat -> (2 ^ Z.of_nat n <= 4 * Z.of_nat NL * 2 ^ (2 * Z.of_nat B))%Z ->
    match t with Turbo => (1 <= n <= L)%nat | Ultra rb => (1 <= n /\ 1 <= rb <= 31 /\ rb < nb)%nat end.
  Proof.
    intros Ht Hn H. destruct t; [|cbn in Ht; lia]. split; [exact Hn|].
    pose proof (pf_len _ _ _ _ _ HF). pose proof (pf_hi _ _ _ _ _ HF) as H1.
    assert (n < nb)%nat; [|lia]. apply Nat2Z.inj_lt, (Z.pow_lt_mono_r_iff 2); lia.
  Qed.
  Lemma width_B : (2 ^ Z.of_nat B <= 4 * Z.of_nat NL * 2 ^ (2 * Z.of_nat B))%Z.
  Proof. rewrite beta2. pose proof beta_ge. nia. Qed.
  Lemma width_B1 : (2 ^ Z.of_nat (B + 1) <= 4 * Z.of_nat NL * 2 ^ (2 * Z.of_nat B))%Z.
  Proof. rewrite beta2, Nat2Z.inj_add, Z.pow_add_r by lia. pose proof beta_ge. change (2 ^ Z.of_nat 1)%Z with 2%Z. nia. Qed.
  Lemma width_round i : (i < NL)%nat -> (2 ^ Z.of_nat (B + log i) <= 4 * Z.of_nat NL * 2 ^ (2 * Z.of_nat B))%Z.
  Proof.
    intros Hi. rewrite beta2, pow_log. pose proof beta_ge. pose proof (log_bounds i).
    assert (2 ^ Z.of_nat (log i) <= 4 * Z.of_nat NL)%Z by lia. nia.
  Qed.

  Lemma limbs_map v n : biguint_to_limbs v B n = map (fun z => fZ z : K) (digits beta v n).
  Proof. revert v; induction n as [|n IH]; intros v; cbn; [reflexivity|]. now rewrite IH. Qed.
  Lemma length_limbs v n : length (@biguint_to_limbs K v B n) = n.
  Proof. rewrite limbs_map, map_length. apply length_digits. Qed.
  Lemma zval_digit z : (0 <= z < beta)%Z -> zval (fZ z) = z.
  Proof. intros H. apply (zval_small zval p nb L HF). pose proof beta_small. lia. Qed.
  Lemma zval_limbs v n : map zval (@biguint_to_limbs K v B n) = digits beta v n.
  Proof.
    rewrite limbs_map, map_map. rewrite <- (map_id (digits beta v n)) at 2. apply map_ext_in.
    intros z Hz. apply zval_digit. pose proof (digits_range beta v n) as H. rewrite Forall_forall in H. apply H; auto.
    pose proof beta_ge; lia.
  Qed.

  (** Integer values of the limbs of a variable under an assignment. *)
  Definition zl (w : nat -> K) (a : list nat) : list Z := map (fun v => zval (w v)) a.
  Definition ev (w : nat -> K) (a : list nat) : Z := hval beta (zl w a).
  Definition rng (w : nat -> K) (a : list nat) : Prop := Forall (fun v => zval (w v) < beta)%Z a.
  Lemma length_zl w a : length (zl w a) = length a.
  Proof. apply map_length. Qed.
  Lemma nth_zl w a i : (i < length a)%nat -> nth i (zl w a) 0%Z = zval (w (nth i a 0%nat)).
  Proof.
    intros H. unfold zl. rewrite nth_indep with (d' := zval (w 0%nat)) by (rewrite map_length; auto).
    apply (map_nth (fun v => zval (w v))).
  Qed.
  Lemma zl_range w a : rng w a -> Forall (fun z => 0 <= z < beta)%Z (zl w a).
  Proof.
    intros H. apply Forall_map. eapply Forall_impl; [|exact H]. cbn beta. intros v Hv. pose proof (pf_range _ _ _ _ _ HF (w v)). lia.
  Qed.
  Lemma ev_range w a : length a = NL -> rng w a -> (0 <= ev w a < 2 ^ Z.of_nat T)%Z.
  Proof.
    intros Hl H. unfold ev. rewrite pow_T, <- Hl, <- (length_zl w). apply hval_range; [pose proof beta_ge; lia|].
    apply zl_range; auto.
  Qed.
  Lemma w_fZ (w : nat -> K) v : w v = fZ (zval (w v)).
  Proof. symmetry. apply (pf_fZ _ _ _ _ _ HF). Qed.
  Lemma peval_ev w a : peval (map w a) bp = fZ (ev w a).
  Proof.
    unfold ev. rewrite bp_fZ, <- peval_fZ. unfold zl. rewrite map_map. f_equal. apply map_ext. intros; apply w_fZ.
  Qed.

  (** ** The native image *)
  Lemma native_round (w : nat -> K) (a : list nat) n m : base w -> (length a <= n)%nat ->
    fsum (map (fun i => fpow bp i * w (nth i a 0%nat)) (seq 0 (n + m)))
    = fsum (map (fun i => fpow bp i * w (nth i a 0%nat)) (seq 0 n)).
  Proof.
    intros [Hb _] Hn. rewrite seq_app, map_app, fsum_app.
    rewrite (fsum_map_0 K _ (seq (0 + n) m)); [ring|].
    intros i Hi. apply in_seq in Hi. rewrite nth_overflow by lia. rewrite Hb. ring.
  Qed.
  Lemma native_sum (w : nat -> K) (a : list nat) n : base w -> (length a <= n)%nat ->
    fsum (map (fun i => fpow bp i * w (nth i a 0%nat)) (seq 0 n)) = peval (map w a) bp.
  Proof.
    intros Hb Hn. replace n with (length a + (n - length a))%nat by lia. rewrite native_round by auto.
    rewrite peval_fsum, map_length. apply fsum_map_ext. intros i Hi. apply in_seq in Hi. f_equal.
    rewrite nth_indep with (d := 0) (d' := w 0%nat) by (rewrite map_length; lia). symmetry. apply map_nth.
  Qed.
  Notation psum w a n := (fsum (map (fun i => fpow bp i * w (nth i a 0%nat)) (seq 0 n))).

  Lemma nth_lt (a : list nat) i n : Forall (fun v => v < n)%nat a -> (0 < n)%nat -> (nth i a 0 < n)%nat.
  Proof.
    intros H Hn. destruct (Nat.lt_ge_cases i (length a)).
    - rewrite Forall_forall in H. apply H, nth_In; auto.
    - rewrite nth_overflow; auto.
  Qed.
  Lemma native_loop_spec a n : forall s r c, wf c -> Forall (fun v => v < num_vars c)%nat a -> (r < num_vars c)%nat ->
    gspec (foldM (fun (rp : nat * K) n =>
            let '(r, cur) := rp in
            let i := (4 + 3 * n)%nat in
            r' <- lc r (nth i a 0%nat) (nth (i + 1) a 0%nat) (nth (i + 2) a 0%nat) 1 cur (cur * bp) (cur * (bp * bp)) ;;
            ret (r', cur * (bp * bp * bp))) (r, fpow bp (4 + 3 * s)) (seq s n)) c
      (fun w r' => w r = psum w a (4 + 3 * s)%nat -> w (fst r') = psum w a (4 + 3 * (s + n))%nat) Tr
      (fun r' n => fst r' < n)%nat.
  Proof.
    induction n as [|n IH]; intros s r c Hw Ha Hr; cbn [seq foldM].
    - apply gspec_ret; auto. cbn [fst]. intros w _ H. rewrite H, Nat.add_0_r. reflexivity.
    - start. pose proof (wf_two _ Hw).
      assert (Hn : forall i, (nth i a 0 < num_vars c)%nat) by (intros; apply nth_lt; auto; lia).
      apply wpc_assoc. use lc_spec; auto.
      wstep.
      replace (fpow bp (4 + 3 * s) * (bp * bp * bp)) with (fpow bp (4 + 3 * S s))
        by (replace (4 + 3 * S s)%nat with (S (S (S (4 + 3 * s)))) by lia; cbn [fpow]; ring).
      eapply wpc_mono; [apply (IH (S s) a0 (capp c d)); [wfs| |exact R]|].
      { eapply Forall_impl; [|exact Ha]. cbn beta; intros; bnd. }
      intros r' d2 _ (S2 & C2 & R2). rewrite !ptype_capp in *. split; [|split].
      + intros w Hb Hs E. rewrite !dsat_cat in Hs. destruct Hs as (D1 & D2).
        pose proof (Snd w Hb D1) as F0. cbn beta in F0.
        rewrite (S2 w Hb D2); [f_equal; f_equal; f_equal; lia|]. rewrite F0, E.
        replace (4 + 3 * S s)%nat with (4 + 3 * s + 3)%nat by lia. 
        generalize (4 + 3 * s)%nat as e. intros e. rewrite seq_app, map_app, fsum_app.
        cbn [seq map]. rewrite !fsum_cons. change (fsum (@nil K)) with (0 : K).
        replace (S (S (0 + e)))%nat with (e + 2)%nat by lia.
        replace (S (0 + e))%nat with (e + 1)%nat by lia.
        replace (0 + e)%nat with e by lia.
        rewrite !fpow_add. cbn [fpow]. ring.
      + intros w Hb Hh _. rewrite <- !capp_cat in Hh. rewrite !dsat_cat. split.
        * apply Cmp; auto. hx. auto.
        * apply C2; auto.
      + bnd.
  Qed.

  Lemma mod_to_native_field_spec a c : wf c -> Forall (fun v => v < num_vars c)%nat a -> length a = NL ->
    gspec (mod_to_native_field B NL a) c (fun w r => w r = fZ (ev w a)) Tr out.
  Proof.
    intros Hw Ha Hl. pose proof (wf_two _ Hw). start. unfold mod_to_native_field.
    assert (Hn : forall i, (nth i a 0 < num_vars c)%nat) by (intros; apply nth_lt; auto; lia).
    use lc_spec; auto.
    assert (E4 : forall w, base w -> dsat (ptype c) w d -> w a0 = psum w a 4%nat).
    { intros w Hb D. rewrite (Snd w Hb D). cbn [seq map]. rewrite !fsum_cons. cbn [fpow]. change (fsum (@nil K)) with (0 : K). ring. }
    destruct (NL <=? 4)%nat eqn:E.
    - apply Nat.leb_le in E. wstep. split; [|split].
      + intros w Hb Hs. rewrite !dsat_cat in Hs. rewrite (E4 w Hb (proj1 Hs)), <- peval_ev.
        apply native_sum; auto. lia.
      + intros w Hb Hh _. rewrite <- !capp_cat in Hh. rewrite !dsat_cat. split; [|apply dsat_nil].
        apply Cmp; auto. hx. auto.
      + bnd.
    - apply Nat.leb_gt in E.
      replace (bp * bp * bp * bp) with (fpow bp (4 + 3 * 0)) by (cbn [fpow Nat.add Nat.mul]; ring).
      apply wpc_bind. eapply wpc_mono.
      { apply (native_loop_spec a ((NL - 4 + 2) / 3) 0 a0 (capp c d)); [wfs| |exact R].
        eapply Forall_impl; [|exact Ha]. cbn beta; intros; bnd. }
      intros r' d2 _ (S2 & C2 & R2). rewrite !ptype_capp in *. wstep. split; [|split].
      + intros w Hb Hs. rewrite !dsat_cat in Hs. destruct Hs as (D1 & D2 & _).
        rewrite (S2 w Hb D2) by (apply E4; auto). rewrite <- peval_ev. apply native_sum; auto.
        rewrite Hl. pose proof (Nat.div_mod (NL - 4 + 2) 3). pose proof (Nat.mod_upper_bound (NL - 4 + 2) 3). lia.
      + intros w Hb Hh _. rewrite <- !capp_cat in Hh. rewrite !dsat_cat. split; [|split; [|apply dsat_nil]].
        * apply Cmp; auto. hx. auto.
        * apply C2; auto. hx. auto.
      + bnd.
  Qed.

  (** ** One limb *)
  Definition LF (nl : list K) (bw : (nat -> K) -> nat -> K) (a k : list nat) (w : nat -> K) (i : nat) : K :=
    fsum (map (fun j => w (nth j k 0%nat) * nth (i - j) nl 0 + w (nth j a 0%nat) * bw w (i - j)%nat) (seq 0 (S i))).

  Definition round_ok (round : K * nat -> nat -> circ K (K * nat)) (nl : list K) (bw : (nat -> K) -> nat -> K)
      (a k c : list nat) (nextv : K -> nat -> K) (n0 : nat) (t : plonk_type) : Prop :=
    forall st i c0, (1 <= i < NL)%nat -> wf c0 -> (n0 <= num_vars c0)%nat -> ptype c0 = t -> (snd st < num_vars c0)%nat ->
      wpc (round st i) c0 (fun r d =>
        (forall w, base w -> dsat t w d ->
           w (nth i c 0%nat) = LF nl bw a k w i + w (snd st) - bp * w (snd r)
           /\ (zval (w (snd r)) < 2 ^ Z.of_nat (B + log i))%Z)
        /\ (forall w, base w -> hext (capp c0 d) w ->
              w (nth i c 0%nat) = LF nl bw a k w i + w (snd st) - bp * fst r ->
              (zval (fst r) < 2 ^ Z.of_nat (B + log i))%Z -> dsat t w d)
        /\ (snd r < num_vars c0 + length (d_vals d))%nat
        /\ (forall w, hext (capp c0 d) w -> w (snd r) = fst r)
        /\ fst r = nextv (fst st) i).

  Lemma idx_pure {A} (l : list A) dft i (c : circuit K) : (i < length l)%nat -> idx l i c = (Ok (nth i l dft), c).
  Proof. intros H. unfold idx, lift. rewrite (index_nth l dft i H). reflexivity. Qed.

  Definition nextv (al bl kl nl el : list K) (v : K) (i : nat) : K :=
    div_b B (limb_sum kl nl al bl i + v - nth i el 0).

  Lemma ssum_zip w (f g : nat -> nat * K) l : ssum w (map f l ++ map g l)
    = fsum (map (fun j => snd (f j) * w (fst (f j)) + snd (g j) * w (fst (g j))) l).
  Proof. rewrite ssum_app. unfold ssum. rewrite !map_map. symmetry. apply fsum_map_add. Qed.

  Lemma sum_even (f : nat -> K) i : (i mod 2 = 0)%nat ->
    fsum (map f (seq 0 (S i))) = fsum (map (fun h => f (2 * h)%nat + f (2 * h + 1)%nat) (seq 0 ((i + 1) / 2))) + f i.
  Proof.
    intros H. pose proof (Nat.div_mod i 2) as E.
    assert (E2 : ((i + 1) / 2 = i / 2)%nat).
    { symmetry. apply (Nat.div_unique _ 2 _ 1); lia. }
    rewrite E2, <- fsum_pairs, seq_S, map_app, fsum_app. replace (2 * (i / 2))%nat with i by lia.
    cbn [map plus]. rewrite fsum_cons. change (fsum (@nil K)) with (0 : K). ring.
  Qed.
  Lemma sum_odd (f : nat -> K) i : (i mod 2 <> 0)%nat ->
    fsum (map f (seq 0 (S i))) = fsum (map (fun h => f (2 * h)%nat + f (2 * h + 1)%nat) (seq 0 ((i + 1) / 2))).
  Proof.
    intros H. pose proof (Nat.div_mod i 2) as E. pose proof (Nat.mod_upper_bound i 2) as E1.
    assert (E2 : ((i + 1) / 2 = S (i / 2))%nat).
    { symmetry. apply (Nat.div_unique _ 2 _ 0); lia. }
    rewrite <- fsum_pairs. do 2 f_equal. f_equal. lia.
  Qed.

  Lemma mul_round_ok a b c k al bl kl nl el n0 t :
    rok t -> length a = NL -> length b = NL -> length c = NL -> length k = NL -> length nl = NL ->
    Forall (fun v => v < n0)%nat a -> Forall (fun v => v < n0)%nat b -> Forall (fun v => v < n0)%nat c ->
    Forall (fun v => v < n0)%nat k ->
    round_ok (mul_round zval p nb L B a b c k al bl kl nl el) nl (fun w j => w (nth j b 0%nat)) a k c
      (nextv al bl kl nl el) n0 t.
  Proof.
    intros Ht La Lb Lc Lk Ln Ba Bb Bc Bk [vc carry] i c0 Hi Hw Hn Hpt Hc. cbn [snd fst] in *.
    pose proof (wf_two _ Hw) as H2.
    assert (Bd : forall l, Forall (fun v => v < n0)%nat l -> forall j d, (nth j l 0 < num_vars (capp c0 d))%nat).
    { intros l Hl j d. eapply Nat.lt_le_trans with (m := num_vars c0); [|bnd]. apply nth_lt; [|lia].
      eapply Forall_impl; [|exact Hl]. cbn beta; lia. }
    unfold mul_round. fold (nextv al bl kl nl el vc i). set (nv := nextv al bl kl nl el vc i).
    wstep. set (next := num_vars c0).
    apply wpc_bind. eapply wpc_mono.
    { apply (enforce_in_range_spec zval p nb L HF (capp c0 (dval nv)) next (B + log i)); [wfs|unfold next; bnd|].
      rewrite ptype_capp, Hpt. apply width_ok; auto; [lia|apply width_round; lia]. }
    intros [] d1 _ (S1 & C1 & _). rewrite ptype_capp, Hpt in S1, C1.
    set (bases := map (fun j => (nth j k 0%nat, nth (i - j) nl 0)) (seq 0 (S i))).
    eapply wpc_bind_pure with (a := bases).
    { apply mapM_pure. intros j Hj. apply in_seq in Hj. unfold cbind, ret.
      rewrite (idx_pure k 0%nat) by lia. rewrite (idx_pure nl 0) by lia. reflexivity. }
    apply wpc_bind. eapply wpc_mono.
    { apply (mapM_gspec zval _ (fun h w (r : nat * K) => snd r = 1 /\ w (fst r) =
          w (nth (2 * h) a 0%nat) * w (nth (i - 2 * h) b 0%nat) + w (nth (2 * h + 1) a 0%nat) * w (nth (i - (2 * h + 1)) b 0%nat))
          (fun r n => fst r < n)%nat); [cbn; intros; lia|wfs|].
      intros h c' Hh Hw' Hn' Ht'. apply in_seq in Hh.
      assert (2 * h + 1 <= i)%nat by (pose proof (Nat.div_mod (i + 1) 2); pose proof (Nat.mod_upper_bound (i + 1) 2); lia).
      start.
      apply (wpc_bind_idx a 0%nat); [lia|]. apply (wpc_bind_idx b 0%nat); [lia|].
      apply (wpc_bind_idx a 0%nat); [lia|]. apply (wpc_bind_idx b 0%nat); [lia|].
      replace (i - 2 * h - 1)%nat with (i - (2 * h + 1))%nat by lia.
      assert (Bd' : forall l, Forall (fun v => v < n0)%nat l -> forall j, (nth j l 0 < num_vars c')%nat).
      { intros l Hl j. eapply Nat.lt_le_trans; [apply (Bd l Hl j (dcat (dval nv) d1))|]. rewrite <- capp_cat. exact Hn'. }
      use mul_add_spec; auto. wstep. split; [|split].
      - intros w Hb Hs. rewrite dsat_cat in Hs. cbn [snd fst]. split; [reflexivity|]. rewrite (Snd w Hb (proj1 Hs)). ring.
      - intros w Hb Hh' _. rewrite dsat_cat. split; [|apply dsat_nil]. apply Cmp; auto. rewrite <- capp_cat in Hh'. hx; auto.
      - cbn [fst]. bnd. }
    intros prods d2 _ (S2 & C2 & R2). rewrite !ptype_capp, Hpt in S2, C2. rewrite !num_vars_capp in R2.
    set (st := rev (bases ++ [(carry, 1); (next, - bp)] ++ prods)).
    assert (Hst : Forall (fun vc => fst vc < num_vars (capp (capp (capp c0 (dval nv)) d1) d2))%nat st).
    { unfold st. apply Forall_rev. rewrite !Forall_app. split; [|split].
      - unfold bases. apply Forall_map, Forall_forall. intros j _. cbn [fst]. rewrite !capp_cat. apply Bd; auto.
      - repeat constructor; cbn [fst]; unfold next; bnd.
      - eapply Forall_impl; [|exact R2]. cbn beta. intros x Hx. rewrite !num_vars_capp. exact Hx. }
    assert (HP : forall w, Forall2 (fun h (r : nat * K) => snd r = 1 /\ w (fst r) =
          w (nth (2 * h) a 0%nat) * w (nth (i - 2 * h) b 0%nat) + w (nth (2 * h + 1) a 0%nat) * w (nth (i - (2 * h + 1)) b 0%nat))
          (seq 0 ((i + 1) / 2)) prods ->
        ssum w st = fsum (map (fun j => w (nth j k 0%nat) * nth (i - j) nl 0) (seq 0 (S i))) + w carry - bp * w next
          + fsum (map (fun h => w (nth (2 * h) a 0%nat) * w (nth (i - 2 * h) b 0%nat)
                 + w (nth (2 * h + 1) a 0%nat) * w (nth (i - (2 * h + 1)) b 0%nat)) (seq 0 ((i + 1) / 2)))).
    { intros w H. unfold st. rewrite ssum_rev, !ssum_app, !ssum_cons.
      assert (Eb : ssum w bases = fsum (map (fun j => w (nth j k 0%nat) * nth (i - j) nl 0) (seq 0 (S i)))).
      { unfold ssum, bases. rewrite map_map. apply fsum_map_ext. intros; cbn [fst snd]; ring. }
      assert (Ep : ssum w prods = fsum (map (fun h => w (nth (2 * h) a 0%nat) * w (nth (i - 2 * h) b 0%nat)
                 + w (nth (2 * h + 1) a 0%nat) * w (nth (i - (2 * h + 1)) b 0%nat)) (seq 0 ((i + 1) / 2)))).
      { clear -H. unfold ssum. induction H as [|h r l l' [E1 E2] _ IH]; [reflexivity|].
        cbn [map]. rewrite !fsum_cons, IH, E1, E2. ring. }
      rewrite Eb, Ep. change (ssum w []) with (0 : K). ring. }
    assert (HLF : forall w, LF nl (fun w j => w (nth j b 0%nat)) a k w i =
      fsum (map (fun j => w (nth j k 0%nat) * nth (i - j) nl 0) (seq 0 (S i)))
      + fsum (map (fun j => w (nth j a 0%nat) * w (nth (i - j) b 0%nat)) (seq 0 (S i)))).
    { intros w. unfold LF. rewrite fsum_map_add. reflexivity. }
    destruct (i mod 2 =? 0)%nat eqn:Ei.
    - apply Nat.eqb_eq in Ei.
      assert (Hlen : (2 <= length st)%nat).
      { unfold st. rewrite rev_length, !app_length. cbn [length]. lia. }
      destruct st as [|[v1 c1] [|[v2 c2] st']] eqn:Est; try (cbn in Hlen; lia).
      pose proof (Forall_inv Hst) as Hv1. pose proof (Forall_inv (Forall_inv_tail Hst)) as Hv2. cbn [fst] in Hv1, Hv2.
      apply wpc_assoc. apply (wpc_bind_idx a 0%nat); [lia|].
      apply wpc_assoc. apply (wpc_bind_idx b 0%nat); [lia|].
      apply wpc_assoc. use gen_quad_poly_spec; auto; try (rewrite !capp_cat; apply Bd; auto).
      apply wpc_bind_ret. apply (wpc_bind_idx c 0%nat); [lia|].
      apply wpc_bind. eapply wpc_mono.
      { apply (sum_stack_spec zval ((a0, 1) :: st') (nth i c 0%nat)); [wfs| |rewrite !capp_cat; apply Bd; auto].
        constructor; [exact R|]. eapply Forall_impl; [|exact (Forall_inv_tail (Forall_inv_tail Hst))]. cbn beta. intros. bnd. }
      intros [] d4 _ (S4 & C4 & _). rewrite !ptype_capp, Hpt in *. wstep. cbn [fst snd].
      assert (Hmain : forall w, base w -> dsat t w d2 -> dsat t w d ->
        ssum w ((a0, 1) :: st') = LF nl (fun w j => w (nth j b 0%nat)) a k w i + w carry - bp * w next).
      { intros w Hb D2 D3. rewrite HLF, (sum_even (fun j => w (nth j a 0%nat) * w (nth (i - j) b 0%nat)) i Ei).
        assert (Hs := HP w (S2 w Hb D2)). pose proof (Snd w Hb D3) as Ht3. cbn beta in Ht3.
        rewrite ssum_cons in Hs. rewrite ssum_cons in Hs. rewrite ssum_cons, Nat.sub_diag, Ht3.
        match type of Hs with ?l = _ + ?x - ?y + ?z => set (X := z) in *; set (Y := y) in * end.
        transitivity ((c1 * w v1 + (c2 * w v2 + ssum w st')) + w (nth i a 0%nat) * w (nth 0 b 0%nat)); [ring|].
        rewrite Hs. ring. }
      split; [|split; [|split; [|split]]].
      + intros w Hb Hs. rewrite !dsat_cat in Hs. destruct Hs as (_ & D1 & D2 & D3 & D4 & _).
        split; [|apply S1; auto]. rewrite (S4 w Hb D4). apply Hmain; auto.
      + intros w Hb Hh E1 E2. rewrite <- !capp_cat in Hh. hx. rewrite !dsat_cat, dsat_val.
        assert (D2 : dsat t w d2) by (apply C2; auto). assert (D3 : dsat t w d) by (apply Cmp; auto).
        split; [exact I|split; [|split; [|split; [|split]]]]; auto; try apply dsat_nil.
        * apply C1; auto. fold next in E. rewrite E. exact E2.
        * apply C4; auto. rewrite (Hmain w Hb D2 D3), E1. fold next in E. rewrite E. reflexivity.
      + unfold next. bnd.
      + intros w Hh. rewrite <- !capp_cat in Hh. hx. exact E.
      + reflexivity.
    - apply Nat.eqb_neq in Ei. apply wpc_bind_ret. apply (wpc_bind_idx c 0%nat); [lia|].
      apply wpc_bind. eapply wpc_mono.
      { apply (sum_stack_spec zval st (nth i c 0%nat)); [wfs|auto|rewrite !capp_cat; apply Bd; auto]. }
      intros [] d4 _ (S4 & C4 & _). rewrite !ptype_capp, Hpt in *. wstep. cbn [fst snd].
      assert (Hmain : forall w, base w -> dsat t w d2 ->
        ssum w st = LF nl (fun w j => w (nth j b 0%nat)) a k w i + w carry - bp * w next).
      { intros w Hb D2. rewrite HLF, (sum_odd (fun j => w (nth j a 0%nat) * w (nth (i - j) b 0%nat)) i Ei), (HP w (S2 w Hb D2)). ring. }
      split; [|split; [|split; [|split]]].
      + intros w Hb Hs. rewrite !dsat_cat in Hs. destruct Hs as (_ & D1 & D2 & D4 & _).
        split; [|apply S1; auto]. rewrite (S4 w Hb D4). apply Hmain; auto.
      + intros w Hb Hh E1 E2. rewrite <- !capp_cat in Hh. hx. rewrite !dsat_cat, dsat_val.
        assert (D2 : dsat t w d2) by (apply C2; auto).
        split; [exact I|split; [|split; [|split]]]; auto; try apply dsat_nil.
        * apply C1; auto. fold next in E. rewrite E. exact E2.
        * apply C4; auto. rewrite (Hmain w Hb D2), E1. fold next in E. rewrite E. reflexivity.
      + unfold next. bnd.
      + intros w Hh. rewrite <- !capp_cat in Hh. hx. exact E.
      + reflexivity.
  Qed.

  Lemma mul_constant_round_ok a c k al bl kl nl el n0 t :
    rok t -> length a = NL -> length c = NL -> length k = NL -> length nl = NL -> length bl = NL ->
    Forall (fun v => v < n0)%nat a -> Forall (fun v => v < n0)%nat c -> Forall (fun v => v < n0)%nat k ->
    round_ok (mul_constant_round zval p nb L B a c k al bl kl nl el) nl (fun _ j => nth j bl 0) a k c
      (nextv al bl kl nl el) n0 t.
  Proof.
    intros Ht La Lc Lk Ln Lbl Ba Bc Bk [vc carry] i c0 Hi Hw Hn Hpt Hc. cbn [snd fst] in *.
    pose proof (wf_two _ Hw) as H2.
    assert (Bd : forall l, Forall (fun v => v < n0)%nat l -> forall j d, (nth j l 0 < num_vars (capp c0 d))%nat).
    { intros l Hl j d. eapply Nat.lt_le_trans with (m := num_vars c0); [|bnd]. apply nth_lt; [|lia].
      eapply Forall_impl; [|exact Hl]. cbn beta; lia. }
    unfold mul_constant_round. fold (nextv al bl kl nl el vc i). set (nv := nextv al bl kl nl el vc i).
    wstep. set (next := num_vars c0).
    apply wpc_bind. eapply wpc_mono.
    { apply (enforce_in_range_spec zval p nb L HF (capp c0 (dval nv)) next (B + log i)); [wfs|unfold next; bnd|].
      rewrite ptype_capp, Hpt. apply width_ok; auto; [lia|apply width_round; lia]. }
    intros [] d1 _ (S1 & C1 & _). rewrite ptype_capp, Hpt in S1, C1.
    set (bases := map (fun j => (nth j k 0%nat, nth (i - j) nl 0)) (seq 0 (S i))).
    eapply wpc_bind_pure with (a := bases).
    { apply mapM_pure. intros j Hj. apply in_seq in Hj. unfold cbind, ret.
      rewrite (idx_pure k 0%nat) by lia. rewrite (idx_pure nl 0) by lia. reflexivity. }
    set (prods := map (fun j => (nth j a 0%nat, nth (i - j) bl 0)) (seq 0 (S i))).
    eapply wpc_bind_pure with (a := prods).
    { apply mapM_pure. intros j Hj. apply in_seq in Hj. unfold cbind, ret.
      rewrite (idx_pure a 0%nat) by lia. rewrite (idx_pure bl 0) by lia. reflexivity. }
    apply (wpc_bind_idx c 0%nat); [lia|].
    set (st := rev (bases ++ prods ++ [(carry, 1); (next, - bp)])).
    assert (Hst : Forall (fun vc => fst vc < num_vars (capp (capp c0 (dval nv)) d1))%nat st).
    { unfold st. apply Forall_rev. rewrite !Forall_app. split; [|split].
      - unfold bases. apply Forall_map, Forall_forall. intros j _. cbn [fst]. rewrite !capp_cat. apply Bd; auto.
      - unfold prods. apply Forall_map, Forall_forall. intros j _. cbn [fst]. rewrite !capp_cat. apply Bd; auto.
      - repeat constructor; cbn [fst]; unfold next; bnd. }
    assert (Hmain : forall w, ssum w st = LF nl (fun _ j => nth j bl 0) a k w i + w carry - bp * w next).
    { intros w. unfold st. rewrite ssum_rev, app_assoc, ssum_app, !ssum_cons. unfold bases, prods.
      rewrite ssum_zip. unfold LF. cbn [fst snd]. change (ssum w []) with (0 : K).
      rewrite (fsum_map_ext K _ (fun j => w (nth j k 0%nat) * nth (i - j) nl 0 + w (nth j a 0%nat) * nth (i - j) bl 0));
        [ring|]. intros; ring. }
    apply wpc_bind. eapply wpc_mono.
    { apply (sum_stack_spec zval st (nth i c 0%nat)); [wfs|auto|rewrite !capp_cat; apply Bd; auto]. }
    intros [] d4 _ (S4 & C4 & _). rewrite !ptype_capp, Hpt in *. wstep. cbn [fst snd].
    split; [|split; [|split; [|split]]].
    + intros w Hb Hs. rewrite !dsat_cat in Hs. destruct Hs as (_ & D1 & D4 & _).
      split; [|apply S1; auto]. rewrite (S4 w Hb D4). apply Hmain; auto.
    + intros w Hb Hh E1 E2. rewrite <- !capp_cat in Hh. hx. rewrite !dsat_cat, dsat_val.
      split; [exact I|split; [|split]]; auto; try apply dsat_nil.
      * apply C1; auto. fold next in E. rewrite E. exact E2.
      * apply C4; auto. rewrite (Hmain w), E1. fold next in E. rewrite E. reflexivity.
    + unfold next. bnd.
    + intros w Hh. rewrite <- !capp_cat in Hh. hx. exact E.
    + reflexivity.
  Qed.


  (** ** The limb loop *)
  Definition ND : list Z := digits beta (2 ^ Z.of_nat T - q) NL.
  Definition sz (bz : (nat -> K) -> list Z) (a k : list nat) (w : nat -> K) (i : nat) : Z :=
    (conv (zl w k) ND i + conv (zl w a) (bz w) i)%Z.
  Definition bfacts (bz : (nat -> K) -> list Z) (bw : (nat -> K) -> nat -> K) (w : nat -> K) : Prop :=
    Forall (fun z => 0 <= z < beta)%Z (bz w) /\ (forall j, (j < NL)%nat -> bw w j = fZ (nth j (bz w) 0%Z)).

  Lemma LF_sz bz bw a k w i : bfacts bz bw w -> length a = NL -> length k = NL -> (i < NL)%nat ->
    LF (map (fun z => fZ z : K) ND) bw a k w i = fZ (sz bz a k w i).
  Proof.
    intros [_ Hb] La Lk Hi. unfold LF, sz, conv. rewrite <- zsum_map_add, <- fsum_fZ. apply fsum_map_ext.
    intros j Hj. apply in_seq in Hj. rewrite !nth_zl by lia. rewrite Hb by lia.
    rewrite (w_fZ w (nth j k 0%nat)), (w_fZ w (nth j a 0%nat)) at 1.
    change (0 : K) with ((fun z => fZ z : K) 0%Z). rewrite map_nth. rewrite fZ_add, !fZ_mul. reflexivity.
  Qed.
  Lemma lt_le_dig l : Forall (fun z => 0 <= z < beta)%Z l -> Forall (fun z => 0 <= z <= beta - 1)%Z l.
  Proof. intros H. eapply Forall_impl; [|exact H]. cbn beta; lia. Qed.
  Lemma ND_range : Forall (fun z => 0 <= z < beta)%Z ND.
  Proof. apply digits_range. pose proof beta_ge; lia. Qed.
  Lemma sz_bounds bz bw a k w i : bfacts bz bw w -> rng w a -> rng w k ->
    (0 <= sz bz a k w i <= 2 * (Z.of_nat i + 1) * ((beta - 1) * (beta - 1)))%Z.
  Proof.
    intros [Hz _] Ra Rk. unfold sz. pose proof beta_ge.
    pose proof (conv_bounds (zl w k) ND (beta - 1) i (lt_le_dig _ (zl_range w k Rk)) (lt_le_dig _ ND_range) ltac:(lia)).
    pose proof (conv_bounds (zl w a) (bz w) (beta - 1) i (lt_le_dig _ (zl_range w a Ra)) (lt_le_dig _ Hz) ltac:(lia)).
    lia.
  Qed.

  Lemma limb_eq s e c n : (fZ e : K) = fZ s + fZ c - bp * fZ n ->
    (0 <= s + c < p)%Z -> (0 <= e + beta * n < p)%Z -> (e + beta * n = s + c)%Z.
  Proof.
    intros H H1 H2. rewrite bp_fZ in H.
    assert (E : (fZ (e + beta * n) : K) = fZ (s + c)).
    { rewrite !fZ_add, fZ_mul, H. ring. }
    apply (f_equal zval) in E. rewrite !(zval_small zval p nb L HF) in E by auto. exact E.
  Qed.

  Definition cz (w : nat -> K) (c : list nat) (i : nat) : Z := zval (w (nth i c 0%nat)).

  Lemma round_bound1 s n b x c : (2 <= b -> 0 <= s -> s + 1 <= n -> x <= 2 * (s + 1) * ((b - 1) * (b - 1)) ->
    c < 4 * s * b -> x + c < 4 * n * (b * b))%Z.
  Proof.
    intros H2 Hs Hn Hx Hc.
    assert (2 * (s + 1) * ((b - 1) * (b - 1)) <= 2 * n * ((b - 1) * (b - 1)))%Z by (apply Z.mul_le_mono_nonneg_r; nia).
    assert (4 * s * b <= 4 * n * b)%Z by (apply Z.mul_le_mono_nonneg_r; lia).
    assert (2 * n * ((b - 1) * (b - 1)) + 4 * n * b = 2 * n * (b * b) + 2 * n)%Z by ring.
    assert (2 * n <= 2 * n * (b * b))%Z by nia. lia.
  Qed.
  Lemma round_bound0 n b x : (2 <= b -> 1 <= n -> x <= 2 * (0 + 1) * ((b - 1) * (b - 1)) -> x + 0 < 4 * n * (b * b))%Z.
  Proof. intros. nia. Qed.
  Lemma round_bound2 s n b e r : (2 <= b -> 0 <= s -> s + 1 <= n -> e < b -> r < 4 * Z.succ s * b ->
    e + b * r < 4 * n * (b * b))%Z.
  Proof.
    intros H2 Hs Hn He Hr. assert (4 * Z.succ s * b <= 4 * n * b)%Z by (apply Z.mul_le_mono_nonneg_r; lia).
    assert (b * r <= b * (4 * n * b - 1))%Z by (apply Z.mul_le_mono_nonneg_l; lia). lia.
  Qed.
  Lemma mul_loop_spec round bz bw a k c nextv n0 t :
    round_ok round (map (fun z => fZ z : K) ND) bw a k c nextv n0 t ->
    length a = NL -> length k = NL -> length c = NL ->
    forall n s st c0, (1 <= s)%nat -> (s + n <= NL)%nat -> wf c0 -> (n0 <= num_vars c0)%nat -> ptype c0 = t ->
    (snd st < num_vars c0)%nat ->
    wpc (foldM round st (seq s n)) c0 (fun r d =>
      (forall w, base w -> dsat t w d -> bfacts bz bw w -> rng w a -> rng w k -> rng w c ->
         (zval (w (snd st)) < 4 * Z.of_nat s * beta)%Z ->
         (zval (w (snd st)) + csum_to beta (fun i => sz bz a k w (s + i)%nat - cz w c (s + i)%nat) n
           = beta ^ Z.of_nat n * zval (w (snd r)))%Z)
      /\ (forall w rho, base w -> hext (capp c0 d) w -> bfacts bz bw w -> w (snd st) = fst st ->
            (forall v i, (s <= i < s + n)%nat -> nextv v i * bp = LF (map (fun z => fZ z : K) ND) bw a k w i + v - w (nth i c 0%nat)) ->
            fst st = fZ (rho (s - 1)%nat) ->
            (forall i, (s <= i < s + n)%nat -> (beta * rho i = sz bz a k w i + rho (i - 1)%nat - cz w c i)%Z) ->
            (forall i, (s <= i < s + n)%nat -> (0 <= rho i < (2 * Z.of_nat i + 2) * beta)%Z) ->
            dsat t w d)
      /\ (snd r < num_vars c0 + length (d_vals d))%nat).
  Proof.
    intros Hround La Lk Lc. induction n as [|n IH]; intros s st c0 Hs Hsn Hw Hn Hpt Hst; cbn [seq foldM].
    - wstep. split; [|split].
      + intros. unfold csum_to. cbn [seq map zsum fold_right Z.of_nat]. lia.
      + intros; apply dsat_nil.
      + cbn; lia.
    - apply wpc_bind. eapply wpc_mono; [apply (Hround st s c0); auto; lia|].
      intros r d _ (S1 & C1 & B1 & E1 & V1).
      eapply wpc_mono; [apply (IH (S s) r (capp c0 d)); auto; try lia; [wfs|bnd]|].
      intros r' d' _ (S2 & C2 & B2). split; [|split].
      + intros w Hb Hd Hf Ra Rk Rc Hc. rewrite dsat_cat in Hd. destruct Hd as [D1 D2].
        destruct (S1 w Hb D1) as [Eq Hr]. rewrite (LF_sz bz) in Eq by (auto; lia).
        pose proof beta_ge as Hbg. pose proof (sz_bounds bz bw a k w s Hf Ra Rk) as Hsz.
        pose proof (pf_range _ _ _ _ _ HF (w (snd st))) as P1. pose proof (pf_range _ _ _ _ _ HF (w (snd r))) as P2.
        pose proof (pf_range _ _ _ _ _ HF (w (nth s c 0%nat))) as P3.
        assert (Hcs : (cz w c s < beta)%Z).
        { unfold cz. unfold rng in Rc. rewrite Forall_forall in Rc. apply Rc, nth_In. lia. }
        rewrite pow_log in Hr. pose proof (log_bounds s) as Hlg.
        assert (Hr4 : (zval (w (snd r)) < 4 * Z.of_nat (S s) * beta)%Z).
        { eapply Z.lt_le_trans; [exact Hr|]. rewrite (Z.mul_comm _ beta). apply Z.mul_le_mono_nonneg_l; lia. }
        assert (Eq' : (cz w c s + beta * zval (w (snd r)) = sz bz a k w s + zval (w (snd st)))%Z).
        { apply limb_eq.
          - unfold cz. rewrite <- !w_fZ. exact Eq.
          - rewrite beta2 in Hroom. split; [lia|]. eapply Z.lt_le_trans; [|exact Hroom].
            apply (round_bound1 (Z.of_nat s) (Z.of_nat NL)); lia.
          - rewrite beta2 in Hroom. unfold cz in *. split; [apply Z.add_nonneg_nonneg; [lia|apply Z.mul_nonneg_nonneg; lia]|].
            eapply Z.lt_le_trans; [|exact Hroom]. rewrite Nat2Z.inj_succ in Hr4.
            apply (round_bound2 (Z.of_nat s) (Z.of_nat NL)); lia. }
        specialize (S2 w Hb D2 Hf Ra Rk Rc Hr4). rewrite csum_to_S, Nat2Z.inj_succ, Z.pow_succ_r by lia.
        rewrite Nat.add_0_r.
        rewrite (csum_to_ext beta _ (fun i => sz bz a k w (S s + i)%nat - cz w c (S s + i)%nat)%Z)
          by (intros; rewrite Nat.add_succ_r; reflexivity).
        rewrite <- Z.mul_assoc, <- S2. lia.
      + intros w rho Hb Hh Hf Hst' Hnv Hr0 Hrec Hrb. rewrite <- capp_cat in Hh. rewrite dsat_cat.
        assert (Hh1 : hext (capp c0 d) w) by (hx; auto).
        assert (Hs1 : fst r = fZ (rho s)).
        { rewrite V1. apply (fmul_cancel_l K bp); [apply bp_neq_0|]. rewrite (fmulC bp). rewrite Hnv by lia.
          rewrite (LF_sz bz) by (auto; lia). rewrite Hr0, bp_fZ. rewrite <- fZ_mul, Hrec by lia.
          rewrite fZ_sub, fZ_add. unfold cz. rewrite <- w_fZ. reflexivity. }
        split.
        * apply C1; auto.
          -- rewrite V1, Hst'. rewrite (fmulC bp), Hnv by lia. ring.
          -- rewrite Hs1. pose proof (Hrb s ltac:(lia)) as H0. pose proof (log_bounds s) as Hlg. pose proof beta_ge.
             rewrite (pf_zval _ _ _ _ _ HF). eapply Z.le_lt_trans; [apply Z.mod_le; [lia|pose proof p_big; lia]|].
             rewrite pow_log, (Z.mul_comm beta). eapply Z.lt_le_trans; [apply H0|]. apply Z.mul_le_mono_nonneg_r; lia.
        * apply (C2 w rho); auto.
          -- intros v i Hi. apply Hnv. lia.
          -- rewrite Hs1. f_equal. f_equal. lia.
          -- intros i Hi. apply Hrec. lia.
          -- intros i Hi. apply Hrb. lia.
      + bnd.
  Qed.

  (** ** The whole gate *)
  Lemma hval_ND : hval beta ND = (2 ^ Z.of_nat T - q)%Z.
  Proof.
    unfold ND. rewrite hval_digits' by (pose proof beta_ge; lia). rewrite <- pow_T. apply Z.mod_small. lia.
  Qed.
  Lemma cz_ev w c : length c = NL -> csum_to beta (cz w c) NL = ev w c.
  Proof.
    intros H. unfold ev. rewrite <- csum_to_nth, length_zl, H. apply csum_to_ext. intros i Hi. unfold cz.
    rewrite nth_zl by lia. reflexivity.
  Qed.
  Lemma chain_mod bz a k c w : length c = NL ->
    ((csum_to beta (fun i => sz bz a k w i - cz w c i)%Z NL) mod 2 ^ Z.of_nat T = 0
     <-> (ev w a * hval beta (bz w) - ev w k * q - ev w c) mod 2 ^ Z.of_nat T = 0)%Z.
  Proof.
    intros Lc. rewrite csum_to_sub, cz_ev by auto.
    replace (csum_to beta (sz bz a k w) NL)
      with (csum_to beta (conv (zl w k) ND) NL + csum_to beta (conv (zl w a) (bz w)) NL)%Z
      by (symmetry; apply (csum_to_add beta (conv (zl w k) ND))).
    pose proof beta_ge as Hb.
    destruct (conv_mod beta (zl w k) ltac:(lia) ND NL) as [r1 E1].
    destruct (conv_mod beta (zl w a) ltac:(lia) (bz w) NL) as [r2 E2].
    rewrite hval_ND, <- pow_T in E1. rewrite <- pow_T in E2.
    fold (ev w k) in E1. fold (ev w a) in E2. set (M := (2 ^ Z.of_nat T)%Z) in *.
    replace (ev w a * hval beta (bz w) - ev w k * q - ev w c)%Z
      with ((csum_to beta (conv (zl w k) ND) NL + csum_to beta (conv (zl w a) (bz w)) NL - ev w c) + (r1 + r2 - ev w k) * M)%Z by lia.
    rewrite Z.mod_add; [reflexivity|]. lia.
  Qed.

  Lemma mod_mul_0 z : (z mod (2 ^ Z.of_nat T * p) = 0 <-> z mod 2 ^ Z.of_nat T = 0 /\ z mod p = 0)%Z.
  Proof.
    pose proof p_big. assert (0 < 2 ^ Z.of_nat T)%Z by lia.
    rewrite !Z.mod_divide by nia. split.
    - intros [y Hy]. split; [exists (y * p)%Z; lia|exists (y * 2 ^ Z.of_nat T)%Z; lia].
    - intros [[y Hy] D]. rewrite Hy, Z.mul_comm in D. apply Gauss in D.
      + destruct D as [x Hx]. exists x. rewrite Hy, Hx. ring.
      + apply rel_prime_sym, T_coprime.
  Qed.

  (** The relation the gate imposes on the integer values of its operands. *)
  Definition mul_rel (A Bv C k : Z) : Prop :=
    (0 <= k < 2 ^ Z.of_nat T)%Z /\ ((A * Bv - k * q - C) mod (2 ^ Z.of_nat T * p) = 0)%Z.

  Lemma dig_vals w c0 d v n : wf c0 -> hext (capp c0 d) w -> d_vals d = @biguint_to_limbs K v B n ->
    map w (seq (num_vars c0) n) = @biguint_to_limbs K v B n.
  Proof. intros Hw Hh E. rewrite <- E, <- (hext_seq c0 d w Hw Hh), E, length_limbs. reflexivity. Qed.
  Lemma zl_limbs w a v : map w a = @biguint_to_limbs K v B NL -> zl w a = digits beta v NL.
  Proof. intros H. unfold zl. rewrite <- (map_map w zval), H. apply zval_limbs. Qed.
  Lemma limbs_of_ev w a : length a = NL -> rng w a -> map w a = @biguint_to_limbs K (ev w a) B NL.
  Proof.
    intros La Ra. rewrite limbs_map. unfold ev. rewrite <- La, <- (length_zl w a) at 1.
    rewrite digits_hval; [|pose proof beta_ge; lia|apply zl_range; auto].
    unfold zl. rewrite map_map. apply map_ext. intros; apply w_fZ.
  Qed.
  Lemma nth_map_w (w : nat -> K) a i : (i < length a)%nat -> nth i (map w a) 0 = w (nth i a 0%nat).
  Proof.
    intros H. rewrite nth_indep with (d' := w 0%nat) by (rewrite map_length; auto). apply map_nth.
  Qed.
  Lemma ev_limbs w a v : map w a = @biguint_to_limbs K v B NL -> (0 <= v < 2 ^ Z.of_nat T)%Z -> ev w a = v /\ rng w a.
  Proof.
    intros H Hv. pose proof beta_ge as Hb. unfold ev. rewrite (zl_limbs w a v H), hval_digits' by lia. rewrite <- pow_T. split.
    - apply Z.mod_small; auto.
    - unfold rng. pose proof (digits_range beta v NL ltac:(lia)) as D. rewrite <- (zl_limbs w a v H) in D.
      unfold zl in D. rewrite Forall_map in D. eapply Forall_impl; [|exact D]. cbn beta; lia.
  Qed.
  Lemma LF_limb_sum (w : nat -> K) bw a k al bl kl nl i : (i < NL)%nat -> length a = NL -> length k = NL ->
    map w a = al -> map w k = kl -> (forall j, (j < NL)%nat -> bw w j = nth j bl 0) ->
    LF nl bw a k w i = limb_sum kl nl al bl i.
  Proof.
    intros Hi La Lk Ha Hk Hb. unfold LF, limb_sum. apply fsum_map_ext. intros j Hj. apply in_seq in Hj.
    rewrite <- Ha, <- Hk, !nth_map_w by lia. rewrite Hb by lia. reflexivity.
  Qed.

  Lemma in_range_all l : forall c0, wf c0 -> rok (ptype c0) -> Forall (fun v => v < num_vars c0)%nat l ->
    gspec (iterM (fun x => enforce_in_range zval p nb L x B) l) c0 (fun w _ => rng w l) (fun w => rng w l) noout.
  Proof.
    intros c0 Hw Ht Hl. apply (iterM_gspec zval _ (fun x w => zval (w x) < beta)%Z (fun x w => zval (w x) < beta)%Z); auto.
    intros x c' Hx Hw' Hn Ht'. apply (enforce_in_range_spec zval p nb L HF); auto.
    - rewrite Forall_forall in Hl. pose proof (Hl x Hx). lia.
    - rewrite Ht'. apply width_ok; auto. apply width_B.
  Qed.

  Lemma div_b_mul x : div_b B x * bp = x.
  Proof. unfold div_b. pose proof bp_neq_0. field; auto. Qed.

  Theorem emulated_mul_gate_with_spec va vb vk ve a b c c0 : wf c0 -> rok (ptype c0) ->
    length a = NL -> length b = NL -> length c = NL ->
    Forall (fun v => v < num_vars c0)%nat a -> Forall (fun v => v < num_vars c0)%nat b -> Forall (fun v => v < num_vars c0)%nat c ->
    gspec (emulated_mul_gate_with zval p nb L q T B NL va vb vk ve a b c) c0
      (fun w _ => rng w a -> rng w b -> rng w c -> exists k, mul_rel (ev w a) (ev w b) (ev w c) k)
      (fun w => rng w a /\ rng w b /\ rng w c /\ ev w a = va /\ ev w b = vb /\ ev w c = ve /\ mul_rel va vb ve vk)
      noout.
  Proof.
    intros Hw Ht La Lb Lc Ba Bb Bc. start. unfold emulated_mul_gate_with.
    pose proof beta_ge as Hb2. pose proof (wf_two _ Hw) as Hn2.
    set (al := biguint_to_limbs va B NL). set (bl := biguint_to_limbs vb B NL).
    set (kl := biguint_to_limbs vk B NL). set (el := biguint_to_limbs ve B NL).
    assert (Lal : length al = NL) by apply length_limbs. assert (Lbl : length bl = NL) by apply length_limbs.
    assert (Lkl : length kl = NL) by apply length_limbs. assert (Lel : length el = NL) by apply length_limbs.
    apply wpc_bind. eapply wpc_mono; [apply (mapM_var_spec zval kl); auto|].
    intros k d1 _ (Ek & V1 & D1). rewrite Lkl in Ek.
    assert (Lk : length k = NL) by (subst k; apply seq_length).
    assert (Lv1 : length (d_vals d1) = NL) by (rewrite V1; auto).
    assert (Bk : Forall (fun v => v < num_vars (capp c0 d1))%nat k).
    { subst k. apply Forall_forall. intros v Hv. apply in_seq in Hv. bnd. }
    apply wpc_bind. eapply wpc_mono; [apply (in_range_all k (capp c0 d1)); auto; wfs|].
    intros [] d2 _ (S2 & C2 & _). rewrite ptype_capp in S2, C2.
    set (nl := map (fun z => fZ z : K) ND).
    assert (Enl : biguint_to_limbs (2 ^ Z.of_nat T - q) B NL = nl) by (unfold nl, ND; apply limbs_map).
    assert (Lnl : length nl = NL) by (unfold nl, ND; rewrite map_length; apply length_digits).
    unfold neg_modulus. replace (2 ^ Z.of_nat T <? q)%Z with false by (symmetry; apply Z.ltb_ge; lia).
    rewrite Enl. apply wpc_bind_ret.
    apply (wpc_bind_idx al 0); [lia|]. apply (wpc_bind_idx bl 0); [lia|]. apply (wpc_bind_idx kl 0); [lia|].
    apply (wpc_bind_idx nl 0); [lia|]. apply (wpc_bind_idx el 0); [lia|].
    set (v0 := div_b B (nth 0 al 0 * nth 0 bl 0 + nth 0 kl 0 * nth 0 nl 0 - nth 0 el 0)).
    apply wpc_bind_var; [wfs|]. set (cv := num_vars (capp (capp c0 d1) d2)).
    apply wpc_bind. eapply wpc_mono.
    { apply (enforce_in_range_spec zval p nb L HF _ cv (B + 1)); [wfs|unfold cv; bnd|].
      rewrite !ptype_capp. apply width_ok; auto; [lia|apply width_B1]. }
    intros [] d3 _ (S3 & C3 & _). rewrite !ptype_capp in S3, C3.
    apply (wpc_bind_idx a 0%nat); [lia|]. apply (wpc_bind_idx b 0%nat); [lia|]. apply (wpc_bind_idx k 0%nat); [lia|].
    apply (wpc_bind_idx c 0%nat); [lia|].
    set (n1 := num_vars (capp (capp (capp (capp c0 d1) d2) (dval v0)) d3)).
    assert (Bn : forall l, Forall (fun v => v < num_vars c0)%nat l -> Forall (fun v => v < n1)%nat l).
    { intros l Hl. eapply Forall_impl; [|exact Hl]. cbn beta. intros. unfold n1. bnd. }
    assert (Bkn : Forall (fun v => v < n1)%nat k).
    { eapply Forall_impl; [|exact Bk]. cbn beta. intros. unfold n1. bnd. }
    pose proof (Bn a Ba) as Ba'. pose proof (Bn b Bb) as Bb'. pose proof (Bn c Bc) as Bc'.
    assert (Hn1 : (0 < n1)%nat) by (unfold n1; bnd).
    assert (Hcv : (cv < n1)%nat) by (unfold cv, n1; bnd).
    apply wpc_bind. eapply wpc_mono.
    { apply (quad_poly_gate_spec zval); cbn [r0 r1 r2 r3 r4]; [wfs|apply nth_lt; auto|apply nth_lt; auto|apply nth_lt; auto|auto|apply nth_lt; auto]. }
    intros [] d4 _ (S4 & C4 & _). cbn [r0 r1 r2 r3 r4] in S4, C4. rewrite !ptype_capp in S4, C4.
    set (bz := fun w => zl w b). set (bw := fun (w : nat -> K) j => w (nth j b 0%nat)).
    assert (Hbf : forall w, rng w b -> bfacts bz bw w).
    { intros w Rb. split; [apply zl_range; auto|]. intros j Hj. unfold bw, bz. rewrite nth_zl by lia. apply w_fZ. }
    apply wpc_bind. eapply wpc_mono.
    { apply (mul_loop_spec _ bz bw a k c _ n1 (ptype c0) (mul_round_ok a b c k al bl kl nl el n1 (ptype c0) Ht La Lb Lc Lk Lnl Ba' Bb' Bc' Bkn) La Lk Lc
        (NL - 1) 1 (v0, cv)); [lia|lia|wfs|bnd|reflexivity|cbn [snd]; bnd]. }
    intros [rv rc] d5 _ (S5 & C5 & _). cbn [fst snd] in S5, C5.
    assert (Bc5 : forall l, Forall (fun v => v < n1)%nat l ->
       Forall (fun v => v < num_vars (capp (capp (capp (capp (capp (capp c0 d1) d2) (dval v0)) d3) d4) d5))%nat l).
    { intros l Hl. eapply Forall_impl; [|exact Hl]. cbn beta. intros x Hx. unfold n1 in Hx. bnd. }
    assert (Bup : forall (c' : circuit K) d' l, Forall (fun v => v < num_vars c')%nat l -> Forall (fun v => v < num_vars (capp c' d'))%nat l).
    { intros c' d' l Hl. eapply Forall_impl; [|exact Hl]. cbn beta. intros x Hx. bnd. }
    use mod_to_native_field_spec; auto. use mod_to_native_field_spec; auto. use mod_to_native_field_spec; auto 6.
    use mod_to_native_field_spec; auto 7.
    eapply wpc_mono.
    { apply (quad_poly_gate_spec zval); cbn [r0 r1 r2 r3 r4]; [wfs|bnd|bnd|bnd|bnd|bnd]. }
    intros [] d10 _ (S10 & C10 & _). cbn [r0 r1 r2 r3 r4] in S10, C10. rewrite !ptype_capp in *.
    assert (E0 : forall w, ((beta * zval (w cv) + cz w c 0 = sz bz a k w 0)%Z <->
       (beta * zval (w cv) = sz bz a k w 0 - cz w c 0)%Z)) by (intros; lia).
    split; [|split]; [| |exact I].
    - intros w Hb Hs Ra Rb Rc. rewrite !dsat_cat in Hs. destruct Hs as (_ & D2 & _ & D3 & D4 & D5 & D6 & D7 & D8 & D9 & D10).
      pose proof (S2 w Hb D2) as Rk. cbn beta in Rk. pose proof (S3 w Hb D3) as R3. cbn beta in R3.
      pose proof (S4 w Hb D4) as Eq0. cbn beta in Eq0.
      pose proof (Hbf w Rb) as Hf.
      assert (Hz : nth 0 nl 0 = fZ (nth 0 ND 0%Z)).
      { unfold nl. change (0 : K) with ((fun z => fZ z : K) 0%Z) at 1. apply map_nth. }
      assert (Esz : sz bz a k w 0 = (zval (w (nth 0 k 0%nat)) * nth 0 ND 0 + zval (w (nth 0 a 0%nat)) * zval (w (nth 0 b 0%nat)))%Z).
      { unfold sz, conv. cbn [seq map zsum fold_right]. unfold bz. rewrite !nth_zl by lia. cbn [Nat.sub]. lia. }
      assert (Hc2 : (zval (w cv) < 4 * Z.of_nat 1 * beta)%Z).
      { rewrite Nat2Z.inj_add, Z.pow_add_r in R3 by lia. change (2 ^ Z.of_nat 1)%Z with 2%Z in R3. lia. }
      assert (Ez : (cz w c 0 + beta * zval (w cv) = sz bz a k w 0 + 0)%Z).
      { pose proof (sz_bounds bz bw a k w 0 Hf Ra Rk) as Hsz. cbn [Z.of_nat] in Hsz.
        pose proof (pf_range _ _ _ _ _ HF (w cv)) as P2. pose proof (pf_range _ _ _ _ _ HF (w (nth 0 c 0%nat))) as P3.
        assert (Hcs : (cz w c 0 < beta)%Z).
        { unfold cz. unfold rng in Rc. rewrite Forall_forall in Rc. apply Rc, nth_In. lia. }
        apply limb_eq.
        - unfold cz. rewrite <- !w_fZ. rewrite Esz, fZ_add, !fZ_mul, <- !w_fZ, <- Hz. change (fZ 0 : K) with (0 : K).
          transitivity (1 * w (nth 0 c 0%nat)); [ring|]. rewrite Eq0. ring.
        - rewrite beta2 in Hroom. split; [lia|]. eapply Z.lt_le_trans; [|exact Hroom].
          apply round_bound0; lia.
        - rewrite beta2 in Hroom. split; [unfold cz; apply Z.add_nonneg_nonneg; [lia|apply Z.mul_nonneg_nonneg; lia]|].
          eapply Z.lt_le_trans; [|exact Hroom]. apply (round_bound2 0 (Z.of_nat NL)); lia. }
      specialize (S5 w Hb D5 Hf Ra Rk Rc Hc2).
      exists (ev w k). split; [apply ev_range; auto|]. apply mod_mul_0. split.
      + apply (chain_mod bz a k c w Lc). replace NL with (S (NL - 1)) at 1 by lia. rewrite csum_to_S.
        replace (csum_to beta (fun i => sz bz a k w (S i) - cz w c (S i))%Z (NL - 1))
          with (beta ^ Z.of_nat (NL - 1) * zval (w rc) - zval (w cv))%Z by (rewrite <- S5; cbn [Nat.add]; lia).
        apply Z.mod_divide; [lia|]. exists (zval (w rc)). rewrite pow_T.
        replace (Z.of_nat NL) with (Z.succ (Z.of_nat (NL - 1))) by lia. rewrite Z.pow_succ_r by lia. lia.
      + apply fZ_0_iff. rewrite !fZ_sub, !fZ_mul. rewrite <- (Snd w Hb D6), <- (Snd0 w Hb D7), <- (Snd1 w Hb D8), <- (Snd2 w Hb D9).
        pose proof (S10 w Hb D10) as Eq. cbn beta in Eq. destruct Hb as [Hb0 _].
        apply (fsub_eq_0 K). transitivity (1 * w a3); [|ring]. rewrite Eq. ring.
    - intros w Hb Hh (Ra & Rb & Rc & Ea & Eb & Ec & (Hk & Hrel)). rewrite <- !capp_cat in Hh. hx. rewrite !dsat_cat, dsat_val.
      assert (Mk : map w k = kl) by (subst k; apply (dig_vals w c0 d1); auto).
      destruct (ev_limbs w k vk Mk Hk) as [Evk Rk].
      assert (Ma : map w a = al) by (unfold al; rewrite <- Ea; apply limbs_of_ev; auto).
      assert (Mb : map w b = bl) by (unfold bl; rewrite <- Eb; apply limbs_of_ev; auto).
      assert (Mc : map w c = el) by (unfold el; rewrite <- Ec; apply limbs_of_ev; auto).
      apply mod_mul_0 in Hrel. destruct Hrel as [H2T Hp].
      pose proof (Hbf w Rb) as Hf.
      assert (Hch : (csum_to beta (fun i => sz bz a k w i - cz w c i) NL mod beta ^ Z.of_nat NL = 0)%Z).
      { rewrite <- pow_T. apply (chain_mod bz a k c w Lc). unfold bz. fold (ev w b). rewrite Ea, Eb, Ec, Evk. exact H2T. }
      destruct (carry_seq beta (sz bz a k w) (cz w c) NL Hb2) as (rho & Hr0 & Hr1 & Hrb); auto.
      { intros i Hi. apply (sz_bounds bz bw); auto. }
      { intros i Hi. unfold cz. pose proof (pf_range _ _ _ _ _ HF (w (nth i c 0%nat))). unfold rng in Rc.
        rewrite Forall_forall in Rc. assert (Hin : In (nth i c 0%nat) c) by (apply nth_In; lia). pose proof (Rc _ Hin). lia. }
      assert (Hbw : forall j, (j < NL)%nat -> bw w j = nth j bl 0).
      { intros j Hj. unfold bw. rewrite <- Mb, nth_map_w by lia. reflexivity. }
      assert (HLF : forall i, (i < NL)%nat -> LF nl bw a k w i = limb_sum kl nl al bl i).
      { intros i Hi. apply LF_limb_sum; auto. }
      assert (Hc0 : w (nth 0 c 0%nat) = nth 0 el 0) by (rewrite <- Mc, nth_map_w by lia; reflexivity).
      assert (Hv0 : v0 * bp = LF nl bw a k w 0 - w (nth 0 c 0%nat)).
      { unfold v0. rewrite div_b_mul, HLF by lia. unfold limb_sum. cbn [seq map]. rewrite fsum_cons. cbn [Nat.sub].
        change (fsum (@nil K)) with (0 : K). rewrite Hc0. ring. }
      assert (Hv : v0 = fZ (rho 0%nat)).
      { apply (fmul_cancel_l K bp); [apply bp_neq_0|]. rewrite fmulC, Hv0. unfold nl. rewrite (LF_sz bz) by (auto; lia).
        rewrite bp_fZ, <- fZ_mul, Hr0 by lia. rewrite fZ_sub. unfold cz. rewrite <- w_fZ. reflexivity. }
      fold cv in E.
      assert (D6 : dsat (ptype c0) w d) by (apply Cmp; auto). assert (D7 : dsat (ptype c0) w d0) by (apply Cmp0; auto).
      assert (D8 : dsat (ptype c0) w d6) by (apply Cmp1; auto). assert (D9 : dsat (ptype c0) w d7) by (apply Cmp2; auto).
      split; [apply D1|]. split; [apply C2; auto|]. split; [exact I|]. split; [|split; [|split; [|split; [|split; [|split; [|split]]]]]]; auto.
      + apply C3; auto. rewrite E, Hv. pose proof (Hrb 0%nat ltac:(lia)) as B0. cbn [Z.of_nat] in B0.
        rewrite (pf_zval _ _ _ _ _ HF). eapply Z.le_lt_trans; [apply Z.mod_le; [lia|pose proof p_big; lia]|].
        rewrite Nat2Z.inj_add, Z.pow_add_r by lia. change (2 ^ Z.of_nat 1)%Z with 2%Z. lia.
      + apply C4; auto. rewrite E. unfold LF in Hv0. cbn [seq map] in Hv0. rewrite fsum_cons in Hv0. cbn [Nat.sub] in Hv0.
        change (fsum (@nil K)) with (0 : K) in Hv0. unfold bw in Hv0. rewrite (fmulC v0) in Hv0.
        transitivity (w (nth 0 k 0%nat) * nth 0 nl 0 + w (nth 0 a 0%nat) * w (nth 0 b 0%nat) + 0 - bp * v0); [|ring].
        rewrite Hv0. ring.
      + apply (C5 w rho); auto.
        * intros v i Hi. unfold nextv. rewrite div_b_mul, HLF by lia. rewrite <- Mc, nth_map_w by lia. reflexivity.
        * intros i Hi. apply Hr1. lia.
        * intros i Hi. apply Hrb. lia.
      + apply C10; auto. rewrite (Snd w Hb D6), (Snd0 w Hb D7), (Snd1 w Hb D8), (Snd2 w Hb D9).
        rewrite Ea, Eb, Ec, Evk. apply fZ_0_iff in Hp. rewrite !fZ_sub, !fZ_mul in Hp. destruct Hb as [Hb0 _].
        assert (Hp' : fZ va * fZ vb - fZ vk * fZ q = fZ ve :> K) by (apply (fsub_eq_0 K); exact Hp). rewrite <- Hp'. ring.
  Qed.
  Theorem emulated_mul_constant_gate_with_spec va vb vk ve a c c0 : wf c0 -> rok (ptype c0) ->
    length a = NL -> length c = NL -> (0 <= vb < 2 ^ Z.of_nat T)%Z ->
    Forall (fun v => v < num_vars c0)%nat a -> Forall (fun v => v < num_vars c0)%nat c ->
    gspec (emulated_mul_constant_gate_with zval p nb L q T B NL va vb vk ve a c) c0
      (fun w _ => rng w a -> rng w c -> exists k, mul_rel (ev w a) vb (ev w c) k)
      (fun w => rng w a /\ rng w c /\ ev w a = va /\ ev w c = ve /\ mul_rel va vb ve vk)
      noout.
  Proof.
    intros Hw Ht La Lc Hvb Ba Bc. start. unfold emulated_mul_constant_gate_with.
    pose proof beta_ge as Hb2. pose proof (wf_two _ Hw) as Hn2.
    set (al := biguint_to_limbs va B NL). set (bl := biguint_to_limbs vb B NL).
    set (kl := biguint_to_limbs vk B NL). set (el := biguint_to_limbs ve B NL).
    assert (Lal : length al = NL) by apply length_limbs. assert (Lbl : length bl = NL) by apply length_limbs.
    assert (Lkl : length kl = NL) by apply length_limbs. assert (Lel : length el = NL) by apply length_limbs.
    apply wpc_bind. eapply wpc_mono; [apply (mapM_var_spec zval kl); auto|].
    intros k d1 _ (Ek & V1 & D1). rewrite Lkl in Ek.
    assert (Lk : length k = NL) by (subst k; apply seq_length).
    assert (Lv1 : length (d_vals d1) = NL) by (rewrite V1; auto).
    assert (Bk : Forall (fun v => v < num_vars (capp c0 d1))%nat k).
    { subst k. apply Forall_forall. intros v Hv. apply in_seq in Hv. bnd. }
    apply wpc_bind. eapply wpc_mono; [apply (in_range_all k (capp c0 d1)); auto; wfs|].
    intros [] d2 _ (S2 & C2 & _). rewrite ptype_capp in S2, C2.
    set (nl := map (fun z => fZ z : K) ND).
    assert (Enl : biguint_to_limbs (2 ^ Z.of_nat T - q) B NL = nl) by (unfold nl, ND; apply limbs_map).
    assert (Lnl : length nl = NL) by (unfold nl, ND; rewrite map_length; apply length_digits).
    unfold neg_modulus. replace (2 ^ Z.of_nat T <? q)%Z with false by (symmetry; apply Z.ltb_ge; lia).
    rewrite Enl. apply wpc_bind_ret.
    apply (wpc_bind_idx al 0); [lia|]. apply (wpc_bind_idx bl 0); [lia|]. apply (wpc_bind_idx kl 0); [lia|].
    apply (wpc_bind_idx nl 0); [lia|]. apply (wpc_bind_idx el 0); [lia|].
    set (v0 := div_b B (nth 0 al 0 * nth 0 bl 0 + nth 0 kl 0 * nth 0 nl 0 - nth 0 el 0)).
    apply wpc_bind_var; [wfs|]. set (cv := num_vars (capp (capp c0 d1) d2)).
    apply wpc_bind. eapply wpc_mono.
    { apply (enforce_in_range_spec zval p nb L HF _ cv (B + 1)); [wfs|unfold cv; bnd|].
      rewrite !ptype_capp. apply width_ok; auto; [lia|apply width_B1]. }
    intros [] d3 _ (S3 & C3 & _). rewrite !ptype_capp in S3, C3.
    apply (wpc_bind_idx a 0%nat); [lia|]. apply (wpc_bind_idx k 0%nat); [lia|].
    apply (wpc_bind_idx c 0%nat); [lia|].
    set (n1 := num_vars (capp (capp (capp (capp c0 d1) d2) (dval v0)) d3)).
    assert (Bn : forall l, Forall (fun v => v < num_vars c0)%nat l -> Forall (fun v => v < n1)%nat l).
    { intros l Hl. eapply Forall_impl; [|exact Hl]. cbn beta. intros. unfold n1. bnd. }
    assert (Bkn : Forall (fun v => v < n1)%nat k).
    { eapply Forall_impl; [|exact Bk]. cbn beta. intros. unfold n1. bnd. }
    pose proof (Bn a Ba) as Ba'. pose proof (Bn c Bc) as Bc'.
    assert (Hn1 : (0 < n1)%nat) by (unfold n1; bnd).
    assert (Hcv : (cv < n1)%nat) by (unfold cv, n1; bnd).
    apply wpc_bind. eapply wpc_mono.
    { apply (lc_gate_spec zval); [wfs|apply nth_lt; auto|apply nth_lt; auto|auto|exact Hn1|apply nth_lt; auto]. }
    intros [] d4 _ (S4 & C4 & _). rewrite !ptype_capp in S4, C4.
    set (bz := fun _ : nat -> K => digits beta vb NL). set (bw := fun (_ : nat -> K) j => nth j bl 0).
    assert (Hbv : forall w, hval beta (bz w) = vb).
    { intros w. unfold bz. rewrite hval_digits' by lia. rewrite <- pow_T. apply Z.mod_small; auto. }
    assert (Hb0 : forall j, nth j bl 0 = fZ (nth j (digits beta vb NL) 0%Z)).
    { intros j. unfold bl. rewrite limbs_map. change (0 : K) with ((fun z => fZ z : K) 0%Z) at 1. apply map_nth. }
    assert (Hbf : forall w, bfacts bz bw w).
    { intros w. split; [apply digits_range; lia|]. intros j Hj. apply Hb0. }
    apply wpc_bind. eapply wpc_mono.
    { apply (mul_loop_spec _ bz bw a k c _ n1 (ptype c0) (mul_constant_round_ok a c k al bl kl nl el n1 (ptype c0) Ht La Lc Lk Lnl Lbl Ba' Bc' Bkn) La Lk Lc
        (NL - 1) 1 (v0, cv)); [lia|lia|wfs|bnd|reflexivity|cbn [snd]; bnd]. }
    intros [rv rc] d5 _ (S5 & C5 & _). cbn [fst snd] in S5, C5.
    assert (Bc5 : forall l, Forall (fun v => v < n1)%nat l ->
       Forall (fun v => v < num_vars (capp (capp (capp (capp (capp (capp c0 d1) d2) (dval v0)) d3) d4) d5))%nat l).
    { intros l Hl. eapply Forall_impl; [|exact Hl]. cbn beta. intros x Hx. unfold n1 in Hx. bnd. }
    assert (Bup : forall (c' : circuit K) d' l, Forall (fun v => v < num_vars c')%nat l -> Forall (fun v => v < num_vars (capp c' d'))%nat l).
    { intros c' d' l Hl. eapply Forall_impl; [|exact Hl]. cbn beta. intros x Hx. bnd. }
    use mod_to_native_field_spec; auto. use mod_to_native_field_spec; auto. use mod_to_native_field_spec; auto 6.
    eapply wpc_mono.
    { apply (lc_gate_spec zval); [wfs|bnd|bnd|bnd|bnd|bnd]. }
    intros [] d10 _ (S10 & C10 & _). rewrite !ptype_capp in *.
    assert (E0 : forall w, ((beta * zval (w cv) + cz w c 0 = sz bz a k w 0)%Z <->
       (beta * zval (w cv) = sz bz a k w 0 - cz w c 0)%Z)) by (intros; lia).
    split; [|split]; [| |exact I].
    - intros w Hb Hs Ra Rc. rewrite !dsat_cat in Hs. destruct Hs as (_ & D2 & _ & D3 & D4 & D5 & D6 & D7 & D8 & D10).
      pose proof (S2 w Hb D2) as Rk. cbn beta in Rk. pose proof (S3 w Hb D3) as R3. cbn beta in R3.
      pose proof (S4 w Hb D4) as Eq0. cbn beta in Eq0.
      pose proof (Hbf w) as Hf.
      assert (Hz : nth 0 nl 0 = fZ (nth 0 ND 0%Z)).
      { unfold nl. change (0 : K) with ((fun z => fZ z : K) 0%Z) at 1. apply map_nth. }
      assert (Esz : sz bz a k w 0 = (zval (w (nth 0 k 0%nat)) * nth 0 ND 0 + zval (w (nth 0 a 0%nat)) * nth 0 (digits beta vb NL) 0)%Z).
      { unfold sz, conv. cbn [seq map zsum fold_right]. unfold bz. rewrite !nth_zl by lia. cbn [Nat.sub]. lia. }
      assert (Hc2 : (zval (w cv) < 4 * Z.of_nat 1 * beta)%Z).
      { rewrite Nat2Z.inj_add, Z.pow_add_r in R3 by lia. change (2 ^ Z.of_nat 1)%Z with 2%Z in R3. lia. }
      assert (Ez : (cz w c 0 + beta * zval (w cv) = sz bz a k w 0 + 0)%Z).
      { pose proof (sz_bounds bz bw a k w 0 Hf Ra Rk) as Hsz. cbn [Z.of_nat] in Hsz.
        pose proof (pf_range _ _ _ _ _ HF (w cv)) as P2. pose proof (pf_range _ _ _ _ _ HF (w (nth 0 c 0%nat))) as P3.
        assert (Hcs : (cz w c 0 < beta)%Z).
        { unfold cz. unfold rng in Rc. rewrite Forall_forall in Rc. apply Rc, nth_In. lia. }
        apply limb_eq.
        - unfold cz. rewrite <- !w_fZ. rewrite Esz, fZ_add, !fZ_mul, <- !w_fZ, <- Hz, <- Hb0. change (fZ 0 : K) with (0 : K).
          rewrite Eq0. ring.
        - rewrite beta2 in Hroom. split; [lia|]. eapply Z.lt_le_trans; [|exact Hroom].
          apply round_bound0; lia.
        - rewrite beta2 in Hroom. split; [unfold cz; apply Z.add_nonneg_nonneg; [lia|apply Z.mul_nonneg_nonneg; lia]|].
          eapply Z.lt_le_trans; [|exact Hroom]. apply (round_bound2 0 (Z.of_nat NL)); lia. }
      specialize (S5 w Hb D5 Hf Ra Rk Rc Hc2).
      exists (ev w k). split; [apply ev_range; auto|]. apply mod_mul_0. split.
      + rewrite <- (Hbv w). apply (chain_mod bz a k c w Lc). replace NL with (S (NL - 1)) at 1 by lia. rewrite csum_to_S.
        replace (csum_to beta (fun i => sz bz a k w (S i) - cz w c (S i))%Z (NL - 1))
          with (beta ^ Z.of_nat (NL - 1) * zval (w rc) - zval (w cv))%Z by (rewrite <- S5; cbn [Nat.add]; lia).
        apply Z.mod_divide; [lia|]. exists (zval (w rc)). rewrite pow_T.
        replace (Z.of_nat NL) with (Z.succ (Z.of_nat (NL - 1))) by lia. rewrite Z.pow_succ_r by lia. lia.
      + apply fZ_0_iff. rewrite !fZ_sub, !fZ_mul. rewrite <- (Snd w Hb D6), <- (Snd0 w Hb D7), <- (Snd1 w Hb D8).
        pose proof (S10 w Hb D10) as Eq. cbn beta in Eq. destruct Hb as [Hb00 _].
        apply (fsub_eq_0 K). rewrite Eq. ring.
    - intros w Hb Hh (Ra & Rc & Ea & Ec & (Hk & Hrel)). rewrite <- !capp_cat in Hh. hx. rewrite !dsat_cat, dsat_val.
      assert (Mk : map w k = kl) by (subst k; apply (dig_vals w c0 d1); auto).
      destruct (ev_limbs w k vk Mk Hk) as [Evk Rk].
      assert (Ma : map w a = al) by (unfold al; rewrite <- Ea; apply limbs_of_ev; auto).
      assert (Mc : map w c = el) by (unfold el; rewrite <- Ec; apply limbs_of_ev; auto).
      apply mod_mul_0 in Hrel. destruct Hrel as [H2T Hp].
      pose proof (Hbf w) as Hf.
      assert (Hch : (csum_to beta (fun i => sz bz a k w i - cz w c i) NL mod beta ^ Z.of_nat NL = 0)%Z).
      { rewrite <- pow_T. apply (chain_mod bz a k c w Lc). rewrite Hbv, Ea, Ec, Evk. exact H2T. }
      destruct (carry_seq beta (sz bz a k w) (cz w c) NL Hb2) as (rho & Hr0 & Hr1 & Hrb); auto.
      { intros i Hi. apply (sz_bounds bz bw); auto. }
      { intros i Hi. unfold cz. pose proof (pf_range _ _ _ _ _ HF (w (nth i c 0%nat))). unfold rng in Rc.
        rewrite Forall_forall in Rc. assert (Hin : In (nth i c 0%nat) c) by (apply nth_In; lia). pose proof (Rc _ Hin). lia. }
      assert (Hbw : forall j, (j < NL)%nat -> bw w j = nth j bl 0).
      { intros j Hj. reflexivity. }
      assert (HLF : forall i, (i < NL)%nat -> LF nl bw a k w i = limb_sum kl nl al bl i).
      { intros i Hi. apply LF_limb_sum; auto. }
      assert (Hc0 : w (nth 0 c 0%nat) = nth 0 el 0) by (rewrite <- Mc, nth_map_w by lia; reflexivity).
      assert (Hv0 : v0 * bp = LF nl bw a k w 0 - w (nth 0 c 0%nat)).
      { unfold v0. rewrite div_b_mul, HLF by lia. unfold limb_sum. cbn [seq map]. rewrite fsum_cons. cbn [Nat.sub].
        change (fsum (@nil K)) with (0 : K). rewrite Hc0. ring. }
      assert (Hv : v0 = fZ (rho 0%nat)).
      { apply (fmul_cancel_l K bp); [apply bp_neq_0|]. rewrite fmulC, Hv0. unfold nl. rewrite (LF_sz bz) by (auto; lia).
        rewrite bp_fZ, <- fZ_mul, Hr0 by lia. rewrite fZ_sub. unfold cz. rewrite <- w_fZ. reflexivity. }
      fold cv in E.
      assert (D6 : dsat (ptype c0) w d) by (apply Cmp; auto). assert (D7 : dsat (ptype c0) w d0) by (apply Cmp0; auto).
      assert (D8 : dsat (ptype c0) w d6) by (apply Cmp1; auto).
      split; [apply D1|]. split; [apply C2; auto|]. split; [exact I|]. split; [|split; [|split; [|split; [|split; [|split]]]]]; auto.
      + apply C3; auto. rewrite E, Hv. pose proof (Hrb 0%nat ltac:(lia)) as B0. cbn [Z.of_nat] in B0.
        rewrite (pf_zval _ _ _ _ _ HF). eapply Z.le_lt_trans; [apply Z.mod_le; [lia|pose proof p_big; lia]|].
        rewrite Nat2Z.inj_add, Z.pow_add_r by lia. change (2 ^ Z.of_nat 1)%Z with 2%Z. lia.
      + apply C4; auto. rewrite E. unfold LF in Hv0. cbn [seq map] in Hv0. rewrite fsum_cons in Hv0. cbn [Nat.sub] in Hv0.
        change (fsum (@nil K)) with (0 : K) in Hv0. unfold bw in Hv0. rewrite (fmulC v0) in Hv0.
        transitivity (w (nth 0 k 0%nat) * nth 0 nl 0 + w (nth 0 a 0%nat) * nth 0 bl 0 + 0 - bp * v0); [|ring].
        rewrite Hv0. ring.
      + apply (C5 w rho); auto.
        * intros v i Hi. unfold nextv. rewrite div_b_mul, HLF by lia. rewrite <- Mc, nth_map_w by lia. reflexivity.
        * intros i Hi. apply Hr1. lia.
        * intros i Hi. apply Hrb. lia.
      + apply C10; auto. rewrite (Snd w Hb D6), (Snd0 w Hb D7), (Snd1 w Hb D8).
        rewrite Ea, Ec, Evk. apply fZ_0_iff in Hp. rewrite !fZ_sub, !fZ_mul in Hp. destruct Hb as [Hb00 _].
        assert (Hp' : fZ va * fZ vb - fZ vk * fZ q = fZ ve :> K) by (apply (fsub_eq_0 K); exact Hp). rewrite <- Hp'. ring.
  Qed.
End Mul.
