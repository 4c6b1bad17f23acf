(** A primality test for the moduli of the examples: Proth's criterion. *)
From Coq Require Import List Arith ZArith Lia Znumtheory Bool Ring Field.
From Verif Require Import Base Alg FiniteField.
Import ListNotations.
Local Open Scope Z_scope.

(** [x^e mod n] by squaring *)
Fixpoint powm_pos (n x : Z) (e : positive) : Z :=
  match e with
  | xH => x mod n
  | xO e => let y := powm_pos n x e in (y * y) mod n
  | xI e => let y := powm_pos n x e in (y * y mod n * x) mod n
  end.
Lemma powm_pos_spec n x e : 0 < n -> powm_pos n x e = x ^ Z.pos e mod n.
Proof.
  intro Hn. induction e as [e IH|e IH|]; cbn [powm_pos]; cbv zeta.
  - rewrite IH, Pos2Z.inj_xI. replace (2 * Z.pos e + 1) with (Z.pos e + Z.pos e + 1) by lia. rewrite !Z.pow_add_r, Z.pow_1_r by lia.
    rewrite <- Zmult_mod, Zmult_mod_idemp_l. reflexivity.
  - rewrite IH, Pos2Z.inj_xO. replace (2 * Z.pos e) with (Z.pos e + Z.pos e) by lia. rewrite Z.pow_add_r by lia. now rewrite <- Zmult_mod.
  - now rewrite Z.pow_1_r.
Qed.

Lemma odd_part (d : nat) : (0 < d)%nat -> exists t o, d = (2 ^ t * (2 * o + 1))%nat.
Proof.
  induction d as [d IH] using lt_wf_ind. intro Hd. destruct (Nat.Even_or_Odd d) as [[e ->]|[e ->]].
  - destruct (IH e) as (t & o & E); [lia|lia|]. exists (S t), o. rewrite E. cbn [Nat.pow]. lia.
  - exists 0%nat, e. cbn. lia.
Qed.
Section Order.
  Variable K : fld.
  Local Open Scope fld_scope.
  Add Field Kproth : (fth K).
  Lemma fpow_mul_exp (x : K) a b : fpow x (a * b) = fpow (fpow x a) b.
  Proof. induction b as [|b IH]; [now rewrite Nat.mul_0_r|]. rewrite Nat.mul_succ_r, Nat.add_comm, fpow_add, IH. reflexivity. Qed.
  Lemma fpow_1 n : fpow (1 : K) n = 1.
  Proof. induction n as [|n IH]; cbn; [reflexivity|]. rewrite IH. ring. Qed.
  Lemma order_large (b : K) m q : (1 + 1 : K) <> 0 -> has_card K q -> fpow b (2 ^ m) = - (1) -> (2 ^ S m < q)%nat.
  Proof.
    intros H2 (es & Nd & Hall & <-) Hb.
    assert (Hb0 : b <> 0). { intros ->. pose proof (Nat.pow_nonzero 2 m). destruct (2 ^ m)%nat as [|k] eqn:E; [lia|]. cbn in Hb. apply (f1_neq_0 K). transitivity (- (0 * fpow 0 k) : K); [rewrite Hb|]; ring. }
    assert (Hd : forall d, (0 < d < 2 ^ S m)%nat -> fpow b d <> 1).
    { intros d Hd E. destruct (odd_part d) as (t & o & Ed); [lia|]. assert (Ht : (t <= m)%nat).
      { destruct (Nat.le_gt_cases t m); auto. exfalso. assert (2 ^ S m <= 2 ^ t)%nat by (apply Nat.pow_le_mono_r; lia). nia. }
      assert (E1 : fpow b (2 ^ m * (2 * o + 1)) = 1).
      { replace (2 ^ m * (2 * o + 1))%nat with (d * 2 ^ (m - t))%nat; [now rewrite fpow_mul_exp, E, fpow_1|].
        rewrite Ed. replace (2 ^ m)%nat with (2 ^ t * 2 ^ (m - t))%nat; [lia|]. rewrite <- Nat.pow_add_r. f_equal. lia. }
      rewrite fpow_mul_exp, Hb, fpow_add, fpow_mul_exp in E1.
      replace (fpow (- (1)) 2) with (1 : K) in E1 by (cbn; ring). rewrite fpow_1 in E1. cbn in E1. apply H2. rewrite <- E1 at 1. ring. }
    assert (Nd' : NoDup (0 :: map (fpow b) (seq 0 (2 ^ S m)))).
    { constructor. - intro Hin. apply in_map_iff in Hin as (i & Hi & _). now apply (fpow_neq_0 K b i).
      - assert (G : forall a n, (n <= 2 ^ S m)%nat -> NoDup (map (fpow b) (seq a n))).
        { intros a n. revert a. induction n as [|n IH]; intros a Hn; cbn [seq map]; [constructor|]. constructor; [|apply IH; lia].
          intro Hin. apply in_map_iff in Hin as (j & Ej & Hj). apply in_seq in Hj. apply (Hd (j - a)%nat); [lia|].
          replace j with (a + (j - a))%nat in Ej by lia. rewrite fpow_add in Ej. apply (fmul_cancel_l K (fpow b a)); [now apply fpow_neq_0|]. rewrite Ej. ring. }
        apply G. lia. }
    apply NoDup_incl_length with (l' := es) in Nd'; [|intros x _; apply Hall].
    cbn [length] in Nd'. rewrite map_length, seq_length in Nd'. lia.
  Qed.
End Order.

Lemma prime_factor n : 1 < n -> exists p, prime p /\ (p | n).
Proof.
  intro Hn. rewrite <- (Z2Nat.id n) in * by lia. revert Hn. generalize (Z.to_nat n). clear n. intro n.
  induction n as [n IH] using lt_wf_ind. intro Hn. destruct (prime_dec (Z.of_nat n)) as [P|NP]; [exists (Z.of_nat n); split; auto; apply Z.divide_refl|].
  apply not_prime_divide in NP as (d & Hd & D); auto. rewrite <- (Z2Nat.id d) in * by lia. destruct (IH (Z.to_nat d)) as (p & P & D'); [lia|lia|].
  exists p. split; auto. eapply Z.divide_trans; eauto.
Qed.
Lemma small_factor n : 1 < n -> ~ prime n -> exists p, prime p /\ (p | n) /\ p * p <= n.
Proof.
  intros Hn NP. apply not_prime_divide in NP as (d & Hd & (e & De)); auto.
  assert (He : 1 < e) by nia. destruct (Z.le_gt_cases d e) as [L|L].
  - destruct (prime_factor d) as (p & P & D); [lia|]. exists p. split; auto. pose proof (prime_ge_2 p P). split; [rewrite De; now apply Z.divide_mul_r|].
    apply Z.divide_pos_le in D; [|lia]. nia.
  - destruct (prime_factor e) as (p & P & D); [lia|]. exists p. split; auto. pose proof (prime_ge_2 p P). split; [rewrite De; now apply Z.divide_mul_l|].
    apply Z.divide_pos_le in D; [|lia]. nia.
Qed.

Lemma zmk_pow p (Hp : prime p) a n : zv p (fpow (zmk p a : Zp p Hp) n) = a ^ Z.of_nat n mod p.
Proof.
  induction n as [|n IH]; [reflexivity|]. cbn [fpow]. transitivity ((a mod p * zv p (fpow (zmk p a : Zp p Hp) n)) mod p); [reflexivity|].
  rewrite IH. rewrite Nat2Z.inj_succ, Z.pow_succ_r by lia. now rewrite <- Zmult_mod.
Qed.

(** Proth: [n = k 2^(m+1) + 1] with [k < 2^(m+1)] is prime when some [a] has
    [a^((n-1)/2) = -1] modulo [n]. *)
Theorem proth (n a : Z) (k : positive) (m : nat) : n = Z.pos k * 2 ^ Z.of_nat (S m) + 1 -> Z.pos k < 2 ^ Z.of_nat (S m) ->
  powm_pos n a (k * 2 ^ Pos.of_nat m) = n - 1 -> (0 < m)%nat -> prime n.
Proof.
  intros En Hk H Hm. assert (P2 : 2 <= 2 ^ Z.of_nat (S m)) by (rewrite Nat2Z.inj_succ, Z.pow_succ_r by lia; pose proof (Z.pow_pos_nonneg 2 (Z.of_nat m)); lia).
  destruct (prime_dec n) as [|NP]; auto. exfalso. destruct (small_factor n) as (p & Pp & Dp & Lp); [nia|exact NP|].
  assert (Podd : p <> 2). { intros ->. rewrite Nat2Z.inj_succ, Z.pow_succ_r in En by lia. destruct Dp as [w Dw]. lia. }
  pose proof (prime_ge_2 p Pp) as P3. rewrite powm_pos_spec in H by nia. rewrite Pos2Z.inj_mul, Pos2Z.inj_pow in H.
  replace (Z.pos (Pos.of_nat m)) with (Z.of_nat m) in H by lia.
  set (b := zmk p (a ^ Z.pos k) : Zp p Pp).
  assert (Hb : fpow b (2 ^ m) = fopp (f1 : Zp p Pp)).
  { apply zp_ext. unfold b. rewrite zmk_pow, Nat2Z.inj_pow, <- Z.pow_mul_r by lia. change (Z.of_nat 2) with 2.
    assert (E : (a ^ (Z.pos k * 2 ^ Z.of_nat m) + 1) mod n = 0).
    { rewrite <- Zplus_mod_idemp_l, H. replace (n - 1 + 1) with n by lia. apply Z_mod_same_full. }
    apply Zmod_divide in E; [|lia]. pose proof (Z.divide_trans _ _ _ Dp E) as [w Dw].
    change (zv p (fopp (f1 : Zp p Pp))) with ((- zv p (f1 : Zp p Pp)) mod p). change (zv p (f1 : Zp p Pp)) with (1 mod p). rewrite (Z.mod_small 1) by lia.
    replace (a ^ (Z.pos k * 2 ^ Z.of_nat m)) with (-1 + w * p) by lia. rewrite Z_mod_plus_full. reflexivity. }
  assert (L : (2 ^ S m < Z.to_nat p)%nat).
  { apply (order_large (Zp p Pp) b m).
    - intro E. apply (f_equal (zv p)) in E. change ((1 mod p + 1 mod p) mod p = 0 mod p) in E. rewrite <- Zplus_mod, Z.mod_0_l in E by lia. change (1 + 1) with 2 in E. rewrite Z.mod_small in E by lia. lia.
    - apply zp_card.
    - exact Hb. }
  assert (L' : 2 ^ Z.of_nat (S m) < p). { change 2 with (Z.of_nat 2). rewrite <- Nat2Z.inj_pow. rewrite <- (Z2Nat.id p) by lia. now apply Nat2Z.inj_lt. }
  nia.
Qed.
