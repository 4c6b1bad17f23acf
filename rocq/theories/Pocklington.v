(** Pocklington's criterion, with a checker for certificates. *)
From Coq Require Import List Arith ZArith Lia Znumtheory Zpow_facts Bool.
From Verif Require Import Base Alg FiniteField Proth.
Import ListNotations.
Local Open Scope Z_scope.

(** ** Orders modulo a prime *)
Section Order.
  Variables (p a : Z).
  Hypothesis Hp : prime p.
  Definition one_at (m : Z) : Prop := a ^ m mod p = 1.
  Lemma one_sub m n : 0 <= n <= m -> one_at m -> one_at n -> one_at (m - n).
  Proof.
    unfold one_at. intros H Em En. pose proof (prime_ge_2 p Hp). replace m with (m - n + n) in Em by lia. rewrite Z.pow_add_r in Em by lia.
    rewrite <- Zmult_mod_idemp_r, En, Z.mul_1_r in Em. exact Em.
  Qed.
  Lemma one_gcd_nat n : forall m, one_at (Z.of_nat m) -> one_at (Z.of_nat n) -> one_at (Z.gcd (Z.of_nat m) (Z.of_nat n)).
  Proof.
    assert (G : forall k m n, (m + n <= k)%nat -> one_at (Z.of_nat m) -> one_at (Z.of_nat n) -> one_at (Z.gcd (Z.of_nat m) (Z.of_nat n))).
    { induction k as [|k IH]; intros m n' Hk Hm Hn.
      - replace m with 0%nat by lia. replace n' with 0%nat by lia. rewrite Z.gcd_diag. unfold one_at. cbn. pose proof (prime_ge_2 p Hp). apply Z.mod_small. lia.
      - destruct m as [|m]; [rewrite Z.gcd_0_l, Z.abs_eq by lia; exact Hn|]. destruct n' as [|n']; [rewrite Z.gcd_0_r, Z.abs_eq by lia; exact Hm|].
        destruct (Nat.le_gt_cases (S m) (S n')) as [H|H].
        + replace (Z.gcd (Z.of_nat (S m)) (Z.of_nat (S n'))) with (Z.gcd (Z.of_nat (S m)) (Z.of_nat (S n' - S m))) by (rewrite Nat2Z.inj_sub by lia; apply Z.gcd_sub_diag_r).
          apply IH; [lia|exact Hm|]. rewrite Nat2Z.inj_sub by lia. apply one_sub; auto. lia.
        + rewrite Z.gcd_comm. replace (Z.gcd (Z.of_nat (S n')) (Z.of_nat (S m))) with (Z.gcd (Z.of_nat (S n')) (Z.of_nat (S m - S n'))) by (rewrite Nat2Z.inj_sub by lia; apply Z.gcd_sub_diag_r).
          apply IH; [lia|exact Hn|]. rewrite Nat2Z.inj_sub by lia. apply one_sub; auto. lia. }
    intros m. apply (G (m + n)%nat). lia.
  Qed.
  Lemma one_gcd m n : 0 <= m -> 0 <= n -> one_at m -> one_at n -> one_at (Z.gcd m n).
  Proof. intros Hm Hn. rewrite <- (Z2Nat.id m), <- (Z2Nat.id n) by auto. apply one_gcd_nat. Qed.
  Lemma one_mul m k : 0 <= m -> 0 <= k -> one_at m -> one_at (m * k).
  Proof.
    intros Hm Hk H. unfold one_at in *. pose proof (prime_ge_2 p Hp). rewrite Z.pow_mul_r by auto. rewrite Zpower_mod, H by lia. rewrite Z.pow_1_l by auto. apply Z.mod_small. lia.
  Qed.
  Lemma one_fermat : a mod p <> 0 -> one_at (p - 1).
  Proof.
    intros Ha. pose proof (prime_ge_2 p Hp). set (b := zmk p a : Zp p Hp).
    assert (Hb : b <> f0). { intro E. apply (f_equal (zv p)) in E. change (a mod p = 0 mod p) in E. rewrite Z.mod_0_l in E by lia. contradiction. }
    pose proof (fermat (Zp p Hp) (Z.to_nat p) b (zp_card p Hp) Hb) as F. apply (f_equal (zv p)) in F. unfold b in F. rewrite zmk_pow in F.
    change (zv p (f1 : Zp p Hp)) with (1 mod p) in F. rewrite (Z.mod_small 1) in F by lia. unfold one_at. rewrite <- F. f_equal. f_equal. lia.
  Qed.
End Order.

(** A divisor of a prime power that is not the whole divides the next smaller power. *)
Lemma divides_prev l e d : prime l -> 0 <= e -> (d | l ^ (e + 1)) -> d = l ^ (e + 1) \/ d = - l ^ (e + 1) \/ (d | l ^ e).
Proof.
  intros Hl He [k Hk]. pose proof (prime_ge_2 l Hl) as H2. destruct (Zdivide_dec l k) as [[j Hj]|N].
  - right. right. exists j. rewrite Z.pow_add_r, Z.pow_1_r in Hk by lia. subst k. apply Z.mul_cancel_r with (p := l); lia.
  - assert (R : rel_prime k (l ^ (e + 1))). { apply rel_prime_Zpower_r; [lia|]. apply rel_prime_sym. apply prime_rel_prime; auto. }
    assert (D : (k | 1)). { apply Gauss with (l ^ (e + 1)); [|exact R]. rewrite Z.mul_1_r. exists d. lia. }
    apply Z.divide_1_r in D as [-> | ->]; lia.
Qed.

(** Every prime factor [p] of [n] has [l^e | p - 1]. *)
Lemma pock_factor n a l e p : 1 < n -> prime p -> (p | n) -> prime l -> 0 <= e -> (l ^ (e + 1) | n - 1) ->
  a ^ (n - 1) mod n = 1 -> Z.gcd (a ^ ((n - 1) / l) - 1) n = 1 -> (l ^ (e + 1) | p - 1).
Proof.
  intros Hn Hp Dp Hl He [k Hk] H1 Hg. pose proof (prime_ge_2 p Hp). pose proof (prime_ge_2 l Hl). pose proof (Z.pow_pos_nonneg l e ltac:(lia) He) as Pe.
  assert (El : l ^ (e + 1) = l ^ e * l) by (rewrite Z.pow_add_r, Z.pow_1_r by lia; ring).
  assert (Hk0 : 0 <= k) by nia.
  assert (Kn : (n - 1) / l = k * l ^ e) by (rewrite Hk, El, Z.mul_assoc; apply Z.div_mul; lia).
  assert (H1p : a ^ (n - 1) mod p = 1).
  { assert (D : (n | a ^ (n - 1) - 1)) by (apply Z.mod_divide; [lia|]; rewrite <- Zminus_mod_idemp_l, H1; reflexivity).
    destruct (Z.divide_trans _ _ _ Dp D) as [w Hw]. replace (a ^ (n - 1)) with (1 + w * p) by lia. rewrite Z_mod_plus_full. apply Z.mod_small. lia. }
  set (b := a ^ k).
  assert (B1 : one_at p b (l ^ (e + 1))). { unfold one_at, b. rewrite <- Z.pow_mul_r by nia. now rewrite <- Hk. }
  assert (B0 : ~ one_at p b (l ^ e)).
  { unfold one_at, b. rewrite <- Z.pow_mul_r, <- Kn by nia. intros E.
    assert (D : (p | a ^ ((n - 1) / l) - 1)) by (apply Z.mod_divide; [lia|]; rewrite <- Zminus_mod_idemp_l, E; reflexivity).
    pose proof (Z.gcd_greatest _ _ _ D Dp) as D'. rewrite Hg in D'. apply Z.divide_1_r in D'. lia. }
  assert (Bn : b mod p <> 0).
  { intro E. unfold one_at in B1. rewrite Zpower_mod, E, Z.pow_0_l in B1 by nia. rewrite Z.mod_0_l in B1 by lia. discriminate. }
  pose proof (one_fermat p b Hp Bn) as Bf. pose proof (one_gcd p b Hp (l ^ (e + 1)) (p - 1) ltac:(nia) ltac:(lia) B1 Bf) as Bg.
  pose proof (Z.gcd_nonneg (l ^ (e + 1)) (p - 1)).
  destruct (divides_prev l e (Z.gcd (l ^ (e + 1)) (p - 1)) Hl He (Z.gcd_divide_l _ _)) as [E|[E|[j Hj]]].
  - rewrite <- E. apply Z.gcd_divide_r.
  - nia.
  - exfalso. apply B0. rewrite Hj, Z.mul_comm. apply one_mul; auto. nia.
Qed.

(** ** Powers modulo an odd number, after Montgomery *)
(** [t / 2^j] modulo [n] *)
Fixpoint redc (n : Z) (j : nat) (t : Z) : Z :=
  match j with O => t | S j => redc n j (Z.div2 (if Z.odd t then t + n else t)) end.
(** [2^j x^e] modulo [n], from [r = 2^j] modulo [n] *)
Fixpoint mpow (n : Z) (j : nat) (r x : Z) (e : positive) : Z :=
  match e with
  | xH => x * r
  | xO e => redc n j (Z.square (mpow n j r x e))
  | xI e => x * redc n j (Z.square (mpow n j r x e))
  end.
Definition cong (n a b : Z) : Prop := (n | a - b).
Lemma cong_trans n a b c : cong n a b -> cong n b c -> cong n a c.
Proof. intros [x Hx] [y Hy]. exists (x + y). lia. Qed.
Lemma cong_mul n a b c d : cong n a b -> cong n c d -> cong n (a * c) (b * d).
Proof. intros [x Hx] [y Hy]. exists (x * c + b * y). replace (a * c - b * d) with ((a - b) * c + b * (c - d)) by ring. rewrite Hx, Hy. ring. Qed.
Lemma cong_refl n a : cong n a a.
Proof. exists 0. lia. Qed.
Lemma redc_spec n j : Z.odd n = true -> forall t, cong n (redc n j t * 2 ^ Z.of_nat j) t.
Proof.
  intro Hn. induction j as [|j IH]; intro t; cbn [redc].
  - rewrite Z.mul_1_r. apply cong_refl.
  - set (t' := if Z.odd t then t + n else t).
    assert (He : 2 * Z.div2 t' = t').
    { assert (O : Z.odd t' = false) by (unfold t'; destruct (Z.odd t) eqn:E; [rewrite Z.odd_add, E, Hn; reflexivity|exact E]).
      pose proof (Z.div2_odd t') as D. rewrite O in D. cbn [Z.b2z] in D. lia. }
    assert (Ht : cong n t' t) by (unfold t'; destruct (Z.odd t); [exists 1; lia|apply cong_refl]).
    rewrite Nat2Z.inj_succ, Z.pow_succ_r by lia. eapply cong_trans; [|exact Ht]. rewrite <- He at 2.
    replace (redc n j (Z.div2 t') * (2 * 2 ^ Z.of_nat j)) with (2 * (redc n j (Z.div2 t') * 2 ^ Z.of_nat j)) by ring. apply cong_mul; [apply cong_refl|apply IH].
Qed.
Lemma odd_pow_rel n j : Z.odd n = true -> rel_prime n (2 ^ Z.of_nat j).
Proof.
  intro Hn. apply rel_prime_Zpower_r; [lia|]. apply rel_prime_sym, prime_rel_prime; [exact prime_2|].
  intros [k Hk]. rewrite Hk, Z.odd_mul in Hn. cbn in Hn. now rewrite andb_false_r in Hn.
Qed.
Lemma mpow_spec n j r x e : Z.odd n = true -> cong n r (2 ^ Z.of_nat j) -> cong n (mpow n j r x e) (x ^ Z.pos e * 2 ^ Z.of_nat j).
Proof.
  intros Hn Hr. set (R := 2 ^ Z.of_nat j) in *.
  assert (Sq : forall y a, cong n y (a * R) -> cong n (redc n j (Z.square y)) (a * a * R)).
  { intros y a H. pose proof (redc_spec n j Hn (Z.square y)) as H1. fold R in H1. rewrite Z.square_spec in H1 at 2.
    pose proof (cong_trans _ _ _ _ H1 (cong_mul _ _ _ _ _ H H)) as H2. unfold cong in *.
    apply Gauss with R; [|apply odd_pow_rel; auto]. replace (R * (redc n j (Z.square y) - a * a * R)) with (redc n j (Z.square y) * R - a * R * (a * R)) by ring. exact H2. }
  induction e as [e IH|e IH|]; cbn [mpow].
  - rewrite Pos2Z.inj_xI. replace (2 * Z.pos e + 1) with (Z.pos e + Z.pos e + 1) by lia. rewrite !Z.pow_add_r, Z.pow_1_r by lia.
    replace (x ^ Z.pos e * x ^ Z.pos e * x * R) with (x * (x ^ Z.pos e * x ^ Z.pos e * R)) by ring. apply cong_mul; [apply cong_refl|apply Sq; exact IH].
  - rewrite Pos2Z.inj_xO. replace (2 * Z.pos e) with (Z.pos e + Z.pos e) by lia. rewrite !Z.pow_add_r by lia. apply Sq; exact IH.
  - rewrite Z.pow_1_r. apply cong_mul; [apply cong_refl|exact Hr].
Qed.
Definition zprod (ls : list Z) : Z := fold_right Z.mul 1 ls.
(** The same for a number [x] that is itself given as [2^j x] modulo [n] *)
Fixpoint gpow (n : Z) (j : nat) (x : Z) (e : positive) : Z :=
  match e with
  | xH => x
  | xO e => redc n j (Z.square (gpow n j x e))
  | xI e => redc n j (x * redc n j (Z.square (gpow n j x e)))
  end.
Definition gpowz (n : Z) (j : nat) (x e : Z) : Z := match e with Zpos e => gpow n j x e | _ => 0 end.
Lemma gpow_spec n j x y e : Z.odd n = true -> cong n x (y * 2 ^ Z.of_nat j) -> cong n (gpow n j x e) (y ^ Z.pos e * 2 ^ Z.of_nat j).
Proof.
  intros Hn Hx. set (R := 2 ^ Z.of_nat j) in *.
  assert (Mu : forall u v a b, cong n u (a * R) -> cong n v (b * R) -> cong n (redc n j (u * v)) (a * b * R)).
  { intros u v a b Hu Hv. pose proof (redc_spec n j Hn (u * v)) as H1. fold R in H1.
    pose proof (cong_trans _ _ _ _ H1 (cong_mul _ _ _ _ _ Hu Hv)) as H2. unfold cong in *.
    apply Gauss with R; [|apply odd_pow_rel; auto]. replace (R * (redc n j (u * v) - a * b * R)) with (redc n j (u * v) * R - a * R * (b * R)) by ring. exact H2. }
  induction e as [e IH|e IH|]; cbn [gpow].
  - rewrite Pos2Z.inj_xI. replace (2 * Z.pos e + 1) with (Z.pos e + Z.pos e + 1) by lia. rewrite !Z.pow_add_r, Z.pow_1_r by lia.
    replace (y ^ Z.pos e * y ^ Z.pos e * y * R) with (y * (y ^ Z.pos e * y ^ Z.pos e) * R) by ring. apply Mu; auto. rewrite Z.square_spec. apply Mu; auto.
  - rewrite Pos2Z.inj_xO. replace (2 * Z.pos e) with (Z.pos e + Z.pos e) by lia. rewrite !Z.pow_add_r by lia. rewrite Z.square_spec. apply Mu; auto.
  - rewrite Z.pow_1_r. exact Hx.
Qed.
Lemma gpowz_spec n j x y e : Z.odd n = true -> 0 < e -> cong n x (y * 2 ^ Z.of_nat j) -> cong n (gpowz n j x e) (y ^ e * 2 ^ Z.of_nat j).
Proof. intros Hn He Hx. destruct e; try lia. apply gpow_spec; auto. Qed.
(** From [b = 2^j a^m]: the conditions of Pocklington's theorem for [a], when
    [m] times the product of the [ls] is [n - 1] *)
Fixpoint pock_chain (n : Z) (j : nat) (r b : Z) (ls : list Z) : bool :=
  match ls with
  | [] => (b - r) mod n =? 0
  | l :: t => (Z.gcd (gpowz n j b (zprod t) - r) n =? 1) && pock_chain n j r (gpowz n j b l) t
  end.
Lemma zprod_pos ls : Forall (fun l => 0 < l) ls -> 0 < zprod ls.
Proof. induction 1 as [|l t Hl Ht IH]; cbn; [lia|]. apply Z.mul_pos_pos; auto. Qed.
Lemma zprod_cons l t : zprod (l :: t) = l * zprod t.
Proof. reflexivity. Qed.
Lemma pock_chain_spec n j r a ls : 1 < n -> Z.odd n = true -> cong n r (2 ^ Z.of_nat j) -> Forall (fun l => 0 < l) ls ->
  forall b m, 0 < m -> cong n b (a ^ m * 2 ^ Z.of_nat j) -> m * zprod ls = n - 1 -> pock_chain n j r b ls = true ->
  a ^ (n - 1) mod n = 1 /\ Forall (fun l => Z.gcd (a ^ ((n - 1) / l) - 1) n = 1) ls.
Proof.
  intros H1 Hn Hr. set (R := 2 ^ Z.of_nat j) in *. induction ls as [|l t IH]; intros Hp b m Hm Hb Hmn Hc.
  - cbn in Hmn, Hc. apply Z.eqb_eq in Hc. apply Z.mod_divide in Hc; [|lia]. split; [|constructor].
    replace m with (n - 1) in Hb by lia. destruct Hb as [x Hx], Hr as [y Hy], Hc as [z Hz].
    assert (D : (n | a ^ (n - 1) - 1)). { apply Gauss with R; [|apply odd_pow_rel; auto]. exists (z - x + y). lia. }
    destruct D as [w Hw]. replace (a ^ (n - 1)) with (1 + w * n) by lia. rewrite Z_mod_plus_full. apply Z.mod_small. lia.
  - inversion_clear Hp as [|? ? Hl Ht]. cbn [pock_chain] in Hc. apply andb_prop in Hc as [Hg Hc]. apply Z.eqb_eq in Hg.
    pose proof (zprod_pos t Ht) as Pt. rewrite zprod_cons in Hmn.
    assert (Hb' : cong n (gpowz n j b l) (a ^ (m * l) * R)) by (rewrite Z.pow_mul_r by lia; apply gpowz_spec; auto).
    destruct (IH Ht (gpowz n j b l) (m * l) ltac:(apply Z.mul_pos_pos; auto) Hb' ltac:(rewrite <- Hmn; ring) Hc) as [A B]. split; [exact A|]. constructor; [|exact B].
    replace ((n - 1) / l) with (m * zprod t) by (rewrite <- Hmn; replace (m * (l * zprod t)) with (m * zprod t * l) by ring; rewrite Z.div_mul by lia; reflexivity).
    pose proof (gpowz_spec n j b (a ^ m) (zprod t) Hn Pt Hb) as [x Hx]. rewrite <- Z.pow_mul_r in Hx by lia. destruct Hr as [y Hy]. fold R in Hx.
    apply Z.bezout_1_gcd. apply Z.gcd_bezout in Hg as (u & v & Huv).
    set (A' := a ^ (m * zprod t)) in *. set (g := gpowz n j b (zprod t)) in *.
    exists (u * R), (u * (x - y) + v). replace (g - r) with ((x - y) * n + (A' - 1) * R) in Huv by lia. lia.
Qed.

(** The factors [l^(e+1)] of [n - 1] of a certificate. *)
Definition pock_product (ls : list (Z * Z)) : Z := fold_right (fun x acc => fst x ^ (snd x + 1) * acc) 1 ls.
Fixpoint distinct (l : list Z) : bool := match l with [] => true | x :: l' => forallb (fun y => negb (x =? y)) l' && distinct l' end.
(** The bits to reduce by. *)
Definition bits_for (n : Z) : nat := Z.to_nat (Z.log2 n + 9).
(** [a] generates modulo [n] a group of which the order is a multiple of the product. *)
Definition pock_base (n a : Z) (ls : list (Z * Z)) : bool :=
  let j := bits_for n in
  let r := 2 ^ Z.of_nat j mod n in
  let m := (n - 1) / zprod (map fst ls) in
  (1 <? n) && Z.odd n && (0 <? m) && (m * zprod (map fst ls) =? n - 1) && distinct (map fst ls) && ((n - 1) mod pock_product ls =? 0) &&
  forallb (fun x => 0 <=? snd x) ls && forallb (fun l => 0 <? l) (map fst ls) && pock_chain n j r (mpow n j r a (Z.to_pos m)) (map fst ls).
(** The product [F] exceeds the square root of [n]. *)
Definition pock_check (n a : Z) (ls : list (Z * Z)) : bool :=
  pock_base n a ls && (n <? pock_product ls * pock_product ls).
(** The product [F] exceeds the cube root of [n], and [n] is not a product of two numbers
    [u F + 1] and [v F + 1]. *)
Definition pock_check3 (n a : Z) (ls : list (Z * Z)) : bool :=
  let F := pock_product ls in
  let R := (n - 1) / F in
  let t := (R mod F) * (R mod F) - 4 * (R / F) in
  pock_base n a ls && (n <? F * F * F) && negb (n mod (F + 1) =? 0) && negb (Z.sqrt t * Z.sqrt t =? t).

Lemma rel_prime_product l e ls : prime l -> 0 <= e -> Forall (fun x => prime (fst x)) ls -> forallb (fun y => negb (l =? y)) (map fst ls) = true ->
  Forall (fun x => 0 <= snd x) ls -> rel_prime (l ^ (e + 1)) (pock_product ls).
Proof.
  intros Hl He. induction 1 as [|[l' e'] ls Hl' Hls IH]; cbn [map forallb fst snd pock_product fold_right]; intros Hd Hs.
  - apply rel_prime_sym, rel_prime_1.
  - apply andb_true_iff in Hd as [D1 D2]. inversion_clear Hs as [|? ? S1 S2]. cbn [fst snd] in *. apply rel_prime_mult; [|apply IH; auto].
    apply negb_true_iff, Z.eqb_neq in D1. apply rel_prime_Zpower; [lia|lia|].
    apply prime_rel_prime; auto. intros D. apply prime_div_prime in D; auto.
Qed.
Lemma product_divides m ls : Forall (fun x => prime (fst x)) ls -> Forall (fun x => 0 <= snd x) ls -> distinct (map fst ls) = true ->
  Forall (fun x => (fst x ^ (snd x + 1) | m)) ls -> (pock_product ls | m).
Proof.
  induction ls as [|[l e] ls IH]; intros Hl He Hd Hm; cbn [pock_product fold_right].
  - apply Z.divide_1_l.
  - inversion_clear Hl as [|? ? L1 L2]. inversion_clear He as [|? ? E1 E2]. inversion_clear Hm as [|? ? M1 M2]. cbn [map distinct fst snd] in *. apply andb_true_iff in Hd as [D1 D2].
    destruct (IH L2 E2 D2 M2) as [k Hk]. fold (pock_product ls). rewrite Hk in M1. rewrite Z.mul_comm in M1.
    apply Gauss in M1; [|apply rel_prime_product; auto]. destruct M1 as [j Hj]. exists j. fold (pock_product ls) in *. rewrite Hk, Hj. ring.
Qed.

Lemma pock_all n a ls : pock_base n a ls = true -> Forall (fun x => prime (fst x)) ls ->
  1 < n /\ 0 < pock_product ls /\ (pock_product ls | n - 1) /\ forall p, prime p -> (p | n) -> (pock_product ls | p - 1).
Proof.
  intros H Hl. unfold pock_base in H. rewrite !andb_true_iff in H. destruct H as [[[[[[[[H1 Ho] Hm] Hmn] H3] H4] Hs] Hq] Hc].
  apply Z.ltb_lt in H1, Hm. apply Z.eqb_eq in Hmn, H4. rewrite forallb_forall in Hs, Hq.
  set (m := (n - 1) / zprod (map fst ls)) in *. set (r := 2 ^ Z.of_nat (bits_for n) mod n) in *.
  assert (Hr : cong n r (2 ^ Z.of_nat (bits_for n))). { unfold cong, r. exists (- (2 ^ Z.of_nat (bits_for n) / n)). pose proof (Z.div_mod (2 ^ Z.of_nat (bits_for n)) n). lia. }
  destruct (pock_chain_spec n (bits_for n) r a (map fst ls) H1 Ho Hr ltac:(apply Forall_forall; intros x Hx; apply Z.ltb_lt; auto) _ m Hm ltac:(pose proof (mpow_spec n (bits_for n) r a (Z.to_pos m) Ho Hr) as Hx; rewrite Z2Pos.id in Hx by exact Hm; exact Hx) Hmn Hc) as [H2 H6].
  rewrite Forall_forall in H6.
  assert (Hs' : Forall (fun x => 0 <= snd x) ls). { apply Forall_forall. intros x Hx. apply Z.leb_le. auto. }
  clear Hs. rename Hs' into Hs.
  assert (Pp : 0 < pock_product ls).
  { clear -Hl Hs. induction Hl as [|x ls Hx Hls IH]; cbn [pock_product fold_right]; [lia|]. inversion_clear Hs. pose proof (prime_ge_2 _ Hx). apply Z.mul_pos_pos; [apply Z.pow_pos_nonneg; lia|auto]. }
  apply Z.mod_divide in H4; [|lia]. do 3 (split; [auto|]). intros p Hp Dp.
  apply product_divides; auto. apply Forall_forall. intros [l e] Hx. rewrite Forall_forall in Hl, Hs. pose proof (Hl _ Hx) as Pl. pose proof (Hs _ Hx) as Pe. cbn [fst snd] in *.
  pose proof (prime_ge_2 l Pl). specialize (H6 _ (in_map fst _ _ Hx)). cbn [fst snd] in H6.
  assert (Dl : (l ^ (e + 1) | n - 1)).
  { eapply Z.divide_trans; [|exact H4]. clear -Hx. induction ls as [|y ls IH]; [contradiction|]. cbn [pock_product fold_right]. destruct Hx as [-> |Hx]; [apply Z.divide_factor_l|].
    apply Z.divide_mul_r. auto. }
  assert (Dl1 : (l | n - 1)) by (eapply Z.divide_trans; [|exact Dl]; rewrite Z.pow_add_r, Z.pow_1_r by lia; apply Z.divide_factor_r).
  assert (Q : 0 < (n - 1) / l) by (destruct Dl1 as [w Hw]; rewrite Hw, Z.div_mul by lia; nia).
  apply (pock_factor n a l e p); auto.
Qed.
Theorem pocklington n a ls : pock_check n a ls = true -> Forall (fun x => prime (fst x)) ls -> prime n.
Proof.
  intros H Hl. apply andb_true_iff in H as [H H5]. apply Z.ltb_lt in H5. destruct (pock_all n a ls H Hl) as (H1 & Pp & _ & D).
  destruct (prime_dec n) as [|NP]; auto. exfalso. destruct (small_factor n) as (p & Hp & Dp & Lp); auto.
  specialize (D p Hp Dp). pose proof (prime_ge_2 p Hp). apply Z.divide_pos_le in D; [|lia]. nia.
Qed.
Lemma two_factors F u v : 0 < F -> 1 <= u -> 1 <= v -> (u * F + 1) * (v * F + 1) < F * F * F -> u * v < F /\ u + v <= u * v + 1.
Proof.
  intros HF Hu Hv H. split; [|nia]. apply Z.mul_lt_mono_pos_r with (p := F * F); [nia|].
  assert (E : (u * F + 1) * (v * F + 1) = u * v * (F * F) + (u + v) * F + 1) by ring. rewrite E in H. nia.
Qed.
Theorem pocklington3 n a ls : pock_check3 n a ls = true -> Forall (fun x => prime (fst x)) ls -> prime n.
Proof.
  intros H Hl. unfold pock_check3 in H. rewrite !andb_true_iff in H. destruct H as [[[H H5] H6] H7].
  apply Z.ltb_lt in H5. apply negb_true_iff, Z.eqb_neq in H6, H7. destruct (pock_all n a ls H Hl) as (H1 & Pp & Dn & D).
  set (F := pock_product ls) in *. clearbody F. destruct (prime_dec n) as [|NP]; auto. exfalso. destruct (small_factor n) as (p & Hp & Dp & Lp); auto.
  destruct (D p Hp Dp) as [u Hu]. pose proof (prime_ge_2 p Hp) as H0. destruct Dp as [m Hm]. destruct Dn as [R HR].
  assert (Hu1 : 1 <= u) by (clear -Hu Pp H0; nia). assert (Hpm : p <= m) by (clear -Hm Lp H0; nia).
  assert (Dm : (F | m - 1)). { exists (R - m * u). replace (m - 1) with (m * p - 1 - m * (p - 1)) by ring. rewrite Hu, <- Hm, HR. ring. }
  destruct Dm as [v Hv]. assert (Hv1 : 1 <= v) by (clear -Hv Pp Hpm H0; nia).
  assert (ER : R = u * v * F + (u + v)). { apply Z.mul_cancel_r with (p := F); [lia|]. rewrite <- HR, Hm. replace m with (v * F + 1) by lia. replace p with (u * F + 1) by lia. ring. }
  destruct (two_factors F u v Pp Hu1 Hv1) as [Huv Hs].
  { replace (u * F + 1) with p by lia. replace (v * F + 1) with m by lia. rewrite Z.mul_comm, <- Hm. exact H5. }
  assert (ERF : (n - 1) / F = R) by (rewrite HR; apply Z.div_mul; lia).
  destruct (Z.eq_dec (u + v) F) as [Es|Ns].
  - apply H6. apply Z.mod_divide; [lia|]. destruct (Z.eq_dec u 1) as [-> |Nu].
    + exists m. rewrite Hm. f_equal. lia.
    + assert (v = 1) by (clear -Es Huv Hs Nu Hu1 Hv1; nia). subst v. exists p. rewrite Hm. replace m with (F + 1) by lia. ring.
  - assert (Em : R mod F = u + v) by (rewrite ER, Z.add_comm, Z_mod_plus_full; apply Z.mod_small; lia).
    assert (Ed : R / F = u * v) by (rewrite ER, Z.add_comm, Z.div_add by lia; rewrite Z.div_small by lia; lia).
    apply H7. rewrite ERF, Em, Ed. replace ((u + v) * (u + v) - 4 * (u * v)) with (Z.abs (u - v) * Z.abs (u - v)) by (rewrite <- Z.abs_mul, Z.abs_eq by apply Z.square_nonneg; ring).
    rewrite Z.sqrt_square by lia. reflexivity.
Qed.
