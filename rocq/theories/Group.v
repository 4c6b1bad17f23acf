(** Commutative groups with decidable equality, and multiplication by integers:
    the points of an elliptic curve, cofactor included. *)

From Coq Require Import ZArith Lia Znumtheory Bool.
From Verif Require Import Alg.
Local Open Scope Z_scope.

Record agrp := mk_agrp {
  gcar :> Type;
  g0 : gcar; gadd : gcar -> gcar -> gcar; gopp : gcar -> gcar;
  gadd_comm : forall x y, gadd x y = gadd y x;
  gadd_assoc : forall x y z, gadd x (gadd y z) = gadd (gadd x y) z;
  gadd_0_l : forall x, gadd g0 x = x;
  gadd_opp : forall x, gadd x (gopp x) = g0;
  geqb : gcar -> gcar -> bool;
  geqb_eq : forall x y, geqb x y = true <-> x = y
}.
Arguments g0 {a}. Arguments gadd {a}. Arguments gopp {a}. Arguments geqb {a}.

Section Group.
  Variable G : agrp.

  Fixpoint gmul_pos (n : positive) (x : G) : G :=
    match n with
    | xH => x
    | xO m => gmul_pos m (gadd x x)
    | xI m => gadd x (gmul_pos m (gadd x x))
    end.
  Definition gmul (n : Z) (x : G) : G :=
    match n with Z0 => g0 | Zpos p => gmul_pos p x | Zneg p => gopp (gmul_pos p x) end.

  Lemma gadd_0_r (x : G) : gadd x g0 = x.
  Proof. rewrite gadd_comm. apply gadd_0_l. Qed.
  Lemma gadd_opp_l (x : G) : gadd (gopp x) x = g0.
  Proof. rewrite gadd_comm. apply gadd_opp. Qed.
  Lemma gadd_cancel_l (a x y : G) : gadd a x = gadd a y -> x = y.
  Proof.
    intro H. rewrite <- (gadd_0_l _ x), <- (gadd_0_l _ y), <- (gadd_opp_l a).
    rewrite <- !gadd_assoc, H. reflexivity.
  Qed.
  Lemma gopp_unique (x y : G) : gadd x y = g0 -> y = gopp x.
  Proof. intro H. apply (gadd_cancel_l x). rewrite H, gadd_opp. reflexivity. Qed.
  Lemma gopp_0 : gopp (g0 : G) = g0.
  Proof. symmetry. apply gopp_unique. apply gadd_0_l. Qed.
  Lemma gadd_swap (x y z : G) : gadd x (gadd y z) = gadd y (gadd x z).
  Proof. rewrite !gadd_assoc, (gadd_comm _ x y). reflexivity. Qed.
  Lemma gopp_add (x y : G) : gopp (gadd x y) = gadd (gopp x) (gopp y).
  Proof.
    symmetry. apply gopp_unique. rewrite <- gadd_assoc, (gadd_swap y), gadd_opp, gadd_0_r, gadd_opp.
    reflexivity.
  Qed.
  Lemma gopp_opp (x : G) : gopp (gopp x) = x.
  Proof. symmetry. apply gopp_unique. apply gadd_opp_l. Qed.

  (** Unary multiplication, only for the proofs. *)
  Fixpoint gnat (n : nat) (x : G) : G := match n with O => g0 | S m => gadd x (gnat m x) end.
  Lemma gnat_add n m x : gnat (n + m) x = gadd (gnat n x) (gnat m x).
  Proof. induction n; cbn [Nat.add gnat]; [rewrite gadd_0_l; auto|]. rewrite IHn, gadd_assoc. auto. Qed.
  Lemma gnat_add_r n x y : gnat n (gadd x y) = gadd (gnat n x) (gnat n y).
  Proof.
    induction n; cbn [gnat]; [rewrite gadd_0_l; auto|]. rewrite IHn, <- !gadd_assoc. f_equal. apply gadd_swap.
  Qed.
  Lemma gmul_pos_nat p : forall x, gmul_pos p x = gnat (Pos.to_nat p) x.
  Proof.
    induction p as [p IH|p IH|]; intro x; cbn [gmul_pos].
    - rewrite IH, gnat_add_r, <- gnat_add, Pos2Nat.inj_xI. cbn [gnat]. do 2 f_equal. lia.
    - rewrite IH, gnat_add_r, <- gnat_add, Pos2Nat.inj_xO. f_equal. lia.
    - change (Pos.to_nat 1) with 1%nat. cbn [gnat]. rewrite gadd_0_r. reflexivity.
  Qed.
  Lemma gmul_nat n x : gmul (Z.of_nat n) x = gnat n x.
  Proof.
    destruct n as [|n]; [reflexivity|]. cbn [Z.of_nat gmul]. rewrite gmul_pos_nat, SuccNat2Pos.id_succ. reflexivity.
  Qed.
  Lemma gmul_opp n x : gmul (- n) x = gopp (gmul n x).
  Proof. destruct n; cbn [Z.opp gmul]; rewrite ?gopp_0, ?gopp_opp; reflexivity. Qed.
  Lemma gmul_0 x : gmul 0 x = g0.
  Proof. reflexivity. Qed.
  Lemma gmul_1 x : gmul 1 x = x.
  Proof. reflexivity. Qed.
  Lemma gmul_succ n x : gmul (n + 1) x = gadd x (gmul n x).
  Proof.
    destruct (Z_le_gt_dec 0 n) as [H|H].
    - rewrite <- (Z2Nat.id n) by auto. replace (Z.of_nat (Z.to_nat n) + 1) with (Z.of_nat (S (Z.to_nat n))) by lia.
      rewrite !gmul_nat. reflexivity.
    - remember (Z.to_nat (- n - 1)) as k eqn:Ek.
      replace (n + 1) with (- Z.of_nat k) by lia. replace n with (- Z.of_nat (S k)) by lia.
      rewrite !gmul_opp, !gmul_nat. cbn [gnat]. rewrite gopp_add, gadd_assoc, gadd_opp, gadd_0_l. reflexivity.
  Qed.
  Lemma gmul_add n m x : gmul (n + m) x = gadd (gmul n x) (gmul m x).
  Proof.
    revert n. assert (G1 : forall k n, gmul (Z.of_nat k + n) x = gadd (gnat k x) (gmul n x)).
    { induction k as [|k IH]; intro n; [rewrite Z.add_0_l; cbn [gnat]; rewrite gadd_0_l; auto|].
      replace (Z.of_nat (S k) + n) with (Z.of_nat k + n + 1) by lia. rewrite gmul_succ, IH. cbn [gnat].
      apply gadd_assoc. }
    intro n. destruct (Z_le_gt_dec 0 n) as [H|H].
    - rewrite <- (Z2Nat.id n) by auto. rewrite G1, gmul_nat. reflexivity.
    - apply (gadd_cancel_l (gmul (- n) x)). rewrite gmul_opp, gadd_assoc, gadd_opp_l, gadd_0_l.
      rewrite <- gmul_opp. rewrite <- (Z2Nat.id (- n)) by lia. rewrite gmul_nat, <- G1. f_equal. lia.
  Qed.
  Lemma gmul_add_r n x y : gmul n (gadd x y) = gadd (gmul n x) (gmul n y).
  Proof.
    destruct n as [|p|p]; cbn [gmul]; [rewrite gadd_0_l; auto|..]; rewrite !gmul_pos_nat, gnat_add_r; auto.
    apply gopp_add.
  Qed.
  Lemma gmul_0_r n : gmul n (g0 : G) = g0.
  Proof. apply (gadd_cancel_l (gmul n g0)). rewrite <- gmul_add_r, !gadd_0_r. reflexivity. Qed.
  Lemma gmul_mul n m x : gmul (n * m) x = gmul n (gmul m x).
  Proof.
    assert (G1 : forall k, gmul (Z.of_nat k * m) x = gnat k (gmul m x)).
    { induction k as [|k IH]; [reflexivity|]. replace (Z.of_nat (S k) * m) with (m + Z.of_nat k * m) by lia.
      rewrite gmul_add, IH. reflexivity. }
    destruct (Z_le_gt_dec 0 n) as [H|H].
    - rewrite <- (Z2Nat.id n) by auto. rewrite G1, gmul_nat. reflexivity.
    - replace n with (- Z.of_nat (Z.to_nat (- n))) by lia. rewrite Z.mul_opp_l, !gmul_opp, G1, gmul_nat. reflexivity.
  Qed.
  Lemma gmul_opp_r n x : gmul n (gopp x) = gopp (gmul n x).
  Proof. apply gopp_unique. rewrite <- gmul_add_r, gadd_opp, gmul_0_r. reflexivity. Qed.
  Lemma gsub_eq (x y : G) : gadd x (gopp y) = g0 <-> x = y.
  Proof.
    split; intro H; [|subst; apply gadd_opp].
    apply (gadd_cancel_l (gopp y)). rewrite gadd_opp_l, gadd_comm. exact H.
  Qed.
  Lemma gmul_mod l n x : gmul l x = g0 -> gmul (n mod l) x = gmul n x.
  Proof.
    intro H. destruct (Z.eq_dec l 0) as [->|Hl]; [rewrite Zmod_0_r; reflexivity|].
    rewrite (Z.div_mod n l) at 2 by auto. rewrite gmul_add, (Z.mul_comm l), gmul_mul, H, gmul_0_r, gadd_0_l. reflexivity.
  Qed.
  (** The order of a nonzero point killed by a prime is that prime. *)
  Lemma gmul_prime_0 l n x : prime l -> gmul l x = g0 -> x <> g0 -> gmul n x = g0 -> (l | n).
  Proof.
    intros Hl H Hx Hn. destruct (Zdivide_dec l n) as [|Hd]; [auto|]. exfalso. apply Hx.
    assert (R : rel_prime l n) by (apply prime_rel_prime; auto).
    destruct (rel_prime_bezout _ _ R) as [u v E].
    rewrite <- (gmul_1 x), <- E, gmul_add, !gmul_mul, H, Hn, !gmul_0_r, gadd_0_l. reflexivity.
  Qed.
End Group.
Arguments gmul {G}.

(** The integers modulo [m], for concrete cases. *)
Section Zm.
  Variable m : Z.
  Hypothesis Hm : 0 < m.
  Definition Zgrp : agrp.
  Proof.
    refine (mk_agrp (zp m) (zmk m 0) (fun a b => zmk m (zv m a + zv m b)) (fun a => zmk m (- zv m a)) _ _ _ _
              (fun a b => zv m a =? zv m b) _).
    - intros x y. apply zp_ext. cbn [zv zmk]. f_equal. lia.
    - intros x y z. apply zp_ext. cbn [zv zmk]. rewrite Zplus_mod_idemp_l, Zplus_mod_idemp_r. f_equal. lia.
    - intro x. apply zp_ext. cbn [zv zmk]. rewrite Z.mod_0_l by lia. apply zv_mod.
    - intro x. apply zp_ext. cbn [zv zmk]. rewrite Zplus_mod_idemp_r. f_equal. lia.
    - intros x y. rewrite Z.eqb_eq. split; [apply zp_ext|intros ->; reflexivity].
  Defined.
End Zm.
