(** Finite fields: Fermat's little theorem and inverse exponents, for the
    permutation proofs of Rescue and Poseidon2. *)

From Coq Require Import List Arith NArith ZArith Lia Permutation Ring Field Znumtheory Bool.
From Verif Require Import Base Alg RescueModel.
Import ListNotations.
Local Open Scope fld_scope.

(** [K] has exactly [q] elements. *)
Definition has_card (K : fld) (q : nat) : Prop :=
  exists es : list K, NoDup es /\ (forall x, In x es) /\ length es = q.

(** A bijection, with its inverse. *)
Definition bij {A B} (f : A -> B) : Prop :=
  exists g, (forall x, g (f x) = x) /\ (forall y, f (g y) = y).

Lemma bij_comp {A B C} (f : A -> B) (h : B -> C) : bij f -> bij h -> bij (fun x => h (f x)).
Proof.
  intros (g & G1 & G2) (k & K1 & K2). exists (fun z => g (k z)). split; intro.
  - rewrite K1. auto.
  - rewrite G2. auto.
Qed.
Lemma bij_id {A} : bij (fun x : A => x).
Proof. exists (fun x => x). auto. Qed.
Lemma bij_ext {A B} (f h : A -> B) : (forall x, f x = h x) -> bij f -> bij h.
Proof.
  intros E (g & G1 & G2). exists g. split; intro.
  - rewrite <- E. auto.
  - rewrite <- E. auto.
Qed.
Lemma bij_inj {A B} (f : A -> B) x y : bij f -> f x = f y -> x = y.
Proof. intros (g & G & _) E. rewrite <- (G x), E. auto. Qed.
Lemma bij_unique {A B} (f : A -> B) : bij f -> forall y, exists! x, f x = y.
Proof.
  intros Hf y. destruct Hf as (g & G1 & G2). exists (g y). split; [auto|].
  intros x <-. apply G1.
Qed.

Section Fermat.
  Variable K : fld.
  Add Field Kff : (fth K).

  Lemma fprod_perm (l l' : list K) : Permutation l l' -> fprod l = fprod l'.
  Proof.
    induction 1 as [|x l l' HP IH|x y l|l1 l2 l3 H1 IH1 H2 IH2]; unfold fprod in *; cbn [fold_right].
    - reflexivity.
    - f_equal. exact IH.
    - ring.
    - congruence.
  Qed.
  Lemma fprod_scale a (l : list K) : fprod (map (fmul a) l) = fpow a (length l) * fprod l.
  Proof.
    induction l as [|x l IH]; unfold fprod in *; cbn [map fold_right length fpow]; [ring|].
    rewrite IH. ring.
  Qed.

  Theorem fermat q (x : K) : has_card K q -> x <> 0 -> fpow x (q - 1) = 1.
  Proof.
    intros (es & Hnd & Hall & Hlen) Hx.
    set (ns := filter (fun y : K => negb (feqb y 0)) es).
    assert (Hns : forall y : K, In y ns <-> y <> 0).
    { intro y. unfold ns. rewrite filter_In, negb_true_iff. split.
      - intros [_ E] ->. rewrite feqb_refl in E. discriminate.
      - intro Hy. split; [apply Hall|]. apply feqb_neq. auto. }
    assert (Hndn : NoDup ns) by (apply NoDup_filter; auto).
    assert (Hcard : length ns = (q - 1)%nat).
    { assert (HP : Permutation es (0 :: ns)).
      { apply NoDup_Permutation; auto.
        - constructor; auto. rewrite Hns. auto.
        - intro y. cbn [In]. rewrite Hns. split; [|intros _; apply Hall].
          intros _. destruct (feq_dec y 0); auto. }
      apply Permutation_length in HP. cbn [length] in HP. lia. }
    assert (HP : Permutation (map (fmul x) ns) ns).
    { apply NoDup_Permutation; auto.
      - apply FinFun.Injective_map_NoDup; auto. intros a b E. apply fmul_cancel_l in E; auto.
      - intro y. rewrite Hns, in_map_iff. split.
        + intros (z & <- & Hz). apply Hns in Hz. apply fmul_neq_0; auto.
        + intro Hy. exists (y / x). split; [field; auto|]. apply Hns.
          intro E. apply Hy. replace y with (x * (y / x)) by (field; auto). rewrite E. ring. }
    apply fprod_perm in HP. rewrite fprod_scale, Hcard in HP.
    assert (Hp0 : fprod ns <> 0).
    { apply fprod_neq_0. intros y Hy. apply Hns. auto. }
    apply (fmul_cancel_l K (fprod ns)); auto.
    transitivity (fpow x (q - 1) * fprod ns); [ring|]. rewrite HP. ring.
  Qed.

  Lemma fpow_pos_ok (x : K) e : fpow_pos x e = fpow x (Pos.to_nat e).
  Proof.
    induction e as [e IH|e IH|]; cbn [fpow_pos].
    - rewrite IH, Pos2Nat.inj_xI. cbn [fpow]. replace (2 * Pos.to_nat e)%nat with (Pos.to_nat e + Pos.to_nat e)%nat by lia.
      rewrite fpow_add. ring.
    - rewrite IH, Pos2Nat.inj_xO. replace (2 * Pos.to_nat e)%nat with (Pos.to_nat e + Pos.to_nat e)%nat by lia.
      rewrite fpow_add. ring.
    - rewrite Pos2Nat.inj_1. cbn [fpow]. ring.
  Qed.
  Lemma fpow_N_ok (x : K) e : fpow_N x e = fpow x (N.to_nat e).
  Proof. destruct e as [|e]; [reflexivity|]. apply fpow_pos_ok. Qed.

  Lemma fpow_N_inverse q (a b : N) (x : K) : has_card K q ->
    ((a * b) mod N.of_nat (q - 1) = 1)%N ->
    fpow_N (fpow_N x a) b = x.
  Proof.
    intros Hq Hab. rewrite !fpow_N_ok, <- fpow_mul, <- N2Nat.inj_mul.
    set (m := N.of_nat (q - 1)) in *.
    assert (Hm : m <> 0%N).
    { intro E. clear Hab.
      destruct Hq as (es & Hnd & Hall & Hl). assert (q <= 1)%nat by (unfold m in E; lia).
      assert (Hi : incl [0; 1] es) by (intros z _; apply Hall).
      apply NoDup_incl_length in Hi.
      - cbn [length] in Hi. lia.
      - constructor; [|constructor; [intros []|constructor]]. intros [E1|[]]. exact (f1_neq_0 K E1). }
    rewrite (N.div_mod (a * b) m Hm), Hab.
    destruct (feq_dec x 0) as [->|Hx].
    - apply fpow_0. rewrite N2Nat.inj_add. change (N.to_nat 1) with 1%nat. rewrite Nat.add_1_r. apply Nat.lt_0_succ.
    - rewrite N2Nat.inj_add, N2Nat.inj_mul, fpow_add, fpow_mul. unfold m at 1. rewrite Nat2N.id, (fermat q) by auto.
      rewrite fpow_1. change (N.to_nat 1) with 1%nat. cbn [fpow]. ring.
  Qed.
  Lemma fpow_N_bij q (a b : N) : has_card K q -> ((a * b) mod N.of_nat (q - 1) = 1)%N ->
    bij (fun x : K => fpow_N x a).
  Proof.
    intros Hq Hab. exists (fun x => fpow_N x b). split; intro x.
    - apply (fpow_N_inverse q); auto.
    - apply (fpow_N_inverse q); auto. rewrite N.mul_comm. auto.
  Qed.
End Fermat.

(** The integers modulo a prime have that many elements. *)
Lemma zp_card p (Hp : prime p) : has_card (Zp p Hp) (Z.to_nat p).
Proof.
  pose proof (prime_ge_2 _ Hp) as H2.
  exists (map (fun n => zmk p (Z.of_nat n)) (seq 0 (Z.to_nat p))). split; [|split].
  - apply NoDup_nth_error. intros i j Hi E. rewrite map_length, seq_length in Hi.
    rewrite !nth_error_map in E.
    destruct (Nat.lt_ge_cases j (Z.to_nat p)) as [Hj|Hj].
    + rewrite !(nth_error_nth' _ 0%nat) in E by (rewrite seq_length; auto).
      rewrite !seq_nth in E by auto. cbn [option_map Nat.add] in E. injection E as E.
      rewrite !Z.mod_small in E by lia. lia.
    + rewrite (proj2 (nth_error_None (seq 0 (Z.to_nat p)) j)) in E by (rewrite seq_length; auto).
      rewrite (nth_error_nth' _ 0%nat) in E by (rewrite seq_length; auto). discriminate E.
  - intro x. apply in_map_iff. exists (Z.to_nat (zv p x)).
    pose proof (Z.mod_pos_bound (zv p x) p ltac:(lia)) as Hb. rewrite zv_mod in Hb. split.
    + rewrite Z2Nat.id by lia. apply zmk_zv.
    + apply in_seq. lia.
  - rewrite map_length, seq_length. reflexivity.
Qed.
