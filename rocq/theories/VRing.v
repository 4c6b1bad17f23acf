(** A decision procedure for linear identities in a vector space: [vring] reduces
    an equation between sums of scalar multiples to one [ring] equation per vector. *)
From Coq Require Import List Arith Lia Ring Field.
From Verif Require Import Alg.
Import ListNotations.

Section VRing.
  Variable K : fld.
  Variable V : vsp K.
  Local Open Scope fld_scope.
  Add Field Kvring : (fth K).

  Inductive lexp :=
  | La (n : nat) | L0 | Ladd (a b : lexp) | Lopp (a : lexp) | Lmul (k : K) (a : lexp).
  Fixpoint leval (env : list V) (e : lexp) : V :=
    match e with
    | La n => nth n env v0
    | L0 => v0
    | Ladd a b => vadd (leval env a) (leval env b)
    | Lopp a => vopp (leval env a)
    | Lmul k a => vmul k (leval env a)
    end.
  Fixpoint lcoef (e : lexp) (n : nat) : K :=
    match e with
    | La m => if Nat.eqb m n then 1 else 0
    | L0 => 0
    | Ladd a b => lcoef a n + lcoef b n
    | Lopp a => - lcoef a n
    | Lmul k a => k * lcoef a n
    end.
  Lemma leval_sum env e :
    leval env e = vsum (map (fun n => vmul (lcoef e n) (nth n env v0)) (seq 0 (length env))).
  Proof.
    induction e as [n| |a IHa b IHb|a IHa|k a IHa]; cbn [leval lcoef].
    - destruct (Nat.lt_ge_cases n (length env)) as [H|H].
      + replace (length env) with (n + (1 + (length env - S n)))%nat by lia.
        rewrite !seq_app, !map_app, !vsum_app. cbn [seq map Nat.add].
        assert (Z : forall s c, (forall i, (s <= i < s + c)%nat -> n <> i) ->
          vsum (map (fun n0 => vmul (if Nat.eqb n n0 then 1 else 0) (nth n0 env v0)) (seq s c)) = v0).
        { intros s c. revert s. induction c as [|c IH]; intros s Hs; [reflexivity|].
          cbn [seq map]. rewrite vsum_cons, IH by (intros; apply Hs; lia).
          destruct (Nat.eqb_spec n s) as [E|]; [exfalso; apply (Hs s); [lia|auto]|].
          rewrite vmul_0_l, vadd_0_l. reflexivity. }
        rewrite !Z by lia. rewrite vsum_cons, Nat.eqb_refl, vmul_1. unfold vsum at 1. cbn [fold_right].
        rewrite vadd_0_l, !vadd_0_r. reflexivity.
      + rewrite nth_overflow by auto. symmetry.
        rewrite (vsum_map_ext K V _ (fun _ : nat => vmul (0:K) (v0 : V))).
        * induction (seq 0 (length env)); [reflexivity|]. cbn [map]. rewrite vsum_cons, IHl, vmul_0_l. apply vadd_0_l.
        * intros i Hi. apply in_seq in Hi. destruct (Nat.eqb_spec n i); [lia|]. rewrite !vmul_0_l. reflexivity.
    - induction (seq 0 (length env)); [reflexivity|]. cbn [map]. rewrite vsum_cons, <- IHl, vmul_0_l, vadd_0_l. reflexivity.
    - rewrite IHa, IHb, <- vsum_map_add. apply vsum_map_ext. intros; symmetry; apply vmul_add_l.
    - rewrite IHa, vopp_mul, vmul_vsum, map_map. apply vsum_map_ext. intros. rewrite <- vmul_mul. f_equal. ring.
    - rewrite IHa, vmul_vsum, map_map. apply vsum_map_ext. intros. rewrite <- vmul_mul. reflexivity.
  Qed.
  Fixpoint alleq (n : nat) (a b : lexp) : Prop :=
    match n with O => True | S n' => lcoef a n' = lcoef b n' /\ alleq n' a b end.
  Lemma lin_eq env a b : alleq (length env) a b -> leval env a = leval env b.
  Proof.
    intro H. rewrite !leval_sum. apply vsum_map_ext. intros i Hi. apply in_seq in Hi. f_equal.
    destruct Hi as [_ Hi]. cbn in Hi. revert H Hi. generalize (length env). intro n. induction n; cbn; [lia|].
    intros [E H] Hi. destruct (Nat.eq_dec i n) as [->|]; auto. apply IHn; [auto|lia].
  Qed.
End VRing.

Ltac vr_in x l :=
  lazymatch l with
  | nil => false
  | cons x _ => true
  | cons _ ?l' => vr_in x l'
  end.
Ltac vr_atoms t acc :=
  lazymatch t with
  | vadd ?a ?b => let acc := vr_atoms a acc in vr_atoms b acc
  | vopp ?a => vr_atoms a acc
  | vmul _ ?a => vr_atoms a acc
  | v0 => acc
  | _ => lazymatch vr_in t acc with true => acc | false => constr:(cons t acc) end
  end.
Ltac vr_idx x l :=
  lazymatch l with
  | cons x _ => constr:(O)
  | cons _ ?l' => let n := vr_idx x l' in constr:(S n)
  end.
Ltac vr_reify K t env :=
  lazymatch t with
  | vadd ?a ?b => let a := vr_reify K a env in let b := vr_reify K b env in constr:(Ladd K a b)
  | vopp ?a => let a := vr_reify K a env in constr:(Lopp K a)
  | vmul ?k ?a => let a := vr_reify K a env in constr:(Lmul K k a)
  | v0 => constr:(L0 K)
  | _ => let n := vr_idx t env in constr:(La K n)
  end.
(** Leaves the coefficient equations. *)
Ltac vring_simp :=
  match goal with
  | |- @eq (vcar ?K ?V) ?x ?y =>
      let env := vr_atoms x (@nil (vcar K V)) in
      let env := vr_atoms y env in
      let a := vr_reify K x env in
      let b := vr_reify K y env in
      change (leval K V env a = leval K V env b);
      apply lin_eq; cbn [alleq lcoef length Nat.eqb];
      repeat match goal with |- _ /\ _ => split | |- True => exact I end
  end.
Ltac vring := vring_simp; ring.
