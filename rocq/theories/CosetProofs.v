(** Coset representatives and the extended identity permutation. *)

From Coq Require Import List Arith ZArith Bool Lia Ring Field.
From Verif Require Import Base ListAux Alg CircuitModel FinalModel PermProofs.
Import ListNotations.
Local Open Scope fld_scope.

Section Coset.
  Context {K : fld}.
  Add Field KfieldCo : (fth K).

  Lemma coset_valid_spec (px : K) pows : px <> 0 -> coset_valid K px pows = true <-> ~ In px pows.
  Proof.
    intros Hx. unfold coset_valid. rewrite negb_true_iff. split.
    - intros H Hin. assert (E : existsb (fun q => feqb (finv px * q) 1) pows = true); [|congruence].
      apply existsb_exists. exists px. split; auto. apply feqb_eq. now apply finv_l.
    - intros H. destruct (existsb _ pows) eqn:E; auto. exfalso. apply existsb_exists in E as (q & Hq & E).
      apply feqb_eq in E. apply H. replace px with q; auto.
      transitivity (px * (finv px * q)); [field; auto|]. rewrite E. ring.
  Qed.
  Lemma coset_loop_spec N rnd : (1 <= N)%nat -> forall todo ks ks',
    Forall (fun k => k <> 0) ks -> NoDup (map (fun k => fpow k N) ks) ->
    coset_loop K N todo rnd ks (map (fun k => fpow k N) ks) = Some (Ok ks') ->
    length ks' = (length ks + todo)%nat /\ Forall (fun k => k <> 0) ks' /\ NoDup (map (fun k => fpow k N) ks')
    /\ exists l, ks' = ks ++ l.
  Proof.
    intros HN. induction rnd as [|x rnd IH]; intros [|todo] ks ks' Hz Nd E; cbn [coset_loop] in E.
    - inversion E; subst. repeat split; auto. exists []. now rewrite app_nil_r.
    - discriminate.
    - inversion E; subst. repeat split; auto. exists []. now rewrite app_nil_r.
    - destruct (feqb (fpow x N) 0) eqn:Ez; [discriminate|]. apply feqb_neq in Ez.
      destruct (coset_valid K (fpow x N) _) eqn:Ev.
      + apply coset_valid_spec in Ev; auto.
        replace (map (fun k => fpow k N) ks ++ [fpow x N]) with (map (fun k => fpow k N) (ks ++ [x])) in E by (now rewrite map_app).
        apply IH in E as (A & B & C & l & D).
        * rewrite app_length in A. cbn in A. split; [lia|]. split; auto. split; auto. exists (x :: l). now rewrite <- app_assoc in D.
        * apply Forall_app; split; auto. constructor; auto. intros ->. apply Ez. destruct N; [lia|]. cbn. ring.
        * rewrite map_app. cbn [map]. apply NoDup_app_intro; auto.
          { constructor; [intros []|constructor]. }
          intros y Hy [<-|[]]. contradiction.
      + apply IH in E; auto.
  Qed.
  Theorem coset_representatives_spec nw N rnd ks : (1 <= N)%nat ->
    compute_coset_representatives K nw N rnd = Some (Ok ks) ->
    length ks = nw /\ Forall (fun k => k <> 0) ks /\ NoDup (map (fun k => fpow k N) ks) /\ (nw = 0%nat \/ nth 0 ks 0 = 1).
  Proof.
    intros HN E. destruct nw as [|t]; cbn in E.
    - inversion E; subst. repeat split; auto. constructor.
    - replace ([1] : list K) with (map (fun k : K => fpow k N) [1]) in E at 2.
      2:{ cbn. f_equal. clear. induction N; cbn; auto. rewrite IHN. ring. }
      apply coset_loop_spec in E as (A & B & C & l & D); auto.
      + subst ks. cbn in A. repeat split; auto.
      + constructor; auto. apply f1_neq_0.
      + cbn. constructor; [intros []|constructor].
  Qed.

  Lemma ext_id_nth (om : K) n ks : forall i j, (i < length ks)%nat -> (j < n)%nat ->
    nth (i * n + j) (ext_id K ks om n) 0 = nth i ks 0 * fpow om j.
  Proof.
    unfold ext_id. induction ks as [|k ks IH]; intros i j Hi Hj; [cbn in Hi; lia|]. cbn [map concat].
    destruct i as [|i].
    - rewrite app_nth1 by (rewrite map_length, seq_length; lia). rewrite Nat.mul_0_l, Nat.add_0_l.
      rewrite (nth_indep _ 0 (k * fpow om 0)) by (rewrite map_length, seq_length; lia).
      rewrite (map_nth (fun j => k * fpow om j)), seq_nth by lia. reflexivity.
    - rewrite app_nth2 by (rewrite map_length, seq_length; lia). rewrite map_length, seq_length.
      replace (S i * n + j - n)%nat with (i * n + j)%nat by lia. cbn [nth]. apply IH; [cbn in Hi; lia|auto].
  Qed.
  Theorem ext_id_distinct (om : K) n ks :
    fpow om n = 1 -> (forall a b, (a < n)%nat -> (b < n)%nat -> fpow om a = fpow om b -> a = b) ->
    Forall (fun k => k <> 0) ks -> NoDup (map (fun k => fpow k n) ks) ->
    forall i j i' j', (i < length ks)%nat -> (j < n)%nat -> (i' < length ks)%nat -> (j' < n)%nat ->
      nth (i * n + j) (ext_id K ks om n) 0 = nth (i' * n + j') (ext_id K ks om n) 0 -> i = i' /\ j = j'.
  Proof.
    intros H1 Hinj Hz Nd i j i' j' Hi Hj Hi' Hj' E. rewrite !ext_id_nth in E by auto.
    assert (Ho : forall a, fpow (fpow om a) n = 1).
    { intros a. rewrite <- fpow_mul, Nat.mul_comm, fpow_mul, H1. clear. induction a; cbn; auto. rewrite IHa. ring. }
    assert (Ei : i = i').
    { assert (E2 : fpow (nth i ks 0) n = fpow (nth i' ks 0) n).
      { assert (X : fpow (nth i ks 0 * fpow om j) n = fpow (nth i' ks 0 * fpow om j') n) by congruence.
        rewrite !fpow_mult_base, !Ho in X. transitivity (fpow (nth i ks 0) n * 1); [ring|]. rewrite X. ring. }
      pose proof (proj1 (NoDup_nth (map (fun k => fpow k n) ks) 0) Nd i i') as D.
      rewrite !map_length in D. apply D; auto.
      rewrite (nth_indep _ 0 (fpow 0 n)) by (rewrite map_length; auto).
      rewrite (nth_indep (map _ _) 0 (fpow 0 n)) by (rewrite map_length; auto).
      now rewrite !(map_nth (fun k => fpow k n)). }
    subst i'. split; auto. apply Hinj; auto. apply (fmul_cancel_l K (nth i ks 0)); auto.
    rewrite Forall_forall in Hz. apply Hz. now apply nth_In.
  Qed.
End Coset.
