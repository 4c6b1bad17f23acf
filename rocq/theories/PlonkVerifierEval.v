(** The functions of the verifier circuit that evaluate polynomials at the challenge. *)

From Coq Require Import List Arith ZArith Bool Lia Ring Field.
From Verif Require Import Base ListAux Alg Poly KzgModel KzgFft PlonkModel PlonkPoly LagrangeProofs CircuitModel CircuitProofs GadgetModel GadgetProofs
  BitProofs ModArithModel ModArithProofs EccModel PlonkVerifierModel PlonkVerifierOps.
Import ListNotations.
Local Open Scope fld_scope.
Local Open Scope circ_scope.

Lemma Forall2_length' {A A'} (R : A -> A' -> Prop) l l' : Forall2 R l l' -> length l = length l'.
Proof. induction 1; cbn; congruence. Qed.
Lemma Forall2_r {A A'} (R : A -> A' -> Prop) (Q : A' -> Prop) l l' : Forall2 R l l' -> (forall a b, R a b -> Q b) -> Forall Q l'.
Proof. induction 1; constructor; eauto. Qed.
Lemma Forall_concat' {A} (Q : A -> Prop) l : Forall (Forall Q) l -> Forall Q (concat l).
Proof. induction 1; cbn [concat]; [constructor|]. now apply Forall_app. Qed.
Lemma concat_length2 {A} (l : list (list A)) : Forall (fun t => length t = 2%nat) l -> length (concat l) = (2 * length l)%nat.
Proof. induction 1 as [|x l H _ IH]; [reflexivity|]. cbn [concat length]. rewrite app_length, H, IH. lia. Qed.
Lemma Forall2_nth' {A A'} (R : A -> A' -> Prop) l l' d d' i : Forall2 R l l' -> (i < length l)%nat -> R (nth i l d) (nth i l' d').
Proof. intro H. revert i. induction H; intros [|i] Hi; cbn in *; auto; try lia. apply IHForall2. lia. Qed.
Lemma nth_firstn' {A} (l : list A) d n : forall i, (i < n)%nat -> nth i (firstn n l) d = nth i l d.
Proof. revert l. induction n as [|n IH]; intros l i H; [lia|]. destruct l, i; cbn; auto. apply IH. lia. Qed.
Lemma nth_skipn' {A} (l : list A) d n : forall i, nth i (skipn n l) d = nth (n + i) l d.
Proof. revert l. induction n as [|n IH]; intros l i; [reflexivity|]. destruct l; cbn; [now destruct i|]. apply IH. Qed.

Section Eval.
  Context {K Fr : fld}.
  Variable zval : K -> Z.
  Variable q : Z.
  Variable nb L : nat.
  Hypothesis HF : pfield K zval q nb L.
  Variable m rb : nat.
  Notation M := (2 ^ Z.of_nat m)%Z.
  Notation B := (2 ^ Z.of_nat rb)%Z.
  Hypothesis Hm : (1 <= m)%nat.
  Hypothesis Hm2 : (m <= nb / 2)%nat.
  Hypothesis Hrb : (1 <= rb <= 31)%nat.
  Hypothesis Hrn : (rb < nb)%nat.
  Hypothesis Hmr : (m mod rb = 0)%nat.
  Hypothesis HMq : (M * M < q)%Z.
  Variables p0 p1 : Z.
  Notation P := (p0 + M * p1)%Z.
  Hypothesis Hp0 : (0 <= p0 < M)%Z.
  Hypothesis Hp1 : (0 <= p1 < M)%Z.
  Hypothesis HP : (0 < P)%Z.
  Hypothesis Hq : (M * M * (B + 4) <= q)%Z.
  Hypothesis Hrb2 : (2 <= rb)%nat.
  Variable zr : Fr -> Z.
  Variables tb tL : nat.
  Hypothesis HFr : pfield Fr zr P tb tL.
  Variable two : option K.
  Hypothesis Htwo : two_pow m two = fZ M.
  Notation fv := (fvar (K := K)).
  Notation small := (ModArithProofs.small zval m).
  Notation fval := (ModArithProofs.fval zval m).
  Notation esplit := (ModArithProofs.esplit m).
  Notation V := (PlonkVerifierOps.V (Fr := Fr) zval m).
  Notation st := (PlonkVerifierOps.st rb).
  Notation inb := (PlonkVerifierOps.inb zval m).
  Notation can := (PlonkVerifierOps.can zval m p0 p1).
  Notation uspec := (PlonkVerifierOps.uspec zval m rb).
  Notation nn := (mk_nn m two (fZ P : K) (esplit p0 p1)).
  Notation U_mul := (u_mul zval q nb L HF m rb Hm Hm2 Hrb Hrn Hmr HMq p0 p1 Hp0 Hp1 HP Hq Hrb2 zr tb tL HFr two).
  Notation U_mulc := (u_mulc zval q nb L HF m rb Hm Hm2 Hrb Hrn Hmr HMq p0 p1 Hp0 Hp1 HP Hq Hrb2 zr tb tL HFr two).
  Notation U_add := (u_add zval q nb L HF m rb Hm Hm2 Hrb Hrn Hmr HMq p0 p1 Hp0 Hp1 HP Hq Hrb2 zr tb tL HFr two).
  Notation U_sum := (u_sum zval q nb L HF m rb Hm Hm2 Hrb Hrn Hmr HMq p0 p1 Hp0 Hp1 HP Hq Hrb2 zr tb tL HFr two).
  Notation U_addc := (u_addc_raw zval q nb L HF m rb Hm Hm2 Hrb Hrn Hmr HMq p0 p1 Hp0 Hp1 HP Hq Hrb2 zr tb tL HFr two).
  Notation U_neg := (u_neg zval q nb L HF m rb Hm Hm2 Hrb Hrn Hmr HMq p0 p1 Hp0 Hp1 HP Hq Hrb2 zr tb tL HFr).
  Notation U_hint := (u_hint zval q nb L HF m rb Hm Hm2 Hrb Hrn Hmr HMq p0 p1 Hp0 Hp1 Hq Hrb2 zr tb tL HFr two Htwo).
  Notation U_bind_const := (u_bind_const zval q nb L HF m rb Hm Hm2 Hrb Hrn Hmr HMq p0 p1 two Htwo).
  Notation U_split := (u_split (Fr := Fr) zval q nb L HF m rb Hm Hm2 Hrb Hrn Hmr HMq p0 p1 Hp0 Hp1 Hq Hrb2 two Htwo).
  Notation U_bind_wit := (u_bind_wit zval q nb L HF m rb Hm Hm2 Hrb Hrn Hmr p0 p1 Hp0 Hp1 Hq Hrb2).
  Notation U_eq := (u_eq zval q nb L HF m rb Hm Hm2 Hrb Hrn Hmr p0 p1 Hp0 Hrb2 zr tb tL HFr).
  Notation U_inv := (u_inv zval nb m rb Hm Hm2 Hrb Hrn Hmr Hrb2).
  Notation U_mapM := (u_mapM zval nb m rb Hm Hm2 Hrb Hrn Hmr Hrb2).
  Notation U_fold := (u_fold (Fr := Fr) zval nb m rb Hm Hm2 Hrb Hrn Hmr p0 p1 Hrb2).
  Notation U_pow5 := (u_pow5 zval q nb L HF m rb Hm Hm2 Hrb Hrn Hmr HMq p0 p1 Hp0 Hp1 HP Hq Hrb2 zr tb tL HFr).
  Notation can_one := (PlonkVerifierOps.can_one zval q nb L HF m rb Hm Hm2 Hrb Hrn Hmr p0 p1 HP Hq Hrb2 zr tb tL HFr two Htwo).
  Notation one_val := (PlonkVerifierOps.one_val (Fr := Fr) zval q nb L HF m rb Hm Hm2 Hrb Hrn Hmr p0 p1 Hq Hrb2 two).
  Notation can_le := (PlonkVerifierOps.can_le zval nb m rb Hm Hm2 Hrb Hrn Hmr p0 p1 Hrb2).
  Notation cans_le := (PlonkVerifierOps.cans_le zval nb m rb Hm Hm2 Hrb Hrn Hmr p0 p1 Hrb2).
  Notation hext_le := (PlonkVerifierOps.hext_le rb).
  Notation st_le := (PlonkVerifierOps.st_le rb).
  Notation pin_le := (PlonkVerifierOps.pin_le nb m rb Hm Hm2 Hrb Hrn Hmr Hrb2).
  Notation zr_rng := (PlonkVerifierOps.zr_rng m p0 p1 zr tb tL HFr).
  Notation o_PM := (PlonkVerifierOps.o_PM nb m rb Hm Hm2 Hrb Hrn Hmr p0 p1 Hp0 Hp1 Hrb2).

  (** ** Challenges *)
  Record chok (c : circuit K) (ch : chvar (K := K)) : Prop := mk_chok {
    ck_a1 : can c (cv_a1 ch); ck_a2 : can c (cv_a2 ch); ck_a3 : can c (cv_a3 ch); ck_beta : can c (cv_beta ch);
    ck_gamma : can c (cv_gamma ch); ck_zeta : can c (cv_zeta ch); ck_v : can c (cv_v ch); ck_u : can c (cv_u ch) }.
  Record smallch (w : nat -> K) (ch : chvar (K := K)) : Prop := mk_smallch {
    sc_a1 : small w (cv_a1 ch); sc_a2 : small w (cv_a2 ch); sc_a3 : small w (cv_a3 ch); sc_beta : small w (cv_beta ch);
    sc_gamma : small w (cv_gamma ch); sc_zeta : small w (cv_zeta ch); sc_v : small w (cv_v ch); sc_u : small w (cv_u ch) }.
  Lemma chok_le c c' ch : st c -> le c c' -> chok c ch -> chok c' ch.
  Proof. intros Hs Hl []. constructor; apply (can_le c c' _ Hs Hl); assumption. Qed.
  (** In range, and at most the modulus. *)
  Definition near (c : circuit K) (x : fv) : Prop := inb c x /\ (fval (hon c) x <= P)%Z.
  Lemma near_le c c' x : st c -> le c c' -> near c x -> near c' x.
  Proof.
    intros Hs Hl [A1 A2]. split; [eapply (PlonkVerifierOps.inb_le zval nb m rb); eassumption|].
    rewrite (PlonkVerifierOps.fval_hext zval m c); [exact A2|apply A1|]. apply (hext_le _ _ _ Hs Hl (hext_hon c')).
  Qed.
  Lemma can_near c x : can c x -> near c x.
  Proof. intros [A1 A2]. split; [exact A1|]. clear -A2. lia. Qed.

  Definition both {A A'} (Q : A -> Prop) (Q' : A' -> Prop) (p : A * A') : Prop := Q (fst p) /\ Q' (snd p).
  Lemma both_le c c' l : st c -> le c c' -> Forall (both (can c) (pin c)) l -> Forall (both (can c') (pin c')) l.
  Proof. intros Hs Hl. apply Forall_impl. intros a [H1 H2]. split; [apply (can_le c c' _ Hs Hl H1)|apply (pin_le c c' _ Hl H2)]. Qed.

  (** Everything known of the previous circuit holds of the current one. *)
  Ltac adv c c' Hs Hl := repeat match goal with
    | H : can c ?x |- _ => apply (can_le c c' x Hs Hl) in H
    | H : Forall (can c) ?x |- _ => apply (cans_le c c' x Hs Hl) in H
    | H : chok c ?x |- _ => apply (chok_le c c' x Hs Hl) in H
    | H : Forall (both (can c) (pin c)) ?x |- _ => apply (both_le c c' x Hs Hl) in H
    | H : near c ?x |- _ => apply (near_le c c' x Hs Hl) in H
    | H : pin c ?x |- _ => apply (pin_le c c' x Hl) in H
    | H : Forall (pin c) ?x |- _ => apply (Forall_impl _ (fun p => pin_le c c' p Hl)) in H
    | H : forall w, base w -> hext c w -> @?Q w |- _ =>
        let Q' := eval cbv beta in (forall w, base w -> hext c' w -> Q w) in assert Q' by
          (let w0 := fresh in let Hb0 := fresh in let Hh0 := fresh in
           intros w0 Hb0 Hh0; exact (H w0 Hb0 (hext_le c c' w0 Hs Hl Hh0))); clear H
    end.
  Ltac advg c c' Hl := match goal with H : st c |- _ => adv c c' H Hl end.
  Ltac ub := eapply (u_bind zval nb m rb Hm Hm2 Hrb Hrn Hmr Hrb2); [eassumption| |].
  Ltac ut := eapply (u_then zval nb m rb Hm Hm2 Hrb Hrn Hmr Hrb2); [eassumption| |].
  (** After a call: its result, the new circuit, and what holds there. *)
  Tactic Notation "nx" ident(x) simple_intropattern(R) :=
    match goal with |- forall a c', st c' -> le ?c c' -> _ =>
      let c' := fresh "c" in let Hs' := fresh "Hs" in let Hl := fresh "Hl" in let HH := fresh "HH" in
      intros x c' Hs' Hl; let HR := fresh in intro HR; cbv beta in HR; revert HR; intros R HH; cbv beta in HH;
      match goal with Hs : st c |- _ => adv c c' Hs Hl; clear Hs Hl end
    end.
  (** The same when the result is already named. *)
  Tactic Notation "nx0" simple_intropattern(R) :=
    match goal with |- forall c', st c' -> le ?c c' -> _ =>
      let c' := fresh "c" in let Hs' := fresh "Hs" in let Hl := fresh "Hl" in let HH := fresh "HH" in
      intros c' Hs' Hl; let HR := fresh in intro HR; cbv beta iota in HR; revert HR; intros R HH; cbv beta iota in HH;
      match goal with Hs : st c |- _ => adv c c' Hs Hl; clear Hs Hl end
    end.
  Tactic Notation "nt" :=
    match goal with |- forall c', st c' -> le ?c c' -> _ =>
      let c' := fresh "c" in let Hs' := fresh "Hs" in let Hl := fresh "Hl" in let HH := fresh "HH" in
      intros c' Hs' Hl _ HH; cbv beta in HH;
      match goal with Hs : st c |- _ => adv c c' Hs Hl; clear Hs Hl end
    end.
  Lemma same_r w x y : same w x y -> small w x -> small w y /\ V w x = V w y.
  Proof. intros E Sx. destruct (same_small (Fr := Fr) zval m rb Hrb p0 p1 Hp0 Hp1 w x y E). tauto. Qed.
  (** Use the facts about one assignment. *)
  Ltac usew := repeat match goal with
    | H : small ?w ?x -> _, H' : small ?w ?x |- _ => specialize (H H')
    | H : small _ _ /\ _ |- _ => destruct H
    | H : same ?w ?x ?y, H' : small ?w ?x |- _ => destruct (same_r w x y H H'); clear H
    | H : V _ _ = _ /\ _ |- _ => destruct H
    | H : Forall _ _ /\ _ |- _ => destruct H
    end.
  Ltac vs := repeat match goal with H : V ?w ?o = _ |- context [V ?w ?o] => rewrite H end.
  Ltac wits w Hb Hh := repeat match goal with
    | H : forall w, base w -> hext ?c w -> _ |- _ => specialize (H w Hb Hh); cbv beta in H
    | H : can ?c ?x |- _ => apply (fun H => can_small zval m p0 p1 c w x H Hh) in H
    end.
  Ltac hon := let w := fresh "w" in let Hb := fresh "Hb" in let Hh := fresh "Hh" in
    intros w Hb Hh; wits w Hb Hh; usew.
  (** A fact about the honest assignment that no longer mentions it. *)
  Lemma honest_at (Q : Prop) (c : circuit K) : st c -> (forall w, base w -> hext c w -> Q) -> Q.
  Proof. intros (_ & _ & Hb) H. apply (H (hon c) Hb (hext_hon c)). Qed.
  Add Field Frpve : (fth Fr).

  Definition rawok (c : circuit K) (v : nat) : Prop := (v < num_vars c)%nat /\ (zval (hon c v) < P)%Z.
  Lemma rawok_le c c' v : st c -> le c c' -> rawok c v -> rawok c' v.
  Proof.
    intros Hs Hl [H1 H2]. pose proof (hext_le _ _ _ Hs Hl (hext_hon c') v H1) as E. split.
    - destruct Hl as (d & _ & ->). cbn [capp num_vars]. lia.
    - rewrite E. exact H2.
  Qed.
  Lemma u_challenges c r : st c -> Forall (rawok c) [rc_alpha r; rc_beta r; rc_gamma r; rc_zeta r; rc_u r; rc_v r] ->
    uspec (challenge_var_to_fp_elem_var zval q nb L nn r) c
      (fun w ch => smallch w ch /\ V w (cv_a1 ch) = fZ (zval (w (rc_alpha r))) /\ V w (cv_beta ch) = fZ (zval (w (rc_beta r))) /\
        V w (cv_gamma ch) = fZ (zval (w (rc_gamma r))) /\ V w (cv_zeta ch) = fZ (zval (w (rc_zeta r))) /\
        V w (cv_v ch) = fZ (zval (w (rc_v r))) /\ V w (cv_u ch) = fZ (zval (w (rc_u r))) /\
        V w (cv_a2 ch) = V w (cv_a1 ch) * V w (cv_a1 ch) /\ V w (cv_a3 ch) = V w (cv_a2 ch) * V w (cv_a1 ch))
      (fun ch c' => chok c' ch).
  Proof.
    intros Hs HR. 
    assert (A : forall c c', st c -> le c c' -> Forall (rawok c) [rc_alpha r; rc_beta r; rc_gamma r; rc_zeta r; rc_u r; rc_v r] ->
      Forall (rawok c') [rc_alpha r; rc_beta r; rc_gamma r; rc_zeta r; rc_u r; rc_v r]).
    { clear Hs HR c. intros c c' Hs Hl. apply Forall_impl. intros v. apply rawok_le; auto. }
    unfold challenge_var_to_fp_elem_var.
    Ltac nr x R A := match goal with |- forall a c', st c' -> le ?c c' -> _ =>
      let c' := fresh "c" in let Hs' := fresh "Hs" in let Hl := fresh "Hl" in let HH := fresh "HH" in
      intros x c' Hs' Hl R HH; cbv beta in R; match goal with Hs : st c, HR : Forall (rawok c) _ |- _ => apply (A c c' Hs Hl) in HR; adv c c' Hs Hl; clear Hs Hl HH end end.
    Ltac rk := match goal with HR : Forall (rawok ?c) _ |- rawok ?c _ => rewrite Forall_forall in HR; apply HR; cbn [In]; tauto end.
    assert (X : forall c v, st c -> rawok c v -> uspec (vsplit zval nb nn v) c (fun w o => small w o /\ V w o = fZ (zval (w v))) (fun o c' => can c' o)).
    { intros c0 v Hs0 [H1 H2]. apply U_split; auto. }
    ub; [apply X; [eassumption|rk]|]. nr a R1 A.
    ub; [apply U_mul; eassumption|]. nr a2 R2 A.
    ub; [apply U_mul; eassumption|]. nr a3 R3 A.
    ub; [apply X; [eassumption|rk]|]. nr be R4 A.
    ub; [apply X; [eassumption|rk]|]. nr ga R5 A.
    ub; [apply X; [eassumption|rk]|]. nr ze R6 A.
    ub; [apply X; [eassumption|rk]|]. nr u R7 A.
    ub; [apply X; [eassumption|rk]|]. nr v R8 A.
    apply u_ret.
    - intros w Hb. cbv beta. cbn [cv_a1 cv_a2 cv_a3 cv_beta cv_gamma cv_zeta cv_v cv_u]. intros. usew. split; [constructor; assumption|]. tauto.
    - constructor; assumption.
  Qed.

  (** ** Powers of the evaluation point *)
  Lemma u_squarings c zeta k : st c -> can c zeta ->
    uspec (foldM (fun x _ => vmul zval q nb L nn x x) zeta (seq 0 k)) c
      (fun w o => small w zeta -> small w o /\ V w o = fpow (V w zeta) (2 ^ k)) (fun o c' => can c' o).
  Proof.
    intros Hs Hz.
    eapply u_weaken; [apply (U_fold (fun x _ => vmul zval q nb L nn x x) (fun _ _ => True) (fun _ x _ => x * x)); auto| |auto].
    - intros acc x c' _ Hs' _ Ha. eapply u_weaken; [apply U_mul; assumption| |auto]. intros w o _ H Sa _. auto.
    - intros w o _ H Sz. cbv beta in H. destruct (H Sz) as [S1 E1]; [apply Forall_forall; auto|]. split; auto. rewrite E1.
      assert (G : forall l x, fold_left (fun (a : Fr) (_ : nat) => a * a) l x = fpow x (2 ^ length l)).
      { induction l as [|y l IH]; intro x; cbn [fold_left length]; [cbn; ring|]. rewrite IH.
        replace (2 ^ S (length l))%nat with (2 * 2 ^ length l)%nat by (cbn; lia). rewrite fpow_mul.
        f_equal. cbn [fpow]. ring. }
      rewrite G, seq_length. reflexivity.
  Qed.
  Lemma fr_one_lt : (0 <= 1 < P)%Z.
  Proof.
    destruct (Z.eq_dec P 1) as [E1|]; [|lia]. exfalso. apply (f1_neq_0 Fr).
    rewrite <- (pf_fZ _ _ _ _ _ HFr 1), <- (pf_fZ _ _ _ _ _ HFr 0). f_equal.
    pose proof (zr_rng (1 : Fr)). pose proof (zr_rng (0 : Fr)). lia.
  Qed.
  Lemma u_helper c zeta n k : st c -> can c zeta -> n = (2 ^ k)%nat -> (Z.of_nat n < P)%Z -> (fnat n : Fr) <> 0 ->
    (forall w, base w -> hext c w -> fpow (V w zeta) n <> 1) ->
    uspec (evaluate_poly_helper zval q nb L zr nn zeta n) c
      (fun w o => let '(zn, zm, l1) := o in small w zeta -> small w zn /\ small w zm /\ small w l1 /\
        V w zn = fpow (V w zeta) n /\ V w zm = V w zn - 1 /\ fnat n * (V w zeta - 1) * V w l1 = V w zm)
      (fun o c' => let '(zn, zm, l1) := o in can c' zn /\ can c' zm /\ can c' l1).
  Proof.
    intros Hs Hz -> HnP Hn0 Hne. pose proof o_PM as HPM. pose proof fr_one_lt as H1P. unfold evaluate_poly_helper.
    apply U_bind_const; [lia|]. intros ne He.
    apply U_bind_wit; [assumption|apply Hz|]. intros z Ez.
    assert (Hh : forall w, base w -> hext c w -> V w zeta = z) by (intros; auto). clear Ez.
    unfold squarings. rewrite Nat.log2_up_pow2 by lia.
    ub; [apply u_squarings; assumption|]. nx zn R1.
    apply U_bind_wit; [assumption|apply R1|]. intros znr Ez'.
    assert (Hh' : forall w, base w -> hext c0 w -> V w zn = znr) by (intros; auto). clear Ez'.
    ub; [apply U_hint; assumption|]. nx zm [R2 R2'].
    assert (Hh2 : forall w, base w -> hext c1 w -> V w zm = znr - 1) by (intros; auto). clear R2'.
    replace (1 : K) with (fZ 1 : K) by apply fZ_1.
    apply U_bind_const; [lia|]. intros one Ho.
    ub; [eapply U_addc; [assumption..|exact Ho|lia]|]. nx rec R3.
    ut; [apply U_eq; [assumption..|]|].
    { hon. vs. rewrite fZ_1. ring. }
    nt.
    rewrite (to_of_r zval q nb L HF m rb Hm Hm2 Hrb Hrn Hmr p0 p1 Hp0 Hp1 Hq Hrb2 zr tb tL HFr).
    assert (Hz1 : z <> 1).
    { eapply honest_at; [eassumption|]. hon. intro E. subst z.
      match goal with H : fpow _ _ <> 1 |- _ => apply H end. vs. apply fpow_1. }
    apply u_bind_div.
    { apply fmul_neq_0; [rewrite fZ_nat; exact Hn0|]. intro E. apply Hz1. now apply fsub_0_eq. }
    ub; [apply U_hint; assumption|]. nx l1 [R4 R4'].
    match goal with Hs : st ?c |- _ => assert (Hh3 : forall w, base w -> hext c w -> V w l1 = (znr - 1) * finv (fZ (Z.of_nat (2 ^ k)) * (z - 1))) by (intros; auto) end. clear R4'.
    ub; [apply U_hint; assumption|]. nx zm1 [R5 R5'].
    match goal with Hs : st ?c |- _ => assert (Hh4 : forall w, base w -> hext c w -> V w zm1 = z - 1) by (intros; auto) end. clear R5'.
    ub; [eapply U_addc; [assumption..|exact Ho|lia]|]. nx rec' R6.
    ut; [apply U_eq; [assumption..|]|].
    { hon. vs. rewrite fZ_1. ring. }
    nt.
    ub; [eapply U_mulc; [assumption..|exact He|assumption]|]. nx lf R7.
    ub; [apply U_mul; assumption|]. nx lf' R8.
    ut; [apply U_eq; [assumption..|]|].
    { hon. vs. rewrite !fZ_nat. field. split; [|exact Hn0]. intro E. apply Hz1. now apply fsub_0_eq. }
    nt.
    apply u_ret; [|auto].
    intros w Hb. cbv beta. rewrite !fZ_1, fZ_nat. intros Q1 Q2 Q3 Q4 Q5 Q6 Q7 Q8 Q9 Q10 Q11 Sz.
    usew. do 4 (split; [assumption|]). assert (E1 : V w zm = V w zn - 1) by (transitivity (V w zm + 1 - 1); [ring|congruence]).
    split; [exact E1|].
    assert (E2 : V w zeta - 1 = V w zm1) by (transitivity (V w zm1 + 1 - 1); [congruence|ring]). rewrite E2.
    transitivity (V w l1 * fnat (2 ^ k) * V w zm1); [ring|congruence].
  Qed.

  (** ** Lagrange polynomials and public inputs *)
  Lemma u_lagrange c zeta vanish z vr vi gi : st c -> can c zeta -> can c vanish -> z <> gi ->
    (forall w, base w -> hext c w -> V w zeta = z) -> (forall w, base w -> hext c w -> V w vanish = vr) ->
    uspec (lagrange_eval zval q nb L zr nn zeta vanish z vr vi gi) c
      (fun w o => small w zeta -> small w vanish -> small w o /\ V w o * (V w zeta - gi) = V w vanish * vi) (fun o c' => can c' o).
  Proof.
    intros Hs Hz Hv Hne Ez Ev. pose proof o_PM as HPM. pose proof (zr_rng vi) as Rv. pose proof (zr_rng gi) as Rg. unfold lagrange_eval.
    unfold of_r. apply U_bind_const; [lia|]. intros vie Hvi. apply U_bind_const; [lia|]. intros gie Hgi.
    assert (Hne' : z - gi <> 0) by (intro E; apply Hne; now apply fsub_0_eq).
    apply u_bind_div; [exact Hne'|].
    ub; [apply U_hint; assumption|]. nx zg [R1 R1'].
    match goal with Hs : st ?c |- _ => assert (Hh1 : forall w, base w -> hext c w -> V w zg = z - gi) by (intros; auto) end. clear R1'.
    ub; [eapply U_addc; [assumption..|exact Hgi|lia]|]. nx rec R2.
    ut; [apply U_eq; [assumption..|]|].
    { hon. vs. rewrite (pf_fZ _ _ _ _ _ HFr). ring. }
    nt.
    ub; [apply U_hint; assumption|]. nx ev [R3 R3'].
    match goal with Hs : st ?c |- _ => assert (Hh2 : forall w, base w -> hext c w -> V w ev = vr * vi * finv (z - gi)) by (intros; auto) end. clear R3'.
    ub; [apply U_mul; assumption|]. nx lf R4.
    ub; [eapply U_mulc; [assumption..|exact Hvi|lia]|]. nx rg R5.
    ut; [apply U_eq; [assumption..|]|].
    { hon. vs. rewrite (pf_fZ _ _ _ _ _ HFr). field. exact Hne'. }
    nt.
    apply u_ret; [|assumption].
    intros w Hb. cbv beta. rewrite !(pf_fZ _ _ _ _ _ HFr). intros. usew. split; [assumption|].
    assert (E2 : V w zeta - gi = V w zg) by (transitivity (V w zg + gi - gi); [congruence|ring]). rewrite E2. congruence.
  Qed.
  Lemma mapM_pure {A A'} (f : A -> circ K A') (g : A -> A') l c : (forall a, In a l -> f a c = (Ok (g a), c)) -> mapM f l c = (Ok (map g l), c).
  Proof.
    induction l as [|a l IH]; intro H; [reflexivity|]. cbn [mapM map]. unfold cbind. rewrite H by now left. rewrite IH by (intros; apply H; now right). reflexivity.
  Qed.
  Lemma map_combine_nth (a b : list Fr) : forall len, length b = len -> (len <= length a)%nat ->
    map (fun vl => snd vl * fst vl) (combine a b) = map (fun i => nth i b 0 * nth i a 0) (seq 0 len).
  Proof.
    revert a. induction b as [|y b IH]; intros a len <- H; [now destruct a|]. destruct a as [|x a]; [cbn in H; lia|].
    cbn [combine map length seq fst snd nth]. f_equal. rewrite <- seq_shift, map_map, (IH a (length b)); cbn in *; auto; lia.
  Qed.
  Lemma fsum_concat (l : list (list Fr)) : fsum (concat l) = fsum (map fsum l).
  Proof. induction l as [|x l IH]; [reflexivity|]. cbn [concat map]. rewrite fsum_app, fsum_cons. now rewrite IH. Qed.

  Section Domain.
    Variable radix2 : nat -> option (dom Fr).
    Variable d : dom Fr.
    Variable k : nat.
    Notation n := (dsize d).
    Hypothesis Hd : dom_ok Fr d.
    Hypothesis Hn : n = (2 ^ k)%nat.
    Hypothesis HnP : (Z.of_nat n < P)%Z.
    Hypothesis Hr2 : radix2 n = Some d.

    Lemma lagv_of x ev (i : nat) : fpow x n <> 1 -> ev * (x - dom_element Fr d i) = (fpow x n - 1) * (dom_element Fr d i * finv (fZ (Z.of_nat n))) ->
      ev = lagv Fr d 1 i x.
    Proof.
      intros Hx E. assert (Hne : x - fpow (dgen d) i <> 0).
      { intro E0. apply fsub_0_eq in E0. apply Hx. rewrite E0. apply wpow_n. exact Hd. }
      pose proof (do_inv _ _ Hd) as Hn0. unfold dom_element in E. rewrite fZ_nat in E.
      pose proof (lagv_mul Fr d Hd 1 (f1_neq_0 Fr) i x) as E'. rewrite fpow_1 in E'.
      apply (fmul_cancel_l _ (fnat n * (x - fpow (dgen d) i))); [apply fmul_neq_0; assumption|].
      transitivity (fnat n * 1 * (x - 1 * fpow (dgen d) i) * lagv Fr d 1 i x); [|ring]. rewrite E'.
      transitivity (fnat n * (ev * (x - fpow (dgen d) i))); [ring|]. rewrite E. field. exact Hn0.
    Qed.
    Lemma u_pi c pi zeta vanish : st c -> can c zeta -> can c vanish -> Forall (can c) pi ->
      (length pi / 2 <= n)%nat -> (Z.of_nat (2 * (length pi / 2)) <= B)%Z ->
      (forall w, base w -> hext c w -> fpow (V w zeta) n <> 1) ->
      uspec (evaluate_pi_poly_circuit zval q nb L zr radix2 nn n pi zeta vanish true) c
        (fun w o => small w zeta -> small w vanish -> Forall (small w) pi -> V w vanish = fpow (V w zeta) n - 1 -> fpow (V w zeta) n <> 1 ->
          small w o /\ evaluate_pi_poly Fr d (map (V w) pi) (V w zeta) true = Ok (V w o)) (fun o c' => can c' o).
    Proof.
      intros Hs Hz Hv Hpi Hlen HlB Hne. unfold evaluate_pi_poly_circuit. cbn [negb]. set (len := (length pi / 2)%nat) in *.
      assert (Hlen2 : (2 * len <= length pi)%nat) by (unfold len; pose proof (Nat.mul_div_le (length pi) 2); lia).
      apply U_bind_wit; [assumption|apply Hz|]. intros z Ez. assert (Hh : forall w, base w -> hext c w -> V w zeta = z) by auto. clear Ez.
      apply U_bind_wit; [assumption|apply Hv|]. intros vr Ez. assert (Hh' : forall w, base w -> hext c w -> V w vanish = vr) by auto. clear Ez.
      rewrite Hr2. eapply u_bind_pure; [reflexivity|].
      eapply u_bind_pure; [apply (mapM_pure _ (fun i => dom_element Fr d i * finv (fZ (Z.of_nat n))))|].
      { intros i _. unfold rdiv. rewrite (proj2 (feqb_neq Fr _ 0)); [reflexivity|]. rewrite fZ_nat. apply (do_inv _ _ Hd). }
      destruct (Nat.ltb_spec n len); [lia|].
      assert (Hz0 : fpow z n <> 1).
      { eapply honest_at; [eassumption|]. hon. subst z. assumption. }
      ub; [apply (U_mapM _ (fun i w o => small w zeta -> small w vanish -> small w o /\
            (V w vanish = fpow (V w zeta) n - 1 -> fpow (V w zeta) n <> 1 -> V w o = lagv Fr d 1 i (V w zeta))) (fun _ o c' => can c' o))|].
      { assumption. } { intros _ o c' c'' A1 A2 A3. apply (can_le c' c''); assumption. }
      { intros i c' Hi Hs' Hl. adv c c' Hs Hl. assert (Hin : (i < n)%nat) by (apply in_app_or in Hi as [Hi|Hi]; apply in_seq in Hi; lia).
        apply u_bind_idx with (a := dom_element Fr d i * finv (fZ (Z.of_nat n))).
        { rewrite nth_error_map. replace (nth_error (seq 0 n) i) with (Some i); [reflexivity|]. symmetry.
          rewrite (nth_error_nth' _ 0%nat) by (rewrite seq_length; exact Hin). now rewrite seq_nth. }
        eapply u_weaken; [apply u_lagrange; try assumption| |auto].
        - intro E. apply Hz0. rewrite E. unfold dom_element. apply wpow_n. exact Hd.
        - intros w o _ H' S1 S2. cbv beta in H'. destruct (H' S1 S2) as [S3 E]. split; [assumption|]. intros E1 E2. apply lagv_of; [assumption|]. rewrite E, E1. reflexivity. }
      match goal with |- forall a c', st c' -> le ?c c' -> _ => intros ls c1 Hs1 Hl1 Rls HH; adv c c1 Hs Hl1 end. cbv beta in Rls.
      assert (Lls : length ls = (2 * len)%nat).
      { transitivity (length (seq 0 len ++ seq (n - len) len)); [symmetry; eapply Forall2_length'; eassumption|rewrite app_length, !seq_length; lia]. }
      assert (Cls : Forall (can c1) ls) by (eapply Forall2_r; [exact Rls|auto]).
      clear Rls HH Hs Hl1.
      set (one := vone nn) in *.
      ub; [apply (U_mapM _ (fun i w t => Forall (small w) ls -> Forall (small w) pi -> Forall (small w) t /\
            fsum (map (V w) t) = V w (nth i ls one) * V w (nth i pi one) + V w (nth (2 * len - i - 1) ls one) * V w (nth (len + i) pi one))
          (fun _ t c' => Forall (can c') t /\ length t = 2%nat))|].
      { assumption. } { intros _ o c' c'' A1 A2 [A3 A4]. split; [apply (cans_le c' c''); assumption|assumption]. }
      { intros i c' Hi Hs' Hl. adv c1 c' Hs1 Hl. apply in_seq in Hi.
        assert (I : forall (l : list fv) j, (j < length l)%nat -> nth_error l j = Some (nth j l one)) by (intros; apply nth_error_nth'; assumption).
        assert (J : forall (l : list fv) j, (j < length l)%nat -> Forall (can c') l -> can c' (nth j l one)) by (intros l j Hj HFl; rewrite Forall_forall in HFl; apply HFl, nth_In; assumption).
        assert (J' : forall w (l : list fv) j, (j < length l)%nat -> Forall (small w) l -> small w (nth j l one)) by (intros w l j Hj HFl; rewrite Forall_forall in HFl; apply HFl, nth_In; assumption).
        assert (J1 := J ls i ltac:(lia) Cls). assert (J2 := J pi i ltac:(lia) Hpi).
        assert (J3 := J ls (2 * len - i - 1)%nat ltac:(lia) Cls). assert (J4 := J pi (len + i)%nat ltac:(lia) Hpi).
        eapply u_bind_idx; [apply I; lia|]. eapply u_bind_idx; [apply I; lia|].
        ub; [apply U_mul; assumption|]. nx t1 R1.
        eapply u_bind_idx; [apply I; lia|]. eapply u_bind_idx; [apply I; lia|].
        ub; [apply U_mul; assumption|]. nx t2 R2.
        apply u_ret.
        - intros w Hb. cbv beta. intros Q2 Q1 Sl Sp.
          destruct Q1 as [S1 E1]; [apply J'; [lia|assumption]..|]. destruct Q2 as [S2 E2]; [apply J'; [lia|assumption]..|].
          split; [constructor; [assumption|constructor; [assumption|constructor]]|]. cbn [map]. rewrite !fsum_cons, E1, E2. change (fsum ([] : list Fr)) with (0 : Fr). ring.
        - split; [constructor; [assumption|constructor; [assumption|constructor]]|reflexivity]. }
      match goal with |- forall a c', st c' -> le ?c c' -> _ => intros ts c2 Hs2 Hl2 Rts HH; adv c1 c2 Hs1 Hl2 end. cbv beta in Rts.
      assert (Cts : Forall (can c2) (concat ts)) by (apply Forall_concat'; eapply Forall2_r; [exact Rts|]; intros i t [A _]; exact A).
      assert (Lts : length (concat ts) = (2 * len)%nat).
      { rewrite concat_length2; [|eapply Forall2_r; [exact Rts|]; intros i t [_ A]; exact A].
        rewrite <- (Forall2_length' _ _ _ Rts), seq_length. lia. }
      eapply u_weaken; [apply U_sum; [assumption..|lia]| |auto].
      intros w o Hb [So Eo] Q1 Q2 Sz Sv Sp EV Hw1. cbv beta in *.
      assert (Q2' : Forall2 (fun i o => small w o /\ V w o = lagv Fr d 1 i (V w zeta)) (seq 0 len ++ seq (n - len) len) ls).
      { eapply f2_impl; [|exact Q2]. intros i x Hx. cbv beta in Hx. destruct (Hx Sz Sv) as [A1 A2]. auto. }
      assert (Sls : Forall (small w) ls) by (eapply Forall2_r; [exact Q2'|]; intros i t [A _]; exact A).
      assert (Q1' : Forall2 (fun i t => Forall (small w) t /\ fsum (map (V w) t) = V w (nth i ls one) * V w (nth i pi one) + V w (nth (2 * len - i - 1) ls one) * V w (nth (len + i) pi one))
        (seq 0 len) ts).
      { eapply f2_impl; [|exact Q1]. intros i x Hx. cbv beta in Hx. auto. }
      assert (Sts : Forall (small w) (concat ts)) by (apply Forall_concat'; eapply Forall2_r; [exact Q1'|]; intros i t [A _]; exact A).
      split; [exact So|]. rewrite (Eo Sts). unfold evaluate_pi_poly. rewrite map_length. fold len.
      rewrite !(range_coeffs Fr d Hd 1 (f1_neq_0 Fr)) by lia. cbn [bind].
      destruct (Nat.ltb_spec n len); [lia|]. cbn [bind]. f_equal. rewrite Nat.sub_0_r. replace (n - (n - len))%nat with len by lia.
      rewrite (map_combine_nth _ _ len) by (rewrite ?map_length, ?seq_length, ?firstn_length, ?map_length; lia).
      rewrite (map_combine_nth _ _ len) by (rewrite ?rev_length, ?map_length, ?seq_length, ?skipn_length, ?map_length; lia).
      rewrite <- fsum_map_add. rewrite concat_map, fsum_concat, map_map.
      assert (Em : map (fun t => fsum (map (V w) t)) ts = map (fun i => V w (nth i ls one) * V w (nth i pi one) + V w (nth (2 * len - i - 1) ls one) * V w (nth (len + i) pi one)) (seq 0 len)).
      { clear -Q1'. induction Q1' as [|i t l ts [_ E] _ IH]; [reflexivity|]. cbn [map]. now rewrite E, IH. }
      rewrite Em. symmetry. apply fsum_map_ext. intros i Hi. apply in_seq in Hi.
      assert (Els : forall j, (j < 2 * len)%nat -> V w (nth j ls one) = lagv Fr d 1 (nth j (seq 0 len ++ seq (n - len) len) 0%nat) (V w zeta)).
      { intros j Hj. pose proof (Forall2_nth' _ _ _ 0%nat one j Q2' ltac:(rewrite app_length, !seq_length; lia)) as [_ E]. exact E. }
      rewrite !Els by lia. rewrite (app_nth1 (seq 0 len)) by (rewrite seq_length; lia). rewrite (app_nth2 (seq 0 len)) by (rewrite seq_length; lia).
      rewrite seq_length, !seq_nth by lia.
      assert (Ep : forall j, (j < length pi)%nat -> nth j (map (V w) pi) 0 = V w (nth j pi one)).
      { intros j Hj. rewrite (nth_indep _ 0 (V w one)) by (rewrite map_length; lia). apply map_nth. }
      f_equal.
      - f_equal.
        + rewrite (nth_indep _ 0 (lagv Fr d 1 0 (V w zeta))) by (rewrite map_length, seq_length; lia). rewrite map_nth with (f := fun i => lagv Fr d 1 i (V w zeta)), seq_nth by lia. reflexivity.
        + rewrite nth_firstn'. rewrite Ep by lia. reflexivity. all: try lia.
      - f_equal.
        + rewrite rev_nth by (rewrite map_length, seq_length; lia). rewrite map_length, seq_length.
          rewrite (nth_indep _ 0 (lagv Fr d 1 0 (V w zeta))) by (rewrite map_length, seq_length; lia). rewrite map_nth with (f := fun i => lagv Fr d 1 i (V w zeta)), seq_nth by lia.
          f_equal. lia.
        + rewrite nth_skipn'. rewrite Ep by lia. reflexivity.
    Qed.
  End Domain.

  (** ** Products over wires *)
  Lemma fold_prod {A} (f : A -> Fr) l : forall a, fold_left (fun acc x => acc * f x) l a = a * fprod (map f l).
  Proof.
    induction l as [|x l IH]; intro a; cbn [fold_left map]; [unfold fprod; cbn; ring|]. rewrite IH, fprod_cons. ring.
  Qed.
  Lemma combine_map2 {A A' B1 B2} (f : A -> B1) (g : A' -> B2) l : forall l', combine (map f l) (map g l') = map (fun p => (f (fst p), g (snd p))) (combine l l').
  Proof. induction l as [|x l IH]; intros [|y l']; cbn [map combine]; auto. cbn [fst snd]. now rewrite IH. Qed.
  Lemma firstn_map' {A A'} (f : A -> A') k l : firstn k (map f l) = map f (firstn k l).
  Proof. revert l. induction k as [|k IH]; intros [|x l]; cbn [firstn map]; auto. now rewrite IH. Qed.
  Lemma Forall_firstn' {A} (Q : A -> Prop) k l : Forall Q l -> Forall Q (firstn k l).
  Proof. revert k. induction l as [|x l IH]; intros [|k] H; cbn [firstn]; auto. inversion H; subst. constructor; auto. Qed.
  Lemma Forall_both {A A'} (Q : A -> Prop) (Q' : A' -> Prop) l : forall l', Forall Q l -> Forall Q' l' -> Forall (both Q Q') (combine l l').
  Proof. induction l as [|x l IH]; intros [|y l'] H H'; cbn [combine]; auto. inversion H; inversion H'; subst. constructor; auto. split; assumption. Qed.
  Lemma Bthree : (3 <= B)%Z.
  Proof. change B with (2 ^ Z.of_nat rb)%Z. transitivity (2 ^ 2)%Z; [lia|]. apply Z.pow_le_mono_r; lia. Qed.
  Lemma u_sum3 c x y z : st c -> can c x -> can c y -> can c z ->
    uspec (vsum zval q nb L nn [x; y; z]) c (fun w o => small w o /\ (small w x -> small w y -> small w z -> V w o = V w x + V w y + V w z)) (fun o c' => can c' o).
  Proof.
    intros Hs Hx Hy Hz. pose proof Bthree. eapply u_weaken; [apply U_sum; [assumption| |cbn [length]; lia]| |auto].
    - constructor; [assumption|constructor; [assumption|constructor; [assumption|constructor]]].
    - intros w o _ [So E]. split; [assumption|]. intros. rewrite E by (constructor; [assumption|constructor; [assumption|constructor; [assumption|constructor]]]).
      cbn [map]. rewrite !fsum_cons. change (fsum ([] : list Fr)) with (0 : Fr). ring.
  Qed.
  Lemma u_add' c x y : st c -> near c x -> can c y ->
    uspec (vadd zval q nb L nn x y) c (fun w o => small w o /\ (small w x -> small w y -> V w o = V w x + V w y)) (fun o c' => can c' o).
  Proof. intros Hs [H1 H2] Hy. apply U_add; assumption. Qed.
  (** A product of sums, each of which a circuit computes. *)
  Lemma u_prods {A} (f : A -> circ K fv) (G : (nat -> K) -> Prop) (T : (nat -> K) -> A -> Fr) l acc c : st c -> can c acc ->
    (forall x c', In x l -> st c' -> le c c' -> uspec (f x) c' (fun w o => G w -> small w o /\ V w o = T w x) (fun o c' => can c' o)) ->
    uspec (foldM (fun p x => s <- f x ;; vmul zval q nb L nn p s) acc l) c
      (fun w o => small w acc -> G w -> small w o /\ V w o = V w acc * fprod (map (T w) l)) (fun o c' => can c' o).
  Proof.
    intros Hs Ha Hf. eapply u_weaken; [apply (U_fold _ (fun w _ => G w) (fun w a x => a * T w x)); [assumption..|]| |auto].
    - intros a x c' Hx Hs' Hl Ha'. ub; [apply Hf; assumption|]. nx s R1.
      eapply u_weaken; [apply U_mul; assumption| |auto]. intros w o _ H1 H2 Sa HG. cbv beta in *. destruct (H2 HG) as [S1 E1]. destruct (H1 Sa S1) as [S2 E2].
      split; [assumption|]. rewrite E2, E1. reflexivity.
    - intros w o _ H Sa HG. cbv beta in H. destruct (H Sa) as [S1 E1]; [apply Forall_forall; auto|]. split; [assumption|]. rewrite E1. apply fold_prod.
  Qed.

  (** ** One instance of the constant term *)
  Definition evl (pe : pevar (K := K)) : list fv := ev_wires pe ++ ev_sigmas pe ++ [ev_next pe].
  Lemma evl_split {pe : pevar (K := K)} (Q : fv -> Prop) : Forall Q (evl pe) -> Forall Q (ev_wires pe) /\ Forall Q (ev_sigmas pe) /\ Q (ev_next pe).
  Proof.
    unfold evl. intro H. apply Forall_app in H as [H1 H]. apply Forall_app in H as [H2 H]. inversion H; subst. auto.
  Qed.
  Lemma idx_in {A} (l : list A) i : (i < length l)%nat -> exists a, nth_error l i = Some a /\ In a l.
  Proof. intro H. destruct (nth_error l i) as [a|] eqn:E; [|apply nth_error_None in E; lia]. exists a. split; auto. eapply nth_error_In; eauto. Qed.
  Definition pvals (w : nat -> K) (ch : chvar (K := K)) (l : list (fv * fv)) : Fr :=
    fprod (map (fun ws => V w (fst ws) + V w (cv_beta ch) * V w (snd ws) + V w (cv_gamma ch)) l).
  Lemma u_perm c ch l acc : st c -> chok c ch -> Forall (both (can c) (can c)) l -> can c acc ->
    uspec (foldM (fun prod ws =>
                 bs <- vmul zval q nb L nn (cv_beta ch) (snd ws) ;;
                 sum <- vsum zval q nb L nn [fst ws; bs; cv_gamma ch] ;;
                 vmul zval q nb L nn prod sum) acc l) c
      (fun w o => small w acc -> smallch w ch -> Forall (both (small w) (small w)) l -> small w o /\ V w o = V w acc * pvals w ch l) (fun o c' => can c' o).
  Proof.
    intros Hs Hch Hl Ha. eapply u_weaken; [apply (U_fold _ (fun w ws => smallch w ch /\ both (small w) (small w) ws)
      (fun w a ws => a * (V w (fst ws) + V w (cv_beta ch) * V w (snd ws) + V w (cv_gamma ch)))); [assumption..|]| |auto].
    - intros a x c' Hx Hs' Hle Ha'. rewrite Forall_forall in Hl. destruct (Hl _ Hx) as [Hx1 Hx2]. adv c c' Hs Hle. pose proof (ck_beta _ _ Hch). pose proof (ck_gamma _ _ Hch).
      ub; [apply U_mul; assumption|]. nx bs R1. ub; [apply u_sum3; assumption|]. nx sum R2.
      eapply u_weaken; [apply U_mul; assumption| |auto]. intros w o _ Q1 Q2 Q3 Sa [HS [S1 S2]]. cbv beta in *.
      pose proof (sc_beta _ _ HS). pose proof (sc_gamma _ _ HS). usew. split; [assumption|]. vs. reflexivity.
    - intros w o _ H Sa HS HG. cbv beta in H. destruct (H Sa) as [S1 E1]; [eapply Forall_impl; [|exact HG]; auto|]. split; [assumption|]. rewrite E1. apply fold_prod.
  Qed.
  Lemma u_const_instance c ch pi l1a2 pir l1r pe b : st c -> chok c ch -> can c pi -> can c l1a2 -> Forall (can c) (evl pe) -> can c b ->
    (5 <= length (ev_wires pe))%nat -> (forall w, base w -> hext c w -> V w pi = pir) -> (forall w, base w -> hext c w -> V w l1a2 = l1r) ->
    uspec (lin_const_instance_circuit zval q nb L zr nn ch pi l1a2 pir l1r pe (Some b)) c
      (fun w o => smallch w ch -> small w pi -> small w l1a2 -> Forall (small w) (evl pe) -> small w b ->
        small w o /\ V w o = V w b * (V w pi - V w l1a2 -
          V w (cv_a1 ch) * V w (ev_next pe) * (V w (cv_gamma ch) + V w (nth 4 (ev_wires pe) (ev_next pe))) * pvals w ch (combine (firstn 4 (ev_wires pe)) (ev_sigmas pe))))
      (fun o c' => can c' o).
  Proof.
    intros Hs Hch Hpi Hl1 Hev Hb H5 Epi El1. unfold lin_const_instance_circuit.
    destruct (Nat.ltb_spec (length (ev_wires pe)) 4); [lia|]. eapply u_bind_pure; [reflexivity|].
    destruct (evl_split _ Hev) as (Hw & Hsg & Hnx). pose proof (can_one c Hs) as H1.
    ub; [apply u_perm; [assumption..| |assumption]|]. { apply Forall_both; [apply Forall_firstn'|]; assumption. }
    nx prod R1. apply u_bind_idx with (a := nth 4 (ev_wires pe) (ev_next pe)); [apply nth_error_nth'; lia|].
    set (w4 := nth 4 (ev_wires pe) (ev_next pe)). assert (H4 : In w4 (ev_wires pe)) by (apply nth_In; lia).
    match goal with Hs : st ?c |- _ => assert (C4 : can c w4) by (rewrite Forall_forall in Hw; auto) end.
    pose proof (ck_gamma _ _ Hch). pose proof (ck_a1 _ _ Hch). pose proof (can_near _ _ C4).
    ub; [apply u_add'; assumption|]. nx t1 R2. ub; [apply U_mul; assumption|]. nx t2 R3. ub; [apply U_mul; assumption|]. nx t3 R4. ub; [apply U_mul; assumption|]. nx t4 R5.
    apply U_bind_wit; [assumption|apply R5|]. intros tr Etr.
    match goal with Hs : st ?c |- _ => assert (Hh : forall w, base w -> hext c w -> V w t4 = tr) by auto end. clear Etr.
    ub; [apply U_hint; assumption|]. nx r [R6 R6'].
    match goal with Hs : st ?c |- _ => assert (Hh2 : forall w, base w -> hext c w -> V w r = pir - l1r - tr) by (intros; auto) end. clear R6'.
    match goal with Hs : st ?c |- _ => pose proof (can_near c r R6) end.
    ub; [apply u_add'; assumption|]. nx le1 R7.
    match goal with Hs : st ?c |- _ => pose proof (can_near c le1 R7) end.
    ub; [apply u_add'; assumption|]. nx le2 R8.
    ut; [apply U_eq; [assumption..|]|].
    { hon. match goal with H : V _ le2 = _ |- _ => rewrite H end. match goal with H : V _ le1 = _ |- _ => rewrite H end.
      repeat match goal with H : V ?w ?x = ?y |- context [V ?w ?x] => is_var y; rewrite H end. vs. ring. }
    nt.
    eapply u_bind_pure; [reflexivity|].
    eapply u_weaken; [apply U_mul; assumption| |auto].
    intros w o Hbw Q0 Q1 Q2 Q3 Q4 Q5 Q6 Q7 Q8 Q9 Sch Spi Sl1 Sev Sb. cbv beta in *.
    destruct (evl_split _ Sev) as (Sw & Ssg & Snx). assert (S4 : small w w4) by (rewrite Forall_forall in Sw; auto).
    pose proof (sc_gamma _ _ Sch). pose proof (sc_a1 _ _ Sch). destruct (one_val w Hbw) as [So1 E1].
    match goal with H : small w (vone _) -> _ |- _ => destruct (H So1 Sch) as [Sp Ep]; [apply Forall_both; [apply Forall_firstn'|]; assumption|] end.
    usew. split; [assumption|].
    assert (Er : V w r = V w pi - V w l1a2 - V w t4) by (match goal with H1 : V w le2 = _ + _, H2 : V w le1 = _ + _, H3 : V w le2 = V w pi |- _ => rewrite <- H3, H1, H2; ring end).
    transitivity (V w b * V w r); [assumption|]. rewrite Er. f_equal. f_equal. f_equal. vs. ring.
  Qed.

  (** ** Values under an assignment, as the off-circuit verifier sees them *)
  Definition pe_at (w : nat -> K) (pe : pevar (K := K)) : proof_evals Fr := mk_pe Fr (map (V w) (ev_wires pe)) (map (V w) (ev_sigmas pe)) (V w (ev_next pe)).
  Definition ch_at (w : nat -> K) (ch : chvar (K := K)) : challenges Fr :=
    mk_ch Fr None (V w (cv_a1 ch)) (V w (cv_beta ch)) (V w (cv_gamma ch)) (V w (cv_zeta ch)) (V w (cv_v ch)) (V w (cv_u ch)).
  Section Outer.
    Variables V1 V2 : vsp Fr.
    (** The group element that a pair of coordinates stands for. *)
    Variable dec : K -> K -> V1.
    Definition Dp (w : nat -> K) (p : pvar) : V1 := dec (w (fst p)) (w (snd p)).
    Variable ok : vparam Fr V1 V2.
    Definition vk_at (w : nat -> K) (vk : vkvar (Fr := Fr)) : vkey Fr V1 V2 :=
      mk_vkey Fr V1 V2 (kv_n vk) (kv_inputs vk) (map (Dp w) (kv_sigmas vk)) (map (Dp w) (kv_sels vk)) (kv_k vk) ok (kv_merged vk) None.
    Definition b_at (w : nat -> K) (b : bproofvar (K := K)) : batch_proof Fr V1 :=
      mk_bp Fr V1 (map (map (Dp w)) (bv_wires b)) (map (Dp w) (bv_perms b)) (map (pe_at w) (bv_evals b)) (repeat None (length (bv_evals b)))
        (map (Dp w) (bv_quots b)) (Dp w (bv_open b)) (Dp w (bv_shifted b)).

    Lemma const_instance_off d w ch pe pi vk l1 ln a2 a3 pv : (5 <= length (ev_wires pe))%nat -> kv_merged vk = true ->
      evaluate_pi_poly Fr d pi (V w (cv_zeta ch)) true = Ok pv ->
      lin_const_instance Fr V1 V2 d (ch_at w ch) l1 ln a2 a3 (pe_at w pe) None pi (vk_at w vk) = Ok (pv - a2 * l1 -
          V w (cv_a1 ch) * V w (ev_next pe) * (V w (cv_gamma ch) + V w (nth 4 (ev_wires pe) (ev_next pe))) * pvals w ch (combine (firstn 4 (ev_wires pe)) (ev_sigmas pe))).
    Proof.
      intros H5 Hm' E. unfold lin_const_instance. cbn [ch_at vk_at vk_merged ch_zeta]. rewrite Hm', E. cbn [bind is_some pe_at wires_evals sigma_evals Nat.sub].
      unfold slice. rewrite map_length. destruct (Nat.ltb_spec (length (ev_wires pe)) 4); [lia|]. cbn [Nat.ltb Nat.leb orb bind Nat.sub skipn].
      unfold index. rewrite (nth_error_nth' _ (V w (ev_next pe))) by (rewrite map_length; lia). rewrite map_nth. cbn [bind].
      f_equal. f_equal. cbn [ch_at pe_at ch_gamma ch_beta ch_alpha perm_next_eval]. rewrite fold_prod. f_equal. unfold pvals.
      rewrite firstn_map', combine_map2, map_map. apply fprod_map_ext. intros ws _. cbn [fst snd ch_at ch_gamma ch_beta]. ring.
    Qed.

    (** ** The constant term *)
    Definition cinst (w : nat -> K) (ch : chvar (K := K)) (pv la : Fr) (pe : pevar (K := K)) : Fr :=
      pv - la - V w (cv_a1 ch) * V w (ev_next pe) * (V w (cv_gamma ch) + V w (nth 4 (ev_wires pe) (ev_next pe))) * pvals w ch (combine (firstn 4 (ev_wires pe)) (ev_sigmas pe)).
    Lemma const_fold d w ch pi l1 ln a2 a3 pv : evaluate_pi_poly Fr d pi (V w (cv_zeta ch)) true = Ok pv ->
      forall evs vks bases acc, length vks = length evs -> length bases = length evs -> Forall (fun pe => 5 <= length (ev_wires pe))%nat evs -> Forall (fun vk => kv_merged vk = true) vks ->
      fold_res (fun acc x => let '(pe, (lk, (pi, (vk, base)))) := x in
          let* t := lin_const_instance Fr V1 V2 d (ch_at w ch) l1 ln a2 a3 pe lk pi vk in Ok (acc + base * t))
        (combine (map (pe_at w) evs) (combine (repeat None (length evs)) (combine (repeat pi (length evs)) (combine (map (vk_at w) vks) bases)))) acc
      = Ok (acc + fsum (map (fun eb => snd eb * cinst w ch pv (a2 * l1) (fst eb)) (combine evs bases))).
    Proof.
      intro E. induction evs as [|pe evs IH]; intros [|vk vks] [|b bases] acc L1 L2 H5 Hmg; try discriminate.
      - cbn. f_equal. change (fsum ([] : list Fr)) with (0 : Fr). ring.
      - inversion H5; subst. inversion Hmg; subst. cbn [length repeat map combine fold_res].
        rewrite (const_instance_off d w ch pe pi vk l1 ln a2 a3 pv) by assumption. cbn [bind]. rewrite IH; cbn in L1, L2; try lia; auto.
        f_equal. cbn [fst snd]. rewrite fsum_cons. unfold cinst. cbn [fst snd]. ring.
    Qed.
    Lemma combine_seq_In {A} (l : list A) : forall s i x, In (i, x) (combine (seq s (length l)) l) -> (s <= i < s + length l)%nat /\ nth_error l (i - s) = Some x.
    Proof.
      induction l as [|y l IH]; intros s i x H; [destruct H|]. cbn [length seq combine] in H. destruct H as [H|H].
      - injection H as -> ->. rewrite Nat.sub_diag. cbn. split; [lia|reflexivity].
      - apply IH in H as [H1 H2]. split; [cbn; lia|]. replace (i - s)%nat with (S (i - S s)) by lia. exact H2.
    Qed.
    Lemma skipn_nth_cons {A} (l : list A) d0 : forall s, (s < length l)%nat -> skipn s l = nth s l d0 :: skipn (S s) l.
    Proof. clear. induction l as [|x l IH]; intros [|s] H; cbn in *; try lia; auto. rewrite IH by lia. reflexivity. Qed.
    Lemma seq_bases {A A' A2 B2} (f : A' -> A -> B2) (g : A2 -> B2) (dft : A') (bases : list A') (l : list A) : forall s rs, (s + length l <= length bases)%nat ->
      Forall2 (fun ix o => g o = f (nth (fst ix) bases dft) (snd ix)) (combine (seq s (length l)) l) rs ->
      map g rs = map (fun lb => f (snd lb) (fst lb)) (combine l (skipn s bases)).
    Proof.
      induction l as [|x l IH]; intros s rs Hl H; cbn [length seq combine] in H; inversion H; subst; [reflexivity|].
      rewrite (skipn_nth_cons bases dft s) by (cbn in Hl; lia). cbn [combine map fst snd] in *. f_equal; [assumption|]. apply IH; [cbn in Hl; lia|assumption].
    Qed.
    Lemma fvar_eqb_refl (x : fv) : fvar_eqb x x = true.
    Proof. unfold fvar_eqb. now rewrite !Nat.eqb_refl, feqb_refl. Qed.
    Lemma fvars_eqb_refl (l : list fv) : fvars_eqb l l = true.
    Proof. induction l; cbn; auto. now rewrite fvar_eqb_refl. Qed.
    Lemma forallb_repeat {A} (f : A -> bool) a k : f a = true -> forallb f (repeat a k) = true.
    Proof. intro H. induction k; cbn; auto. now rewrite H. Qed.
    Lemma Forall_concat_In {A} (Q : A -> Prop) l x : Forall Q (concat l) -> In x l -> Forall Q x.
    Proof. induction l as [|y l IH]; intros H Hin; [destruct Hin|]. cbn [concat] in H. apply Forall_app in H as [H1 H2]. destruct Hin as [->|Hin]; auto. Qed.
    Lemma evs_In (Q : fv -> Prop) (evs : list (pevar (K := K))) pe : Forall Q (concat (map evl evs)) -> In pe evs -> Forall Q (evl pe).
    Proof. intros H Hin. apply (Forall_concat_In _ _ _ H). apply in_map. exact Hin. Qed.

    Section Main.
    Variable radix2 : nat -> option (dom Fr).
    Variable d : dom Fr.
    Variable k : nat.
    Notation n := (dsize d).
    Hypothesis Hd : dom_ok Fr d.
    Hypothesis Hn : n = (2 ^ k)%nat.
    Hypothesis HnP : (Z.of_nat n < P)%Z.
    Hypothesis Hr2 : radix2 n = Some d.

    Lemma u_const c ch vks pi b zm l1 bases N : st c -> chok c ch -> can c zm -> can c l1 -> Forall (can c) pi -> Forall (can c) bases -> Forall (can c) (concat (map evl (bv_evals b))) ->
      (1 <= N)%nat -> (Z.of_nat N <= B)%Z -> length vks = N -> bv_len b = N -> length (bv_evals b) = N -> length bases = N ->
      Forall (fun pe => 5 <= length (ev_wires pe))%nat (bv_evals b) -> Forall (fun vk => kv_merged vk = true) vks ->
      (length pi / 2 <= n)%nat -> (Z.of_nat (2 * (length pi / 2)) <= B)%Z ->
      (forall w, base w -> hext c w -> fpow (V w (cv_zeta ch)) n <> 1) ->
      uspec (compute_lin_poly_constant_term_circuit zval q nb L zr radix2 nn n ch vks (repeat pi N) b zm l1 bases) c
        (fun w o => smallch w ch -> small w zm -> small w l1 -> Forall (small w) pi -> Forall (small w) bases -> Forall (small w) (concat (map evl (bv_evals b))) ->
          V w zm = fpow (V w (cv_zeta ch)) n - 1 -> fpow (V w (cv_zeta ch)) n <> 1 ->
          small w o /\ forall ln a3, compute_lin_poly_constant_term Fr V1 V2 d (ch_at w ch) (map (vk_at w) vks) (repeat (map (V w) pi) N) (b_at w b) (V w l1) ln (V w (cv_a2 ch)) a3 (map (V w) bases) = Ok (V w o))
        (fun o c' => can c' o).
    Proof.
      intros Hs Hch Hzm Hl1 Hpi Hbs Hev HN HNB L1 L2 L3 L4 H5 Hmg Hlen HlB Hne. unfold compute_lin_poly_constant_term_circuit.
      rewrite L1, L2, repeat_length, Nat.eqb_refl. cbn [negb orb].
      apply u_bind_idx with (a := pi); [destruct N; [lia|reflexivity]|].
      replace (forallb (fvars_eqb pi) (skipn 1 (repeat pi N))) with true; [cbn [negb]|symmetry].
      2: { destruct N; [lia|]. cbn [repeat skipn]. apply forallb_repeat, fvars_eqb_refl. }
      pose proof (ck_zeta _ _ Hch) as Cz. pose proof (ck_a2 _ _ Hch) as Ca2.
      ub; [apply (u_pi radix2 d k); assumption|]. nx pv R1.
      apply U_bind_wit; [assumption|apply R1|]. intros pir Ez. assert (Hh : forall w, base w -> hext c0 w -> V w pv = pir) by auto. clear Ez.
      ub; [apply U_mul; assumption|]. nx la R2.
      apply U_bind_wit; [assumption|apply R2|]. intros l1r Ez. assert (Hh' : forall w, base w -> hext c1 w -> V w la = l1r) by auto. clear Ez.
      set (dft := vone nn) in *.
      ub; [apply (U_mapM _ (fun ie w o => smallch w ch -> small w pv -> small w la -> Forall (small w) (evl (snd ie)) -> small w (nth (fst ie) bases dft) ->
            small w o /\ V w o = V w (nth (fst ie) bases dft) * cinst w ch (V w pv) (V w la) (snd ie)) (fun _ o c' => can c' o)); [assumption|..]|].
      { intros _ o c' c'' A1 A2 A3. apply (can_le c' c''); assumption. }
      { intros [i pe] c' Hi Hs' Hl. advg c1 c' Hl. apply combine_seq_In in Hi as [Hi1 Hi2]. rewrite Nat.sub_0_r in Hi2. apply nth_error_In in Hi2.
        cbn [fst snd]. rewrite (nth_error_nth' bases dft) by lia. rewrite Forall_forall in H5.
        apply u_const_instance; auto. { apply (evs_In _ _ _ Hev Hi2). } { rewrite Forall_forall in Hbs. apply Hbs, nth_In. lia. } }
      nx rs Rrs. cbv beta in Rrs.
      assert (Lrs : length rs = N). { rewrite <- (Forall2_length' _ _ _ Rrs), combine_length, seq_length. lia. }
      assert (Crs : Forall (can c2) rs) by (eapply Forall2_r; [exact Rrs|auto]).
      replace (length (bv_evals b) <? length bases)%nat with false by (symmetry; apply Nat.ltb_ge; lia).
      eapply u_weaken; [apply U_sum; [assumption..|lia]| |auto].
      intros w o Hbw [So Eo] Q1 Q2 Q3 Sch Szm Sl1 Spi Sbs Sev Ezm Hz1. cbv beta in *.
      pose proof (sc_zeta _ _ Sch). pose proof (sc_a2 _ _ Sch).
      destruct Q3 as [Spv Epv]; [assumption..|]. destruct Q2 as [Sla Ela]; [assumption..|].
      assert (Q1' : Forall2 (fun ie o => small w o /\ V w o = V w (nth (fst ie) bases dft) * cinst w ch (V w pv) (V w la) (snd ie)) (combine (seq 0 (length (bv_evals b))) (bv_evals b)) rs).
      { assert (G : forall l l', Forall2 (fun (ie : nat * pevar) o => smallch w ch -> small w pv -> small w la -> Forall (small w) (evl (snd ie)) -> small w (nth (fst ie) bases dft) ->
            small w o /\ V w o = V w (nth (fst ie) bases dft) * cinst w ch (V w pv) (V w la) (snd ie)) l l' -> (forall x, In x l -> Forall (small w) (evl (snd x)) /\ small w (nth (fst x) bases dft)) ->
            Forall2 (fun ie o => small w o /\ V w o = V w (nth (fst ie) bases dft) * cinst w ch (V w pv) (V w la) (snd ie)) l l').
        { induction 1 as [|x y l l' Hxy _ IH]; intro HI; constructor; [|apply IH; intros; apply HI; now right]. destruct (HI x (or_introl eq_refl)). auto. }
        apply G; [exact Q1|]. intros [i pe] Hi. apply combine_seq_In in Hi as [Hi1 Hi2]. rewrite Nat.sub_0_r in Hi2. apply nth_error_In in Hi2. cbn [fst snd].
        split; [apply (evs_In _ _ _ Sev Hi2)|]. rewrite Forall_forall in Sbs. apply Sbs, nth_In. lia. }
      assert (Srs : Forall (small w) rs) by (eapply Forall2_r; [exact Q1'|]; intros i t [A _]; exact A).
      split; [exact So|]. intros ln a3. rewrite (Eo Srs). unfold compute_lin_poly_constant_term. unfold bp_len. cbn [b_at bp_perms bp_evals bp_plookups].
      rewrite !map_length, repeat_length. unfold bv_len in L2. rewrite L1, L2, L4, Nat.eqb_refl. cbn [negb orb].
      rewrite <- L3.
      rewrite (const_fold d w ch (map (V w) pi) (V w l1) ln (V w (cv_a2 ch)) a3 (V w pv)) by (rewrite ?map_length; try congruence; assumption).
      f_equal. assert (Em : map (V w) rs = map (fun lb => V w (snd lb) * cinst w ch (V w pv) (V w la) (fst lb)) (combine (bv_evals b) (skipn 0 bases))).
      { apply (seq_bases (fun b pe => V w b * cinst w ch (V w pv) (V w la) pe) (V w) dft bases); [lia|].
        eapply f2_impl; [|exact Q1']. intros i x [_ Hx]. exact Hx. }
      rewrite Em. cbn [skipn]. rewrite <- (map_id (bv_evals b)) at 1. rewrite combine_map2, map_map. cbn [fst snd].
      transitivity (fsum (map (fun x => V w (snd x) * cinst w ch (V w pv) (V w (cv_a2 ch) * V w l1) (fst x)) (combine (bv_evals b) bases))); [ring|].
      apply fsum_map_ext. intros x _. rewrite Ela. do 2 f_equal. ring.
    Qed.

    (** ** Powers of the third power of [alpha] *)
    Lemma u_alpha_powers a3 : forall len cur c, st c -> can c cur -> can c a3 ->
      uspec (alpha_powers_circuit zval q nb L nn cur a3 len) c
        (fun w o => small w cur -> small w a3 -> Forall (small w) o /\ map (V w) o = alpha_bases_from Fr (V w cur * V w a3) (V w a3) len)
        (fun o c' => Forall (can c') o /\ length o = len).
    Proof.
      induction len as [|len IH]; intros cur c Hs Hc Ha; cbn [alpha_powers_circuit alpha_bases_from].
      - apply u_ret; [|split; [constructor|reflexivity]]. intros w _ _ _. split; [constructor|reflexivity].
      - ub; [apply U_mul; assumption|]. nx y R1. ub; [apply IH; assumption|]. nx l [R2 R2'].
        apply u_ret; [|split; [constructor; assumption|cbn; congruence]].
        intros w Hb. cbv beta. intros Q1 Q2 S1 S2. usew. split; [constructor; assumption|].
        cbn [map]. match goal with H : map (V w) l = _ |- _ => rewrite H end. match goal with H : V w y = _ |- _ => now rewrite H end.
    Qed.
    Lemma u_alpha c a3 len : st c -> can c a3 -> (1 <= len)%nat ->
      uspec (compute_alpha_basis zval q nb L nn a3 len) c
        (fun w o => small w a3 -> Forall (small w) o /\ map (V w) o = 1 :: alpha_bases_from Fr (V w a3) (V w a3) (len - 1))
        (fun o c' => Forall (can c') o /\ length o = len).
    Proof.
      intros Hs Ha Hl. unfold compute_alpha_basis. destruct (Nat.eqb_spec len 0); [lia|]. pose proof (can_one c Hs) as H1.
      ub; [apply u_alpha_powers; assumption|]. nx l [R2 R2']. apply u_ret; [|split; [constructor; assumption|cbn; lia]].
      intros w Hb. cbv beta. intros Q1 S1. destruct (one_val w Hb) as [So Eo]. destruct Q1 as [Q1 Q1']; [assumption..|]. split; [constructor; assumption|].
      cbn [map]. rewrite Q1', Eo. do 2 f_equal. ring.
    Qed.

    (** ** Terms of the linearisation *)
    Hypothesis Hdec : forall x y, dec (- x) y = vopp (dec x y).
    Hypothesis Htb : (tb < nb)%nat.
    (** A property of points kept by negation, tracked from the inputs to the bases. *)
    Variable onp : (nat -> K) -> pvar -> Prop.
    Hypothesis Hon : forall w p o, negp w p o -> onp w p -> onp w o.
    Definition okb (w : nat -> K) (sb : fv * pvar) : Prop := small w (fst sb) /\ onp w (snd sb).
    Lemma Dp_neg w p o : negp w p o -> Dp w o = vopp (Dp w p).
    Proof. intros [E1 E2]. unfold Dp. rewrite E1, E2. apply Hdec. Qed.
    Definition peq (w : nat -> K) (sb : fv * pvar) (t : Fr * V1) : Prop := Alg.vmul (V w (fst sb)) (Dp w (snd sb)) = Alg.vmul (fst t) (snd t).
    Definition wv (w : nat -> K) (pe : pevar (K := K)) (i : nat) : Fr := V w (nth i (ev_wires pe) (ev_next pe)).
    Lemma u_selectors c pe : st c -> Forall (can c) (ev_wires pe) -> (5 <= length (ev_wires pe))%nat ->
      uspec (selector_scalars_circuit zval q nb L P tb nn (ev_wires pe)) c
        (fun w o => Forall (small w) (ev_wires pe) -> Forall (small w) o /\
          map (V w) o = [wv w pe 0; wv w pe 1; wv w pe 2; wv w pe 3; wv w pe 0 * wv w pe 1; wv w pe 2 * wv w pe 3;
            fpow (wv w pe 0) 5; fpow (wv w pe 1) 5; fpow (wv w pe 2) 5; fpow (wv w pe 3) 5; wv w pe 4; 1; wv w pe 0 * wv w pe 1 * wv w pe 2 * wv w pe 3 * wv w pe 4])
        (fun o c' => Forall (can c') o /\ length o = 13%nat).
    Proof.
      intros Hs Hw H5. unfold selector_scalars_circuit. set (f := fun i => nth i (ev_wires pe) (ev_next pe)).
      assert (I : forall i, (i < 5)%nat -> nth_error (ev_wires pe) i = Some (f i)) by (intros; apply nth_error_nth'; lia).
      assert (J : forall Q i, (i < 5)%nat -> Forall Q (ev_wires pe) -> Q (f i)) by (intros Q i Hi HQ; rewrite Forall_forall in HQ; apply HQ, nth_In; lia).
      assert (C0 := J _ 0%nat ltac:(lia) Hw). assert (C1 := J _ 1%nat ltac:(lia) Hw). assert (C2 := J _ 2%nat ltac:(lia) Hw).
      assert (C3 := J _ 3%nat ltac:(lia) Hw). assert (C4 := J _ 4%nat ltac:(lia) Hw). cbv beta in C0, C1, C2, C3, C4.
      do 4 (eapply u_bind_idx; [apply I; lia|]).
      ub; [apply U_mul; assumption|]. nx w01 R1. ub; [apply U_mul; assumption|]. nx w23 R2.
      ub; [apply U_pow5; auto|]. nx q0 R3. ub; [apply U_pow5; auto|]. nx q1 R4. ub; [apply U_pow5; auto|]. nx q2 R5. ub; [apply U_pow5; auto|]. nx q3 R6.
      eapply u_bind_idx; [apply I; lia|].
      ub; [apply U_mul; assumption|]. nx t1 R7. ub; [apply U_mul; assumption|]. nx t2 R8. ub; [apply U_mul; assumption|]. nx t3 R9. ub; [apply U_mul; assumption|]. nx t4 R10.
      match goal with Hs : st ?c |- _ => pose proof (can_one c Hs) as Cone end.
      apply u_ret.
      - intros w Hb. cbv beta. intros Q1 Q2 Q3 Q4 Q5 Q6 Q7 Q8 Q9 Q10 Sw.
        assert (S0 := J _ 0%nat ltac:(lia) Sw). assert (S1 := J _ 1%nat ltac:(lia) Sw). assert (S2 := J _ 2%nat ltac:(lia) Sw).
        assert (S3 := J _ 3%nat ltac:(lia) Sw). assert (S4 := J _ 4%nat ltac:(lia) Sw). cbv beta in S0, S1, S2, S3, S4.
        destruct (one_val w Hb) as [So Eo]. usew. split.
        + do 13 (apply Forall_cons; [assumption|]). constructor.
        + cbn [map]. rewrite Eo. change (wv w pe) with (fun i => V w (f i)). cbv beta. repeat match goal with |- _ :: _ = _ :: _ => f_equal end; vs; reflexivity.
      - split; [|reflexivity]. do 13 (apply Forall_cons; [assumption|]). constructor.
    Qed.
    Lemma selectors_off w pe : (5 <= length (ev_wires pe))%nat ->
      selector_scalars Fr (map (V w) (ev_wires pe)) = Ok [wv w pe 0; wv w pe 1; wv w pe 2; wv w pe 3; wv w pe 0 * wv w pe 1; wv w pe 2 * wv w pe 3;
            fpow (wv w pe 0) 5; fpow (wv w pe 1) 5; fpow (wv w pe 2) 5; fpow (wv w pe 3) 5; - wv w pe 4; 1; wv w pe 0 * wv w pe 1 * wv w pe 2 * wv w pe 3 * wv w pe 4].
    Proof.
      intro H5. unfold selector_scalars. assert (I : forall i, (i < 5)%nat -> index (X := perr) (map (V w) (ev_wires pe)) i = Ok (wv w pe i)).
      { intros i Hi. unfold index. rewrite (nth_error_nth' _ (V w (ev_next pe))) by (rewrite map_length; lia). now rewrite map_nth. }
      rewrite !I by lia. reflexivity.
    Qed.
    Fixpoint selrel (i : nat) (vs ss : list Fr) : Prop :=
      match vs, ss with
      | v :: vs, s :: ss => v = (if (i =? 10)%nat then - s else s) /\ selrel (S i) vs ss
      | [], [] => True
      | _, _ => False
      end.
    Lemma u_sel_terms c b ss sels : st c -> can c b -> Forall (can c) ss -> Forall (pin c) sels ->
      uspec (selector_terms_circuit zval q nb L nn b ss sels) c
        (fun w o => small w b -> Forall (small w) ss -> Forall (onp w) sels -> Forall (okb w) o /\
          forall ss', selrel 0 (map (V w) ss) ss' -> Forall2 (peq w) o (map (fun sc => (fst sc * V w b, snd sc)) (combine ss' (map (Dp w) sels))))
        (fun o c' => Forall (both (can c') (pin c')) o).
    Proof.
      intros Hs Hb Hss Hsl. unfold selector_terms_circuit.
      eapply u_weaken; [apply (U_mapM _ (fun (isp : nat * (fv * pvar)) w o => small w b -> small w (fst (snd isp)) -> small w (fst o) /\
          V w (fst o) = V w (fst (snd isp)) * V w b /\ if (fst isp =? 10)%nat then negp w (snd (snd isp)) (snd o) else snd o = snd (snd isp))
          (fun _ o c' => both (can c') (pin c') o)); [assumption|..]|..].
      - intros _ o c' c'' A1 A2 [A3 A4]. split; [apply (can_le c' c'' _ A1 A2 A3)|apply (pin_le c' c'' _ A2 A4)].
      - intros [i [s p]] c' Hi Hs' Hl. cbn [fst snd]. pose proof (in_combine_r _ _ _ _ Hi) as Hi2.
        rewrite Forall_forall in Hss, Hsl. pose proof (Hss _ (in_combine_l _ _ _ _ Hi2)) as Cs. pose proof (Hsl _ (in_combine_r _ _ _ _ Hi2)) as Cp.
        adv c c' Hs Hl. destruct (i =? 10)%nat.
        + ub; [apply U_inv; assumption|]. nx p' R1. ub; [apply U_mul; assumption|]. nx t R2. apply u_ret; [|split; assumption].
          intros w _. cbv beta. cbn [fst snd]. intros. usew. auto.
        + eapply u_bind_pure; [reflexivity|]. ub; [apply U_mul; assumption|]. nx t R2. apply u_ret; [|split; assumption].
          intros w _. cbv beta. cbn [fst snd]. intros. usew. auto.
      - intros w o Hbw H Sb Sss Osl. cbv beta in H.
        assert (G : forall ss s sels o, Forall (small w) ss -> Forall (onp w) sels -> Forall2 (fun (isp : nat * (fv * pvar)) o => small w b -> small w (fst (snd isp)) -> small w (fst o) /\
            V w (fst o) = V w (fst (snd isp)) * V w b /\ if (fst isp =? 10)%nat then negp w (snd (snd isp)) (snd o) else snd o = snd (snd isp)) (combine (seq s (length ss)) (combine ss sels)) o ->
          Forall (okb w) o /\
          forall ss', selrel s (map (V w) ss) ss' -> Forall2 (peq w) o (map (fun sc => (fst sc * V w b, snd sc)) (combine ss' (map (Dp w) sels)))).
        { clear -Sb Hdec Hon. induction ss as [|x ss IH]; intros s sels o Sss Osl H.
          - cbn in H. inversion H; subst. split; [constructor|]. intros [|? ?] Hr; [constructor|destruct Hr].
          - destruct sels as [|p sels]; cbn [combine length seq] in H; [inversion H; subst; split; [constructor|]; intros [|? ?] Hr; [destruct Hr|constructor]|].
            inversion H as [|? y ? o' Hy Ho]; subst. inversion Sss as [|? ? Sx Sss']; subst. pose proof (Forall_inv Osl) as Op. apply Forall_inv_tail in Osl. cbn [fst snd] in Hy. destruct (Hy Sb Sx) as (A1 & A2 & A3).
            destruct (IH (S s) sels o' Sss' Osl Ho) as [B1 B2]. split; [constructor; [split; [assumption|destruct (s =? 10)%nat; [eapply Hon; eassumption|rewrite A3; assumption]]|assumption]|]. intros [|t ss'] Hr; [destruct Hr|].
            cbn [map selrel] in Hr. destruct Hr as [Hr Hr']. cbn [map combine]. constructor; [|apply B2; assumption].
            unfold peq. cbn [fst snd]. rewrite A2, Hr. destruct (s =? 10)%nat.
            + rewrite (Dp_neg _ _ _ A3), vmul_opp_r. f_equal. ring.
            + rewrite A3. reflexivity. }
        apply (G ss 0%nat); assumption.
      - intros o c' _ H. cbv beta in H. eapply Forall2_r; [exact H|]. auto.
    Qed.
    Lemma u_perm2 c ch l acc : st c -> chok c ch -> Forall (both (can c) (can c)) l -> can c acc ->
      uspec (foldM (fun cs ws =>
                   bs <- vmul zval q nb L nn (cv_beta ch) (snd ws) ;;
                   sum <- vsum zval q nb L nn [fst ws; cv_gamma ch; bs] ;;
                   vmul zval q nb L nn cs sum) acc l) c
        (fun w o => small w acc -> smallch w ch -> Forall (both (small w) (small w)) l -> small w o /\ V w o = V w acc * pvals w ch l) (fun o c' => can c' o).
    Proof.
      intros Hs Hch Hl Ha. eapply u_weaken; [apply (U_fold _ (fun w ws => smallch w ch /\ both (small w) (small w) ws)
        (fun w a ws => a * (V w (fst ws) + V w (cv_beta ch) * V w (snd ws) + V w (cv_gamma ch)))); [assumption..|]| |auto].
      - intros a x c' Hx Hs' Hle Ha'. rewrite Forall_forall in Hl. destruct (Hl _ Hx) as [Hx1 Hx2]. adv c c' Hs Hle. pose proof (ck_beta _ _ Hch). pose proof (ck_gamma _ _ Hch).
        ub; [apply U_mul; assumption|]. nx bs R1. ub; [apply u_sum3; assumption|]. nx sum R2.
        eapply u_weaken; [apply U_mul; assumption| |auto]. intros w o _ Q1 Q2 Q3 Sa [HS [S1 S2]]. cbv beta in *.
        pose proof (sc_beta _ _ HS). pose proof (sc_gamma _ _ HS). usew. split; [assumption|]. vs. ring.
      - intros w o _ H Sa HS HG. cbv beta in H. destruct (H Sa) as [S1 E1]; [eapply Forall_impl; [|exact HG]; auto|]. split; [assumption|]. rewrite E1. apply fold_prod.
    Qed.
    Lemma u_kprod c ch bz l acc : st c -> chok c ch -> can c bz -> Forall (can c) (map fst l) -> can c acc ->
      uspec (foldM (fun prod wk =>
                 e <- vconst zval nb nn (of_r zr (snd wk)) ;;
                 bkz <- vmulc zval q nb L nn bz e ;;
                 sum <- vsum zval q nb L nn [bkz; fst wk; cv_gamma ch] ;;
                 vmul zval q nb L nn prod sum) acc l) c
        (fun w o => small w acc -> smallch w ch -> small w bz -> Forall (small w) (map fst l) ->
          small w o /\ V w o = V w acc * fprod (map (fun wk => V w bz * snd wk + V w (fst wk) + V w (cv_gamma ch)) l)) (fun o c' => can c' o).
    Proof.
      intros Hs Hch Hbz Hl Ha. eapply u_weaken; [apply (U_fold _ (fun w wk => smallch w ch /\ small w bz /\ small w (fst wk))
        (fun w a wk => a * (V w bz * snd wk + V w (fst wk) + V w (cv_gamma ch)))); [assumption..|]| |auto].
      - intros a x c' Hx Hs' Hle Ha'. rewrite Forall_forall in Hl. pose proof (Hl _ (in_map fst _ _ Hx)) as Cx. adv c c' Hs Hle. pose proof (ck_gamma _ _ Hch).
        pose proof (zr_rng (snd x)) as Rx. pose proof o_PM as HPM. unfold of_r. apply U_bind_const; [lia|]. intros e He.
        ub; [eapply U_mulc; [assumption..|exact He|lia]|]. nx bs R1. ub; [apply u_sum3; assumption|]. nx sum R2.
        eapply u_weaken; [apply U_mul; assumption| |auto]. intros w o _ Q1 Q2 Q3 Sa (HS & S1 & S2). cbv beta in *. rewrite (pf_fZ _ _ _ _ _ HFr) in Q3.
        pose proof (sc_gamma _ _ HS). usew. split; [assumption|]. vs. reflexivity.
      - intros w o _ H Sa HS Sbz HG. cbv beta in H. destruct (H Sa) as [S1 E1].
        { rewrite Forall_forall in *. intros x Hx. do 2 (split; [assumption|]). apply HG, in_map; assumption. }
        split; [assumption|]. rewrite E1. apply fold_prod.
    Qed.
    Definition kvl (vk : vkvar (Fr := Fr)) : list pvar := kv_sigmas vk ++ kv_sels vk.
    Lemma u_lin_instance c ch bz ab al b i vk bs pe zc wcs : st c -> chok c ch -> can c bz -> can c ab -> can c al -> can c bs ->
      nth_error (bv_evals b) i = Some pe -> nth_error (bv_perms b) i = Some zc -> nth_error (bv_wires b) i = Some wcs ->
      Forall (can c) (evl pe) -> pin c zc -> Forall (pin c) (kv_sigmas vk) -> Forall (pin c) (kv_sels vk) ->
      (5 <= length (ev_wires pe))%nat -> (1 <= length wcs)%nat -> kv_sigmas vk <> [] ->
      uspec (lin_terms_instance_circuit zval q nb L zr P tb nn ch bz ab al b i vk (Some bs)) c
        (fun w o => smallch w ch -> small w bz -> small w ab -> small w al -> small w bs -> Forall (small w) (evl pe) -> onp w zc -> Forall (onp w) (kvl vk) ->
          V w bz = V w (cv_beta ch) * V w (cv_zeta ch) -> V w ab = V w (cv_a1 ch) * V w (cv_beta ch) ->
          Forall (okb w) o /\ forall l1 ln a2 a4 a5 a6, V w al = a2 * l1 -> exists ts,
            lin_terms_instance Fr V1 V2 d (ch_at w ch) l1 ln a2 a4 a5 a6 (map (Dp w) wcs) (Dp w zc) (pe_at w pe) None (vk_at w vk) (V w bs) = Ok ts /\ Forall2 (peq w) o ts)
        (fun o c' => Forall (both (can c') (pin c')) o).
    Proof.
      intros Hs Hch Hbz Hab Hal Hbs Epe Ezc Ewc Hev Hzc Hsg Hsl H5 H1 Hne. unfold lin_terms_instance_circuit.
      destruct (evl_split _ Hev) as (Hw & Hsv & Hnx).
      eapply u_bind_pure; [reflexivity|]. eapply u_bind_idx; [eassumption|].
      ub; [apply u_kprod; [assumption..| |apply (ck_a1 _ _ Hch)]|].
      { apply Forall_forall. intros x Hx. apply in_map_iff in Hx as ([y z] & <- & Hx). rewrite Forall_forall in Hw. apply Hw. apply (in_combine_l _ _ _ _ Hx). }
      nx prod R1. match goal with Hs : st ?c |- _ => pose proof (can_near c al Hal) as Nal end.
      ub; [apply u_add'; assumption|]. nx cz R2. ub; [apply U_mul; assumption|]. nx cz' R3.
      eapply u_bind_idx; [eassumption|]. eapply u_bind_idx; [eassumption|].
      ub; [apply U_mul; assumption|]. nx cs R4.
      destruct (Nat.ltb_spec (length wcs) 1); [lia|]. eapply u_bind_pure; [reflexivity|].
      ub; [apply u_perm2; [assumption..| |assumption]|]. { apply Forall_both; [apply Forall_firstn'|]; assumption. }
      nx cs' R5. ub; [apply U_mul; assumption|]. nx cs2 R6.
      destruct (rev (kv_sigmas vk)) as [|sg rs] eqn:Erev.
      { exfalso. apply Hne. apply (f_equal (@rev _)) in Erev. rewrite rev_involutive in Erev. exact Erev. }
      assert (Isg : In sg (kv_sigmas vk)) by (apply in_rev; rewrite Erev; now left).
      eapply u_bind_pure; [reflexivity|].
      match goal with Hs : st ?c |- _ => assert (Csg : pin c sg) by (rewrite Forall_forall in Hsg; auto) end.
      ub; [apply U_inv; assumption|]. nx sg' R7.
      ub; [apply u_selectors; assumption|]. nx ss [R8 R8'].
      ub; [apply u_sel_terms; assumption|]. nx ts R9.
      apply u_ret; [|constructor; [split; assumption|constructor; [split; assumption|assumption]]].
      intros w Hb. cbv beta. intros Q1 Q2 Q3 Q4 Q5 Q6 Q7 Q8 Q9 Sch Sbz Sab Sal Sbs Sev Ozc Okv Ebz Eab. apply Forall_app in Okv as [Osg Osl].
      destruct (evl_split _ Sev) as (Sw & Ssv & Snx). pose proof (sc_a1 _ _ Sch) as Sa1.
      destruct (Q9 Sa1 Sch Sbz) as [Sprod Eprod].
      { apply Forall_forall. intros x Hx. apply in_map_iff in Hx as ([y z] & <- & Hx). rewrite Forall_forall in Sw. apply Sw. apply (in_combine_l _ _ _ _ Hx). }
      destruct Q8 as [Scz Ecz]. specialize (Ecz Sal Sprod). destruct (Q7 Scz Sbs) as [Scz' Ecz']. destruct (Q6 Sab Snx) as [Scs Ecs].
      destruct (Q5 Scs Sch) as [Scs' Ecs']. { apply Forall_both; [apply Forall_firstn'|]; assumption. }
      destruct (Q4 Scs' Sbs) as [Scs2 Ecs2]. destruct (Q2 Sw) as [Sss Ess]. destruct (Q1 Sbs Sss Osl) as [Sts Ets].
      split; [constructor; [split; assumption|constructor; [split; [assumption|rewrite Forall_forall in Osg; eapply Hon; [exact Q3|auto]]|assumption]]|].
      intros l1 ln a2 a4 a5 a6 Eal. eexists. split.
      - unfold lin_terms_instance. rewrite map_length. destruct (Nat.leb_spec 1 (length wcs)); [|lia]. cbn [assert_p bind vk_at vk_sigmas].
        rewrite <- map_rev, Erev. cbn [map bind pe_at wires_evals]. rewrite selectors_off by assumption. cbn [bind]. rewrite app_nil_r. reflexivity.
      - constructor; [|constructor].
        + unfold peq. cbn [fst snd]. f_equal. rewrite Ecz', Ecz, Eprod, Eal, fold_prod. do 3 f_equal. cbn [ch_at ch_alpha ch_beta ch_zeta ch_gamma vk_at vk_k pe_at wires_evals].
          replace (combine (map (V w) (ev_wires pe)) (kv_k vk)) with (combine (map (V w) (ev_wires pe)) (map (fun x => x) (kv_k vk))) by now rewrite map_id.
          rewrite combine_map2, map_map. apply fprod_map_ext. intros x _. cbn [fst snd]. rewrite Ebz. ring.
        + unfold peq. cbn [fst snd]. rewrite (Dp_neg _ _ _ Q3), vmul_opp_r. do 2 f_equal. rewrite Ecs2, Ecs', Ecs, Eab, fold_prod. cbn [ch_at ch_alpha ch_beta ch_zeta ch_gamma pe_at wires_evals sigma_evals perm_next_eval].
          f_equal. f_equal. unfold pvals. rewrite firstn_map', combine_map2, map_map. apply fprod_map_ext. intros x _. cbn [fst snd]. ring.
        + apply Ets. rewrite Ess. cbn [selrel Nat.eqb]. repeat split. ring.
    Qed.
    Lemma u_quots zn2 : forall cs coeff c, st c -> can c zn2 -> can c coeff -> Forall (pin c) cs ->
      uspec (quot_terms_circuit zval q nb L nn zn2 coeff cs) c
        (fun w o => small w zn2 -> small w coeff -> Forall (onp w) cs -> Forall (okb w) o /\
          Forall2 (peq w) o (quot_terms Fr V1 (V w zn2) (- V w coeff * V w zn2) (map (Dp w) cs)))
        (fun o c' => Forall (both (can c') (pin c')) o).
    Proof.
      induction cs as [|x cs IH]; intros coeff c Hs Hz Hc Hcs; cbn [quot_terms_circuit].
      - apply u_ret; [|constructor]. intros w _ _ _ _. split; constructor.
      - inversion Hcs as [|? ? Hx Hcs']; subst. clear Hcs.
        ub; [apply U_mul; assumption|]. nx y R1. ub; [apply U_inv; assumption|]. nx x' R2. ub; [apply IH; assumption|]. nx ts R3.
        apply u_ret; [|constructor; [split; assumption|assumption]]. intros w Hb. cbv beta. intros Q1 Q2 Q3 S1 S2 Oc. pose proof (Forall_inv Oc) as Ox. apply Forall_inv_tail in Oc. destruct (Q3 S2 S1) as [Sy E3]. destruct (Q1 S1 Sy Oc) as [So Eo].
        split; [constructor; [split; [assumption|eapply Hon; [exact Q2|exact Ox]]|assumption]|].
        cbn [map quot_terms]. assert (E : V w y = V w coeff * V w zn2) by assumption. constructor.
        + unfold peq. cbn [fst snd]. rewrite (Dp_neg _ _ _ Q2), vmul_opp_r, E. f_equal. ring.
        + replace (- V w coeff * V w zn2) with (- V w y) by (rewrite E; ring). assumption.
    Qed.
    Definition pmsm (w : nat -> K) (o : list (fv * pvar)) : V1 := Alg.vsum (map (fun sb => Alg.vmul (V w (fst sb)) (Dp w (snd sb))) o).
    Lemma peq_msm w o ts : Forall2 (peq w) o ts -> pmsm w o = Alg.vsum (map (fun t => Alg.vmul (fst t) (snd t)) ts).
    Proof. unfold pmsm. induction 1 as [|x y o ts H _ IH]; [reflexivity|]. cbn [map]. rewrite !vsum_cons, IH. f_equal. exact H. Qed.
    Lemma Forall2_concat {A A'} (R : A -> A' -> Prop) l l' : Forall2 (Forall2 R) l l' -> Forall2 R (concat l) (concat l').
    Proof. induction 1; cbn [concat]; [constructor|]. now apply Forall2_app. Qed.

    Definition shape (N : nat) (vks : list (vkvar (Fr := Fr))) (b : bproofvar (K := K)) : Prop :=
      length vks = N /\ length (bv_perms b) = N /\ length (bv_evals b) = N /\ length (bv_wires b) = N /\
      Forall (fun pe => 5 <= length (ev_wires pe))%nat (bv_evals b) /\ Forall (fun wcs : list pvar => 1 <= length wcs)%nat (bv_wires b) /\
      Forall (fun vk => kv_sigmas vk <> []) vks.
    Definition bvl (b : bproofvar (K := K)) : list pvar := bv_perms b ++ bv_quots b ++ concat (bv_wires b).
    Lemma inst_get N vks b i : shape N vks b -> (i < N)%nat -> exists pe zc wcs,
      nth_error (bv_evals b) i = Some pe /\ nth_error (bv_perms b) i = Some zc /\ nth_error (bv_wires b) i = Some wcs /\ (5 <= length (ev_wires pe))%nat /\ (1 <= length wcs)%nat.
    Proof.
      intros (L1 & L2 & L3 & L4 & H5 & H1 & _) Hi. rewrite Forall_forall in H5, H1.
      destruct (idx_in (bv_evals b) i ltac:(lia)) as (pe & E1 & I1). destruct (idx_in (bv_perms b) i ltac:(lia)) as (zc & E2 & I2). destruct (idx_in (bv_wires b) i ltac:(lia)) as (wcs & E3 & I3).
      exists pe, zc, wcs. auto 6.
    Qed.
    Definition off_inst (w : nat -> K) (ch : chvar (K := K)) (b : bproofvar (K := K)) (l1 ln a2 a4 a5 a6 : Fr) (x : nat * (vkey Fr V1 V2 * Fr)) : outcome perr (list (Fr * V1)) :=
      let '(i, (vk, base)) := x in
      let* pe := index (bp_evals Fr V1 (b_at w b)) i in
      let* zc := index (bp_perms Fr V1 (b_at w b)) i in
      let* wcs := index (bp_wires Fr V1 (b_at w b)) i in
      let* lk := index (bp_plookups Fr V1 (b_at w b)) i in
      lin_terms_instance Fr V1 V2 d (ch_at w ch) l1 ln a2 a4 a5 a6 wcs zc pe lk vk base.
    Lemma nth_error_repeat' {A} (a : A) j : forall i, (i < j)%nat -> nth_error (repeat a j) i = Some a.
    Proof. clear. induction j as [|j' IH]; intros [|i] H; cbn; try lia; auto. apply IH. lia. Qed.
    Lemma off_get w b i pe zc wcs : nth_error (bv_evals b) i = Some pe -> nth_error (bv_perms b) i = Some zc -> nth_error (bv_wires b) i = Some wcs ->
      index (X := perr) (bp_evals Fr V1 (b_at w b)) i = Ok (pe_at w pe) /\ index (X := perr) (bp_perms Fr V1 (b_at w b)) i = Ok (Dp w zc) /\
      index (X := perr) (bp_wires Fr V1 (b_at w b)) i = Ok (map (Dp w) wcs) /\ index (X := perr) (bp_plookups Fr V1 (b_at w b)) i = Ok None.
    Proof.
      intros E1 E2 E3. unfold index. cbn [b_at bp_evals bp_perms bp_wires bp_plookups]. rewrite !nth_error_map, E1, E2, E3.
      rewrite nth_error_repeat'; [auto|]. apply nth_error_Some. congruence.
    Qed.
    Lemma u_linearization c vks ch zn zm l1 b bases N : st c -> chok c ch -> can c zn -> can c zm -> can c l1 -> Forall (can c) bases ->
      Forall (can c) (concat (map evl (bv_evals b))) -> Forall (pin c) (bvl b) -> Forall (pin c) (concat (map kvl vks)) -> bv_quots b <> [] ->
      shape N vks b -> length bases = N ->
      uspec (linearization_scalars_and_bases_circuit zval q nb L zr P tb nn vks ch zn zm l1 b bases) c
        (fun w o => smallch w ch -> small w zn -> small w zm -> small w l1 -> Forall (small w) bases -> Forall (small w) (concat (map evl (bv_evals b))) -> Forall (onp w) (bvl b) -> Forall (onp w) (concat (map kvl vks)) ->
          V w zn = 1 + V w zm ->
          Forall (okb w) o /\ forall ln a4 a5 a6, exists sb,
            linearization_scalars_and_bases Fr V1 V2 d (map (vk_at w) vks) (ch_at w ch) (V w zm) (V w l1) ln (b_at w b) (V w (cv_a2 ch)) a4 a5 a6 (map (V w) bases) = Ok sb /\
            sb_msm Fr V1 sb = pmsm w o)
        (fun o c' => Forall (both (can c') (pin c')) o).
    Proof.
      intros Hs Hch Hzn Hzm Hl1 Hbs Hev Hbp Hkp Hq0 Hsh Lb. pose proof Hsh as (L1 & L2 & L3 & L4 & H5 & H1 & Hsg). unfold linearization_scalars_and_bases_circuit.
      pose proof (ck_beta _ _ Hch). pose proof (ck_zeta _ _ Hch). pose proof (ck_a1 _ _ Hch). pose proof (ck_a2 _ _ Hch).
      ub; [apply U_mul; assumption|]. nx bz R1. ub; [apply U_mul; assumption|]. nx ab R2. ub; [apply U_mul; assumption|]. nx al R3.
      set (dft := vone nn) in *.
      ub; [apply (U_mapM _ (fun iv w o => smallch w ch -> small w bz -> small w ab -> small w al -> Forall (small w) bases -> Forall (small w) (concat (map evl (bv_evals b))) -> Forall (onp w) (bvl b) -> Forall (onp w) (concat (map kvl vks)) ->
          V w bz = V w (cv_beta ch) * V w (cv_zeta ch) -> V w ab = V w (cv_a1 ch) * V w (cv_beta ch) ->
          Forall (okb w) o /\ forall l1 ln a2 a4 a5 a6, V w al = a2 * l1 -> exists ts,
            off_inst w ch b l1 ln a2 a4 a5 a6 (fst iv, (vk_at w (snd iv), V w (nth (fst iv) bases dft))) = Ok ts /\ Forall2 (peq w) o ts)
        (fun _ o c' => Forall (both (can c') (pin c')) o)); [assumption|..]|].
      { intros _ o c' c'' A1 A2 A3. apply (both_le c' c'' _ A1 A2 A3). }
      { intros [i vk] c' Hi Hs' Hl. cbn [fst snd]. match type of Hl with le ?c _ => advg c c' Hl end. apply combine_seq_In in Hi as [Hi1 Hi2]. rewrite Nat.sub_0_r in Hi2. apply nth_error_In in Hi2.
        destruct (inst_get N vks b i Hsh ltac:(lia)) as (pe & zc & wcs & E1 & E2 & E3 & G5 & G1).
        rewrite (nth_error_nth' bases dft) by lia.
        assert (Cb : forall Q, Forall Q bases -> Q (nth i bases dft)) by (intros Q HQ; rewrite Forall_forall in HQ; apply HQ, nth_In; lia).
        pose proof (Cb _ Hbs) as Cb'. cbv beta in Cb'.
        pose proof (nth_error_In _ _ E1) as I1. pose proof (nth_error_In _ _ E2) as I2.
        pose proof (Forall_concat_In _ _ _ Hkp (in_map kvl _ _ Hi2)) as Kp. apply Forall_app in Kp as [Kp1 Kp2].
        apply Forall_app in Hbp as [Bp1 Bp2]. rewrite Forall_forall in Bp1, Hsg.
        eapply u_weaken; [apply (u_lin_instance c' ch bz ab al b i vk (nth i bases dft) pe zc wcs); auto| |auto].
        - apply (evs_In _ _ _ Hev I1).
        - intros w o Hb Q Sch Sbz Sab Sal Sbs Sev Obv Okv Ebz Eab. pose proof (Cb _ Sbs) as Sb'. cbv beta in Sb'.
          assert (Oz : onp w zc) by (apply Forall_app in Obv as [Obv _]; rewrite Forall_forall in Obv; auto).
          pose proof (Forall_concat_In _ _ _ Okv (in_map kvl _ _ Hi2)) as Ok2.
          destruct Q as [Q1 Q2]; auto. { apply (evs_In _ _ _ Sev I1). }
          split; [exact Q1|]. intros x1 ln a2 a4 a5 a6 Eal. unfold off_inst. destruct (off_get w b i pe zc wcs E1 E2 E3) as (O1 & O2 & O3 & O4).
          rewrite O1, O2, O3, O4. cbn [bind]. apply Q2. exact Eal. }
      nx os Ros. cbv beta in Ros.
      match goal with Hs : st ?c |- _ => assert (Cos : Forall (both (can c) (pin c)) (concat os)) by (apply Forall_concat'; eapply Forall2_r; [exact Ros|]; intros iv o A; exact A) end. clear Ros.
      replace (length vks <? length bases)%nat with false by (symmetry; apply Nat.ltb_ge; lia).
      ub; [apply U_mul; assumption|]. nx z2 R4. ub; [apply U_mul; assumption|]. nx zn2 R5.
      destruct (bv_quots b) as [|q0 qs] eqn:Eq; [congruence|].
      match goal with Hs : st ?c |- _ => assert (Cq : Forall (pin c) (q0 :: qs)) by
        (rewrite <- Eq; unfold bvl in Hbp; apply Forall_app in Hbp as [_ Hbp]; apply Forall_app in Hbp as [Hbp _]; exact Hbp) end.
      pose proof (Forall_inv Cq) as Cq0. pose proof (Forall_inv_tail Cq) as Cqs. clear Cq.
      ub; [apply U_inv; assumption|]. nx q0' R6. ub; [apply u_quots; assumption|]. nx qts R7.
      apply u_ret.
      2: { apply Forall_app. split; [|constructor; [split; assumption|assumption]]. exact Cos. }
      intros w Hb. cbv beta. intros Q1 Q2 Q3 Q4 Q5 Q6 Q7 Q8 Sch Szn Szm Sl1 Sbs Sev Obv Okv Ezn.
      assert (Oq : Forall (onp w) (q0 :: qs)) by
        (unfold bvl in Obv; rewrite Eq in Obv; apply Forall_app in Obv as [_ Obv]; apply Forall_app in Obv as [Obv _]; exact Obv).
      pose proof (Forall_inv Oq) as Oq0. apply Forall_inv_tail in Oq.
      pose proof (sc_beta _ _ Sch) as S1. pose proof (sc_zeta _ _ Sch) as S2. pose proof (sc_a1 _ _ Sch) as S3. pose proof (sc_a2 _ _ Sch) as S4.
      destruct (Q8 S1 S2) as [Sbz Ebz]. destruct (Q7 S3 S1) as [Sab Eab]. destruct (Q6 S4 Sl1) as [Sal Eal].
      destruct (Q4 S2 S2) as [Sz2 Ez2]. destruct (Q3 Sz2 Szn) as [Szn2 Ezn2]. destruct (Q1 Szn2 Szm Oq) as [Sqt Eqt].
      assert (Q5' : Forall2 (fun iv o => Forall (okb w) o /\ forall l1 ln a2 a4 a5 a6, V w al = a2 * l1 -> exists ts,
            off_inst w ch b l1 ln a2 a4 a5 a6 (fst iv, (vk_at w (snd iv), V w (nth (fst iv) bases dft))) = Ok ts /\ Forall2 (peq w) o ts) (combine (seq 0 (length vks)) vks) os).
      { eapply f2_impl; [|exact Q5]. intros iv o Q. cbv beta in Q. exact (Q Sch Sbz Sab Sal Sbs Sev Obv Okv Ebz Eab). }
      clear Q5. split.
      - apply Forall_app. split; [|constructor; [split; [assumption|eapply Hon; [exact Q2|exact Oq0]]|assumption]]. apply Forall_concat'. eapply Forall2_r; [exact Q5'|]. intros iv o [A _]. exact A.
      - intros ln a4 a5 a6.
        assert (G : forall l s os', (s + length l <= length bases)%nat ->
          Forall2 (fun iv o => Forall (okb w) o /\ forall l1 ln a2 a4 a5 a6, V w al = a2 * l1 -> exists ts,
            off_inst w ch b l1 ln a2 a4 a5 a6 (fst iv, (vk_at w (snd iv), V w (nth (fst iv) bases dft))) = Ok ts /\ Forall2 (peq w) o ts) (combine (seq s (length l)) l) os' ->
          exists tss, map_res (off_inst w ch b (V w l1) ln (V w (cv_a2 ch)) a4 a5 a6) (combine (seq s (length l)) (combine (map (vk_at w) l) (map (V w) (skipn s bases)))) = Ok tss /\ Forall2 (Forall2 (peq w)) os' tss).
        { clear -Eal. induction l as [|vk l IH]; intros s os' Hl H; cbn [length seq combine] in H.
          - inversion H; subst. exists []. split; [reflexivity|constructor].
          - inversion H as [|? o ? os2 [_ Ho] Hos]; subst. cbn [fst snd] in Ho. destruct (Ho (V w l1) ln (V w (cv_a2 ch)) a4 a5 a6 Eal) as (ts & E1 & F1).
            cbn [length] in Hl. destruct (IH (S s) os2 ltac:(lia) Hos) as (tss & E2 & F2). exists (ts :: tss). split; [|constructor; assumption].
            rewrite (skipn_nth_cons bases dft s) by lia. cbn [length seq map combine map_res]. rewrite E1. cbn [bind]. rewrite E2. reflexivity. }
        destruct (G vks 0%nat os ltac:(lia) Q5') as (tss & Ets & Fts). cbn [skipn] in Ets. eexists. split.
        + unfold linearization_scalars_and_bases. unfold bp_len. cbn [b_at bp_perms]. rewrite !map_length, L1, L2, Lb, Nat.eqb_refl. cbn [negb orb].
          fold (b_at w b). rewrite L1 in Ets. unfold off_inst in Ets. cbn [b_at bp_evals bp_perms bp_wires bp_plookups] in *. rewrite Ets. cbn [bind].
          unfold b_at. cbn [bp_quots]. rewrite Eq. cbn [map length Nat.eqb negb guard bind]. reflexivity.
        + rewrite sb_pushes_msm. unfold sb_msm at 1. cbn [map]. change (Alg.vsum ([] : list V1)) with (Alg.v0 : V1). rewrite vadd_0_l.
          symmetry. apply peq_msm. apply Forall2_app; [apply Forall2_concat; exact Fts|]. cbn [quot_terms]. constructor.
          * unfold peq. cbn [fst snd]. rewrite (Dp_neg _ _ _ Q2), vmul_opp_r. reflexivity.
          * assert (E : (1 + V w zm) * ch_zeta Fr (ch_at w ch) * ch_zeta Fr (ch_at w ch) = V w zn2). { cbn [ch_at ch_zeta]. rewrite Ezn2, Ez2, Ezn. ring. }
            rewrite E. exact Eqt.
    Qed.

    (** ** Aggregated commitments *)
    Definition ex (w : nat -> K) (o : list (fv * pvar)) : list (Fr * V1) := map (fun sb => (V w (fst sb), Dp w (snd sb))) o.
    Lemma ex_app w o o' : ex w (o ++ o') = ex w o ++ ex w o'.
    Proof. apply map_app. Qed.
    Lemma ex_msm w o : pmsm w o = Alg.vsum (map (fun t => Alg.vmul (fst t) (snd t)) (ex w o)).
    Proof. unfold pmsm, ex. rewrite map_map. reflexivity. Qed.
    Lemma u_add_comms r : forall cs bs c, st c -> can c r -> can c bs -> Forall (pin c) cs ->
      uspec (add_comms_circuit zval q nb L nn r bs cs) c
        (fun w o => small w r -> small w bs -> Forall (onp w) cs -> Forall (okb w) (fst o) /\ small w (snd o) /\
          ex w (fst o) = fst (add_comms Fr V1 (V w r) (V w bs) (map (Dp w) cs)) /\ V w (snd o) = snd (add_comms Fr V1 (V w r) (V w bs) (map (Dp w) cs)))
        (fun o c' => Forall (both (can c') (pin c')) (fst o) /\ can c' (snd o) /\ length (fst o) = length cs).
    Proof.
      induction cs as [|x cs IH]; intros bs c Hs Hr Hb Hcs; cbn [add_comms_circuit].
      - apply u_ret; [|split; [constructor|split; [assumption|reflexivity]]]. intros w _ _ S1 _. cbn. split; [constructor|auto].
      - pose proof (Forall_inv Hcs) as Hx. apply Forall_inv_tail in Hcs.
        ub; [apply U_mul; assumption|]. nx y R1. ub; [apply IH; assumption|]. nx o (R2 & R3 & R4).
        apply u_ret; [|cbn [fst snd length]; split; [constructor; [split; assumption|assumption]|split; [assumption|lia]]].
        intros w Hbw. cbv beta. intros Q1 Q2 S1 S2 Oc. destruct (Q2 S2 S1) as [S3 E3]. destruct (Q1 S1 S3 (Forall_inv_tail Oc)) as (A1 & A2 & A3 & A4).
        cbn [fst snd map add_comms]. split; [constructor; [split; [assumption|apply (Forall_inv Oc)]|assumption]|]. split; [assumption|]. rewrite <- E3. split; [|exact A4].
        rewrite <- A3. reflexivity.
    Qed.
    Definition ilen (b : bproofvar (K := K)) (iv : nat * vkvar (Fr := Fr)) : nat :=
      match nth_error (bv_wires b) (fst iv) with
      | Some wcs => (length wcs + Nat.min (length wcs - 1) (length (kv_sigmas (snd iv))) + 1)%nat
      | None => 0%nat
      end.
    Lemma u_agg_instance c v vb uvb b i vk zc wcs : st c -> can c v -> can c vb -> can c uvb ->
      nth_error (bv_perms b) i = Some zc -> nth_error (bv_wires b) i = Some wcs -> (1 <= length wcs)%nat ->
      pin c zc -> Forall (pin c) wcs -> Forall (pin c) (kv_sigmas vk) ->
      uspec (agg_instance_circuit zval q nb L nn v vb uvb b i vk) c
        (fun w o => small w v -> small w vb -> small w uvb -> onp w zc -> Forall (onp w) wcs -> Forall (onp w) (kv_sigmas vk) -> Forall (okb w) (fst (fst o)) /\ small w (snd (fst o)) /\ small w (snd o) /\
          agg_instance Fr V1 V2 (V w v) (V w vb) (V w uvb) (map (Dp w) wcs) (Dp w zc) None (vk_at w vk) = Ok (ex w (fst (fst o)), V w (snd (fst o)), V w (snd o)))
        (fun o c' => Forall (both (can c') (pin c')) (fst (fst o)) /\ can c' (snd (fst o)) /\ can c' (snd o) /\ length (fst (fst o)) = ilen b (i, vk)).
    Proof.
      intros Hs Hv Hvb Huvb Ez Ew H1 Pz Pw Psg. unfold agg_instance_circuit.
      eapply u_bind_idx; [eassumption|]. ub; [apply u_add_comms; assumption|]. nx a (R1 & R2 & R3).
      destruct (Nat.ltb_spec (length wcs) 1); [lia|]. eapply u_bind_pure; [reflexivity|].
      ub; [apply u_add_comms; [assumption..|apply Forall_firstn'; assumption]|]. nx s (R4 & R5 & R6).
      eapply u_bind_idx; [eassumption|]. ub; [apply u_add_comms; [assumption..|constructor; [assumption|constructor]]|]. nx z (R7 & R8 & R9).
      apply u_ret.
      - intros w Hb. cbv beta. intros Q1 Q2 Q3 Sv Svb Su Oz Ow Osg. destruct (Q3 Sv Svb Ow) as (A1 & A2 & A3 & A4). destruct (Q2 Sv A2 (Forall_firstn' _ _ _ Osg)) as (B1 & B2 & B3 & B4). destruct (Q1 Sv Su (Forall_cons _ Oz (Forall_nil _))) as (C1 & C2 & C3 & C4).
        cbn [fst snd]. split; [apply Forall_app; split; [assumption|apply Forall_app; split; assumption]|]. do 2 (split; [assumption|]).
        unfold agg_instance. rewrite map_length. destruct (Nat.leb_spec 1 (length wcs)); [|lia]. cbn [assert_p bind]. rewrite !ex_app.
        rewrite A3, B3, C3, B4, C4, A4. cbn [vk_at vk_sigmas]. rewrite firstn_map'. reflexivity.
      - cbn [fst snd]. split; [apply Forall_app; split; [assumption|apply Forall_app; split; assumption]|]. do 2 (split; [assumption|]).
        unfold ilen. cbn [fst snd]. rewrite Ew, !app_length, R3, R6, R9, firstn_length. cbn [length]. lia.
    Qed.
    Definition off_agg (w : nat -> K) (ch : chvar (K := K)) (b : bproofvar (K := K)) (st : list (Fr * V1) * Fr * Fr) (iv : nat * vkey Fr V1 V2) : outcome perr (list (Fr * V1) * Fr * Fr) :=
      let '(ps, vb, uvb) := st in
      let '(i, vk) := iv in
      let* wcs := index (bp_wires Fr V1 (b_at w b)) i in
      let* zc := index (bp_perms Fr V1 (b_at w b)) i in
      let* lk := index (bp_plookups Fr V1 (b_at w b)) i in
      let* x := agg_instance Fr V1 V2 (ch_v Fr (ch_at w ch)) vb uvb wcs zc lk vk in
      Ok (ps ++ fst (fst x), snd (fst x), snd x).
    Lemma u_agg_loop ch b vks N : shape N vks b -> forall l, (forall i vk, In (i, vk) l -> (i < N)%nat /\ In vk vks) ->
      forall acc c, st c -> chok c ch -> Forall (pin c) (bvl b) -> Forall (pin c) (concat (map kvl vks)) ->
      Forall (both (can c) (pin c)) (fst (fst acc)) -> can c (snd (fst acc)) -> can c (snd acc) ->
      uspec (foldM (fun st iv =>
              x <- agg_instance_circuit zval q nb L nn (cv_v ch) (snd (fst st)) (snd st) b (fst iv) (snd iv) ;;
              ret (fst (fst st) ++ fst (fst x), snd (fst x), snd x)) acc l) c
        (fun w o => smallch w ch -> Forall (onp w) (bvl b) -> Forall (onp w) (concat (map kvl vks)) -> Forall (okb w) (fst (fst acc)) -> small w (snd (fst acc)) -> small w (snd acc) ->
          Forall (okb w) (fst (fst o)) /\
          fold_res (off_agg w ch b) (map (fun iv => (fst iv, vk_at w (snd iv))) l) (ex w (fst (fst acc)), V w (snd (fst acc)), V w (snd acc)) = Ok (ex w (fst (fst o)), V w (snd (fst o)), V w (snd o)))
        (fun o c' => Forall (both (can c') (pin c')) (fst (fst o)) /\ length (fst (fst o)) = (length (fst (fst acc)) + list_sum (map (ilen b) l))%nat).
    Proof.
      intros Hsh. induction l as [|[i vk] l IH]; intros HI acc c Hs Hch Hbp Hkp C1 C2 C3; cbn [foldM].
      - apply u_ret; [|split; [assumption|cbn; lia]]. intros w _ _ _ _ S1 _ _. split; [assumption|]. cbn [map fold_res]. reflexivity.
      - cbn [fst snd]. destruct (HI i vk (or_introl eq_refl)) as [Hi Hvk].
        destruct (inst_get N vks b i Hsh Hi) as (pe & zc & wcs & E1 & E2 & E3 & G5 & G1).
        pose proof (Forall_concat_In _ _ _ Hkp (in_map kvl _ _ Hvk)) as Kp. apply Forall_app in Kp as [Kp1 _].
        pose proof Hbp as Hbp'. apply Forall_app in Hbp' as [Bp1 Bp2]. apply Forall_app in Bp2 as [_ Bp3].
        pose proof (Forall_concat_In _ _ _ Bp3 (nth_error_In _ _ E3)) as Bw. clear Bp3. rewrite Forall_forall in Bp1. pose proof (Bp1 _ (nth_error_In _ _ E2)) as Bz. clear Bp1.
        pose proof (ck_v _ _ Hch) as Cv.
        assert (Step : uspec (x <- agg_instance_circuit zval q nb L nn (cv_v ch) (snd (fst acc)) (snd acc) b i vk ;; ret (fst (fst acc) ++ fst (fst x), snd (fst x), snd x)) c
            (fun w (o : list (fv * pvar) * fv * fv) => smallch w ch -> Forall (onp w) (bvl b) -> Forall (onp w) (concat (map kvl vks)) -> Forall (okb w) (fst (fst acc)) -> small w (snd (fst acc)) -> small w (snd acc) ->
              Forall (okb w) (fst (fst o)) /\ small w (snd (fst o)) /\ small w (snd o) /\
              off_agg w ch b (ex w (fst (fst acc)), V w (snd (fst acc)), V w (snd acc)) (i, vk_at w vk) = Ok (ex w (fst (fst o)), V w (snd (fst o)), V w (snd o)))
            (fun o c' => Forall (both (can c') (pin c')) (fst (fst o)) /\ can c' (snd (fst o)) /\ can c' (snd o) /\ length (fst (fst o)) = (length (fst (fst acc)) + ilen b (i, vk))%nat)).
        { ub; [apply (u_agg_instance c (cv_v ch) (snd (fst acc)) (snd acc) b i vk zc wcs); assumption|]. nx x (R1 & R2 & R3 & R4).
          apply u_ret; cbn [fst snd].
          - intros w Hb Q Sch Obv Okv S1 S2 S3.
            pose proof (Forall_concat_In _ _ _ Okv (in_map kvl _ _ Hvk)) as Ok2. apply Forall_app in Ok2 as [Ok2 _].
            apply Forall_app in Obv as [Obz Obv]. apply Forall_app in Obv as [_ Obw].
            pose proof (Forall_concat_In _ _ _ Obw (nth_error_In _ _ E3)) as Ow. rewrite Forall_forall in Obz. pose proof (Obz _ (nth_error_In _ _ E2)) as Oz.
            destruct (Q (sc_v _ _ Sch) S2 S3 Oz Ow Ok2) as (A1 & A2 & A3 & A4). split; [apply Forall_app; split; assumption|]. do 2 (split; [assumption|]).
            unfold off_agg. destruct (off_get w b i pe zc wcs E1 E2 E3) as (O1 & O2 & O3 & O4). rewrite O2, O3, O4. cbn [bind ch_at ch_v]. rewrite A4. cbn [bind fst snd]. rewrite ex_app. reflexivity.
          - split; [apply Forall_app; split; assumption|]. do 2 (split; [assumption|]). rewrite app_length, R4. reflexivity. }
        ub; [exact Step|]. clear Step. nx acc' (R1 & R2 & R3 & R4).
        eapply u_weaken; [apply (IH (fun j v' Hj => HI j v' (or_intror Hj)) acc'); assumption| |].
        + intros w o Hb Q Q0 Sch Obv Okv S1 S2 S3. cbv beta in Q, Q0. destruct (Q0 Sch Obv Okv S1 S2 S3) as (A1 & A2 & A3 & A4). destruct (Q Sch Obv Okv A1 A2 A3) as [B1 B2]. split; [exact B1|].
          cbn [map fold_res fst snd]. rewrite A4. cbn [bind]. exact B2.
        + intros o c' _ [B1 B2]. split; [exact B1|]. rewrite B2, R4. cbn [map list_sum fold_right]. unfold list_sum. lia.
    Qed.
    Definition shape2 (vks : list (vkvar (Fr := Fr))) (b : bproofvar (K := K)) : Prop :=
      forall i vk pe wcs, nth_error vks i = Some vk -> nth_error (bv_evals b) i = Some pe -> nth_error (bv_wires b) i = Some wcs ->
        length (ev_wires pe) = length wcs /\ length (ev_sigmas pe) = Nat.min (length wcs - 1) (length (kv_sigmas vk)).
    Lemma buf_length N vks b : shape N vks b -> shape2 vks b -> list_sum (map (ilen b) (combine (seq 0 (length vks)) vks)) = length (concat (map evl (bv_evals b))).
    Proof.
      intros Hsh Hs2.
      assert (G : forall l s, (forall j vk, nth_error l j = Some vk -> nth_error vks (s + j) = Some vk) -> (s + length l = N)%nat ->
        list_sum (map (ilen b) (combine (seq s (length l)) l)) = length (concat (map evl (skipn s (bv_evals b))))).
      { induction l as [|vk l IH]; intros s Hl Hlen.
        - cbn in *. rewrite skipn_all2; [reflexivity|]. destruct Hsh as (_ & _ & L3 & _). lia.
        - cbn [length] in Hlen. destruct (inst_get N vks b s Hsh ltac:(lia)) as (pe & zc & wcs & E1 & E2 & E3 & G5 & G1).
          pose proof (Hl 0%nat vk eq_refl) as Evk. rewrite Nat.add_0_r in Evk. destruct (Hs2 s vk pe wcs Evk E1 E3) as [H1 H2].
          assert (Hlt : (s < length (bv_evals b))%nat) by (apply nth_error_Some; congruence).
          rewrite (skipn_nth_cons (bv_evals b) pe s) by exact Hlt. rewrite (nth_error_nth _ _ pe E1). cbn [length seq combine map concat]. rewrite app_length, <- IH; [| |lia].
          + cbn [list_sum fold_right]. unfold ilen at 1. cbn [fst snd]. rewrite E3. unfold evl. rewrite !app_length. cbn [length]. unfold list_sum. lia.
          + intros j v' Hj. replace (S s + j)%nat with (s + S j)%nat by lia. apply Hl. exact Hj. }
      apply (G vks 0%nat); [auto|]. destruct Hsh as (L1 & _). exact L1.
    Qed.

    (** ** Aggregated evaluations *)
    Lemma u_add_evals : forall evs buf acc c, st c -> near c acc -> Forall (can c) evs -> Forall (can c) buf -> length evs = length buf ->
      uspec (add_evals_circuit zval q nb L nn acc evs buf) c
        (fun w o => small w acc -> Forall (small w) evs -> Forall (small w) buf -> small w o /\
          V w o = fold_left (fun a eb => a + fst eb * snd eb) (combine (map (V w) evs) (map (V w) buf)) (V w acc))
        (fun o c' => can c acc \/ evs <> [] -> can c' o).
    Proof.
      induction evs as [|e evs IH]; intros [|r buf] acc c Hs Ha He Hb Hl; try discriminate; cbn [add_evals_circuit].
      - apply u_ret; [auto|]. intros [H|H]; [assumption|congruence].
      - pose proof (Forall_inv He) as Ce. apply Forall_inv_tail in He. pose proof (Forall_inv Hb) as Cr. apply Forall_inv_tail in Hb.
        ub; [apply U_mul; assumption|]. nx t R1. ub; [apply u_add'; assumption|]. nx acc' R2.
        match goal with Hs : st ?c |- _ => pose proof (can_near c _ R2) as Na end.
        eapply u_weaken; [apply (IH buf acc'); try assumption; cbn in Hl; lia| |].
        + intros w o Hbw Q1 Q2 Q3 Sa Se Sb. cbv beta in *. pose proof (Forall_inv Se) as Se1. apply Forall_inv_tail in Se. pose proof (Forall_inv Sb) as Sb1. apply Forall_inv_tail in Sb.
          destruct (Q3 Sb1 Se1) as [St Et]. destruct Q2 as [Sa' Ea']. specialize (Ea' Sa St). destruct (Q1 Sa' Se Sb) as [So Eo]. split; [assumption|].
          cbn [map combine fold_left fst snd]. rewrite Eo, Ea', Et. f_equal. ring.
        + intros o c' _ Ho _. apply Ho. left. exact R2.
    Qed.
    Lemma u_agg_evals c const evals buf : st c -> can c const -> Forall (can c) (concat (map evl evals)) -> Forall (can c) buf -> length (concat (map evl evals)) = length buf -> evals <> [] ->
      uspec (aggregate_evaluations_circuit zval q nb L nn const evals buf) c
        (fun w o => small w const -> Forall (small w) (concat (map evl evals)) -> Forall (small w) buf -> small w o /\
          aggregate_evaluations Fr V1 (V w const) (map (pe_at w) evals) (repeat None (length evals)) (map (V w) buf) = Ok (V w o))
        (fun o c' => can c' o).
    Proof.
      intros Hs Hc He Hb Hl Hne. unfold aggregate_evaluations_circuit. cbn [ni_mod].
      ub; [apply U_neg; assumption|]. nx r R1. match goal with Hs : st ?c |- _ => assert (Nr : near c r) by exact R1 end. clear R1.
      change (concat (map (fun pe => ev_wires pe ++ ev_sigmas pe ++ [ev_next pe]) evals)) with (concat (map evl evals)).
      eapply u_weaken; [apply u_add_evals; assumption| |].
      - intros w o Hbw Q1 [Sr Er] Sc Se Sb. cbv beta in *. destruct (Q1 Sr Se Sb) as [So Eo]. split; [assumption|]. unfold aggregate_evaluations.
        rewrite map_length, repeat_length, Nat.eqb_refl. cbn [assert_p bind].
        assert (E : concat (map (fun x => evals_instance Fr V1 (fst x) (snd x)) (combine (map (pe_at w) evals) (repeat None (length evals)))) = map (V w) (concat (map evl evals))).
        { clear. induction evals as [|pe evals IH]; [reflexivity|]. cbn [map length repeat combine concat]. rewrite map_app, <- IH. f_equal.
          unfold evals_instance, evl. cbn [fst snd pe_at wires_evals sigma_evals perm_next_eval]. rewrite !map_app. cbn [map]. now rewrite app_nil_r. }
        rewrite E, !map_length, Hl, Nat.eqb_refl. cbn [guard bind]. rewrite Eo, (Er Sc). reflexivity.
      - intros o c' _ Ho. apply Ho. right. destruct evals as [|pe evals]; [congruence|]. cbn [map concat]. unfold evl. destruct (ev_wires pe); cbn; [destruct (ev_sigmas pe); discriminate|discriminate].
    Qed.
    Lemma u_agg c vks ch zn zm l1 b bases N : st c -> chok c ch -> can c zn -> can c zm -> can c l1 -> Forall (can c) bases ->
      Forall (can c) (concat (map evl (bv_evals b))) -> Forall (pin c) (bvl b) -> Forall (pin c) (concat (map kvl vks)) -> bv_quots b <> [] ->
      shape N vks b -> shape2 vks b -> length bases = N ->
      uspec (aggregate_poly_commitments_circuit zval q nb L zr P tb nn vks ch zn zm l1 b bases) c
        (fun w o => smallch w ch -> small w zn -> small w zm -> small w l1 -> Forall (small w) bases -> Forall (small w) (concat (map evl (bv_evals b))) -> Forall (onp w) (bvl b) -> Forall (onp w) (concat (map kvl vks)) ->
          V w zn = 1 + V w zm ->
          Forall (okb w) (fst o) /\ Forall (small w) (snd o) /\ forall ln a4 a5 a6, exists sb,
            aggregate_poly_commitments Fr V1 V2 d (map (vk_at w) vks) (ch_at w ch) (V w zm) (V w l1) ln (b_at w b) (V w (cv_a2 ch)) a4 a5 a6 (map (V w) bases) = Ok (sb, map (V w) (snd o)) /\
            sb_msm Fr V1 sb = pmsm w (fst o))
        (fun o c' => Forall (both (can c') (pin c')) (fst o) /\ Forall (can c') (snd o) /\ length (snd o) = length (concat (map evl (bv_evals b)))).
    Proof.
      intros Hs Hch Hzn Hzm Hl1 Hbs Hev Hbp Hkp Hq0 Hsh Hs2 Lb. pose proof Hsh as (L1 & L2 & L3 & L4 & H5 & H1 & Hsg). unfold aggregate_poly_commitments_circuit.
      unfold bv_len. rewrite L1, L2, Nat.eqb_refl. cbn [negb]. rewrite <- L1.
      ub; [eapply u_linearization; eassumption|]. nx sb R1.
      pose proof (ck_v _ _ Hch). pose proof (ck_u _ _ Hch).
      ub; [apply (u_agg_loop ch b vks N Hsh (combine (seq 0 (length vks)) vks)); try assumption; cbn [fst snd]; [|apply Forall_nil]|].
      { intros i vk Hi. apply combine_seq_In in Hi as [A1 A2]. split; [lia|eapply nth_error_In; exact A2]. }
      nx r [R2 R3]. cbn [fst length Nat.add] in R3. rewrite (buf_length N vks b Hsh Hs2) in R3.
      match goal with Hs : st ?c |- _ => assert (Cr : Forall (can c) (map fst (fst (fst r)))) by
        (apply Forall_forall; intros x Hx; apply in_map_iff in Hx as (y & <- & Hy); rewrite Forall_forall in R2; exact (proj1 (R2 y Hy))) end.
      apply u_ret; cbn [fst snd].
      - intros w Hb Q2 Q1 Sch Szn Szm Sl1 Sbs Sev Obv Okv Ezn. destruct (Q1 Sch Szn Szm Sl1 Sbs Sev Obv Okv Ezn) as [A1 A2].
        destruct Q2 as [B1 B2]; cbn [fst snd]; [assumption|exact Obv|exact Okv|constructor|apply (sc_v _ _ Sch)|apply (sc_u _ _ Sch)|]. cbn [fst snd ex map] in B2.
        split; [apply Forall_app; split; assumption|]. split.
        { apply Forall_forall; intros x Hx; apply in_map_iff in Hx as (y & <- & Hy). rewrite Forall_forall in B1. exact (proj1 (B1 y Hy)). }
        intros ln a4 a5 a6. destruct (A2 ln a4 a5 a6) as (sb' & E1 & E2). exists (sb_pushes Fr V1 (ex w (fst (fst r))) sb'). split.
        + unfold aggregate_poly_commitments. unfold bp_len. cbn [b_at bp_perms]. rewrite !map_length, L1, L2, Nat.eqb_refl. cbn [negb]. rewrite <- L1. fold (b_at w b). rewrite E1. cbn [bind].
          assert (El : combine (seq 0 (length vks)) (map (vk_at w) vks) = map (fun iv => (fst iv, vk_at w (snd iv))) (combine (seq 0 (length vks)) vks)).
          { rewrite <- (map_id (seq 0 (length vks))) at 1. rewrite combine_map2. reflexivity. }
          rewrite El. unfold off_agg in B2. cbn [b_at bp_wires bp_perms bp_plookups bp_evals ch_at ch_v ch_u] in *. rewrite B2. cbn [bind fst snd].
          unfold ex. rewrite !map_map. reflexivity.
        + rewrite sb_pushes_msm, E2, ex_msm. rewrite ex_msm, ex_app, map_app, vsum_app. reflexivity.
      - split; [apply Forall_app; split; assumption|]. split; [assumption|]. rewrite map_length. exact R3.
    Qed.

    (** ** The circuit computes what the verifier computes *)
    Hypothesis Hn2 : (2 <= n)%nat.
    Definition setup (c : circuit K) (N : nat) (vks : list (vkvar (Fr := Fr))) (pi : list fv) (b : bproofvar (K := K)) : Prop :=
      (1 <= N)%nat /\ (Z.of_nat N <= B)%Z /\ shape N vks b /\ shape2 vks b /\ bv_quots b <> [] /\
      Forall (fun vk => kv_merged vk = true /\ kv_n vk = n /\ kv_inputs vk = length pi) vks /\
      (length pi / 2 <= n)%nat /\ (Z.of_nat (2 * (length pi / 2)) <= B)%Z /\
      Forall (can c) pi /\ Forall (can c) (concat (map evl (bv_evals b))) /\ Forall (pin c) (bvl b) /\ Forall (pin c) (concat (map kvl vks)).
    Definition agrees (w : nat -> K) (o : pcsvar (K := K)) (info : pcs_info Fr V1) : Prop :=
      in_u Fr V1 info = V w (pc_u o) /\ in_point Fr V1 info = V w (pc_point o) /\ in_next Fr V1 info = V w (pc_next o) /\ in_eval Fr V1 info = V w (pc_eval o) /\
      sb_msm Fr V1 (in_comm Fr V1 info) = pmsm w (pc_comm o) /\ in_open Fr V1 info = Dp w (pc_open o) /\ in_shifted Fr V1 info = Dp w (pc_shifted o).
    Definition info_small (w : nat -> K) (o : pcsvar (K := K)) : Prop :=
      small w (pc_u o) /\ small w (pc_point o) /\ small w (pc_next o) /\ small w (pc_eval o) /\ Forall (okb w) (pc_comm o).
    Lemma u_pcs c vks pi b ch N : st c -> chok c ch -> setup c N vks pi b ->
      (forall w, base w -> hext c w -> fpow (V w (cv_zeta ch)) n <> 1) ->
      uspec (pcs_info_from_challenges zval q nb L zr P tb radix2 nn d vks (repeat pi N) b ch) c
        (fun w o => smallch w ch -> Forall (small w) pi -> Forall (small w) (concat (map evl (bv_evals b))) -> Forall (onp w) (bvl b) -> Forall (onp w) (concat (map kvl vks)) -> fpow (V w (cv_zeta ch)) n <> 1 ->
          V w (cv_a2 ch) = V w (cv_a1 ch) * V w (cv_a1 ch) -> V w (cv_a3 ch) = V w (cv_a2 ch) * V w (cv_a1 ch) ->
          info_small w o /\ forall T extra,
            compute_challenges Fr V1 V2 T (map (vk_at w) vks) (repeat (map (V w) pi) N) (b_at w b) extra = Ok (ch_at w ch) ->
            exists info, prepare_pcs_info Fr V1 V2 T d (map (vk_at w) vks) (repeat (map (V w) pi) N) (b_at w b) extra = Ok info /\ agrees w o info)
        (fun o c' => can c' (pc_u o) /\ can c' (pc_point o) /\ can c' (pc_next o) /\ can c' (pc_eval o) /\ Forall (both (can c') (pin c')) (pc_comm o) /\ pc_open o = bv_open b /\ pc_shifted o = bv_shifted b).
    Proof.
      intros Hs Hch (HN & HNB & Hsh & Hs2 & Hq0 & Hvk & Hlen & HlB & Hpi & Hev & Hbp & Hkp) Hne.
      pose proof Hsh as (L1 & L2 & L3 & L4 & H5 & H1 & Hsg). unfold pcs_info_from_challenges.
      pose proof (ck_zeta _ _ Hch) as Cz. pose proof (ck_a3 _ _ Hch) as Ca3. pose proof (ck_u _ _ Hch) as Cu.
      assert (Hmg : Forall (fun vk => kv_merged vk = true) vks) by (eapply Forall_impl; [|exact Hvk]; intros a (A & _ & _); exact A).
      pose proof (do_inv _ _ Hd) as Hn0.
      ub; [apply u_alpha; [assumption..|lia]|]. nx bases [R1 R1'].
      ub; [apply (u_helper _ _ n k); assumption|].
      match goal with |- forall a c', st c' -> le ?c c' -> _ => intros [[zn zm] l1] end. nx0 (R2 & R3 & R4).
      ub; [apply (u_const _ ch vks pi b zm l1 bases N); first [assumption | congruence]|]. nx const R5.
      ub; [apply (u_agg _ vks ch zn zm l1 b bases N); first [assumption | congruence]|]. nx agg (R6 & R7 & R8).
      ub; [apply (u_agg_evals _ const (bv_evals b) (snd agg)); try assumption; [congruence|]|].
      { intro E. rewrite E in L3. cbn in L3. lia. }
      nx ev R9. pose proof (zr_rng (dgen d)) as Rg. pose proof o_PM as HPM.
      unfold of_r. apply U_bind_const; [lia|]. intros g Hg.
      ub; [eapply U_mulc; [assumption..|exact Hg|lia]|]. nx nxt R10.
      apply u_ret; cbn [pc_u pc_point pc_next pc_eval pc_comm].
      2: { do 5 (split; [assumption|]). split; reflexivity. }
      intros w Hb. cbv beta. rewrite (pf_fZ _ _ _ _ _ HFr). intros Q1 Q2 Q3 Q4 Q5 Q6 Sch Spi Sev Obv Okv Hz1 Ea2 Ea3.
      destruct (Q6 (sc_a3 _ _ Sch)) as [Sbs Ebs]. destruct (Q5 (sc_zeta _ _ Sch)) as (Szn & Szm & Sl1 & Ezn & Ezm & El1).
      assert (Ezm' : V w zm = fpow (V w (cv_zeta ch)) n - 1) by congruence.
      destruct (Q4 Sch Szm Sl1 Spi Sbs Sev Ezm' Hz1) as [Sc Ec].
      assert (Ezn' : V w zn = 1 + V w zm) by (rewrite Ezm; ring).
      destruct (Q3 Sch Szn Szm Sl1 Sbs Sev Obv Okv Ezn') as (Sag & Sbuf & Eag).
      destruct (Q2 Sc Sev Sbuf) as [Se Ee]. destruct (Q1 (sc_zeta _ _ Sch)) as [Snx Enx].
      split; [unfold info_small; cbn [pc_u pc_point pc_next pc_eval pc_comm]; split; [apply (sc_u _ _ Sch)|]; split; [apply (sc_zeta _ _ Sch)|]; do 2 (split; [assumption|]); assumption|].
      intros T extra Hcc.
      assert (Hlag : V w l1 = lagv Fr d 1 0 (V w (cv_zeta ch))).
      { apply lagv_of; [assumption..|]. unfold dom_element. cbn [fpow]. rewrite <- Ezm', <- El1, fZ_nat. field. exact Hn0. }
      set (ln := lagv Fr d 1 (n - 1) (V w (cv_zeta ch))).
      set (a := V w (cv_a1 ch)).
      destruct (Eag ln (a * a * (a * a)) (a * a * (a * a * a)) (a * a * (a * a) * (a * a))) as (sb & E1 & E2).
      eexists. split.
      - unfold prepare_pcs_info. unfold bp_len. rewrite !map_length, repeat_length. cbn [b_at bp_perms]. rewrite map_length, L1, L2, Nat.eqb_refl. cbn [negb orb].
        destruct (Nat.eqb_spec N 0); [lia|].
        assert (Hck : map_res (fun x : nat * (list Fr * vkey Fr V1 V2) => let '(i, (pi, vk)) := x in check_vk Fr V1 V2 d (b_at w b) i pi vk)
                  (combine (seq 0 N) (combine (repeat (map (V w) pi) N) (map (vk_at w) vks))) = Ok (repeat tt N)).
        { assert (G : forall l s, (s + length l <= N)%nat -> (forall vk, In vk l -> In vk vks) ->
            map_res (fun x : nat * (list Fr * vkey Fr V1 V2) => let '(i, (pi, vk)) := x in check_vk Fr V1 V2 d (b_at w b) i pi vk)
                  (combine (seq s (length l)) (combine (repeat (map (V w) pi) (length l)) (map (vk_at w) l))) = Ok (repeat tt (length l))).
          { induction l as [|vk l IH]; intros s Hl Hin; [reflexivity|]. cbn [length seq repeat map combine map_res].
            rewrite Forall_forall in Hvk. destruct (Hvk vk (Hin vk (or_introl eq_refl))) as (_ & K1 & K2).
            unfold check_vk at 1. rewrite map_length. cbn [vk_at vk_inputs vk_n vk_plookup]. rewrite K2, Nat.eqb_refl. cbn [guard bind].
            unfold index. cbn [b_at bp_plookups]. rewrite nth_error_repeat' by (cbn in Hl; lia). cbn [bind is_some Bool.eqb guard]. rewrite K1, Nat.eqb_refl. cbn [guard bind].
            cbn [length] in Hl. fold (b_at w b). rewrite IH; [reflexivity|lia|]. intros v' Hv'. apply Hin. now right. }
          specialize (G vks 0%nat ltac:(lia) ltac:(auto)). rewrite L1 in G. exact G. }
        fold (b_at w b). rewrite Hck. cbn [bind]. rewrite Hcc. cbn [bind].
        assert (Hix : exists vk0, index (X := perr) (map (vk_at w) vks) 0 = Ok (vk_at w vk0)).
        { destruct vks as [|vk0 ?]; [cbn in L1; lia|]. exists vk0. reflexivity. }
        destruct Hix as (vk0 & Hix). rewrite Hix. cbn [bind vk_at vk_plookup is_some]. change (ch_alpha Fr (ch_at w ch)) with a. change (ch_zeta Fr (ch_at w ch)) with (V w (cv_zeta ch)).
        rewrite (first_last_coeffs Fr d Hd 1 (f1_neq_0 Fr) _ Hn2). cbn [bind fst snd]. fold ln. rewrite <- Hlag.
        assert (Ebs' : 1 :: alpha_bases_from Fr (a * a * a) (a * a * a) (N - 1) = map (V w) bases).
        { rewrite Ebs, Ea3, Ea2, L1. reflexivity. }
        rewrite Ebs'. rewrite Ea2 in E1. fold a in E1. specialize (Ec ln (a * a * a)). rewrite Ea2 in Ec. fold a in Ec.
        rewrite Ec. cbn [bind].
        assert (Ev : vanish_at Fr d 1 (V w (cv_zeta ch)) = V w zm) by (unfold vanish_at; rewrite fpow_1; congruence).
        rewrite Ev, E1. cbn [bind fst snd]. change (bp_evals Fr V1 (b_at w b)) with (map (pe_at w) (bv_evals b)). change (bp_plookups Fr V1 (b_at w b)) with (repeat (None : option (plookup_proof Fr V1)) (length (bv_evals b))). rewrite Ee. cbn [bind]. reflexivity.
      - unfold agrees. cbn [in_u in_point in_next in_eval in_comm in_open in_shifted pc_u pc_point pc_next pc_eval pc_comm pc_open pc_shifted fst snd].
        do 2 (split; [reflexivity|]). split; [symmetry; exact Enx|]. split; [reflexivity|]. split; [exact E2|]. split; reflexivity.
    Qed.

    (** ** The conversion of the challenges, then the rest *)
    Lemma setup_le c c' N vks pi b : st c -> le c c' -> setup c N vks pi b -> setup c' N vks pi b.
    Proof.
      intros Hs Hl (A1 & A2 & A3 & A4 & A5 & A6 & A7 & A8 & A9 & A10 & A11 & A12). do 8 (split; [assumption|]).
      split; [apply (cans_le c c' _ Hs Hl A9)|]. split; [apply (cans_le c c' _ Hs Hl A10)|].
      split; (eapply Forall_impl; [|eassumption]); intro p; apply (pin_le c c' p Hl).
    Qed.
    Definition raw_at (w : nat -> K) (r : rawch) : challenges Fr :=
      mk_ch Fr None (fZ (zval (w (rc_alpha r)))) (fZ (zval (w (rc_beta r)))) (fZ (zval (w (rc_gamma r)))) (fZ (zval (w (rc_zeta r))))
        (fZ (zval (w (rc_v r)))) (fZ (zval (w (rc_u r)))).
    Lemma u_verify c vks pi b r N : st c -> Forall (rawok c) [rc_alpha r; rc_beta r; rc_gamma r; rc_zeta r; rc_u r; rc_v r] -> setup c N vks pi b ->
      fpow (fZ (zval (hon c (rc_zeta r))) : Fr) n <> 1 ->
      uspec (ch <- challenge_var_to_fp_elem_var zval q nb L nn r ;; pcs_info_from_challenges zval q nb L zr P tb radix2 nn d vks (repeat pi N) b ch) c
        (fun w o => Forall (small w) pi -> Forall (small w) (concat (map evl (bv_evals b))) -> Forall (onp w) (bvl b) -> Forall (onp w) (concat (map kvl vks)) ->
          fpow (fZ (zval (w (rc_zeta r))) : Fr) n <> 1 ->
          info_small w o /\ forall T extra,
            compute_challenges Fr V1 V2 T (map (vk_at w) vks) (repeat (map (V w) pi) N) (b_at w b) extra = Ok (raw_at w r) ->
            exists info, prepare_pcs_info Fr V1 V2 T d (map (vk_at w) vks) (repeat (map (V w) pi) N) (b_at w b) extra = Ok info /\ agrees w o info)
        (fun o c' => can c' (pc_u o) /\ can c' (pc_point o) /\ can c' (pc_next o) /\ can c' (pc_eval o) /\ Forall (both (can c') (pin c')) (pc_comm o) /\ pc_open o = bv_open b /\ pc_shifted o = bv_shifted b).
    Proof.
      intros Hs Hr Hset Hz.
      eapply (u_bind zval nb m rb Hm Hm2 Hrb Hrn Hmr Hrb2); [exact Hs|apply (u_challenges c r Hs Hr)|]. cbv beta.
      intros ch c' Hs' Hl Hc HS. pose proof (setup_le c c' N vks pi b Hs Hl Hset) as Hset'.
      eapply (u_weaken zval m rb); [apply (u_pcs c' vks pi b ch N Hs' Hc Hset')| |auto].
      - intros w Hb Hh. destruct (HS w Hb Hh) as (_ & _ & _ & _ & E & _). rewrite E.
        assert (Ew : w (rc_zeta r) = hon c (rc_zeta r)).
        { apply (hext_le c c' w Hs Hl Hh). rewrite Forall_forall in Hr. apply (Hr (rc_zeta r)). cbn. tauto. }
        rewrite Ew. exact Hz.
      - intros w o Hb HI (Sch & E1 & E2 & E3 & E4 & E5 & E6 & E7 & E8) Spi Sev Obv Okv Hz'.
        destruct (HI Sch Spi Sev Obv Okv) as [Si Hc']; [rewrite E4; exact Hz'|exact E7|exact E8|]. split; [exact Si|].
        intros T extra Hcc. apply (Hc' T extra). rewrite Hcc. unfold raw_at, ch_at. now rewrite E1, E2, E3, E4, E5, E6.
    Qed.
    End Main.
  End Outer.
End Eval.
