(** C21-C25, C65: what circuits accept after calling a gadget.

    [accepts zval c ws pub] is the verdict of [check_circuit_satisfiability] on the
    circuit [c] with the values [ws] of all its variables.  [gadget_ok] says that a
    call succeeds, that every assignment accepted in the resulting circuit or in
    any later state satisfies the stated relation, that the call only adds
    constraints, and that the assignment computed by the code stays accepted. *)

From Coq Require Import List Arith ZArith Bool Lia.
From Verif Require Import Base ListAux Alg Poly CircuitModel CircuitProofs GadgetModel GadgetProofs RangeProofs
  BitProofs CmpProofs RangeLookup SatProofs SatGadget.
Import ListNotations.
Local Open Scope fld_scope.
Local Open Scope circ_scope.

(** [new_circuit], and any sequence of variable creations, gate insertions on
    existing variables, public inputs and range checks, is [good]. *)
Section Reach.
  Context {K : fld}.
  Ltac cs := cbn [push_gate push_row push_pub push_range gates rows num_vars witness domain range_col pub_ids ptype].
  Ltac pre := rewrite nth_error_app1; auto; apply nth_error_Some; congruence.
  Definition step_ok (c : circuit K) (A : Type) (m : circ K A) : Prop := forall a c', m c = (Ok a, c') -> good c'.
  Theorem C65_create_variable_good c x : good c -> step_ok c nat (create_variable (K:=K) x).
  Proof.
    intros G a c' E. pose proof (gd_wf _ G) as W.
    destruct (wpc_var x c (fun _ _ => True) W I) as (v & d & E' & P & _).
    rewrite E in E'. inversion E'; subst. apply good_capp; auto.
  Qed.
  Theorem C65_insert_gate_good c g r : good c -> row_lt (num_vars c) r -> step_ok c unit (insert_gate (K:=K) r g).
  Proof.
    intros G Hr a c' E. pose proof (gd_wf _ G) as W. unfold insert_gate, cbind in E.
    rewrite (finalize_false _ W) in E. unfold modify in E. inversion E; subst. clear E.
    destruct G as [W0 [B1 B2 B3 B4] G0 R0 G1 R1]. split; cs.
    - destruct W0 as [A1 A2 A3 A4]. split; cs; auto. rewrite !app_length. cbn. lia.
    - split; cs; auto.
      + rewrite !app_length. cbn. lia.
      + apply Forall_app; split; auto.
      + eapply Forall_impl; [|exact B4]. intros i Hi. rewrite app_length. cbn beta in Hi. lia.
    - pre.
    - pre.
    - pre.
    - pre.
  Qed.
  Theorem C65_set_variable_public_good c v : good c -> (v < num_vars c)%nat -> step_ok c unit (set_variable_public (K:=K) v).
  Proof.
    intros G Hv a c' E. pose proof (gd_wf _ G) as W. unfold set_variable_public, insert_gate, cbind in E.
    rewrite (finalize_false _ W) in E. unfold lift, modify in E.
    assert (F : check_finalize_flag false (push_pub (num_gates c) c) = (Ok tt, push_pub (num_gates c) c)).
    { unfold check_finalize_flag, lift, is_finalized. cbn. rewrite (wf_open _ W). reflexivity. }
    rewrite F in E. inversion E; subst. clear E F.
    destruct G as [W0 [B1 B2 B3 B4] G0 R0 G1 R1]. destruct W0 as [A1 A2 A3 A4]. split; cs.
    - split; cs; auto. rewrite !app_length. cbn. lia.
    - split; cs; auto.
      + rewrite !app_length. cbn. lia.
      + apply Forall_app; split; auto. repeat constructor; cbn; lia.
      + rewrite app_length. cbn. apply Forall_app; split.
        * eapply Forall_impl; [|exact B4]. intros i Hi. cbn beta in Hi. lia.
        * constructor; auto. unfold num_gates. lia.
    - pre.
    - pre.
    - pre.
    - pre.
  Qed.
  Theorem C65_range_check_good c v : good c -> step_ok c unit (add_range_check_variable (K:=K) v).
  Proof.
    intros G a c' E. pose proof (gd_wf _ G) as W. unfold add_range_check_variable, cbind, lift in E.
    destruct (support_lookup c); [|discriminate]. rewrite (finalize_false _ W) in E.
    unfold check_var_bound, lift in E. destruct (Nat.leb_spec (num_vars c) v); [discriminate|].
    unfold modify in E. inversion E; subst.
    destruct G as [W0 [B1 B2 B3 B4] G0 R0 G1 R1]. destruct W0 as [A1 A2 A3 A4]. split; cs; auto.
    - split; cs; auto.
    - split; cs; auto. apply Forall_app; split; auto.
  Qed.
End Reach.

(** C65: the satisfiability check accepts exactly the assignments that satisfy
    every gate equation (with the public input on I/O gates), every range check
    and every lookup. *)
Theorem C65_check_is_satisfaction (K : fld) (zval : K -> Z) (c : circuit K) ws pub :
  good c -> length ws = num_vars c ->
  (check_circuit_satisfiability zval (with_witness c ws) pub = Ok tt <-> csat zval c (asg ws) pub).
Proof.
  intros G Hl. rewrite <- (accepts_csat zval c ws pub (gd_bd _ G) Hl). unfold accepts. tauto.
Qed.
Print Assumptions C65_check_is_satisfaction.

(** Variables must exist. *)
Notation inc c v := (v < num_vars c)%nat.

Ltac loc :=
  first [ intros ? ? ? ?; exact I
        | let w := fresh in let w' := fresh in let E := fresh in intros w w' E; rewrite ?E by lia; auto ].
Tactic Notation "gok" uconstr(L) := intros; apply gspec_gadget; [assumption|loc|apply L; auto using gd_wf].

Section Arithmetic.
  Context {K : fld}.
  Variable zval : K -> Z.
  Notation T := (fun _ : nat -> K => True).

  Theorem C21_add c a b : good c -> inc c a -> inc c b ->
    gadget_ok zval (add a b) c (fun w o => w o = w a + w b) T out.
  Proof. gok add_spec. Qed.
  Theorem C21_sub c a b : good c -> inc c a -> inc c b ->
    gadget_ok zval (sub a b) c (fun w o => w o = w a - w b) T out.
  Proof. gok sub_spec. Qed.
  Theorem C21_mul c a b : good c -> inc c a -> inc c b ->
    gadget_ok zval (mul a b) c (fun w o => w o = w a * w b) T out.
  Proof. gok mul_spec. Qed.
  Theorem C21_add_constant c a k : good c -> inc c a ->
    gadget_ok zval (add_constant a k) c (fun w o => w o = w a + k) T out.
  Proof. gok add_constant_spec. Qed.
  Theorem C21_mul_constant c a k : good c -> inc c a ->
    gadget_ok zval (mul_constant a k) c (fun w o => w o = k * w a) T out.
  Proof. gok mul_constant_spec. Qed.
  Theorem C21_lc c a b x y c0 c1 c2 c3 : good c -> inc c a -> inc c b -> inc c x -> inc c y ->
    gadget_ok zval (lc a b x y c0 c1 c2 c3) c (fun w o => w o = c0 * w a + c1 * w b + c2 * w x + c3 * w y) T out.
  Proof. gok lc_spec. Qed.
  Theorem C21_mul_add c a b x y m0 m1 : good c -> inc c a -> inc c b -> inc c x -> inc c y ->
    gadget_ok zval (mul_add a b x y m0 m1) c (fun w o => w o = m0 * w a * w b + m1 * w x * w y) T out.
  Proof. gok mul_add_spec. Qed.
  Theorem C21_gen_quad_poly c a b x y l0 l1 l2 l3 m0 m1 k : good c -> inc c a -> inc c b -> inc c x -> inc c y ->
    gadget_ok zval (gen_quad_poly a b x y l0 l1 l2 l3 m0 m1 k) c
      (fun w o => w o = l0 * w a + l1 * w b + l2 * w x + l3 * w y + m0 * w a * w b + m1 * w x * w y + k) T out.
  Proof. gok gen_quad_poly_spec. Qed.
  Theorem C21_sum c vs : good c -> vs <> [] -> Forall (fun v => inc c v) vs ->
    gadget_ok zval (csum vs) c (fun w o => w o = fsum (map w vs)) T out.
  Proof. gok csum_spec. Qed.
  Theorem C21_power_11 c a : good c -> inc c a ->
    gadget_ok zval (power_11_gen a) c (fun w o => w o = fpow (w a) 11) T out.
  Proof. gok power_11_gen_spec. Qed.
  Theorem C21_create_constant c k : good c ->
    gadget_ok zval (create_constant_variable k) c (fun w o => w o = k) T out.
  Proof. gok create_constant_variable_spec. Qed.

  (** A call that only enforces a condition [P] turns acceptance into acceptance
      and [P]. *)
  Definition enforces (m : circ K unit) (c : circuit K) (P : (nat -> K) -> Prop) : Prop :=
    gadget_ok zval m c (fun w _ => P w) P noout /\
    exists c', m c = (Ok tt, c') /\ good c' /\ extends c c' /\
      forall pub, accepts zval c' (witness c') pub <-> accepts zval c (witness c) pub /\ P (asg (witness c)).
  Lemma enforces_intro m c P : good c -> local (num_vars c) P ->
    gspec zval m c (fun w _ => P w) P noout -> enforces m c P.
  Proof.
    intros G L S. assert (H : gadget_ok zval m c (fun w _ => P w) P noout) by (apply gspec_gadget; auto).
    split; auto. eapply gadget_enforces; eauto.
  Qed.
  Tactic Notation "enf" uconstr(L) := intros; apply enforces_intro; [assumption|loc|apply L; auto using gd_wf].

  Theorem C21_enforce_equal c a b : good c -> inc c a -> inc c b -> enforces (enforce_equal a b) c (fun w => w a = w b).
  Proof. enf enforce_equal_spec. Qed.
  Theorem C21_enforce_constant c a k : good c -> inc c a -> enforces (enforce_constant a k) c (fun w => w a = k).
  Proof. enf enforce_constant_spec. Qed.
  Theorem C21_add_gate c a b o : good c -> inc c a -> inc c b -> inc c o -> enforces (add_gate a b o) c (fun w => w o = w a + w b).
  Proof. enf gate3_add. Qed.
  Theorem C21_sub_gate c a b o : good c -> inc c a -> inc c b -> inc c o -> enforces (sub_gate a b o) c (fun w => w o = w a - w b).
  Proof. enf gate3_sub. Qed.
  Theorem C21_mul_gate c a b o : good c -> inc c a -> inc c b -> inc c o -> enforces (mul_gate a b o) c (fun w => w o = w a * w b).
  Proof. enf gate3_mul. Qed.
  Theorem C21_power_11_gate c a b : good c -> inc c a -> inc c b -> enforces (power_11_gate a b) c (fun w => w b = fpow (w a) 11).
  Proof. enf power_11_gate_spec. Qed.

  (** C22.  Booleans are the field elements 0 and 1. *)
  Theorem C22_enforce_bool c a : good c -> inc c a -> enforces (enforce_bool a) c (fun w => w a = 0 \/ w a = 1).
  Proof. enf enforce_bool_spec. Qed.
  Theorem C22_create_boolean c b : good c ->
    gadget_ok zval (create_boolean_variable b) c (fun w v => w v = 0 \/ w v = 1) T out.
  Proof. gok create_boolean_variable_spec. Qed.
  Theorem C22_logic_neg c a : good c -> inc c a ->
    gadget_ok zval (logic_neg a) c (fun w o => (w a = 1 -> w o = 0) /\ (w a = 0 -> w o = 1)) T out.
  Proof.
    intros. apply gspec_gadget; auto; [loc|].
    eapply wpc_mono; [apply is_zero_spec; auto using gd_wf|]. intros o d _ (S & C & R). split; [|split]; auto.
    intros w Hb Hs. rewrite (S w Hb Hs). split; intros ->.
    - rewrite (proj2 (feqb_neq _ _ _)); [reflexivity|apply f1_neq_0].
    - now rewrite feqb_refl.
  Qed.
  Theorem C22_logic_and c a b : good c -> inc c a -> inc c b ->
    gadget_ok zval (logic_and a b) c
      (fun w o => isb (w a) -> isb (w b) -> isb (w o) /\ (w o = 1 <-> w a = 1 /\ w b = 1)) T out.
  Proof.
    intros. apply gspec_gadget; auto; [loc|].
    eapply wpc_mono; [apply logic_and_spec; auto using gd_wf|]. intros o d _ (S & C & R). split; [|split]; auto.
    intros w Hb Hs. rewrite (S w Hb Hs). intros Ha Hb'.
    rewrite <- (b2k_k2b (w a) Ha), <- (b2k_k2b (w b) Hb'). rewrite b2k_and.
    split; [apply isb_b2k|]. rewrite !b2k_1. apply andb_true_iff.
  Qed.
  Theorem C22_logic_or c a b : good c -> inc c a -> inc c b ->
    gadget_ok zval (logic_or a b) c
      (fun w o => isb (w a) -> isb (w b) -> isb (w o) /\ (w o = 1 <-> w a = 1 \/ w b = 1)) T out.
  Proof.
    intros. apply gspec_gadget; auto; [loc|].
    eapply wpc_mono; [apply logic_or_spec; auto using gd_wf|]. intros o d _ (S & C & R). split; [|split]; auto.
    intros w Hb Hs. rewrite (S w Hb Hs). intros Ha Hb'.
    rewrite <- (b2k_k2b (w a) Ha), <- (b2k_k2b (w b) Hb'). rewrite b2k_or.
    split; [apply isb_b2k|]. rewrite !b2k_1. apply orb_true_iff.
  Qed.
  Theorem C22_logic_or_gate c a b : good c -> inc c a -> inc c b ->
    isb (asg (witness c) a) -> isb (asg (witness c) b) ->
    gadget_ok zval (logic_or_gate a b) c
      (fun w _ => isb (w a) -> isb (w b) -> w a = 1 \/ w b = 1) (fun w => w a = 1 \/ w b = 1) noout.
  Proof.
    intros G Ha Hb Ia Ib. apply gspec_gadget; auto; [loc|].
    eapply wpc_mono; [apply logic_or_gate_spec; auto using gd_wf|]. intros o d _ (S & C & R). split; [|split]; auto.
    - intros w Hb0 Hs. specialize (S w Hb0 Hs). intros Ia' Ib'.
      rewrite <- (b2k_k2b (w a) Ia'), <- (b2k_k2b (w b) Ib') in *. rewrite b2k_or in S. rewrite !b2k_1 in *.
      now apply orb_true_iff.
    - intros w Hb0 Hh HC. apply C; auto.
      pose proof (hext_app1 c d w (gd_wf _ G) Hh) as Hc.
      assert (Ia' : isb (w a)) by (rewrite (Hc a Ha); exact Ia).
      assert (Ib' : isb (w b)) by (rewrite (Hc b Hb); exact Ib).
      rewrite <- (b2k_k2b (w a) Ia'), <- (b2k_k2b (w b) Ib') in *. rewrite b2k_or, !b2k_1 in *.
      now apply orb_true_iff.
  Qed.
  Lemma fprod_bits (l : list K) : Forall isb l -> isb (fprod l) /\ (fprod l = 1 <-> Forall (fun x => x = 1) l).
  Proof.
    induction 1 as [|x l Hx _ [IH1 IH2]].
    - cbn. split; [right; auto|split; auto].
    - change (fprod (x :: l)) with (x * fprod l). rewrite Forall_cons_iff, <- IH2.
      rewrite <- (b2k_k2b x Hx), <- (b2k_k2b (fprod l) IH1). rewrite b2k_and.
      split; [apply isb_b2k|]. rewrite !b2k_1. apply andb_true_iff.
  Qed.
  Theorem C22_logic_and_all c vs : good c -> vs <> [] -> Forall (fun v => inc c v) vs ->
    gadget_ok zval (logic_and_all vs) c
      (fun w o => Forall (fun v => isb (w v)) vs -> isb (w o) /\ (w o = 1 <-> Forall (fun v => w v = 1) vs)) T out.
  Proof.
    intros. apply gspec_gadget; auto; [loc|].
    eapply wpc_mono; [apply logic_and_all_spec; auto using gd_wf|]. intros o d _ (S & C & R). split; [|split]; auto.
    intros w Hb Hs Hv. rewrite (S w Hb Hs).
    assert (Hm : Forall isb (map w vs)) by (apply Forall_map; auto).
    destruct (fprod_bits _ Hm) as [P1 P2]. split; auto. rewrite P2. now rewrite Forall_map.
  Qed.
  Theorem C22_enforce_true c a : good c -> inc c a -> enforces (enforce_true a) c (fun w => w a = 1).
  Proof. enf enforce_constant_spec. Qed.
  Theorem C22_enforce_false c a : good c -> inc c a -> enforces (enforce_false a) c (fun w => w a = 0).
  Proof. enf enforce_constant_spec. Qed.
  Theorem C22_conditional_select c b x0 x1 : good c -> inc c b -> inc c x0 -> inc c x1 ->
    isb (asg (witness c) b) ->
    gadget_ok zval (conditional_select b x0 x1) c
      (fun w y => (w b = 0 -> w y = w x0) /\ (w b = 1 -> w y = w x1)) T out.
  Proof.
    intros G Hb H0 H1 Ib. apply gspec_gadget; auto; [loc|].
    eapply wpc_mono; [apply conditional_select_spec; auto using gd_wf|]. intros o d _ (S & C & R). split; [|split]; auto.
    intros w Hb' Hs. specialize (S w Hb' Hs). split; intros E; rewrite E in S.
    - rewrite S by (left; auto). rewrite (proj2 (feqb_neq _ _ _)); auto. intros E'. symmetry in E'. now apply f1_neq_0 in E'.
    - rewrite S by (right; auto). now rewrite feqb_refl.
  Qed.

  (** C23 *)
  Theorem C23_is_zero c a : good c -> inc c a ->
    gadget_ok zval (is_zero a) c (fun w y => isb (w y) /\ (w y = 1 <-> w a = 0)) T out.
  Proof.
    intros. apply gspec_gadget; auto; [loc|].
    eapply wpc_mono; [apply is_zero_spec; auto using gd_wf|]. intros o d _ (S & C & R). split; [|split]; auto.
    intros w Hb Hs. rewrite (S w Hb Hs). split; [apply isb_b2k|]. rewrite b2k_1. apply feqb_eq.
  Qed.
  Theorem C23_is_equal c a b : good c -> inc c a -> inc c b ->
    gadget_ok zval (is_equal a b) c (fun w y => isb (w y) /\ (w y = 1 <-> w a = w b)) T out.
  Proof.
    intros. apply gspec_gadget; auto; [loc|].
    eapply wpc_mono; [apply is_equal_spec; auto using gd_wf|]. intros o d _ (S & C & R). split; [|split]; auto.
    intros w Hb Hs. rewrite (S w Hb Hs). split; [apply isb_b2k|]. rewrite b2k_1. apply feqb_eq.
  Qed.
  Theorem C23_non_zero c a : good c -> inc c a -> enforces (non_zero_gate a) c (fun w => w a <> 0).
  Proof. enf non_zero_gate_spec. Qed.
End Arithmetic.

Print Assumptions C21_sum.
Print Assumptions C21_power_11_gate.
Print Assumptions C22_logic_and_all.
Print Assumptions C22_conditional_select.
Print Assumptions C23_is_equal.
Print Assumptions C23_non_zero.

(** C24, C25 over a prime field: [pfield K zval p nb L] says that [zval] is the
    canonical representative in [0, p), [nb] the bit size of [p] and [L] the bit
    size of the big-integer type. *)
Section Range.
  Context {K : fld}.
  Variable zval : K -> Z.
  Variable p : Z.
  Variable nb L : nat.
  Hypothesis HF : pfield K zval p nb L.
  Notation T := (fun _ : nat -> K => True).

  (** Little-endian value of a list of bits. *)
  Definition le_val (l : list Z) : Z := fold_right (fun b acc => (b + 2 * acc)%Z) 0%Z l.
  Lemma zval_0 : zval 0 = 0%Z.
  Proof. change (0 : K) with (fZ 0 : K). apply (zval_small zval p nb L HF). pose proof (pf_pos zval p nb L HF). lia. Qed.
  Lemma zval_1 : zval 1 = 1%Z.
  Proof. rewrite <- fZ_1. apply (zval_small zval p nb L HF). pose proof (nb_lt_p zval p nb L HF). pose proof (pf_nb zval p nb L HF). lia. Qed.
  Lemma le_val_bits (l : list K) : Forall isb l -> chunk_val (map k2b l) = le_val (map zval l).
  Proof.
    induction 1 as [|x l Hx _ IH]; [reflexivity|]. cbn [map le_val fold_right]. rewrite chunk_val_cons, IH.
    rewrite <- (b2k_k2b x Hx) at 2. fold (le_val (map zval l)).
    destruct (k2b x); cbn [b2k]; rewrite ?zval_0, ?zval_1; lia.
  Qed.

  Theorem C24_unpack c a n : good c -> inc c a -> (1 <= n <= nb)%nat ->
    (zval (asg (witness c) a) < 2 ^ Z.of_nat n)%Z ->
    gadget_ok zval (unpack zval p nb L a n) c
      (fun w vs => Forall (fun v => isb (w v)) vs /\ zval (w a) = le_val (map (fun v => zval (w v)) vs)) T (outs n).
  Proof.
    intros G Ha Hn Hv. apply gspec_gadget; auto; [loc|].
    eapply wpc_mono; [apply (unpack_spec zval p nb L HF); auto using gd_wf|].
    intros vs d _ (S & C & R). split; [|split]; auto.
    intros w Hb Hs. destruct (S w Hb Hs) as [B1 B2]. split; [now rewrite <- Forall_map|].
    rewrite <- B2, le_val_bits by auto. now rewrite map_map.
  Qed.
  Theorem C24_unpack_refuses c a n : good c -> inc c a -> (n < nb)%nat ->
    (2 ^ Z.of_nat n <= zval (asg (witness c) a))%Z ->
    unpack zval p nb L a n c = (Err ParameterError, c).
  Proof. intros. apply (unpack_err zval p nb L HF); auto using gd_wf. Qed.
  Theorem C24_enforce_in_range c a n : good c -> inc c a ->
    match ptype c with Turbo => (1 <= n <= L)%nat | Ultra rb => (1 <= n /\ 1 <= rb <= 31 /\ rb < nb)%nat end ->
    enforces zval (enforce_in_range zval p nb L a n) c (fun w => (0 <= zval (w a) < 2 ^ Z.of_nat n)%Z).
  Proof.
    intros G Ha Hn. apply enforces_intro; auto; [loc|].
    eapply wpc_mono; [apply (enforce_in_range_spec zval p nb L HF); auto using gd_wf|].
    intros o d _ (S & C & R). split; [|split]; auto.
    - intros w Hb Hs. split; [apply (pf_range _ _ _ _ _ HF)|]. apply S; auto.
    - intros w Hb Hh [_ HC]. apply C; auto.
  Qed.
  Theorem C24_is_in_range c a n : good c -> inc c a -> (n < nb)%nat ->
    gadget_ok zval (is_in_range zval p nb L a n) c
      (fun w o => isb (w o) /\ (w o = 1 <-> (zval (w a) < 2 ^ Z.of_nat n)%Z)) T out.
  Proof.
    intros G Ha Hn. apply gspec_gadget; auto; [loc|].
    eapply wpc_mono; [apply (is_in_range_spec zval p nb L HF); auto using gd_wf|].
    intros o d _ (S & C & R). split; [|split]; auto.
    intros w Hb Hs. rewrite (S w Hb Hs). split; [apply isb_b2k|]. rewrite b2k_1. apply Z.ltb_lt.
  Qed.

  Tactic Notation "cmpok" uconstr(L) :=
    intros; apply gspec_gadget; auto; [loc|];
    eapply wpc_mono; [apply L; auto using gd_wf|];
    let S := fresh in let o := fresh in let d := fresh in let C := fresh in let R := fresh in
    intros o d _ (S & C & R); split; [|split]; auto;
    let w := fresh in let Hb := fresh in let Hs := fresh in
    intros w Hb Hs; rewrite (S w Hb Hs); split; [apply isb_b2k|]; rewrite b2k_1;
    first [apply Z.ltb_lt | apply Z.leb_le].
  Tactic Notation "cmpenf" uconstr(L) := intros; apply enforces_intro; auto; [loc|apply L; auto using gd_wf].
  Notation test P := (fun (w : nat -> K) (o : nat) => isb (w o) /\ (w o = 1 <-> P w)).

  Theorem C25_is_lt c a b : good c -> inc c a -> inc c b ->
    gadget_ok zval (is_lt zval p nb L a b) c (test (fun w => (zval (w a) < zval (w b))%Z)) T out.
  Proof. cmpok (is_lt_spec zval p nb L HF). Qed.
  Theorem C25_is_leq c a b : good c -> inc c a -> inc c b ->
    gadget_ok zval (is_leq zval p nb L a b) c (test (fun w => (zval (w a) <= zval (w b))%Z)) T out.
  Proof. cmpok (is_leq_spec zval p nb L HF). Qed.
  Theorem C25_is_gt c a b : good c -> inc c a -> inc c b ->
    gadget_ok zval (is_gt zval p nb L a b) c (test (fun w => (zval (w b) < zval (w a))%Z)) T out.
  Proof. cmpok (is_gt_spec zval p nb L HF). Qed.
  Theorem C25_is_geq c a b : good c -> inc c a -> inc c b ->
    gadget_ok zval (is_geq zval p nb L a b) c (test (fun w => (zval (w b) <= zval (w a))%Z)) T out.
  Proof. cmpok (is_geq_spec zval p nb L HF). Qed.
  Theorem C25_enforce_lt c a b : good c -> inc c a -> inc c b ->
    enforces zval (enforce_lt zval p nb L a b) c (fun w => (zval (w a) < zval (w b))%Z).
  Proof. cmpenf (enforce_lt_spec zval p nb L HF). Qed.
  Theorem C25_enforce_leq c a b : good c -> inc c a -> inc c b ->
    enforces zval (enforce_leq zval p nb L a b) c (fun w => (zval (w a) <= zval (w b))%Z).
  Proof. cmpenf (enforce_leq_spec zval p nb L HF). Qed.
  Theorem C25_enforce_gt c a b : good c -> inc c a -> inc c b ->
    enforces zval (enforce_gt zval p nb L a b) c (fun w => (zval (w b) < zval (w a))%Z).
  Proof. cmpenf (enforce_gt_spec zval p nb L HF). Qed.
  Theorem C25_enforce_geq c a b : good c -> inc c a -> inc c b ->
    enforces zval (enforce_geq zval p nb L a b) c (fun w => (zval (w b) <= zval (w a))%Z).
  Proof. cmpenf (enforce_geq_spec zval p nb L HF). Qed.
  Theorem C25_is_lt_constant c a k : good c -> inc c a ->
    gadget_ok zval (is_lt_constant zval p nb L a k) c (test (fun w => (zval (w a) < zval k)%Z)) T out.
  Proof. cmpok (is_lt_constant_spec zval p nb L HF). Qed.
  Theorem C25_is_leq_constant c a k : good c -> inc c a ->
    gadget_ok zval (is_leq_constant zval p nb L a k) c (test (fun w => (zval (w a) <= zval k)%Z)) T out.
  Proof. cmpok (is_leq_constant_spec zval p nb L HF). Qed.
  Theorem C25_is_gt_constant c a k : good c -> inc c a ->
    gadget_ok zval (is_gt_constant zval p nb L a k) c (test (fun w => (zval k < zval (w a))%Z)) T out.
  Proof. cmpok (is_gt_constant_spec zval p nb L HF). Qed.
  Theorem C25_is_geq_constant c a k : good c -> inc c a ->
    gadget_ok zval (is_geq_constant zval p nb L a k) c (test (fun w => (zval k <= zval (w a))%Z)) T out.
  Proof. cmpok (is_geq_constant_spec zval p nb L HF). Qed.
  Theorem C25_enforce_lt_constant c a k : good c -> inc c a ->
    enforces zval (enforce_lt_constant zval p nb L a k) c (fun w => (zval (w a) < zval k)%Z).
  Proof. cmpenf (enforce_lt_constant_spec zval p nb L HF). Qed.
  Theorem C25_enforce_leq_constant c a k : good c -> inc c a ->
    enforces zval (enforce_leq_constant zval p nb L a k) c (fun w => (zval (w a) <= zval k)%Z).
  Proof. cmpenf (enforce_leq_constant_spec zval p nb L HF). Qed.
  Theorem C25_enforce_gt_constant c a k : good c -> inc c a ->
    enforces zval (enforce_gt_constant zval p nb L a k) c (fun w => (zval k < zval (w a))%Z).
  Proof. cmpenf (enforce_gt_constant_spec zval p nb L HF). Qed.
  Theorem C25_enforce_geq_constant c a k : good c -> inc c a ->
    enforces zval (enforce_geq_constant zval p nb L a k) c (fun w => (zval k <= zval (w a))%Z).
  Proof. cmpenf (enforce_geq_constant_spec zval p nb L HF). Qed.
End Range.

Print Assumptions C24_unpack.
Print Assumptions C24_enforce_in_range.
Print Assumptions C24_is_in_range.
Print Assumptions C25_is_lt.
Print Assumptions C25_enforce_lt.
Print Assumptions C25_is_gt_constant.

(** A concrete instance: the field of 97 elements, a circuit with two inputs. *)
Definition z97 : F97 -> Z := zv 97.
Lemma F97_pfield : pfield F97 (z97) 97 7 64.
Proof. apply Zp_pfield; cbn; lia. Qed.

Definition ex_circuit (t : plonk_type) : circuit F97 :=
  snd ((create_public_variable (e97 5) >> create_variable (e97 90)) (new_circuit F97 t)).
Lemma two_inputs_good (K : fld) (x y : K) t :
  good (snd ((create_public_variable x >> create_variable y) (new_circuit K t))).
Proof.
  split; try reflexivity; split; try reflexivity; cbn; try lia; repeat constructor; cbn; lia.
Qed.
Example ex_circuit_good t : good (ex_circuit t).
Proof. apply (two_inputs_good F97). Qed.
Example ex_circuit_accepts :
  check_circuit_satisfiability (z97) (ex_circuit Turbo) [e97 5] = Ok tt /\
  check_circuit_satisfiability (z97) (ex_circuit Turbo) [e97 6] <> Ok tt.
Proof. split; [vm_compute; reflexivity|]. vm_compute. discriminate. Qed.
(** The comparison 5 < 90 is accepted and computed as true. *)
Example ex_lt_accepts :
  let r := is_lt (z97) 97 7 64 2 3 (ex_circuit Turbo) in
  check_circuit_satisfiability (z97) (snd r) [e97 5] = Ok tt /\
  (exists o, fst r = Ok o /\ z97 (nth o (witness (snd r)) (e97 0)) = 1%Z).
Proof. vm_compute. split; [reflexivity|]. eexists; split; reflexivity. Qed.
Example ex_range_ultra :
  let c := ex_circuit (Ultra 2) in
  check_circuit_satisfiability (z97) (snd (enforce_in_range (z97) 97 7 64 2 3 c)) [e97 5] = Ok tt /\
  check_circuit_satisfiability (z97) (snd (enforce_in_range (z97) 97 7 64 3 3 c)) [e97 5] <> Ok tt.
Proof. vm_compute. split; [reflexivity|discriminate]. Qed.

(** Reading off the result of a computation. *)
Definition okv {A} (d : A) (r : outcome cerr A) : A := match r with Ok a => a | _ => d end.
Definition is_okb {A} (r : outcome cerr A) : bool := match r with Ok _ => true | _ => false end.
Lemma okv_eq {A C} (d : A) (r : outcome cerr A * C) : is_okb (fst r) = true -> r = (Ok (okv d (fst r)), snd r).
Proof. destruct r as [[]]; cbn; congruence. Qed.

(** Findings.  [unpack] with more bits than the modulus does not check that the
    bits are canonical: the bits of 5 + 97 are accepted for the value 5. *)
Theorem C24_unpack_wide_refuted :
  exists (c : circuit F97) vs c' ws, good c /\
    unpack z97 97 7 64 2 8 c = (Ok vs, c') /\
    accepts z97 c' ws [e97 5] /\
    z97 (asg ws 2) <> le_val (map (fun v => z97 (asg ws v)) vs).
Proof.
  exists (ex_circuit Turbo), (okv [] (fst (unpack z97 97 7 64 2 8 (ex_circuit Turbo)))),
    (snd (unpack z97 97 7 64 2 8 (ex_circuit Turbo))),
    (witness (snd (unpack (fun _ => 102%Z) 97 7 64 2 8 (ex_circuit Turbo)))).
  split; [apply ex_circuit_good|]. split; [apply okv_eq; vm_compute; reflexivity|].
  split; [split; vm_compute; reflexivity|]. vm_compute. discriminate.
Qed.
Print Assumptions C24_unpack_wide_refuted.
(** [is_in_range] with the full bit size fails, and panics beyond it, although
    every field element is in range. *)
Theorem C24_is_in_range_full_refuted :
  exists c : circuit F97, good c /\
    fst (is_in_range z97 97 7 64 2 7 c) = Err ParameterError /\
    fst (is_in_range z97 97 7 64 2 8 c) = Panic.
Proof. exists (ex_circuit Turbo). split; [apply ex_circuit_good|]. split; vm_compute; reflexivity. Qed.
Print Assumptions C24_is_in_range_full_refuted.
(** [create_public_boolean_variable] adds no Boolean constraint. *)
Theorem C22_public_boolean_refuted :
  exists (c c' : circuit F97) v ws pub, good c /\
    create_public_boolean_variable true c = (Ok v, c') /\ accepts z97 c' ws pub /\ ~ isb (asg ws v).
Proof.
  exists (new_circuit F97 Turbo), (snd (create_public_boolean_variable true (new_circuit F97 Turbo))),
    (okv 0%nat (fst (create_public_boolean_variable true (new_circuit F97 Turbo)))),
    [e97 0; e97 1; e97 9], [e97 9].
  split; [apply good_new|]. split; [apply okv_eq; vm_compute; reflexivity|].
  split; [split; vm_compute; reflexivity|]. intros [H|H]; apply (f_equal z97) in H; vm_compute in H; discriminate.
Qed.
Print Assumptions C22_public_boolean_refuted.
