(** C72: the constraints that the circuit builder emits do not depend on the values.

    [rel m m' R]: if [m] and [m'] both succeed on circuits that differ in the
    witness only, the results are related by [R] and the circuits still differ in
    the witness only.  [indep m] is [rel m m eq]: the returned variables, the
    gates, the wires, the public inputs and the tables are the same. *)

From Coq Require Import List Arith ZArith Bool Lia.
From Verif Require Import Base ListAux Alg CircuitModel GadgetModel EmulatedModel CircuitProofs GadgetProofs SatProofs SatGadget
  CircuitProps FinalModel KzgModel PlonkModel IndepProofs.
Import ListNotations.
Local Open Scope fld_scope.
Local Open Scope circ_scope.

Section Props.
  Context {K : fld}.
  Notation C := (circ K).
  Notation ind m := (indep (m : C _)).

  (** Two circuits are related iff they agree on everything but the witness. *)
  Theorem C72_meaning (c c' : circuit K) : twin c c' <->
    num_vars c' = num_vars c /\ gates c' = gates c /\ rows c' = rows c /\ range_col c' = range_col c
    /\ pub_ids c' = pub_ids c /\ wire_perm c' = wire_perm c /\ domain c' = domain c /\ ptype c' = ptype c
    /\ num_table_elems c' = num_table_elems c /\ table_ids c' = table_ids c.
  Proof. apply twin_iff. Qed.

  (** Programs compose: what follows may use the variables returned so far. *)
  Theorem C72_compose {A B} (m : C A) (k : A -> C B) : indep m -> (forall a, indep (k a)) -> indep (cbind m k).
  Proof. intros H Hk. apply rel_bind_eq; auto. Qed.
  (** Variables, also public ones, with any two values. *)
  Theorem C72_variables (x y : K) (b b' : bool) :
    rel (create_variable x : C _) (create_variable y) eq /\
    rel (create_public_variable x : C _) (create_public_variable y) eq /\
    rel (create_boolean_variable b : C _) (create_boolean_variable b') eq /\
    rel (create_public_boolean_variable b : C _) (create_public_boolean_variable b') eq.
  Proof. auto using var_rel, public_rel, boolean_rel, public_bool_rel. Qed.
  (** Reading a value. *)
  Theorem C72_read {A A'} v v' (k : K -> C A) (k' : K -> C A') R :
    (forall x x', rel (k x) (k' x') R) -> rel (cbind (get_witness v) k) (cbind (get_witness v') k') R.
  Proof. intros H. apply rel_bind_any; [apply wit_rel|auto]. Qed.

  Theorem C72_arithmetic a b x y o (l0 l1 l2 l3 m0 m1 co cc : K) vs n :
    ind (add_gate a b o) /\ ind (sub_gate a b o) /\ ind (mul_gate a b o) /\ ind (add a b) /\ ind (sub a b) /\ ind (mul a b) /\
    ind (enforce_bool a) /\ ind (enforce_equal a b) /\ ind (enforce_constant a cc) /\ ind (create_constant_variable cc) /\
    ind (set_variable_public a) /\ ind (pad_gates n) /\
    ind (gen_quad_poly a b x y l0 l1 l2 l3 m0 m1 cc) /\
    ind (lc_gate a b x y o l0 l1 l2 l3) /\ ind (lc a b x y l0 l1 l2 l3) /\
    ind (mul_add_gate a b x y o m0 m1) /\ ind (mul_add a b x y m0 m1) /\ ind (csum vs) /\
    ind (add_constant_gate a cc b) /\ ind (add_constant a cc) /\ ind (mul_constant_gate a cc b) /\ ind (mul_constant a cc) /\
    ind (power_11_gen a) /\ ind (power_11_gate a b).
  Proof.
    repeat split; auto using add_gate_ind, sub_gate_ind, mul_gate_ind, add_ind, sub_ind, mul_ind, enforce_bool_ind,
      enforce_equal_ind, enforce_constant_ind, constant_ind, set_public_ind, pad_ind, gen_quad_poly_ind,
      lc_gate_ind, lc_ind, mul_add_gate_ind, mul_add_ind, csum_ind, add_constant_gate_ind, add_constant_ind, mul_constant_gate_ind,
      mul_constant_ind, power_11_gen_ind, power_11_gate_ind.
  Qed.
  Theorem C72_logic a b vs x0 x1 :
    ind (logic_or_gate a b) /\ ind (is_zero a) /\ ind (is_equal a b) /\ ind (non_zero_gate a) /\ ind (logic_neg a) /\
    ind (logic_and a b) /\ ind (logic_and_all vs) /\ ind (logic_or a b) /\ ind (conditional_select a x0 x1).
  Proof.
    repeat split; auto using logic_or_gate_ind, is_zero_ind, is_equal_ind, non_zero_gate_ind, logic_neg_ind, logic_and_ind,
      logic_and_all_ind, logic_or_ind, conditional_select_ind.
  Qed.
  Theorem C72_range (zval : K -> Z) p nb L a b n :
    ind (unpack zval p nb L a n) /\ ind (is_in_range zval p nb L a n) /\ ind (enforce_in_range zval p nb L a n) /\
    ind (enforce_lt zval p nb L a b) /\ ind (enforce_leq zval p nb L a b) /\ ind (enforce_gt zval p nb L a b) /\
    ind (enforce_geq zval p nb L a b) /\ ind (is_lt zval p nb L a b) /\ ind (is_leq zval p nb L a b) /\
    ind (is_gt zval p nb L a b) /\ ind (is_geq zval p nb L a b).
  Proof.
    repeat split; auto using unpack_ind, is_in_range_ind, in_range_ind, enforce_lt_ind, enforce_leq_ind, enforce_gt_ind,
      enforce_geq_ind, is_lt_ind, is_leq_ind, is_gt_ind, is_geq_ind.
  Qed.
  Theorem C72_compare_constant (zval : K -> Z) p nb L a k :
    ind (is_lt_constant zval p nb L a k) /\ ind (is_leq_constant zval p nb L a k) /\ ind (is_gt_constant zval p nb L a k) /\
    ind (is_geq_constant zval p nb L a k) /\ ind (enforce_lt_constant zval p nb L a k) /\
    ind (enforce_leq_constant zval p nb L a k) /\ ind (enforce_gt_constant zval p nb L a k) /\ ind (enforce_geq_constant zval p nb L a k).
  Proof. apply compare_constant_ind. Qed.
  Theorem C72_tables ls t : ind (create_table_and_lookup_variables ls t).
  Proof. apply table_ind. Qed.

  (** Emulated elements and points over emulated fields. *)
  Theorem C72_emulated (zval : K -> Z) p nb L {E : fld} (ez : E -> Z) q T B NL a b c (x y : E) s :
    rel (create_emulated_variable zval p nb L ez B NL x : C _) (create_emulated_variable zval p nb L ez B NL y) eq /\
    rel (create_public_emulated_variable ez B NL x : C _) (create_public_emulated_variable ez B NL y) eq /\
    ind (create_constant_emulated_variable ez B NL x) /\
    ind (emulated_mul_gate zval p nb L ez q T B NL a b c) /\ ind (emulated_mul zval p nb L ez q T B NL a b) /\
    ind (emulated_mul_constant_gate zval p nb L ez q T B NL a x c) /\ ind (emulated_mul_constant zval p nb L ez q T B NL a x) /\
    ind (emulated_add_gate zval p nb L ez q B NL a b c) /\ ind (emulated_add zval p nb L ez q B NL a b) /\
    ind (emulated_sub zval p nb L ez q B NL a b) /\
    ind (emulated_add_constant_gate zval p nb L ez q B NL a x c) /\ ind (emulated_add_constant zval p nb L ez q B NL a x) /\
    ind (emulated_sub_constant zval p nb L ez q B NL a x) /\
    ind (conditional_select_emulated s a b) /\ ind (enforce_emulated_var_equal a b) /\ ind (is_emulated_var_equal a b) /\
    ind (is_emulated_var_zero a).
  Proof.
    repeat split; auto using evar_rel, epublic_rel, econstant_ind, emul_gate_ind, emul_ind, emul_constant_gate_ind,
      emul_constant_ind, eadd_gate_ind, eadd_ind, esub_ind, eadd_constant_gate_ind, eadd_constant_ind, esub_constant_ind,
      eselect_ind, eenforce_equal_ind, eis_equal_ind, eis_zero_ind.
  Qed.
  Theorem C72_emulated_points (zval : K -> Z) p nb L {E : fld} (ez : E -> Z) q T B NL (x y : @sw_point E) p0 p1 p2 (a : E) s t0 t1 t2 (x1 x2 y1 y2 : E) :
    rel (create_sw_variable zval p nb L ez B NL x : C _) (create_sw_variable zval p nb L ez B NL y) eq /\
    rel (create_public_sw_variable ez B NL x : C _) (create_public_sw_variable ez B NL y) eq /\
    ind (create_constant_sw_variable ez B NL x) /\ ind (sw_select s p0 p1) /\ ind (enforce_sw_equal p0 p1) /\ ind (is_sw_equal p0 p1) /\
    ind (emulated_sw_ecc_add_gate zval p nb L ez q T B NL p0 p1 p2 a) /\ ind (emulated_sw_ecc_add zval p nb L ez q T B NL p0 p1 a) /\
    rel (create_te_variable zval p nb L ez B NL x1 x2 : C _) (create_te_variable zval p nb L ez B NL y1 y2) eq /\
    ind (emulated_te_ecc_add_gate zval p nb L ez q T B NL t0 t1 t2 a) /\ ind (emulated_te_ecc_add zval p nb L ez q T B NL t0 t1 a).
  Proof.
    repeat split; auto using sw_var_rel, sw_public_rel, sw_constant_ind, sw_select_ind, sw_enforce_equal_ind, sw_is_equal_ind,
      sw_add_gate_ind, sw_add_ind, te_var_rel, te_add_gate_ind, te_add_ind.
  Qed.
End Props.

(** Finalization and preprocessing read the constraints only. *)
Section Keys.
  Context {K : fld}.
  Variable ta : nat.
  Notation sw ws := (fun c : circuit K => with_witness c ws).
  Notation mapo f o := (match o with Ok c => Ok (f c) | Err e => Err e | Panic => Panic end).

  Lemma swap_twin ws i j (c : circuit K) : swap_gates K i j (with_witness c ws) = mapo (sw ws) (swap_gates K i j c).
  Proof.
    unfold swap_gates. cbn [gates rows with_witness]. destruct (vswap (gates c) i j); auto. cbn [bind].
    destruct (vswap (rows c) i j); auto.
  Qed.
  Lemma move_io_twin ws ids : forall i (c : circuit K),
    move_io K i ids (with_witness c ws) = mapo (fun r => (fst r, sw ws (snd r))) (move_io K i ids c).
  Proof.
    induction ids as [|id ids IH]; intros i c; cbn [move_io]; auto. destruct (i <? id)%nat.
    - rewrite swap_twin. destruct (swap_gates K i id c); auto. cbn [bind fst snd]. rewrite IH.
      destruct (move_io K (S i) ids a); auto.
    - cbn [bind fst snd]. rewrite IH. destruct (move_io K (S i) ids c); auto.
  Qed.
  Lemma move_tables_twin ws ids : forall cur (c : circuit K),
    move_tables K ids cur (with_witness c ws) = mapo (sw ws) (move_tables K ids cur c).
  Proof.
    induction ids as [|id ids IH]; intros cur c; cbn [move_tables]; auto. destruct (id <? cur)%nat; auto.
    rewrite swap_twin. destruct (swap_gates K id cur c); auto. cbn [bind]. apply IH.
  Qed.
  Lemma rearrange_twin ws (c : circuit K) : rearrange_gates K (with_witness c ws) = mapo (sw ws) (rearrange_gates K c).
  Proof.
    unfold rearrange_gates. cbn [pub_ids ptype domain with_witness]. rewrite move_io_twin. destruct (move_io K 0 (pub_ids c) c) as [r| |]; auto.
    cbn [bind fst snd]. destruct (ptype c); auto.
    change (set_pub_ids K (fst r) (with_witness (snd r) ws)) with (with_witness (set_pub_ids K (fst r) (snd r)) ws).
    apply move_tables_twin.
  Qed.
  Theorem C72_finalize ws (c : circuit K) :
    finalize_for_arithmetization K ta (with_witness c ws) =
    (fst (finalize_for_arithmetization K ta c), with_witness (snd (finalize_for_arithmetization K ta c)) ws).
  Proof.
    unfold finalize_for_arithmetization. change (is_finalized (with_witness c ws)) with (is_finalized c).
    destruct (is_finalized c); auto. change (slots_needed K (with_witness c ws)) with (slots_needed K c).
    destruct (radix2_size ta (slots_needed K c)) as [n|]; auto.
    change (is_finalized (set_domain K n (with_witness c ws))) with (is_finalized (set_domain K n c)).
    destruct (negb (is_finalized (set_domain K n c))); auto.
    replace (pad_c K (set_domain K n (with_witness c ws))) with (with_witness (pad_c K (set_domain K n c)) ws)
      by (unfold pad_c; cbn [ptype set_domain with_witness]; destruct (ptype c); reflexivity).
    rewrite rearrange_twin. destruct (rearrange_gates K (pad_c K (set_domain K n c))) as [c2| |]; auto.
    change (compute_wire_permutation K (with_witness c2 ws)) with (compute_wire_permutation K c2).
    destruct (compute_wire_permutation K c2); auto.
  Qed.
  Variables V1 V2 : vsp K.
  Variable root : K.
  Variable coset_rnd : list K.
  Theorem C72_preprocess (s : srs K V1 V2) ws (c : circuit K) :
    preprocess K V1 V2 ta root coset_rnd s (with_witness c ws) = preprocess K V1 V2 ta root coset_rnd s c.
  Proof. reflexivity. Qed.

  (** The prover key and the verifier key depend on the program only: one verifier key serves
      every instance, whatever values the circuits were built with. *)
  Theorem C72_keys {A} (m m' : circ K A) (s : srs K V1 V2) t a a' d d' :
    rel m m' eq -> m (new_circuit K t) = (Ok a, d) -> m' (new_circuit K t) = (Ok a', d') ->
    a' = a /\
    fst (finalize_for_arithmetization K ta d') = fst (finalize_for_arithmetization K ta d) /\
    preprocess K V1 V2 ta root coset_rnd s (snd (finalize_for_arithmetization K ta d')) =
    preprocess K V1 V2 ta root coset_rnd s (snd (finalize_for_arithmetization K ta d)).
  Proof.
    intros Hr E E'. specialize (Hr (new_circuit K t) (witness (new_circuit K t))). rewrite set_wit_self, E, E' in Hr.
    destruct Hr as [<- [ws ->]]. rewrite C72_finalize. repeat split.
  Qed.
End Keys.

(** An accepted assignment of the inputs that satisfies [C] extends to the variables
    of a gadget that was run on another witness. *)
Theorem C72_transfer {K : fld} (zval : K -> Z) {A} (m m' : circ K A) c S C R a c' ws pub :
  rel m m' eq -> m c = (Ok a, c') -> good c -> length ws = num_vars c ->
  gadget_ok zval m' (with_witness c ws) S C R ->
  accepts zval c ws pub -> C (asg ws) ->
  exists l, accepts zval c' (ws ++ l) pub /\ length (ws ++ l) = num_vars c'.
Proof. apply gadget_transfer. Qed.

(** Two runs of one program on the values 3, 5 and 40, 7: a comparison of two public inputs. *)
Definition compare_program (x y : F97) : circ F97 nat :=
  a <- create_public_variable x;; b <- create_public_variable y;; is_lt z97 97 7 64 a b.
Example C72_compare_program x y x' y' : rel (compare_program x y) (compare_program x' y') eq.
Proof.
  apply rel_bind_eq; [apply public_rel|]. intros a. apply rel_bind_eq; [apply public_rel|]. intros b. apply is_lt_ind.
Qed.
Example C72_compare_runs :
  exists v d d', compare_program (e97 3) (e97 5) (new_circuit F97 Turbo) = (Ok v, d) /\
    compare_program (e97 40) (e97 7) (new_circuit F97 Turbo) = (Ok v, d') /\
    gates d' = gates d /\ rows d' = rows d /\ witness d' <> witness d.
Proof.
  pose proof (C72_compare_program (e97 3) (e97 5) (e97 40) (e97 7) (new_circuit F97 Turbo) (witness (new_circuit F97 Turbo))) as H.
  rewrite set_wit_self in H.
  assert (E1 := okv_eq 0%nat (compare_program (e97 3) (e97 5) (new_circuit F97 Turbo)) ltac:(vm_compute; reflexivity)).
  assert (E2 := okv_eq 0%nat (compare_program (e97 40) (e97 7) (new_circuit F97 Turbo)) ltac:(vm_compute; reflexivity)).
  rewrite E1, E2 in H. destruct H as [Ha Ht]. apply twin_iff in Ht. rewrite <- Ha in E2.
  eexists _, _, _. split; [exact E1|]. split; [exact E2|]. split; [apply Ht|]. split; [apply Ht|].
  intros Hw. apply (f_equal (map (zv 97))) in Hw. vm_compute in Hw. discriminate.
Qed.

Print Assumptions C72_meaning.
Print Assumptions C72_compose.
Print Assumptions C72_variables.
Print Assumptions C72_read.
Print Assumptions C72_arithmetic.
Print Assumptions C72_logic.
Print Assumptions C72_range.
Print Assumptions C72_compare_constant.
Print Assumptions C72_tables.
Print Assumptions C72_emulated.
Print Assumptions C72_emulated_points.
Print Assumptions C72_finalize.
Print Assumptions C72_preprocess.
Print Assumptions C72_keys.
Print Assumptions C72_transfer.
