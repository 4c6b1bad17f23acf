(** Runs of the gadgets on circuits that differ in the witness only. *)

From Coq Require Import List Arith ZArith Bool Lia.
From Verif Require Import Base ListAux Alg CircuitModel GadgetModel EmulatedModel CircuitProofs GadgetProofs SatProofs SatGadget.
Import ListNotations.
Local Open Scope fld_scope.
Local Open Scope circ_scope.

Section Indep.
  Context {K : fld}.

  Notation set_wit ws c := (with_witness c ws).
  (** Two circuits with the same variables and constraints. *)
  Definition twin (c c' : circuit K) : Prop := exists ws, c' = set_wit ws c.

  (** If both programs succeed on circuits with the same constraints, the results
      are related and the constraints are still the same. *)
  Definition rel {A A'} (m : circ K A) (m' : circ K A') (R : A -> A' -> Prop) : Prop :=
    forall c ws, match m c, m' (set_wit ws c) with
                 | (Ok a, d), (Ok a', d') => R a a' /\ twin d d'
                 | _, _ => True
                 end.
  Definition indep {A} (m : circ K A) : Prop := rel m m eq.
  (** A computation that changes nothing. *)
  Definition pure {A} (m : circ K A) : Prop := forall c, snd (m c) = c.
  Definition any {A A'} (a : A) (a' : A') : Prop := True.

  Lemma twin_refl ws c : twin c (set_wit ws c).
  Proof. exists ws; reflexivity. Qed.
  Lemma twin_iff c c' : twin c c' <->
    num_vars c' = num_vars c /\ gates c' = gates c /\ rows c' = rows c /\ range_col c' = range_col c
    /\ pub_ids c' = pub_ids c /\ wire_perm c' = wire_perm c /\ domain c' = domain c /\ ptype c' = ptype c
    /\ num_table_elems c' = num_table_elems c /\ table_ids c' = table_ids c.
  Proof.
    split.
    - intros [ws ->]. repeat split.
    - destruct c, c'; cbn. intros H. decompose [and] H; subst. eexists; reflexivity.
  Qed.
  Lemma set_wit_self (c : circuit K) : set_wit (witness c) c = c.
  Proof. destruct c; reflexivity. Qed.

  Lemma rel_mono {A A'} (m : circ K A) (m' : circ K A') (R R' : A -> A' -> Prop) :
    rel m m' R -> (forall a a', R a a' -> R' a a') -> rel m m' R'.
  Proof.
    intros H HR c ws. specialize (H c ws). destruct (m c) as [[a| |] d]; auto.
    destruct (m' (set_wit ws c)) as [[a'| |] d']; auto. destruct H; auto.
  Qed.
  Lemma rel_bind {A A' B B'} (m : circ K A) (m' : circ K A') (k : A -> circ K B) (k' : A' -> circ K B') R R' :
    rel m m' R -> (forall a a', R a a' -> rel (k a) (k' a') R') -> rel (cbind m k) (cbind m' k') R'.
  Proof.
    intros H Hk c ws. unfold cbind. specialize (H c ws). destruct (m c) as [[a| |] d]; auto.
    destruct (m' (set_wit ws c)) as [[a'| |] d']; auto.
    - destruct H as [Ha [ws' ->]]. apply (Hk a a' Ha d ws').
    - destruct (k a d) as [[] ?]; auto.
    - destruct (k a d) as [[] ?]; auto.
  Qed.
  Lemma rel_bind_eq {A B B'} (m m' : circ K A) (k : A -> circ K B) (k' : A -> circ K B') R :
    rel m m' eq -> (forall a, rel (k a) (k' a) R) -> rel (cbind m k) (cbind m' k') R.
  Proof. intros H Hk. eapply rel_bind; [exact H|]. intros a a' <-. apply Hk. Qed.
  Lemma rel_bind_any {A A' B B'} (m : circ K A) (m' : circ K A') (k : A -> circ K B) (k' : A' -> circ K B') R :
    rel m m' any -> (forall a a', rel (k a) (k' a') R) -> rel (cbind m k) (cbind m' k') R.
  Proof. intros H Hk. eapply rel_bind; [exact H|]. intros a a' _. apply Hk. Qed.
  Lemma rel_ret {A A'} (a : A) (a' : A') (R : A -> A' -> Prop) : R a a' -> rel (ret a) (ret a') R.
  Proof. intros H c ws. cbn. auto using twin_refl. Qed.
  Lemma rel_pure {A A'} (m : circ K A) (m' : circ K A') : pure m -> pure m' -> rel m m' any.
  Proof.
    intros H H' c ws. specialize (H c). specialize (H' (set_wit ws c)).
    destruct (m c) as [[a| |] d]; auto. destruct (m' _) as [[a'| |] d']; auto. cbn in *. subst.
    split; [exact I|apply twin_refl].
  Qed.
  Lemma rel_fail_l {A A'} e (m' : circ K A') (R : A -> A' -> Prop) : rel (fail e) m' R.
  Proof. intros c ws. exact I. Qed.
  Lemma rel_fail_r {A A'} e (m : circ K A) (R : A -> A' -> Prop) : rel m (fail e) R.
  Proof. intros c ws. destruct (m c) as [[] ?]; exact I. Qed.
  Lemma rel_panic_l {A A'} (m' : circ K A') (R : A -> A' -> Prop) : rel cpanic m' R.
  Proof. intros c ws. exact I. Qed.
  Lemma rel_panic_r {A A'} (m : circ K A) (R : A -> A' -> Prop) : rel m cpanic R.
  Proof. intros c ws. destruct (m c) as [[] ?]; exact I. Qed.
  Lemma rel_lift {A} (f : circuit K -> outcome cerr A) : (forall c ws, f (set_wit ws c) = f c) -> rel (lift f) (lift f) eq.
  Proof. intros H c ws. unfold lift. rewrite H. destruct (f c); auto using twin_refl. Qed.
  Lemma rel_modify (f : circuit K -> circuit K) : (forall c ws, exists ws', f (set_wit ws c) = set_wit ws' (f c)) -> rel (modify f) (modify f) eq.
  Proof. intros H c ws. cbn. split; auto. destruct (H c ws) as [ws' E]. exists ws'; auto. Qed.
  Lemma rel_unwrap {A A'} (m : circ K A) (m' : circ K A') R : rel m m' R -> rel (unwrap m) (unwrap m') R.
  Proof.
    intros H c ws. unfold unwrap. specialize (H c ws). destruct (m c) as [[a| |] d]; auto.
    destruct (m' (set_wit ws c)) as [[a'| |] d']; auto.
  Qed.
  Lemma rel_mapM {A A' B B'} (f : A -> circ K B) (f' : A' -> circ K B') (P : A -> A' -> Prop) (R : B -> B' -> Prop) l l' :
    Forall2 P l l' -> (forall a a', P a a' -> rel (f a) (f' a') R) -> rel (mapM f l) (mapM f' l') (Forall2 R).
  Proof.
    intros F H. induction F as [|a a' l l' Ha F IH]; cbn [mapM]; [apply rel_ret; constructor|].
    eapply rel_bind; [apply H, Ha|]. intros b b' Hb. eapply rel_bind; [apply IH|]. intros bs bs' Hbs.
    apply rel_ret. constructor; auto.
  Qed.
  Lemma rel_iterM {A A'} (f : A -> circ K unit) (f' : A' -> circ K unit) (P : A -> A' -> Prop) l l' :
    Forall2 P l l' -> (forall a a', P a a' -> rel (f a) (f' a') eq) -> rel (iterM f l) (iterM f' l') eq.
  Proof.
    intros F H. induction F as [|a a' l l' Ha F IH]; cbn [iterM]; [apply rel_ret; constructor|].
    eapply rel_bind_eq; [apply H, Ha|]. intros _. apply IH.
  Qed.
  Lemma rel_foldM {A A' B B'} (f : B -> A -> circ K B) (f' : B' -> A' -> circ K B') (P : A -> A' -> Prop) (R : B -> B' -> Prop) l l' :
    Forall2 P l l' -> (forall b b' a a', R b b' -> P a a' -> rel (f b a) (f' b' a') R) ->
    forall b b', R b b' -> rel (foldM f b l) (foldM f' b' l') R.
  Proof.
    intros F H. induction F as [|a a' l l' Ha F IH]; intros b b' Hb; cbn [foldM]; [apply rel_ret; auto|].
    eapply rel_bind; [apply H; eauto|]. intros c c' Hc. apply IH; auto.
  Qed.
  Lemma F2_eq {A} (l l' : list A) : Forall2 eq l l' <-> l = l'.
  Proof.
    split.
    - intros F. induction F; congruence.
    - intros <-. induction l; auto.
  Qed.
  Lemma F2_refl {A} (l : list A) : Forall2 eq l l.
  Proof. now apply F2_eq. Qed.
  Lemma F2_any {A A'} (l : list A) (l' : list A') : length l = length l' -> Forall2 any l l'.
  Proof. revert l'. induction l as [|a l IH]; intros [|a' l'] H; try discriminate; constructor; [exact I|]. apply IH. now injection H. Qed.
  Lemma F2_len {A A'} (R : A -> A' -> Prop) l l' : Forall2 R l l' -> length l = length l'.
  Proof. intros F. induction F; cbn; auto. Qed.
  Lemma rel_mapM_same {A B} (f f' : A -> circ K B) l : (forall a, rel (f a) (f' a) eq) -> rel (mapM f l) (mapM f' l) eq.
  Proof.
    intros H. eapply rel_mono; [eapply (rel_mapM f f' eq eq); [apply F2_refl|intros a a' <-; apply H]|].
    intros a a' F. now apply F2_eq.
  Qed.
  (** Programs that draw as many values on both sides but other ones. *)
  Lemma rel_mapM_len {A A' B} (f : A -> circ K B) (f' : A' -> circ K B) l l' : length l = length l' ->
    (forall a a', rel (f a) (f' a') eq) -> rel (mapM f l) (mapM f' l') eq.
  Proof.
    intros HL H. eapply rel_mono; [eapply (rel_mapM f f' any eq); [apply F2_any, HL|intros a a' _; apply H]|].
    intros a a' F. now apply F2_eq.
  Qed.
  Lemma rel_mapM_any {A A' B B'} (f : A -> circ K B) (f' : A' -> circ K B') l l' : length l = length l' ->
    (forall a a', rel (f a) (f' a') any) -> rel (mapM f l) (mapM f' l') (fun r r' => length r = length r').
  Proof.
    intros HL H. eapply rel_mono; [eapply (rel_mapM f f' any any); [apply F2_any, HL|intros a a' _; apply H]|].
    intros a a' F. eapply F2_len; eauto.
  Qed.
  Lemma rel_iterM_same {A} (f f' : A -> circ K unit) l : (forall a, rel (f a) (f' a) eq) -> rel (iterM f l) (iterM f' l) eq.
  Proof. intros H. eapply (rel_iterM f f' eq); [apply F2_refl|intros a a' <-; apply H]. Qed.
  Lemma rel_foldM_same {A B} (f f' : B -> A -> circ K B) l b : (forall b a, rel (f b a) (f' b a) eq) -> rel (foldM f b l) (foldM f' b l) eq.
  Proof. intros H. eapply (rel_foldM f f' eq eq); [apply F2_refl|intros ? ? ? ? <- <-; apply H|reflexivity]. Qed.

  Lemma pure_lift {A} (f : circuit K -> outcome cerr A) : pure (lift f).
  Proof. intros c; reflexivity. Qed.
  Lemma pure_ret {A} (a : A) : pure (ret a).
  Proof. intros c; reflexivity. Qed.
  Lemma pure_fail {A} e : pure (@fail K A e).
  Proof. intros c; reflexivity. Qed.
  Lemma pure_panic {A} : pure (@cpanic K A).
  Proof. intros c; reflexivity. Qed.
  Lemma pure_bind {A B} (m : circ K A) (k : A -> circ K B) : pure m -> (forall a, pure (k a)) -> pure (cbind m k).
  Proof.
    intros H Hk c. unfold cbind. specialize (H c). destruct (m c) as [[a| |] d]; cbn in *; subst; auto. apply Hk.
  Qed.
  Lemma pure_mapM {A B} (f : A -> circ K B) l : (forall a, pure (f a)) -> pure (mapM f l).
  Proof.
    intros H. induction l; cbn [mapM]; [apply pure_ret|]. apply pure_bind; auto. intros b. apply pure_bind; auto.
    intros bs. apply pure_ret.
  Qed.
  Lemma pure_check v : pure (@check_var_bound K v).
  Proof. apply pure_lift. Qed.
  Lemma pure_wit v : pure (@get_witness K v).
  Proof. apply pure_bind; [apply pure_check|]. intros _. apply pure_lift. Qed.

  Lemma check_rel v : indep (@check_var_bound K v).
  Proof. apply rel_lift. reflexivity. Qed.
  Lemma checks_rel vs : indep (@check_vars_bound K vs).
  Proof. apply rel_iterM_same. intros. apply check_rel. Qed.
  Lemma flag_rel b : indep (@check_finalize_flag K b).
  Proof. apply rel_lift. reflexivity. Qed.
  Lemma wit_rel v v' : rel (@get_witness K v) (get_witness v') any.
  Proof. apply rel_pure; apply pure_wit. Qed.
  Lemma idx_rel {A} (l : list A) i : indep (@idx K A l i).
  Proof. apply rel_lift. reflexivity. Qed.
  Lemma insert_rel r g : indep (@insert_gate K r g).
  Proof.
    unfold insert_gate. apply rel_bind_eq; [apply flag_rel|]. intros _.
    apply rel_bind_eq; [|intros _]; apply rel_modify; intros c ws; exists ws; reflexivity.
  Qed.
  Lemma var_rel x y : rel (@create_variable K x) (create_variable y) eq.
  Proof.
    unfold create_variable. apply rel_bind_eq; [apply flag_rel|]. intros _.
    apply (rel_bind _ _ _ _ any).
    - intros c ws. cbn. split; [exact I|]. exists (ws ++ [y]). reflexivity.
    - intros _ _ _. apply rel_lift. reflexivity.
  Qed.
End Indep.

(** Steps through two copies of one program. *)
Ltac pstep :=
  match goal with
  | |- pure (cbind _ _) => apply pure_bind; [|intros ?]
  | |- pure (ret _) => apply pure_ret
  | |- pure (fail _) => apply pure_fail
  | |- pure cpanic => apply pure_panic
  | |- pure (lift _) => apply pure_lift
  | |- pure (get_witness _) => apply pure_wit
  | |- pure (check_var_bound _) => apply pure_check
  | |- pure (mapM _ _) => apply pure_mapM; intros ?
  | |- pure (if ?b then _ else _) => destruct b
  end.
Ltac rstep :=
  match goal with
  | |- indep _ => unfold indep
  | |- rel (fail _) _ _ => apply rel_fail_l
  | |- rel _ (fail _) _ => apply rel_fail_r
  | |- rel cpanic _ _ => apply rel_panic_l
  | |- rel _ cpanic _ => apply rel_panic_r
  | |- rel (cbind (get_witness _) _) _ _ => apply rel_bind_any; [apply wit_rel|intros ? ?]
  | |- rel (cbind (unwrap (get_witness _)) _) _ _ => apply rel_bind_any; [apply rel_unwrap, wit_rel|intros ? ?]
  | |- rel (cbind (cbind (get_witness _) _) _) _ _ => idtac
  | |- rel (cbind _ _) (cbind _ _) _ => apply rel_bind_eq; [|intros ?]
  | |- rel (unwrap _) _ _ => apply rel_unwrap
  | |- rel (ret _) (ret _) _ => apply rel_ret; reflexivity
  | |- rel (check_var_bound _) _ _ => apply check_rel
  | |- rel (check_vars_bound _) _ _ => apply checks_rel
  | |- rel (insert_gate _ _) _ _ => apply insert_rel
  | |- rel (create_variable _) _ _ => apply var_rel
  | |- rel (idx _ _) _ _ => apply idx_rel
  | |- rel (lift _) _ _ => apply rel_lift; reflexivity
  | |- rel (mapM _ ?l) (mapM _ ?l) _ => apply rel_mapM_same; intros ?
  | |- rel (iterM _ ?l) (iterM _ ?l) _ => apply rel_iterM_same; intros ?
  | |- rel (foldM _ _ ?l) (foldM _ _ ?l) _ => apply rel_foldM_same; intros ? ?
  | |- rel (match ?x with _ => _ end) (match ?x with _ => _ end) _ => destruct x
  | H : _ |- rel _ _ _ => apply H
  end.
Ltac rauto := repeat rstep.

Section Gadgets.
  Context {K : fld}.
  Notation C := (circ K).
  Notation ind m := (indep (m : C _)).

  Lemma gate3_ind g a b o : ind (gate3 g a b o). Proof. unfold gate3. rauto. Qed.
  Lemma add_gate_ind a b o : ind (add_gate a b o). Proof. apply gate3_ind. Qed.
  Lemma sub_gate_ind a b o : ind (sub_gate a b o). Proof. apply gate3_ind. Qed.
  Lemma mul_gate_ind a b o : ind (mul_gate a b o). Proof. apply gate3_ind. Qed.
  Lemma add_ind a b : ind (add a b). Proof. unfold add. pose proof add_gate_ind. rauto. Qed.
  Lemma sub_ind a b : ind (sub a b). Proof. unfold sub. pose proof sub_gate_ind. rauto. Qed.
  Lemma mul_ind a b : ind (mul a b). Proof. unfold mul. pose proof mul_gate_ind. rauto. Qed.
  Lemma enforce_bool_ind a : ind (enforce_bool a). Proof. unfold enforce_bool. rauto. Qed.
  Lemma enforce_equal_ind a b : ind (enforce_equal a b). Proof. unfold enforce_equal. rauto. Qed.
  Lemma enforce_constant_ind a x : ind (enforce_constant a x). Proof. unfold enforce_constant. rauto. Qed.
  Lemma constant_ind x : ind (create_constant_variable x).
  Proof. unfold create_constant_variable. pose proof enforce_constant_ind. rauto. Qed.
  Lemma set_public_ind v : ind (set_variable_public v).
  Proof.
    unfold set_variable_public. rstep. apply rel_bind_eq; [apply flag_rel|]. intros _. rauto.
    apply rel_modify. intros c ws. exists ws. reflexivity.
  Qed.
  Lemma public_rel x y : rel (create_public_variable x : C _) (create_public_variable y) eq.
  Proof. unfold create_public_variable. pose proof set_public_ind. rauto. Qed.
  Lemma public_bool_rel x y : rel (create_public_boolean_variable x : C _) (create_public_boolean_variable y) eq.
  Proof. apply public_rel. Qed.
  Lemma boolean_rel x y : rel (create_boolean_variable x : C _) (create_boolean_variable y) eq.
  Proof. unfold create_boolean_variable. pose proof enforce_bool_ind. rauto. Qed.
  Lemma pad_ind n : ind (pad_gates n). Proof. unfold pad_gates. rauto. Qed.
  Lemma range_var_ind v : ind (add_range_check_variable v).
  Proof.
    unfold add_range_check_variable. rauto; [apply flag_rel|]. apply rel_modify. intros c ws. exists ws. reflexivity.
  Qed.

  Lemma quad_poly_gate_ind r l0 l1 l2 l3 m0 m1 o c : ind (quad_poly_gate r l0 l1 l2 l3 m0 m1 o c).
  Proof. unfold quad_poly_gate. rauto. Qed.
  Lemma gen_quad_poly_ind a b x y l0 l1 l2 l3 m0 m1 c : ind (gen_quad_poly a b x y l0 l1 l2 l3 m0 m1 c).
  Proof. unfold gen_quad_poly. rauto. Qed.
  Lemma lc_gate_ind a b x y o c0 c1 c2 c3 : ind (lc_gate a b x y o c0 c1 c2 c3).
  Proof. unfold lc_gate. rauto. Qed.
  Lemma lc_ind a b x y c0 c1 c2 c3 : ind (lc a b x y c0 c1 c2 c3).
  Proof. unfold lc. pose proof lc_gate_ind. rauto. Qed.
  Lemma mul_add_gate_ind a b x y o m0 m1 : ind (mul_add_gate a b x y o m0 m1).
  Proof. unfold mul_add_gate. rauto. Qed.
  Lemma mul_add_ind a b x y m0 m1 : ind (mul_add a b x y m0 m1).
  Proof. unfold mul_add. pose proof mul_add_gate_ind. rauto. Qed.
  Lemma csum_ind l : ind (csum l).
  Proof.
    unfold csum. destruct l as [|v l]; [rauto|]. rstep. apply rel_bind_eq; [apply checks_rel|]. intros _.
    apply rel_bind_any; [apply rel_pure; repeat pstep|]. intros vs vs'.
    pose proof lc_ind. pose proof lc_gate_ind. rauto.
  Qed.
  Lemma add_constant_gate_ind x c y : ind (add_constant_gate x c y).
  Proof. unfold add_constant_gate. rauto. Qed.
  Lemma add_constant_ind x c : ind (add_constant x c).
  Proof. unfold add_constant. pose proof add_constant_gate_ind. rauto. Qed.
  Lemma mul_constant_gate_ind x c y : ind (mul_constant_gate x c y).
  Proof. unfold mul_constant_gate. rauto. Qed.
  Lemma mul_constant_ind x c : ind (mul_constant x c).
  Proof. unfold mul_constant. pose proof mul_constant_gate_ind. rauto. Qed.
  Lemma power_11_gen_ind x : ind (power_11_gen x).
  Proof. unfold power_11_gen. pose proof mul_ind. rauto. Qed.
  Lemma power_11_gate_ind x y : ind (power_11_gate x y).
  Proof. unfold power_11_gate. pose proof mul_ind. pose proof mul_gate_ind. rauto. Qed.

  Lemma logic_or_gate_ind a b : ind (logic_or_gate a b). Proof. unfold logic_or_gate. rauto. Qed.
  Lemma is_zero_ind a : ind (is_zero a).
  Proof. unfold is_zero. pose proof mul_add_gate_ind. pose proof mul_gate_ind. rauto. Qed.
  Lemma is_equal_ind a b : ind (is_equal a b).
  Proof. unfold is_equal. pose proof sub_ind. pose proof is_zero_ind. rauto. Qed.
  Lemma non_zero_gate_ind a : ind (non_zero_gate a).
  Proof. unfold non_zero_gate. pose proof mul_gate_ind. rauto. Qed.
  Lemma logic_neg_ind a : ind (logic_neg a). Proof. apply is_zero_ind. Qed.
  Lemma logic_and_ind a b : ind (logic_and a b).
  Proof. unfold logic_and. pose proof mul_gate_ind. rauto. Qed.
  Lemma logic_and_all_ind l : ind (logic_and_all l).
  Proof. unfold logic_and_all. pose proof logic_and_ind. rauto. Qed.
  Lemma logic_or_ind a b : ind (logic_or a b). Proof. unfold logic_or. rauto. Qed.
  Lemma conditional_select_ind b x0 x1 : ind (conditional_select b x0 x1).
  Proof.
    unfold conditional_select. rstep. do 3 (apply rel_bind_eq; [apply check_rel|]; intros _).
    apply rel_bind_any; [apply wit_rel|intros vb vb'].
    apply rel_bind_eq; [|intros; rauto].
    destruct (feqb vb 0), (feqb vb' 0), (feqb vb 1), (feqb vb' 1); rauto.
  Qed.
  Lemma decomposition_gate_ind l a rs : ind (decomposition_gate l a rs).
  Proof. unfold decomposition_gate. pose proof lc_ind. pose proof lc_gate_ind. rauto. Qed.

  Section PrimeField.
    Variable zval : K -> Z.
    Variable modulus : Z.
    Variable nbits repr_bits : nat.
    Notation f4 f := (f K zval modulus nbits repr_bits).

    Lemma length_bits z : length (bits_le repr_bits z) = repr_bits.
    Proof. unfold bits_le. rewrite map_length. apply seq_length. Qed.
    Lemma canonical_check_ind l : ind (canonical_check modulus repr_bits l).
    Proof.
      unfold canonical_check. pose proof logic_neg_ind. pose proof logic_or_ind. pose proof logic_and_ind.
      pose proof enforce_constant_ind. rauto.
    Qed.
    Lemma range_internal_ind a n : ind (range_gate_internal zval modulus nbits repr_bits a n).
    Proof.
      unfold range_gate_internal. rstep. apply rel_bind_eq; [apply check_rel|]. intros _.
      destruct (n =? 0)%nat; [rauto|]. apply rel_bind_any; [apply wit_rel|]. intros v v'. cbv zeta.
      rewrite !length_bits. destruct (repr_bits <? n)%nat; [rauto|].
      apply rel_bind_eq.
      - apply rel_mapM_len; [|intros; apply boolean_rel]. rewrite !firstn_length, !length_bits. reflexivity.
      - intros vars. pose proof decomposition_gate_ind. pose proof canonical_check_ind.
        unfold binary_decomposition_gate. rauto.
    Qed.
    Lemma unpack_ind a n : ind (unpack zval modulus nbits repr_bits a n).
    Proof.
      unfold unpack. rstep. apply rel_bind_eq; [|intros _; apply range_internal_ind].
      destruct (n <? nbits)%nat; [|rauto]. apply rel_bind_any; [apply wit_rel|]. intros v v'.
      destruct (_ <=? _)%Z, (_ <=? _)%Z; rauto.
    Qed.
    Lemma is_in_range_ind a n : ind (is_in_range zval modulus nbits repr_bits a n).
    Proof.
      unfold is_in_range. pose proof unpack_ind. pose proof csum_ind. pose proof is_zero_ind. rauto.
    Qed.
    Lemma length_decompose v len rb : length (decompose_le zval repr_bits v len rb : list K) = len.
    Proof. unfold decompose_le, resize. rewrite app_length, firstn_length, repeat_length. lia. Qed.
    Lemma range_lookup_ind a n : ind (range_gate_with_lookup zval modulus nbits repr_bits a n).
    Proof.
      unfold range_gate_with_lookup. rstep. do 2 (apply rel_bind_eq; [apply rel_lift; reflexivity|]; intros ?). destruct (n =? 0)%nat; [rauto|].
      apply rel_bind_eq; [apply check_rel|]. intros _. destruct (_ =? 0)%nat; [rauto|]. cbv zeta.
      apply rel_bind_any; [apply wit_rel|]. intros v v'.
      apply rel_bind_eq; [apply rel_mapM_len; [now rewrite !length_decompose|intros; apply var_rel]|]. intros vars.
      pose proof range_var_ind. pose proof range_internal_ind. pose proof decomposition_gate_ind. rauto.
    Qed.
    Lemma in_range_ind a n : ind (enforce_in_range zval modulus nbits repr_bits a n).
    Proof. unfold enforce_in_range. pose proof range_lookup_ind. pose proof range_internal_ind. rauto. Qed.
    Lemma gt_constant_internal_ind a k : ind (is_gt_constant_internal zval modulus nbits repr_bits a k).
    Proof.
      unfold is_gt_constant_internal. pose proof unpack_ind. pose proof logic_and_ind. pose proof logic_or_ind. rauto.
    Qed.
    Lemma msb_ind a b : ind (msb_check_internal zval modulus nbits repr_bits a b).
    Proof.
      unfold msb_check_internal. pose proof gt_constant_internal_ind. pose proof logic_and_ind. pose proof logic_neg_ind.
      pose proof is_equal_ind. rauto.
    Qed.
    Lemma is_lt_internal_ind a b : ind (is_lt_internal zval modulus nbits repr_bits a b).
    Proof.
      unfold is_lt_internal. pose proof gt_constant_internal_ind. pose proof logic_and_ind. pose proof logic_or_ind.
      pose proof msb_ind. pose proof sub_ind. rauto.
    Qed.
    Lemma enforce_lt_internal_ind a b : ind (enforce_lt_internal zval modulus nbits repr_bits a b).
    Proof.
      unfold enforce_lt_internal. pose proof gt_constant_internal_ind. pose proof logic_and_ind. pose proof logic_or_gate_ind.
      pose proof msb_ind. pose proof sub_ind. rauto.
    Qed.
    Lemma enforce_lt_ind a b : ind (enforce_lt zval modulus nbits repr_bits a b).
    Proof. unfold enforce_lt. pose proof enforce_lt_internal_ind. rauto. Qed.
    Lemma is_lt_ind a b : ind (is_lt zval modulus nbits repr_bits a b).
    Proof. unfold is_lt. pose proof is_lt_internal_ind. rauto. Qed.
    Lemma enforce_leq_ind a b : ind (enforce_leq zval modulus nbits repr_bits a b).
    Proof. unfold enforce_leq. pose proof is_lt_ind. pose proof enforce_constant_ind. rauto. Qed.
    Lemma enforce_gt_ind a b : ind (enforce_gt zval modulus nbits repr_bits a b).
    Proof. apply enforce_lt_ind. Qed.
    Lemma enforce_geq_ind a b : ind (enforce_geq zval modulus nbits repr_bits a b).
    Proof. unfold enforce_geq. pose proof is_lt_ind. pose proof enforce_constant_ind. rauto. Qed.
    Lemma is_gt_ind a b : ind (is_gt zval modulus nbits repr_bits a b).
    Proof. apply is_lt_ind. Qed.
    Lemma is_leq_ind a b : ind (is_leq zval modulus nbits repr_bits a b).
    Proof. unfold is_leq. pose proof is_lt_internal_ind. pose proof logic_neg_ind. rauto. Qed.
    Lemma is_geq_ind a b : ind (is_geq zval modulus nbits repr_bits a b).
    Proof. unfold is_geq. pose proof is_lt_internal_ind. pose proof logic_neg_ind. rauto. Qed.
    Lemma compare_constant_ind a k :
      ind (is_lt_constant zval modulus nbits repr_bits a k) /\ ind (is_leq_constant zval modulus nbits repr_bits a k)
      /\ ind (is_gt_constant zval modulus nbits repr_bits a k) /\ ind (is_geq_constant zval modulus nbits repr_bits a k)
      /\ ind (enforce_lt_constant zval modulus nbits repr_bits a k) /\ ind (enforce_leq_constant zval modulus nbits repr_bits a k)
      /\ ind (enforce_gt_constant zval modulus nbits repr_bits a k) /\ ind (enforce_geq_constant zval modulus nbits repr_bits a k).
    Proof.
      unfold is_lt_constant, is_leq_constant, is_gt_constant, is_geq_constant, enforce_lt_constant, enforce_leq_constant,
        enforce_gt_constant, enforce_geq_constant.
      pose proof is_lt_ind. pose proof is_leq_ind. pose proof is_geq_ind. pose proof enforce_lt_ind. pose proof enforce_leq_ind.
      pose proof enforce_gt_ind. pose proof enforce_geq_ind. pose proof gt_constant_internal_ind. pose proof constant_ind.
      repeat split; rauto.
    Qed.

    (** The emulated field gadgets. *)
    Section Emulated.
      Context {E : fld}.
      Variable ez : E -> Z.
      Variable q : Z.
      Variables T B NL : nat.

      Lemma len_limbs v n : length (biguint_to_limbs v B n : list K) = n.
      Proof. revert v. induction n; intros v; cbn [biguint_to_limbs length]; auto. Qed.
      Lemma ewit_rel a a' : rel (emulated_witness zval B NL a : C E) (emulated_witness zval B NL a' : C E) any.
      Proof. apply rel_pure; unfold emulated_witness; repeat pstep. Qed.
      Lemma eunchecked_rel (x y : E) : rel (create_emulated_variable_unchecked ez B NL x : C _)
        (create_emulated_variable_unchecked ez B NL y) eq.
      Proof. apply rel_mapM_len; [|intros; apply var_rel]. unfold from_emulated_field. now rewrite !len_limbs. Qed.
      Lemma evar_rel (x y : E) : rel (create_emulated_variable zval modulus nbits repr_bits ez B NL x : C _)
        (create_emulated_variable zval modulus nbits repr_bits ez B NL y) eq.
      Proof.
        unfold create_emulated_variable. apply rel_bind_eq; [apply eunchecked_rel|]. intros vs.
        pose proof in_range_ind. rauto.
      Qed.
      Lemma epublic_rel (x y : E) : rel (create_public_emulated_variable ez B NL x : C _)
        (create_public_emulated_variable ez B NL y) eq.
      Proof. apply rel_mapM_len; [|intros; apply public_rel]. unfold from_emulated_field. now rewrite !len_limbs. Qed.
      Lemma econstant_ind (x : E) : ind (create_constant_emulated_variable ez B NL x).
      Proof. unfold create_constant_emulated_variable. pose proof constant_ind. rauto. Qed.

      Lemma native_ind a : ind (mod_to_native_field B NL a).
      Proof. unfold mod_to_native_field. pose proof lc_ind. rauto. Qed.
      Lemma reduce_stack_ind fuel : forall st, ind (reduce_stack fuel st).
      Proof.
        induction fuel as [|n IH]; intros st; [cbn; rauto|].
        destruct st as [|[] [|[] [|[] [|[] [|x st]]]]]; cbn [reduce_stack]; try solve [rauto]. pose proof lc_ind. rauto.
      Qed.
      Lemma sum_stack_ind st o : ind (sum_stack st o).
      Proof. unfold sum_stack, finish_stack. pose proof reduce_stack_ind. pose proof lc_gate_ind. rauto. Qed.
      Lemma neg_modulus_ind : ind (neg_modulus q T B NL).
      Proof. unfold neg_modulus. rauto. Qed.
      Lemma idx_any {A} (l l' : list A) i : rel (idx l i : C _) (idx l' i) any.
      Proof. apply rel_pure; apply pure_lift. Qed.
      Notation "x ~ y" := (rel x y eq) (at level 70).
      Notation mround := (mul_round zval modulus nbits repr_bits B).
      Lemma mul_round_rel a b c k al bl kl nl el al' bl' kl' el' v v' i carry :
        rel (mround a b c k al bl kl nl el (v, carry) i : C _) (mround a b c k al' bl' kl' nl el' (v', carry) i)
            (fun r r' => snd r = snd r').
      Proof.
        unfold mul_round. apply rel_bind_eq; [apply var_rel|]. intros next.
        apply rel_bind_eq; [apply in_range_ind|]. intros _.
        apply rel_bind_eq; [rauto|]. intros base.
        apply rel_bind_eq; [pose proof mul_add_ind; rauto|]. intros prods. cbv zeta.
        apply rel_bind_eq.
        { destruct (i mod 2 =? 0)%nat; [|rauto]. destruct (rev _) as [|[] [|[] st]]; [rauto|rauto|].
          pose proof gen_quad_poly_ind. rauto. }
        intros st. apply rel_bind_eq; [rauto|]. intros ci. apply rel_bind_eq; [apply sum_stack_ind|]. intros _.
        apply rel_ret. reflexivity.
      Qed.
      Lemma mul_gate_with_rel va vb vk ve va' vb' vk' ve' a b c :
        (emulated_mul_gate_with zval modulus nbits repr_bits q T B NL va vb vk ve a b c : C _)
        ~ emulated_mul_gate_with zval modulus nbits repr_bits q T B NL va' vb' vk' ve' a b c.
      Proof.
        unfold emulated_mul_gate_with. cbv zeta.
        apply rel_bind_eq; [apply rel_mapM_len; [now rewrite !len_limbs|intros; apply var_rel]|]. intros k.
        apply rel_bind_eq; [apply rel_iterM_same; intros; apply in_range_ind|]. intros _.
        apply rel_bind_eq; [apply neg_modulus_ind|]. intros nl.
        do 3 (apply rel_bind_any; [apply idx_any|intros ? ?]).
        apply rel_bind_eq; [apply idx_rel|]. intros n0.
        apply rel_bind_any; [apply idx_any|intros ? ?].
        apply rel_bind_eq; [apply var_rel|]. intros carry.
        apply rel_bind_eq; [apply in_range_ind|]. intros _.
        do 4 (apply rel_bind_eq; [apply idx_rel|]; intros ?).
        apply rel_bind_eq; [apply quad_poly_gate_ind|]. intros _.
        eapply rel_bind with (R := fun r r' => snd r = snd r').
        { eapply (rel_foldM _ _ eq (fun r r' : K * nat => snd r = snd r')); [apply F2_refl| |reflexivity].
          intros [x y] [x' y'] i i' Hy <-. cbn in Hy. subst y'. apply mul_round_rel. }
        intros _ _ _. pose proof native_ind. pose proof quad_poly_gate_ind. rauto.
      Qed.
      Lemma emul_gate_ind a b c : ind (emulated_mul_gate zval modulus nbits repr_bits ez q T B NL a b c).
      Proof.
        unfold emulated_mul_gate. rstep. do 3 (apply rel_bind_eq; [apply checks_rel|]; intros _).
        do 2 (apply rel_bind_any; [apply ewit_rel|]; intros ? ?). cbv zeta. apply mul_gate_with_rel.
      Qed.
      (** The gate and its variant that uses any values for the hints. *)
      Lemma emul_gate_with_rel va vb vk ve a b c :
        (emulated_mul_gate zval modulus nbits repr_bits ez q T B NL a b c : C _)
        ~ (check_vars_bound a >> check_vars_bound b >> check_vars_bound c >>
           emulated_mul_gate_with zval modulus nbits repr_bits q T B NL va vb vk ve a b c).
      Proof.
        unfold emulated_mul_gate. do 3 (apply rel_bind_eq; [apply checks_rel|]; intros _).
        intros c0 ws. unfold cbind.
        pose proof (ewit_rel a a c0 ws) as Ha. destruct (emulated_witness zval B NL a c0) as [[x| |] c1] eqn:E1; auto.
        assert (c1 = c0) as ->.
        { assert (Hp : pure (emulated_witness zval B NL a : C E)) by (unfold emulated_witness; repeat pstep).
          specialize (Hp c0). rewrite E1 in Hp. exact Hp. }
        destruct (emulated_witness zval B NL b c0) as [[y| |] c1] eqn:E2; auto.
        assert (c1 = c0) as ->.
        { assert (Hp : pure (emulated_witness zval B NL b : C E)) by (unfold emulated_witness; repeat pstep).
          specialize (Hp c0). rewrite E2 in Hp. exact Hp. }
        apply mul_gate_with_rel.
      Qed.
      Lemma emul_ind a b : ind (emulated_mul zval modulus nbits repr_bits ez q T B NL a b).
      Proof.
        unfold emulated_mul. rstep. do 2 (apply rel_bind_any; [apply ewit_rel|]; intros ? ?).
        apply rel_bind_eq; [apply evar_rel|]. intros c. pose proof emul_gate_ind. rauto.
      Qed.
      Notation mcround := (mul_constant_round zval modulus nbits repr_bits B).
      Lemma mul_constant_round_rel a c k al bl kl nl el al' kl' el' v v' i carry :
        rel (mcround a c k al bl kl nl el (v, carry) i : C _) (mcround a c k al' bl kl' nl el' (v', carry) i)
            (fun r r' => snd r = snd r').
      Proof.
        unfold mul_constant_round. apply rel_bind_eq; [apply var_rel|]. intros next.
        apply rel_bind_eq; [apply in_range_ind|]. intros _.
        apply rel_bind_eq; [rauto|]. intros base.
        apply rel_bind_eq; [rauto|]. intros prods. cbv zeta.
        apply rel_bind_eq; [rauto|]. intros ci. apply rel_bind_eq; [apply sum_stack_ind|]. intros _.
        apply rel_ret. reflexivity.
      Qed.
      Lemma mul_constant_with_rel va vb vk ve va' vk' ve' a c :
        (emulated_mul_constant_gate_with zval modulus nbits repr_bits q T B NL va vb vk ve a c : C _)
        ~ emulated_mul_constant_gate_with zval modulus nbits repr_bits q T B NL va' vb vk' ve' a c.
      Proof.
        unfold emulated_mul_constant_gate_with. cbv zeta.
        apply rel_bind_eq; [apply rel_mapM_len; [now rewrite !len_limbs|intros; apply var_rel]|]. intros k.
        apply rel_bind_eq; [apply rel_iterM_same; intros; apply in_range_ind|]. intros _.
        apply rel_bind_eq; [apply neg_modulus_ind|]. intros nl.
        apply rel_bind_any; [apply idx_any|intros ? ?].
        apply rel_bind_eq; [apply idx_rel|]. intros b0.
        apply rel_bind_any; [apply idx_any|intros ? ?].
        apply rel_bind_eq; [apply idx_rel|]. intros n0.
        apply rel_bind_any; [apply idx_any|intros ? ?].
        apply rel_bind_eq; [apply var_rel|]. intros carry.
        apply rel_bind_eq; [apply in_range_ind|]. intros _.
        do 3 (apply rel_bind_eq; [apply idx_rel|]; intros ?).
        apply rel_bind_eq; [apply lc_gate_ind|]. intros _.
        eapply rel_bind with (R := fun r r' => snd r = snd r').
        { eapply (rel_foldM _ _ eq (fun r r' : K * nat => snd r = snd r')); [apply F2_refl| |reflexivity].
          intros [x y] [x' y'] i i' Hy <-. cbn in Hy. subst y'. apply mul_constant_round_rel. }
        intros _ _ _. pose proof native_ind. pose proof lc_gate_ind. rauto.
      Qed.
      Lemma emul_constant_gate_ind a b c : ind (emulated_mul_constant_gate zval modulus nbits repr_bits ez q T B NL a b c).
      Proof.
        unfold emulated_mul_constant_gate. rstep. do 2 (apply rel_bind_eq; [apply checks_rel|]; intros _).
        apply rel_bind_any; [apply ewit_rel|]; intros ? ?. cbv zeta. apply mul_constant_with_rel.
      Qed.
      Lemma emul_constant_ind a b : ind (emulated_mul_constant zval modulus nbits repr_bits ez q T B NL a b).
      Proof.
        unfold emulated_mul_constant. rstep. apply rel_bind_any; [apply ewit_rel|]; intros ? ?.
        apply rel_bind_eq; [apply evar_rel|]. intros c. pose proof emul_constant_gate_ind. rauto.
      Qed.

      (** Rows with the same wires and possibly other hints. *)
      Definition row_sim (r r' : @crow K) : Prop :=
        pure (cr_hint r) /\ pure (cr_hint r') /\ cr_x r = cr_x r' /\ cr_cx r = cr_cx r' /\ cr_y r = cr_y r'
        /\ cr_cy r = cr_cy r' /\ cr_z r = cr_z r'.
      Lemma carry_row_rel check carry r r' : row_sim r r' ->
        (carry_row zval modulus nbits repr_bits B check carry r : C _) ~ carry_row zval modulus nbits repr_bits B check carry r'.
      Proof.
        intros (P & P' & E1 & E2 & E3 & E4 & E5). unfold carry_row. rewrite E1, E2, E3, E4, E5.
        apply rel_bind_any; [apply rel_pure; auto|]. intros ? ?. pose proof enforce_bool_ind. pose proof lc_gate_ind.
        pose proof in_range_ind. rauto.
      Qed.
      Lemma carry_chain_rel check rs rs' : Forall2 row_sim rs rs' ->
        (carry_chain zval modulus nbits repr_bits B check rs : C _) ~ carry_chain zval modulus nbits repr_bits B check rs'.
      Proof.
        intros F. unfold carry_chain. eapply (rel_foldM _ _ row_sim eq); [exact F| |reflexivity].
        intros b b' r r' <- Hr. apply carry_row_rel; auto.
      Qed.
      Lemma F2_map {A} (f g : A -> @crow K) l : (forall a, row_sim (f a) (g a)) -> Forall2 row_sim (map f l) (map g l).
      Proof. intros H. induction l; cbn; constructor; auto. Qed.
      Lemma add_row_sim t : row_sim (add_row zval B t) (add_row zval B t).
      Proof. destruct t as [[x y] z]. repeat split; unfold add_row; cbn [cr_hint]; repeat pstep. Qed.
      Lemma add_constant_row_sim t : row_sim (add_constant_row zval B t) (add_constant_row zval B t).
      Proof. destruct t as [[x y] z]. repeat split; unfold add_constant_row; cbn [cr_hint]; repeat pstep. Qed.
      Lemma reduce_row_sim k k' vk t : row_sim (reduce_row zval B k vk t) (reduce_row zval B k' vk t).
      Proof. destruct t as [[x y] z]. repeat split; unfold reduce_row; cbn [cr_hint]; repeat pstep. Qed.
      Lemma eadd_gate_ind a b c : ind (emulated_add_gate zval modulus nbits repr_bits ez q B NL a b c).
      Proof.
        unfold emulated_add_gate. rstep. do 3 (apply rel_bind_eq; [apply checks_rel|]; intros _).
        do 2 (apply rel_bind_any; [apply ewit_rel|]; intros ? ?). cbv zeta.
        apply rel_bind_eq; [apply boolean_rel|]. intros vk.
        apply rel_bind_eq; [apply rel_mapM_len; [now rewrite !len_limbs|intros; apply var_rel]|]. intros sums.
        apply rel_bind_eq; [apply carry_chain_rel, F2_map, add_row_sim|]. intros _.
        apply rel_bind_eq; [apply carry_chain_rel, F2_map; intros; apply reduce_row_sim|]. intros _. rauto.
      Qed.
      Lemma eadd_ind a b : ind (emulated_add zval modulus nbits repr_bits ez q B NL a b).
      Proof.
        unfold emulated_add. rstep. do 2 (apply rel_bind_any; [apply ewit_rel|]; intros ? ?).
        apply rel_bind_eq; [apply evar_rel|]. intros c. pose proof eadd_gate_ind. rauto.
      Qed.
      Lemma esub_ind a b : ind (emulated_sub zval modulus nbits repr_bits ez q B NL a b).
      Proof.
        unfold emulated_sub. rstep. do 2 (apply rel_bind_any; [apply ewit_rel|]; intros ? ?).
        apply rel_bind_eq; [apply evar_rel|]. intros c. pose proof eadd_gate_ind. rauto.
      Qed.
      Lemma eadd_constant_gate_ind a b c : ind (emulated_add_constant_gate zval modulus nbits repr_bits ez q B NL a b c).
      Proof.
        unfold emulated_add_constant_gate. rstep. do 2 (apply rel_bind_eq; [apply checks_rel|]; intros _).
        apply rel_bind_any; [apply ewit_rel|]; intros ? ?. cbv zeta.
        apply rel_bind_eq; [apply boolean_rel|]. intros vk.
        apply rel_bind_eq; [apply rel_mapM_len; [now rewrite !len_limbs|intros; apply var_rel]|]. intros sums.
        apply rel_bind_eq; [apply carry_chain_rel, F2_map, add_constant_row_sim|]. intros _.
        apply rel_bind_eq; [apply carry_chain_rel, F2_map; intros; apply reduce_row_sim|]. intros _. rauto.
      Qed.
      Lemma eadd_constant_ind a b : ind (emulated_add_constant zval modulus nbits repr_bits ez q B NL a b).
      Proof.
        unfold emulated_add_constant. rstep. apply rel_bind_any; [apply ewit_rel|]; intros ? ?.
        apply rel_bind_eq; [apply evar_rel|]. intros c. pose proof eadd_constant_gate_ind. rauto.
      Qed.
      Lemma esub_constant_ind a b : ind (emulated_sub_constant zval modulus nbits repr_bits ez q B NL a b).
      Proof.
        unfold emulated_sub_constant. rstep. apply rel_bind_any; [apply ewit_rel|]; intros ? ?.
        apply rel_bind_eq; [apply evar_rel|]. intros c. pose proof eadd_constant_gate_ind. rauto.
      Qed.
      Lemma eselect_ind b x y : ind (conditional_select_emulated b x y).
      Proof. unfold conditional_select_emulated. pose proof conditional_select_ind. rauto. Qed.
      Lemma eenforce_equal_ind x y : ind (enforce_emulated_var_equal x y).
      Proof. unfold enforce_emulated_var_equal. pose proof enforce_equal_ind. rauto. Qed.
      Lemma eis_equal_ind x y : ind (is_emulated_var_equal x y).
      Proof. unfold is_emulated_var_equal. pose proof is_equal_ind. pose proof logic_and_all_ind. rauto. Qed.
      Lemma eis_zero_ind x : ind (is_emulated_var_zero x).
      Proof. unfold is_emulated_var_zero. pose proof is_zero_ind. pose proof logic_and_all_ind. rauto. Qed.

      (** The curve gadgets over the emulated field. *)
      Lemma sw_wit_rel p p' : rel (sw_witness zval B NL p : C (@sw_point E)) (sw_witness zval B NL p' : C (@sw_point E)) any.
      Proof. apply rel_pure; unfold sw_witness, emulated_witness; repeat pstep. Qed.
      Lemma sw_var_rel (x y : @sw_point E) : (create_sw_variable zval modulus nbits repr_bits ez B NL x : C _)
        ~ create_sw_variable zval modulus nbits repr_bits ez B NL y.
      Proof.
        unfold create_sw_variable. do 2 (apply rel_bind_eq; [apply evar_rel|]; intros ?).
        apply rel_bind_eq; [apply boolean_rel|]. intros ?. rauto.
      Qed.
      Lemma sw_constant_ind (x : @sw_point E) : ind (create_constant_sw_variable ez B NL x).
      Proof. unfold create_constant_sw_variable. pose proof econstant_ind. rauto. Qed.
      Lemma sw_public_rel (x y : @sw_point E) : (create_public_sw_variable ez B NL x : C _) ~ create_public_sw_variable ez B NL y.
      Proof.
        unfold create_public_sw_variable. do 2 (apply rel_bind_eq; [apply epublic_rel|]; intros ?).
        apply rel_bind_eq; [apply public_bool_rel|]. intros ?. rauto.
      Qed.
      Lemma sw_select_ind b p0 p1 : ind (sw_select b p0 p1).
      Proof. unfold sw_select. pose proof eselect_ind. pose proof conditional_select_ind. rauto. Qed.
      Lemma sw_enforce_equal_ind p0 p1 : ind (enforce_sw_equal p0 p1).
      Proof. unfold enforce_sw_equal. pose proof eenforce_equal_ind. pose proof enforce_equal_ind. rauto. Qed.
      Lemma sw_is_equal_ind p0 p1 : ind (is_sw_equal p0 p1).
      Proof. unfold is_sw_equal. pose proof eis_equal_ind. pose proof is_equal_ind. pose proof mul_ind. rauto. Qed.
      Lemma bool_evar_ind v : ind (bool_evar NL v).
      Proof. unfold bool_evar. rauto. Qed.
      Lemma sw_add_gate_ind p0 p1 p2 a : ind (emulated_sw_ecc_add_gate zval modulus nbits repr_bits ez q T B NL p0 p1 p2 a).
      Proof.
        unfold emulated_sw_ecc_add_gate. pose proof sw_is_equal_ind. pose proof enforce_equal_ind. pose proof logic_or_ind.
        pose proof logic_and_ind. pose proof logic_neg_ind. pose proof eis_equal_ind. pose proof eis_zero_ind.
        pose proof logic_or_gate_ind. pose proof mul_ind. pose proof bool_evar_ind.
        pose proof eadd_ind. pose proof esub_ind. pose proof emul_ind. pose proof emul_constant_ind.
        pose proof eadd_constant_ind. pose proof eenforce_equal_ind. rauto.
      Qed.
      Lemma pure_ediv (x y : E) : pure (ediv x y : C _).
      Proof. unfold ediv. repeat pstep. Qed.
      Lemma pure_sw_sum (p0 p1 : @sw_point E) a : pure (sw_sum p0 p1 a : C _).
      Proof.
        destruct p0 as [x0 y0 i0], p1 as [x1 y1 i1]. unfold sw_sum. pose proof pure_ediv. repeat (pstep || apply pure_ediv).
      Qed.
      Lemma sw_add_ind p0 p1 a : ind (emulated_sw_ecc_add zval modulus nbits repr_bits ez q T B NL p0 p1 a).
      Proof.
        unfold emulated_sw_ecc_add. rstep. do 2 (apply rel_bind_any; [apply sw_wit_rel|]; intros ? ?).
        apply rel_bind_any; [apply rel_pure; apply pure_sw_sum|]. intros ? ?.
        apply rel_bind_eq; [apply sw_var_rel|]. intros ?. pose proof sw_add_gate_ind. rauto.
      Qed.
      Lemma te_var_rel (x y x' y' : E) : (create_te_variable zval modulus nbits repr_bits ez B NL x y : C _)
        ~ create_te_variable zval modulus nbits repr_bits ez B NL x' y'.
      Proof. unfold create_te_variable. do 2 (apply rel_bind_eq; [apply evar_rel|]; intros ?). rauto. Qed.
      Lemma te_add_gate_ind p0 p1 p2 d : ind (emulated_te_ecc_add_gate zval modulus nbits repr_bits ez q T B NL p0 p1 p2 d).
      Proof.
        unfold emulated_te_ecc_add_gate. pose proof eadd_ind. pose proof emul_ind. pose proof emul_constant_ind.
        pose proof eadd_gate_ind. rauto.
      Qed.
      Lemma te_add_ind p0 p1 d : ind (emulated_te_ecc_add zval modulus nbits repr_bits ez q T B NL p0 p1 d).
      Proof.
        unfold emulated_te_ecc_add. rstep. do 4 (apply rel_bind_any; [apply ewit_rel|]; intros ? ?). cbv zeta.
        do 2 (apply rel_bind_any; [apply rel_pure; apply pure_ediv|]; intros ? ?).
        apply rel_bind_eq; [apply te_var_rel|]. intros ?. pose proof te_add_gate_ind. rauto.
      Qed.
    End Emulated.
  End PrimeField.

  Lemma table_ind ls t : ind (create_table_and_lookup_variables ls t).
  Proof.
    unfold create_table_and_lookup_variables. rstep.
    apply rel_bind_eq; [rauto|]. intros _. apply rel_bind_eq; [rauto|]. intros _. cbv zeta.
    apply rel_bind_eq; [rauto|]. intros s.
    apply rel_bind_eq; [apply rel_modify; intros c ws; exists ws; reflexivity|]. intros _.
    apply rel_bind_eq; [rauto|]. intros ctr.
    apply rel_bind_eq; [|intros _; apply rel_modify; intros c ws; exists ws; reflexivity]. rauto.
  Qed.
End Gadgets.

Section Transfer.
  Context {K : fld}.
  Variable zval : K -> Z.
  Notation accepts := (accepts zval).

  Lemma accepts_with (c : circuit K) ws ws' pub : accepts (with_witness c ws') ws pub <-> accepts c ws pub.
  Proof. reflexivity. Qed.
  Lemma good_with (c : circuit K) ws : good c -> length ws = num_vars c -> good (with_witness c ws).
  Proof. intros [[W1 W2 W3 W4] [B1 B2 B3 B4] G0 R0 G1 R1] HL. split; [split; auto|split; auto|..]; auto. Qed.

  (** A gadget run on one witness and analysed on another one, possibly with other
      hints: every accepted assignment of the inputs that satisfies [C] extends to
      the variables of the gadget. *)
  Theorem gadget_transfer {A} (m m' : circ K A) c S C R a c' ws pub :
    rel m m' eq -> m c = (Ok a, c') -> good c -> length ws = num_vars c ->
    gadget_ok zval m' (with_witness c ws) S C R ->
    accepts c ws pub -> C (asg ws) ->
    exists l, accepts c' (ws ++ l) pub /\ (length (ws ++ l) = num_vars c').
  Proof.
    intros Hr E G HL (a' & c1 & E' & G' & Ex & _ & (l & Hl) & _ & _ & Cmp) Hacc HC.
    specialize (Hr c ws). rewrite E, E' in Hr. destruct Hr as [_ [ws' ->]]. cbn in Hl.
    exists l. specialize (Cmp pub). cbn [witness with_witness] in Cmp. rewrite Hl in Cmp.
    assert (H : accepts c' (ws ++ l) pub) by (apply (proj1 (accepts_with c' (ws ++ l) ws' pub)); apply Cmp; auto).
    split; auto. apply H.
  Qed.
End Transfer.
