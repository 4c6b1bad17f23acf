(** A finalized circuit cannot be modified: closure rules and the gadgets. *)

From Coq Require Import List Arith ZArith Bool Lia.
From Verif Require Import Base Alg CircuitModel GadgetModel.
Import ListNotations.
Local Open Scope circ_scope.

Section Frozen.
  Context {K : fld}.

  (** On a finalized circuit the call leaves the circuit as it is. *)
  Definition inert {A} (m : circ K A) : Prop := forall c, is_finalized c = true -> snd (m c) = c.
  (** ... and does not succeed. *)
  Definition stuck {A} (m : circ K A) : Prop :=
    forall c, is_finalized c = true -> snd (m c) = c /\ forall a, fst (m c) <> Ok a.

  Lemma stuck_inert {A} (m : circ K A) : stuck m -> inert m.
  Proof. intros H c F. apply (H c F). Qed.
  Lemma inert_ret {A} (a : A) : inert (@ret K A a). Proof. intros c _; auto. Qed.
  Lemma inert_fail {A} e : inert (@fail K A e). Proof. intros c _; auto. Qed.
  Lemma inert_panic {A} : inert (@cpanic K A). Proof. intros c _; auto. Qed.
  Lemma inert_lift {A} f : inert (@lift K A f). Proof. intros c _; auto. Qed.
  Lemma inert_bind {A B} (m : circ K A) (k : A -> circ K B) : inert m -> (forall a, inert (k a)) -> inert (cbind m k).
  Proof.
    intros Hm Hk c F. unfold cbind. specialize (Hm c F). destruct (m c) as [[a| |] c']; cbn in *; subst; auto. now apply Hk.
  Qed.
  Lemma inert_unwrap {A} (m : circ K A) : inert m -> inert (unwrap m).
  Proof. intros H c F. unfold unwrap. specialize (H c F). destruct (m c) as [[| |] c']; auto. Qed.
  Lemma stuck_fail {A} e : stuck (@fail K A e). Proof. intros c _; split; auto. cbn; discriminate. Qed.
  Lemma stuck_panic {A} : stuck (@cpanic K A). Proof. intros c _; split; auto. cbn; discriminate. Qed.
  Lemma stuck_bind_l {A B} (m : circ K A) (k : A -> circ K B) : stuck m -> stuck (cbind m k).
  Proof.
    intros Hm c F. destruct (Hm c F) as [E N]. unfold cbind. destruct (m c) as [[a| |] c']; cbn in *; subst.
    - exfalso. now apply (N a).
    - split; auto. discriminate.
    - split; auto. discriminate.
  Qed.
  Lemma stuck_bind_r {A B} (m : circ K A) (k : A -> circ K B) : inert m -> (forall a, stuck (k a)) -> stuck (cbind m k).
  Proof.
    intros Hm Hk c F. unfold cbind. specialize (Hm c F). destruct (m c) as [[a| |] c']; cbn in *; subst.
    - now apply Hk.
    - split; auto. discriminate.
    - split; auto. discriminate.
  Qed.
  Lemma stuck_unwrap {A} (m : circ K A) : stuck m -> stuck (unwrap m).
  Proof.
    intros H c F. unfold unwrap. destruct (H c F) as [E N]. destruct (m c) as [[| |] c']; cbn in *; split; auto; discriminate.
  Qed.
  Lemma inert_mapM {A B} (f : A -> circ K B) l : (forall a, inert (f a)) -> inert (mapM f l).
  Proof.
    intros H. induction l; cbn [mapM]; [apply inert_ret|]. apply inert_bind; auto. intros. apply inert_bind; auto.
    intros. apply inert_ret.
  Qed.
  Lemma inert_iterM {A} (f : A -> circ K unit) l : (forall a, inert (f a)) -> inert (iterM f l).
  Proof. intros H. induction l; cbn [iterM]; [apply inert_ret|]. apply inert_bind; auto. Qed.
  Lemma inert_foldM {A B} (f : B -> A -> circ K B) l : (forall b a, inert (f b a)) -> forall b, inert (foldM f b l).
  Proof. intros H. induction l; intros b; cbn [foldM]; [apply inert_ret|]. apply inert_bind; auto. Qed.
  Lemma stuck_flag : stuck (@check_finalize_flag K false).
  Proof. intros c F. cbn. rewrite F. split; auto. discriminate. Qed.
End Frozen.

Create HintDb stk discriminated.
#[export] Hint Resolve stuck_fail stuck_panic stuck_flag : stk.

Ltac stk :=
  intros;
  lazymatch goal with
  | |- stuck (if ?b then _ else _) => destruct b; stk
  | |- stuck (match ?b with _ => _ end) => destruct b; stk
  | |- inert (if ?b then _ else _) => destruct b; stk
  | |- inert (match ?b with _ => _ end) => destruct b; stk
  | |- inert (ret _) => apply inert_ret
  | |- inert (lift _) => apply inert_lift
  | |- inert (idx _ _) => apply inert_lift
  | |- inert (check_var_bound _) => apply inert_lift
  | |- inert (check_finalize_flag _) => apply inert_lift
  | |- inert (check_vars_bound _) => apply inert_iterM; stk
  | |- inert (get_witness _) => unfold get_witness; stk
  | |- inert (mapM _ _) => apply inert_mapM; stk
  | |- inert (iterM _ _) => apply inert_iterM; stk
  | |- inert (foldM _ _ _) => apply inert_foldM; stk
  | |- inert (unwrap _) => apply inert_unwrap; stk
  | |- stuck (unwrap _) => apply stuck_unwrap; stk
  | |- stuck (cbind _ _) => first [solve [apply stuck_bind_l; stk] | solve [apply stuck_bind_r; stk]]
  | |- inert (cbind _ _) => first [solve [apply stuck_inert; apply stuck_bind_l; stk] | solve [apply inert_bind; stk]]
  | |- stuck (let _ := _ in _) => cbv zeta; stk
  | |- inert (let _ := _ in _) => cbv zeta; stk
  | |- inert _ => solve [apply stuck_inert; auto with stk]
  | |- stuck _ => solve [auto with stk]
  end.

Section Calls.
  Context {K : fld}.
  Lemma insert_gate_stuck r g : stuck (@insert_gate K r g). Proof. unfold insert_gate. stk. Qed.
  Hint Resolve insert_gate_stuck : stk.
  Lemma create_variable_stuck x : stuck (@create_variable K x). Proof. unfold create_variable. stk. Qed.
  Hint Resolve create_variable_stuck : stk.
  Lemma enforce_constant_stuck v x : stuck (@enforce_constant K v x). Proof. unfold enforce_constant. stk. Qed.
  Hint Resolve enforce_constant_stuck : stk.
  Lemma create_constant_variable_stuck x : stuck (@create_constant_variable K x). Proof. unfold create_constant_variable. stk. Qed.
  Lemma set_variable_public_stuck v : stuck (@set_variable_public K v). Proof. unfold set_variable_public. stk. Qed.
  Lemma create_public_variable_stuck x : stuck (@create_public_variable K x). Proof. unfold create_public_variable. stk. Qed.
  Hint Resolve create_constant_variable_stuck set_variable_public_stuck create_public_variable_stuck : stk.
  Lemma gate3_stuck g a b o : stuck (@gate3 K g a b o). Proof. unfold gate3. stk. Qed.
  Hint Resolve gate3_stuck : stk.
  Lemma add_gate_stuck a b o : stuck (@add_gate K a b o). Proof. apply gate3_stuck. Qed.
  Lemma sub_gate_stuck a b o : stuck (@sub_gate K a b o). Proof. apply gate3_stuck. Qed.
  Lemma mul_gate_stuck a b o : stuck (@mul_gate K a b o). Proof. apply gate3_stuck. Qed.
  Lemma add_stuck a b : stuck (@add K a b). Proof. unfold add. stk. Qed.
  Lemma sub_stuck a b : stuck (@sub K a b). Proof. unfold sub. stk. Qed.
  Lemma mul_stuck a b : stuck (@mul K a b). Proof. unfold mul. stk. Qed.
  Lemma enforce_bool_stuck a : stuck (@enforce_bool K a). Proof. unfold enforce_bool. stk. Qed.
  Lemma enforce_equal_stuck a b : stuck (@enforce_equal K a b). Proof. unfold enforce_equal. stk. Qed.
  Hint Resolve add_gate_stuck sub_gate_stuck mul_gate_stuck add_stuck sub_stuck mul_stuck enforce_bool_stuck enforce_equal_stuck : stk.
  Lemma create_boolean_variable_stuck b : stuck (@create_boolean_variable K b). Proof. unfold create_boolean_variable. stk. Qed.
  Lemma create_public_boolean_variable_stuck b : stuck (@create_public_boolean_variable K b). Proof. unfold create_public_boolean_variable. stk. Qed.
  Lemma add_range_check_variable_stuck v : stuck (@add_range_check_variable K v). Proof. unfold add_range_check_variable. stk. Qed.
  Hint Resolve create_boolean_variable_stuck create_public_boolean_variable_stuck add_range_check_variable_stuck : stk.
  Lemma pad_gates_inert n : inert (@pad_gates K n). Proof. unfold pad_gates. stk. Qed.
  Lemma pad_gates_stuck n : stuck (@pad_gates K (S n)). Proof. unfold pad_gates. cbn [seq iterM]. stk. Qed.

  Lemma quad_poly_gate_stuck r l0 l1 l2 l3 m0 m1 o k : stuck (@quad_poly_gate K r l0 l1 l2 l3 m0 m1 o k). Proof. unfold quad_poly_gate. stk. Qed.
  Lemma gen_quad_poly_stuck a b x y l0 l1 l2 l3 m0 m1 k : stuck (@gen_quad_poly K a b x y l0 l1 l2 l3 m0 m1 k). Proof. unfold gen_quad_poly. stk. Qed.
  Lemma lc_gate_stuck a b x y o c0 c1 c2 c3 : stuck (@lc_gate K a b x y o c0 c1 c2 c3). Proof. unfold lc_gate. stk. Qed.
  Lemma lc_stuck a b x y c0 c1 c2 c3 : stuck (@lc K a b x y c0 c1 c2 c3). Proof. unfold lc. stk. Qed.
  Lemma mul_add_gate_stuck a b x y o m0 m1 : stuck (@mul_add_gate K a b x y o m0 m1). Proof. unfold mul_add_gate. stk. Qed.
  Lemma mul_add_stuck a b x y m0 m1 : stuck (@mul_add K a b x y m0 m1). Proof. unfold mul_add. stk. Qed.
  Hint Resolve quad_poly_gate_stuck gen_quad_poly_stuck lc_gate_stuck lc_stuck mul_add_gate_stuck mul_add_stuck : stk.
  Lemma csum_stuck l : stuck (@csum K l). Proof. unfold csum. stk. Qed.
  Lemma add_constant_gate_stuck x k y : stuck (@add_constant_gate K x k y). Proof. unfold add_constant_gate. stk. Qed.
  Lemma add_constant_stuck x k : stuck (@add_constant K x k). Proof. unfold add_constant. stk. Qed.
  Lemma mul_constant_gate_stuck x k y : stuck (@mul_constant_gate K x k y). Proof. unfold mul_constant_gate. stk. Qed.
  Lemma mul_constant_stuck x k : stuck (@mul_constant K x k). Proof. unfold mul_constant. stk. Qed.
  Lemma power_11_gen_stuck x : stuck (@power_11_gen K x). Proof. unfold power_11_gen. stk. Qed.
  Lemma power_11_gate_stuck x y : stuck (@power_11_gate K x y). Proof. unfold power_11_gate. stk. Qed.
  Lemma logic_or_gate_stuck a b : stuck (@logic_or_gate K a b). Proof. unfold logic_or_gate. stk. Qed.
  Lemma is_zero_stuck a : stuck (@is_zero K a). Proof. unfold is_zero. stk. Qed.
  Lemma is_equal_stuck a b : stuck (@is_equal K a b). Proof. unfold is_equal. stk. Qed.
  Lemma non_zero_gate_stuck a : stuck (@non_zero_gate K a). Proof. unfold non_zero_gate. stk. Qed.
  Lemma logic_neg_stuck a : stuck (@logic_neg K a). Proof. apply is_zero_stuck. Qed.
  Lemma logic_and_stuck a b : stuck (@logic_and K a b). Proof. unfold logic_and. stk. Qed.
  Lemma logic_or_stuck a b : stuck (@logic_or K a b). Proof. unfold logic_or. stk. Qed.
  Hint Resolve csum_stuck logic_or_gate_stuck is_zero_stuck is_equal_stuck non_zero_gate_stuck logic_neg_stuck logic_and_stuck logic_or_stuck : stk.
  Lemma logic_and_all_inert vs : inert (@logic_and_all K vs).
  Proof. unfold logic_and_all. destruct vs; [apply inert_fail|]. stk. Qed.
  Lemma logic_and_all_stuck v v' vs : stuck (@logic_and_all K (v :: v' :: vs)).
  Proof. unfold logic_and_all. cbn [foldM]. stk. Qed.
  Lemma enforce_true_stuck a : stuck (@enforce_true K a). Proof. unfold enforce_true. stk. Qed.
  Lemma enforce_false_stuck a : stuck (@enforce_false K a). Proof. unfold enforce_false. stk. Qed.
  Lemma conditional_select_stuck b x y : stuck (@conditional_select K b x y). Proof. unfold conditional_select. stk. Qed.
  Lemma decomposition_gate_stuck ch a rs : stuck (@decomposition_gate K ch a rs). Proof. unfold decomposition_gate. stk. Qed.
  Lemma binary_decomposition_gate_stuck ch a : stuck (@binary_decomposition_gate K ch a). Proof. apply decomposition_gate_stuck. Qed.
  Hint Resolve decomposition_gate_stuck binary_decomposition_gate_stuck : stk.

  Variable zval : K -> Z.
  Variable p : Z.
  Variable nb L : nat.
  Lemma canonical_check_stuck bits : stuck (@canonical_check K p L bits).
  Proof. unfold canonical_check. cbv zeta. apply stuck_bind_r; [|stk]. apply inert_foldM. intros cur [b pb]. destruct pb; stk. Qed.
  Hint Resolve canonical_check_stuck : stk.
  Lemma range_gate_internal_stuck a k : stuck (@range_gate_internal K zval p nb L a k).
  Proof.
    unfold range_gate_internal. apply stuck_bind_r; [stk|]. intros _. destruct (_ =? _); [stk|].
    apply stuck_bind_r; [stk|]. intros v. cbv zeta. destruct (_ <? _); [stk|]. apply stuck_bind_r; [stk|]. intros vs.
    apply stuck_bind_l. destruct (_ =? _); [apply stuck_bind_l|]; apply binary_decomposition_gate_stuck.
  Qed.
  Hint Resolve range_gate_internal_stuck : stk.
  Lemma unpack_stuck a k : stuck (@unpack K zval p nb L a k).
  Proof. unfold unpack. apply stuck_bind_r; [|stk]. destruct (_ <? _); [|stk]. apply inert_bind; [stk|]. intros v. destruct (_ <=? _)%Z; [apply inert_fail|stk]. Qed.
  Hint Resolve unpack_stuck : stk.
  Lemma is_in_range_stuck a k : stuck (@is_in_range K zval p nb L a k). Proof. unfold is_in_range. stk. Qed.
  Lemma range_gate_with_lookup_stuck a k : stuck (@range_gate_with_lookup K zval p nb L a k).
  Proof.
    unfold range_gate_with_lookup. apply stuck_bind_r; [stk|]. intros rb. apply stuck_bind_r; [stk|]. intros rs.
    destruct (_ =? _); [stk|]. apply stuck_bind_r; [stk|]. intros _. destruct (_ =? _); [stk|]. cbv zeta.
    apply stuck_bind_r; [stk|]. intros v. apply stuck_bind_r; [stk|]. intros vs. apply stuck_bind_r; [stk|]. intros _.
    apply stuck_bind_r; [|stk]. destruct (_ <? _); stk.
  Qed.
  Hint Resolve range_gate_with_lookup_stuck : stk.
  Lemma enforce_in_range_stuck a k : stuck (@enforce_in_range K zval p nb L a k).
  Proof. unfold enforce_in_range. apply stuck_bind_r; [stk|]. intros []; stk. Qed.
  Lemma is_gt_constant_internal_stuck a k : stuck (@is_gt_constant_internal K zval p nb L a k).
  Proof. unfold is_gt_constant_internal. apply stuck_bind_l, unpack_stuck. Qed.
  Hint Resolve is_gt_constant_internal_stuck : stk.
  Lemma msb_check_internal_stuck a b : stuck (@msb_check_internal K zval p nb L a b).
  Proof. unfold msb_check_internal. apply stuck_bind_l. stk. Qed.
  Hint Resolve msb_check_internal_stuck : stk.
  Lemma is_lt_internal_stuck a b : stuck (@is_lt_internal K zval p nb L a b).
  Proof. unfold is_lt_internal. apply stuck_bind_l. stk. Qed.
  Lemma enforce_lt_internal_stuck a b : stuck (@enforce_lt_internal K zval p nb L a b).
  Proof. unfold enforce_lt_internal. apply stuck_bind_l. stk. Qed.
  Hint Resolve is_lt_internal_stuck enforce_lt_internal_stuck : stk.
  Lemma enforce_lt_stuck a b : stuck (@enforce_lt K zval p nb L a b). Proof. unfold enforce_lt. stk. Qed.
  Lemma is_lt_stuck a b : stuck (@is_lt K zval p nb L a b). Proof. unfold is_lt. stk. Qed.
  Hint Resolve enforce_lt_stuck is_lt_stuck : stk.
  Lemma enforce_leq_stuck a b : stuck (@enforce_leq K zval p nb L a b). Proof. unfold enforce_leq. stk. Qed.
  Lemma enforce_gt_stuck a b : stuck (@enforce_gt K zval p nb L a b). Proof. unfold enforce_gt. stk. Qed.
  Lemma enforce_geq_stuck a b : stuck (@enforce_geq K zval p nb L a b). Proof. unfold enforce_geq. stk. Qed.
  Lemma is_gt_stuck a b : stuck (@is_gt K zval p nb L a b). Proof. unfold is_gt. stk. Qed.
  Lemma is_leq_stuck a b : stuck (@is_leq K zval p nb L a b). Proof. unfold is_leq. stk. Qed.
  Lemma is_geq_stuck a b : stuck (@is_geq K zval p nb L a b). Proof. unfold is_geq. stk. Qed.
  Lemma is_lt_constant_stuck a k : stuck (@is_lt_constant K zval p nb L a k). Proof. unfold is_lt_constant. stk. Qed.
  Lemma is_leq_constant_stuck a k : stuck (@is_leq_constant K zval p nb L a k). Proof. unfold is_leq_constant. stk. Qed.
  Lemma is_gt_constant_stuck a k : stuck (@is_gt_constant K zval p nb L a k). Proof. unfold is_gt_constant. stk. Qed.
  Lemma is_geq_constant_stuck a k : stuck (@is_geq_constant K zval p nb L a k). Proof. unfold is_geq_constant. stk. Qed.
  Lemma enforce_lt_constant_stuck a k : stuck (@enforce_lt_constant K zval p nb L a k). Proof. unfold enforce_lt_constant. stk. Qed.
  Lemma enforce_leq_constant_stuck a k : stuck (@enforce_leq_constant K zval p nb L a k). Proof. unfold enforce_leq_constant. stk. Qed.
  Lemma enforce_gt_constant_stuck a k : stuck (@enforce_gt_constant K zval p nb L a k). Proof. unfold enforce_gt_constant. stk. Qed.
  Lemma enforce_geq_constant_stuck a k : stuck (@enforce_geq_constant K zval p nb L a k). Proof. unfold enforce_geq_constant. stk. Qed.
End Calls.
