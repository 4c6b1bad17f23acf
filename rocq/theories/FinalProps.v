(** C26-C32, C66: finalization, copy constraints, lookups and merging.

    [reached c T] lists the circuits a builder can hold; [T] collects the lookup
    tables made so far with their lookups.  [accepts zval c ws pub] is the verdict
    of [check_circuit_satisfiability] on the values [ws] of all variables. *)

From Coq Require Import List Arith ZArith Bool Lia Sorted Permutation Ring Field.
From Verif Require Import Base ListAux Alg Poly CircuitModel CircuitProofs GadgetModel GadgetProofs BitProofs RangeLookup SatProofs SatGadget
  FinalModel FinalProofs PermProofs FinalizeProofs BuiltProofs FrozenProofs GrandProd CosetProofs MergeProofs
  LookupProofs TableProofs CircuitProps.
Import ListNotations.
Local Open Scope circ_scope.
Local Open Scope fld_scope.

Section Reached.
  Context {K : fld}.
  Inductive reached : circuit K -> tabs_t -> Prop :=
  | r_new t : reached (new_circuit K t) []
  | r_variable c T x v c' : reached c T -> create_variable x c = (Ok v, c') -> reached c' T
  | r_public c T v c' : reached c T -> (v < num_vars c)%nat -> set_variable_public v c = (Ok tt, c') -> reached c' T
  | r_range c T v c' : reached c T -> add_range_check_variable v c = (Ok tt, c') -> reached c' T
  | r_gate c T r g c' : reached c T -> row_lt (num_vars c) r -> q_lookup g = 0 -> insert_gate r g c = (Ok tt, c') -> reached c' T
  | r_gadget c T A zval (m : circ K A) S C R a c' :
      reached c T -> gspec zval m c S C R -> m c = (Ok a, c') -> reached c' T
  | r_table c T lookups table c' :
      reached c T -> create_table_and_lookup_variables lookups table c = (Ok tt, c') -> reached c' (T ++ [(lookups, table)]).

  Theorem reached_inv c T : reached c T -> built c /\ placed c /\ tabs c T.
  Proof.
    induction 1 as [t|c T x v c' _ (B & P & Tb) E|c T v c' _ (B & P & Tb) Hv E|c T v c' _ (B & P & Tb) E
      |c T r g c' _ (B & P & Tb) Hr Hq E|c T A zval m S C R a c' _ (B & P & Tb) (a' & d & E & Pl & _) E'
      |c T lookups table c' _ (B & P & Tb) E].
    - split; [apply built_new|]. split; [apply placed_new|apply tabs_new].
    - split; [eapply create_variable_built; eauto|]. pose proof (gd_wf _ (bt_good _ B)) as W.
      unfold create_variable, cbind in E. rewrite (finalize_false_run _ (wf_open _ W)) in E. unfold modify, lift in E.
      inversion E; subst. pose proof (bd_rows _ (gd_bd _ (bt_good _ B))) as Hl. split.
      + apply (placed_more c _ []); auto; cbn. now rewrite app_nil_r.
      + apply (tabs_more c T _ [] []); auto; cbn; now rewrite app_nil_r.
    - split; [eapply set_variable_public_built; eauto|]. pose proof (gd_wf _ (bt_good _ B)) as W.
      unfold set_variable_public, insert_gate, cbind in E. rewrite (finalize_false_run _ (wf_open _ W)) in E. unfold lift, modify in E.
      rewrite (finalize_false_run (push_pub (num_gates c) c)) in E by exact (wf_open _ W). inversion E; subst.
      pose proof (bd_rows _ (gd_bd _ (bt_good _ B))) as Hl. split.
      + apply (placed_more c _ [io_gate K]); auto.
      + apply (tabs_more c T _ [io_gate K] [mk_row 0 0 0 0 v]); auto.
    - split; [eapply add_range_check_variable_built; eauto|]. pose proof (gd_wf _ (bt_good _ B)) as W.
      unfold add_range_check_variable, cbind, lift in E.
      destruct (support_lookup c); [|discriminate]. rewrite (finalize_false_run _ (wf_open _ W)) in E.
      unfold check_var_bound, lift in E. destruct (Nat.leb_spec (num_vars c) v); [discriminate|].
      unfold modify in E. inversion E; subst. pose proof (bd_rows _ (gd_bd _ (bt_good _ B))) as Hl. split.
      + apply (placed_more c _ []); auto; cbn. now rewrite app_nil_r.
      + apply (tabs_more c T _ [] []); auto; cbn; now rewrite app_nil_r.
    - split; [eapply insert_gate_built; eauto|]. pose proof (gd_wf _ (bt_good _ B)) as W.
      unfold insert_gate, cbind in E. rewrite (finalize_false_run _ (wf_open _ W)) in E. unfold modify in E. inversion E; subst.
      pose proof (bd_rows _ (gd_bd _ (bt_good _ B))) as Hl. split.
      + apply (placed_more c _ [g]); auto.
      + apply (tabs_more c T _ [g] [r]); auto.
    - rewrite E in E'. inversion E'; subst. split; [now apply built_capp|].
      destruct Pl as (P1 & P2 & P3 & P4 & P5). pose proof (bd_rows _ (gd_bd _ (bt_good _ B))) as Hl.
      assert (Q : Forall (fun g => q_lookup g = 0) (map fst (d_gates d))).
      { apply Forall_map. eapply Forall_impl; [|exact P4]. intros gr (_ & Hq & _). exact Hq. }
      split.
      + apply (placed_more c _ (map fst (d_gates d))); auto. cbn. now rewrite P2, app_nil_r.
      + apply (tabs_more c T _ (map fst (d_gates d)) (map snd (d_gates d))); auto; cbn.
        * now rewrite !map_length.
        * now rewrite P2, app_nil_r.
    - destruct (tables_run c lookups table B) as [[V E']|[_ [e E']]]; rewrite E in E'; inversion E'; subst.
      split; [now apply tables_built|]. split; [now apply placed_after|now apply tabs_after].
  Qed.
End Reached.

(** C26: the wire permutation *)
Section C26.
  Context {K : fld}.
  Theorem C26_wire_permutation ta (c c' : circuit K) T : reached c T -> tables_clear c ->
    finalize_for_arithmetization K ta c = (Ok tt, c') ->
    let n := domain c' in
    let slot := fun s : nat * nat => (fst s < num_wire_types c' /\ snd s < n)%nat in
    let sigma := fun s : nat * nat => nth (fst s * n + snd s) (wire_perm c') (0, 0)%nat in
    let var := fun s : nat * nat => wire_variable c' (fst s) (snd s) in
    (forall s, slot s -> slot (sigma s))
    /\ (forall s t, slot s -> slot t -> sigma s = sigma t -> s = t)
    /\ (forall t, slot t -> exists s, slot s /\ sigma s = t)
    /\ (forall s t, slot s -> slot t -> (var s = var t <-> exists k, Nat.iter k sigma s = t))
    /\ (forall f : nat * nat -> K, (forall s, slot s -> f (sigma s) = f s) <->
          exists w : nat -> K, forall s, slot s -> f s = w (var s)).
  Proof.
    intros R TC E. pose proof (reached_inv _ _ R) as (B & _).
    destruct (radix2_size ta (slots_needed K c)) as [n0|] eqn:Er.
    - destruct (finalize_ok ta c n0 B TC Er) as (c2 & E2 & F & D). rewrite E in E2. inversion E2; subst c2.
      pose proof (ff_cols _ _ _ F) as Co. pose proof (ff_perm _ _ _ F) as Pe. intros n slot sigma var.
      split; [|split; [|split; [|split]]].
      + intros s Hs. apply (sigma_slot c' Co _ Pe s Hs).
      + apply (sigma_inj c' Co _ Pe).
      + apply (sigma_surj c' Co _ Pe).
      + apply (sigma_cycles c' Co _ Pe).
      + intros f. apply (sigma_invariant c' Co _ Pe 0).
    - exfalso. unfold finalize_for_arithmetization, is_finalized in E.
      rewrite (wf_open _ (gd_wf _ (bt_good _ B))) in E. cbn [Nat.eqb negb] in E. rewrite Er in E. discriminate.
  Qed.
End C26.

(** C27: finalization keeps the meaning *)
Section C27.
  Context {K : fld}.
  Variable zval : K -> Z.
  Variable p : Z.
  Variable nb L : nat.
  Hypothesis HF : pfield K zval p nb L.
  Add Field FinalPropsK : (fth K).

  Theorem C27_finalize ta (c : circuit K) T n : reached c T -> tables_clear c ->
    (forall b, ptype c = Ultra b -> (1 <= b <= 31 /\ b < nb)%nat) ->
    radix2_size ta (slots_needed K c) = Some n ->
    exists c', finalize_for_arithmetization K ta c = (Ok tt, c') /\ domain c' = n
      /\ (exists l, n = 2 ^ l)%nat /\ (num_gates c <= n)%nat /\ num_gates c' = n
      /\ witness c' = witness c /\ num_vars c' = num_vars c
      /\ (forall ws pub, accepts zval c' ws pub <-> accepts zval c ws pub)
      /\ pub_ids c' = seq 0 (num_inputs c)
      /\ (forall k id, nth_error (pub_ids c) k = Some id ->
            wire_variable c' 4 k = wire_variable c 4 id /\ nth_error (gates c') k = Some (io_gate K)).
  Proof.
    intros R TC Hb Er. pose proof (reached_inv _ _ R) as (B & _).
    destruct (finalize_ok ta c n B TC Er) as (c' & E & F & D). exists c'. split; auto. split; auto.
    split; [destruct (ff_dom _ _ _ F) as (l & El & _); exists l; congruence|].
    split; [pose proof (ff_slots _ _ _ F); pose proof (slots_ge c); unfold num_gates; lia|].
    split; [unfold num_gates; rewrite (ff_gates _ _ _ F); auto|].
    split; [apply (ff_wit _ _ _ F)|]. split; [apply (ff_vars _ _ _ F)|].
    split; [intros; apply (finalize_accepts ta zval p nb L HF); auto|].
    split; [apply (ff_pub _ _ _ F)|]. intros k id Hk. destruct (ff_pub_rows _ _ _ F k id Hk) as [Hg Hr].
    pose proof (bt_io _ B id (nth_error_In _ _ Hk)) as Hio. split; [|congruence].
    unfold wire_variable. cbn [Nat.ltb Nat.leb wire_of].
    assert (Hl : (id < length (rows c))%nat).
    { rewrite (bd_rows _ (gd_bd _ (bt_good _ B))). apply nth_error_Some. congruence. }
    destruct (nth_error (rows c) id) as [r|] eqn:Ei; [|apply nth_error_None in Ei; lia].
    rewrite (nth_error_nth _ _ _ Hr), (nth_error_nth _ _ _ Ei). reflexivity.
  Qed.
  (** Finalizing again changes nothing; a domain that the field cannot provide is
      refused and the circuit is left as it is. *)
  Theorem C27_finalize_again ta (c : circuit K) : is_finalized c = true ->
    finalize_for_arithmetization K ta c = (Ok tt, c).
  Proof. intros H. unfold finalize_for_arithmetization. now rewrite H. Qed.
  Theorem C27_no_domain ta (c : circuit K) T : reached c T -> radix2_size ta (slots_needed K c) = None ->
    finalize_for_arithmetization K ta c = (Err InternalError, c).
  Proof.
    intros R H. pose proof (reached_inv _ _ R) as (B & _). unfold finalize_for_arithmetization, is_finalized.
    rewrite (wf_open _ (gd_wf _ (bt_good _ B))), H. reflexivity.
  Qed.

  (** C66: what a circuit with lookup tables accepts, before and after
      finalization: every lookup equals a row of its own table. *)
  Theorem C66_lookup_tables (c : circuit K) T ws pub : reached c T -> ptype c <> Turbo ->
    (Z.of_nat (length T) < p)%Z -> accepts zval c ws pub ->
    forall t lookups table key v0 v1, nth_error T t = Some (lookups, table) -> In (key, v0, v1) lookups ->
      exists i t0 t1, nth_error table i = Some (t0, t1) /\
        asg ws key = fnat i /\ asg ws v0 = asg ws t0 /\ asg ws v1 = asg ws t1.
  Proof.
    intros R Nt Hp A. pose proof (reached_inv _ _ R) as (B & _ & Tb).
    pose proof (proj1 A) as Hl. apply accepts_csat in A; auto; [|apply (gd_bd _ (bt_good _ B))].
    assert (W0 : asg ws 0%nat = 0).
    { pose proof (cs_gate _ _ _ _ A 0%nat _ _ (gd_g0 _ (bt_good _ B)) (gd_r0 _ (bt_good _ B)) eq_refl) as H.
      now apply gsat_const in H. }
    apply (tabs_lookup_ok c T (asg ws)); auto; [|apply (cs_lookup _ _ _ _ A Nt)].
    intros i j Hi Hj E. apply Nat2Z.inj. rewrite <- !fZ_nat in E.
    apply (f_equal zval) in E. rewrite !(pf_zval _ _ _ _ _ HF) in E. rewrite !Z.mod_small in E by lia. exact E.
  Qed.
  Theorem C66_lookup_tables_only (c : circuit K) T ws pub lookups table c' : reached c T -> ptype c <> Turbo ->
    (Z.of_nat (S (length T)) < p)%Z ->
    create_table_and_lookup_variables lookups table c = (Ok tt, c') ->
    (accepts zval c' ws pub <-> accepts zval c ws pub /\
       forall key v0 v1, In (key, v0, v1) lookups ->
         exists i t0 t1, nth_error table i = Some (t0, t1) /\
           asg ws key = fnat i /\ asg ws v0 = asg ws t0 /\ asg ws v1 = asg ws t1).
  Proof.
    intros R Nt Hp E. pose proof (r_table _ _ _ _ _ R E) as R'.
    pose proof (reached_inv _ _ R) as (B & _ & Tb). pose proof (reached_inv _ _ R') as (B' & _ & Tb').
    destruct (tables_run c lookups table B) as [[V E']|[_ [e E']]]; rewrite E in E'; inversion E'; subst c'. clear E'.
    assert (Inj : forall m, (Z.of_nat m < p)%Z -> forall i j, (i <= m)%nat -> (j <= m)%nat -> fnat (K := K) i = fnat j -> i = j).
    { intros m Hm i j Hi Hj Ex. apply Nat2Z.inj. rewrite <- !fZ_nat in Ex.
      apply (f_equal zval) in Ex. rewrite !(pf_zval _ _ _ _ _ HF) in Ex. rewrite !Z.mod_small in Ex by lia. exact Ex. }
    assert (W0 : forall (d : circuit K) w pb, good d -> csat zval d w pb -> w 0%nat = 0).
    { intros d w pb G A. pose proof (cs_gate _ _ _ _ A 0%nat _ _ (gd_g0 _ G) (gd_r0 _ G) eq_refl) as H. now apply gsat_const in H. }
    assert (Core : forall w, csat zval (after_tables c lookups table) w pub <-> csat zval c w pub /\
       (forall key v0 v1, In (key, v0, v1) lookups ->
         exists i t0 t1, nth_error table i = Some (t0, t1) /\ w key = fnat i /\ w v0 = w t0 /\ w v1 = w t1)).
    { intros w. set (n := Nat.max (length lookups) (length table)).
      assert (Hg : forall g, In g (map (lgate (K:=K) (S (length (table_ids c))) (length lookups) (length table)) (seq 0 n)) ->
         is_io g = false /\ forall r, gsat w 0 g r).
      { intros g Hin. apply in_map_iff in Hin as (i & <- & _). split; [reflexivity|]. intros r.
        unfold gsat, gate_expected, gate_output, lgate, lookup_gate, agate; cbn. ring. }
      split.
      - intros A. pose proof (W0 _ _ _ (bt_good _ B') A) as Z0.
        assert (LH : lookups_hold (T ++ [(lookups, table)]) w).
        { apply (tabs_lookup_ok (after_tables c lookups table)); auto; [|apply (cs_lookup _ _ _ _ A Nt)].
          apply Inj. rewrite app_length. cbn [length]. rewrite Nat.add_1_r. auto. }
        assert (LT : lookups_hold T w).
        { intros t l tb k v0 v1 Hnt Hin. apply (LH t l tb k v0 v1); auto. rewrite nth_error_app1; auto. apply nth_error_Some. congruence. }
        split.
        + destruct A as [A1 A2 A3 A4 A5]. split; auto.
          * intros i id Hid. destruct (A2 i id Hid) as (g & r & G1 & G2 & G3).
            assert (Hlt : (id < length (gates c))%nat).
            { pose proof (bd_pub _ (gd_bd _ (bt_good _ B))) as Fp. rewrite Forall_forall in Fp. apply Fp. eapply nth_error_In; eauto. }
            cbn [after_tables gates rows] in G1, G2. rewrite nth_error_app1 in G1 by auto.
            rewrite nth_error_app1 in G2 by (rewrite (bd_rows _ (gd_bd _ (bt_good _ B))); auto). eauto.
          * intros j g r G1 G2. apply (A3 j); cbn [after_tables gates rows]; rewrite nth_error_app1; auto; apply nth_error_Some; congruence.
          * intros _. apply (tabs_lookup_ok c T); auto. apply Inj. lia.
        + intros key v0 v1 Hin. apply (LH (length T) lookups table key v0 v1); auto.
          rewrite nth_error_app2, Nat.sub_diag by lia. reflexivity.
      - intros [A Hlk]. pose proof (W0 _ _ _ (bt_good _ B) A) as Z0.
        assert (LT : lookups_hold T w).
        { apply (tabs_lookup_ok c T); auto; [|apply (cs_lookup _ _ _ _ A Nt)]. apply Inj. lia. }
        assert (LH : lookups_hold (T ++ [(lookups, table)]) w).
        { intros t l tb k v0 v1 Ht Hin. destruct (Nat.lt_ge_cases t (length T)).
          - rewrite nth_error_app1 in Ht by auto. eapply LT; eauto.
          - assert (t = length T) as ->.
            { assert (X : (t < length (T ++ [(lookups, table)]))%nat) by (apply nth_error_Some; congruence).
              rewrite app_length in X. cbn in X. lia. }
            rewrite nth_error_app2, Nat.sub_diag in Ht by lia. cbn in Ht. inversion Ht; subst. auto. }
        destruct A as [A1 A2 A3 A4 A5]. split; auto.
        + intros i id Hid. destruct (A2 i id Hid) as (g & r & G1 & G2 & G3). exists g, r.
          cbn [after_tables gates rows]. rewrite !nth_error_app1; auto; apply nth_error_Some; congruence.
        + intros j g r G1 G2 Hio. cbn [after_tables gates rows] in G1, G2.
          destruct (Nat.lt_ge_cases j (length (gates c))).
          * rewrite nth_error_app1 in G1 by auto.
            rewrite nth_error_app1 in G2 by (rewrite (bd_rows _ (gd_bd _ (bt_good _ B))); auto). eauto.
          * rewrite nth_error_app2 in G1 by auto. apply nth_error_In in G1. apply Hg in G1. apply G1.
        + intros _. apply (tabs_lookup_ok (after_tables c lookups table) (T ++ [(lookups, table)])); auto.
          apply Inj. rewrite app_length. cbn [length]. rewrite Nat.add_1_r. auto. }
    pose proof (gd_bd _ (bt_good _ B)) as Bd. pose proof (gd_bd _ (bt_good _ B')) as Bd'.
    assert (Hv : num_vars (after_tables c lookups table) = num_vars c) by reflexivity.
    split.
    - intros A. pose proof (proj1 A) as Hl. apply accepts_csat in A; auto. apply Core in A as [A1 A2]. split; auto.
      apply accepts_csat; auto.
    - intros [A1 A2]. pose proof (proj1 A1) as Hl. apply accepts_csat in A1; auto. apply accepts_csat; auto. apply Core. auto.
  Qed.
End C27.

(** C28: building calls on a finalized circuit *)
Section C28.
  Context {K : fld}.
  Variable zval : K -> Z.
  Variable p : Z.
  Variables nb L : nat.
  Inductive builder_call : forall A, circ K A -> Prop :=
  | bc_insert_gate r g : builder_call _ (@insert_gate K r g)
  | bc_create_variable x : builder_call _ (@create_variable K x)
  | bc_enforce_constant v x : builder_call _ (@enforce_constant K v x)
  | bc_create_constant_variable x : builder_call _ (@create_constant_variable K x)
  | bc_set_variable_public v : builder_call _ (@set_variable_public K v)
  | bc_create_public_variable x : builder_call _ (@create_public_variable K x)
  | bc_add_gate a b o : builder_call _ (@add_gate K a b o)
  | bc_sub_gate a b o : builder_call _ (@sub_gate K a b o)
  | bc_mul_gate a b o : builder_call _ (@mul_gate K a b o)
  | bc_add a b : builder_call _ (@add K a b)
  | bc_sub a b : builder_call _ (@sub K a b)
  | bc_mul a b : builder_call _ (@mul K a b)
  | bc_enforce_bool a : builder_call _ (@enforce_bool K a)
  | bc_enforce_equal a b : builder_call _ (@enforce_equal K a b)
  | bc_create_boolean_variable b : builder_call _ (@create_boolean_variable K b)
  | bc_create_public_boolean_variable b : builder_call _ (@create_public_boolean_variable K b)
  | bc_add_range_check_variable v : builder_call _ (@add_range_check_variable K v)
  | bc_pad_gates n : builder_call _ (@pad_gates K (S n))
  | bc_quad_poly_gate r l0 l1 l2 l3 m0 m1 o k : builder_call _ (@quad_poly_gate K r l0 l1 l2 l3 m0 m1 o k)
  | bc_gen_quad_poly a b x y l0 l1 l2 l3 m0 m1 k : builder_call _ (@gen_quad_poly K a b x y l0 l1 l2 l3 m0 m1 k)
  | bc_lc_gate a b x y o c0 c1 c2 c3 : builder_call _ (@lc_gate K a b x y o c0 c1 c2 c3)
  | bc_lc a b x y c0 c1 c2 c3 : builder_call _ (@lc K a b x y c0 c1 c2 c3)
  | bc_mul_add_gate a b x y o m0 m1 : builder_call _ (@mul_add_gate K a b x y o m0 m1)
  | bc_mul_add a b x y m0 m1 : builder_call _ (@mul_add K a b x y m0 m1)
  | bc_csum l : builder_call _ (@csum K l)
  | bc_add_constant_gate x k y : builder_call _ (@add_constant_gate K x k y)
  | bc_add_constant x k : builder_call _ (@add_constant K x k)
  | bc_mul_constant_gate x k y : builder_call _ (@mul_constant_gate K x k y)
  | bc_mul_constant x k : builder_call _ (@mul_constant K x k)
  | bc_power_11_gate x y : builder_call _ (@power_11_gate K x y)
  | bc_logic_or_gate a b : builder_call _ (@logic_or_gate K a b)
  | bc_is_zero a : builder_call _ (@is_zero K a)
  | bc_is_equal a b : builder_call _ (@is_equal K a b)
  | bc_non_zero_gate a : builder_call _ (@non_zero_gate K a)
  | bc_logic_neg a : builder_call _ (@logic_neg K a)
  | bc_logic_and a b : builder_call _ (@logic_and K a b)
  | bc_logic_or a b : builder_call _ (@logic_or K a b)
  | bc_logic_and_all v v' vs : builder_call _ (@logic_and_all K (v :: v' :: vs))
  | bc_enforce_true a : builder_call _ (@enforce_true K a)
  | bc_enforce_false a : builder_call _ (@enforce_false K a)
  | bc_conditional_select b x y : builder_call _ (@conditional_select K b x y)
  | bc_binary_decomposition_gate ch a : builder_call _ (@binary_decomposition_gate K ch a)
  | bc_unpack a k : builder_call _ (@unpack K zval p nb L a k)
  | bc_is_in_range a k : builder_call _ (@is_in_range K zval p nb L a k)
  | bc_enforce_in_range a k : builder_call _ (@enforce_in_range K zval p nb L a k)
  | bc_enforce_lt a b : builder_call _ (@enforce_lt K zval p nb L a b)
  | bc_is_lt a b : builder_call _ (@is_lt K zval p nb L a b)
  | bc_enforce_leq a b : builder_call _ (@enforce_leq K zval p nb L a b)
  | bc_enforce_gt a b : builder_call _ (@enforce_gt K zval p nb L a b)
  | bc_enforce_geq a b : builder_call _ (@enforce_geq K zval p nb L a b)
  | bc_is_gt a b : builder_call _ (@is_gt K zval p nb L a b)
  | bc_is_leq a b : builder_call _ (@is_leq K zval p nb L a b)
  | bc_is_geq a b : builder_call _ (@is_geq K zval p nb L a b)
  | bc_is_lt_constant a k : builder_call _ (@is_lt_constant K zval p nb L a k)
  | bc_is_leq_constant a k : builder_call _ (@is_leq_constant K zval p nb L a k)
  | bc_is_gt_constant a k : builder_call _ (@is_gt_constant K zval p nb L a k)
  | bc_is_geq_constant a k : builder_call _ (@is_geq_constant K zval p nb L a k)
  | bc_enforce_lt_constant a k : builder_call _ (@enforce_lt_constant K zval p nb L a k)
  | bc_enforce_leq_constant a k : builder_call _ (@enforce_leq_constant K zval p nb L a k)
  | bc_enforce_gt_constant a k : builder_call _ (@enforce_gt_constant K zval p nb L a k)
  | bc_enforce_geq_constant a k : builder_call _ (@enforce_geq_constant K zval p nb L a k).

  Theorem C28_finalized_is_frozen A (m : circ K A) c : builder_call A m -> is_finalized c = true ->
    snd (m c) = c /\ forall a, fst (m c) <> Ok a.
  Proof.
    intros H F. revert F. revert c. change (stuck m). destruct H.
    - apply insert_gate_stuck.
    - apply create_variable_stuck.
    - apply enforce_constant_stuck.
    - apply create_constant_variable_stuck.
    - apply set_variable_public_stuck.
    - apply create_public_variable_stuck.
    - apply add_gate_stuck.
    - apply sub_gate_stuck.
    - apply mul_gate_stuck.
    - apply add_stuck.
    - apply sub_stuck.
    - apply mul_stuck.
    - apply enforce_bool_stuck.
    - apply enforce_equal_stuck.
    - apply create_boolean_variable_stuck.
    - apply create_public_boolean_variable_stuck.
    - apply add_range_check_variable_stuck.
    - apply pad_gates_stuck.
    - apply quad_poly_gate_stuck.
    - apply gen_quad_poly_stuck.
    - apply lc_gate_stuck.
    - apply lc_stuck.
    - apply mul_add_gate_stuck.
    - apply mul_add_stuck.
    - apply csum_stuck.
    - apply add_constant_gate_stuck.
    - apply add_constant_stuck.
    - apply mul_constant_gate_stuck.
    - apply mul_constant_stuck.
    - apply power_11_gate_stuck.
    - apply logic_or_gate_stuck.
    - apply is_zero_stuck.
    - apply is_equal_stuck.
    - apply non_zero_gate_stuck.
    - apply logic_neg_stuck.
    - apply logic_and_stuck.
    - apply logic_or_stuck.
    - apply logic_and_all_stuck.
    - apply enforce_true_stuck.
    - apply enforce_false_stuck.
    - apply conditional_select_stuck.
    - apply binary_decomposition_gate_stuck.
    - apply unpack_stuck.
    - apply is_in_range_stuck.
    - apply enforce_in_range_stuck.
    - apply enforce_lt_stuck.
    - apply is_lt_stuck.
    - apply enforce_leq_stuck.
    - apply enforce_gt_stuck.
    - apply enforce_geq_stuck.
    - apply is_gt_stuck.
    - apply is_leq_stuck.
    - apply is_geq_stuck.
    - apply is_lt_constant_stuck.
    - apply is_leq_constant_stuck.
    - apply is_gt_constant_stuck.
    - apply is_geq_constant_stuck.
    - apply enforce_lt_constant_stuck.
    - apply enforce_leq_constant_stuck.
    - apply enforce_gt_constant_stuck.
    - apply enforce_geq_constant_stuck.
  Qed.
  (** A finalized circuit stays as it is through any sequence of such calls. *)
  Theorem C28_frozen_history (ms : list {A : Type & circ K A}) c : is_finalized c = true ->
    Forall (fun m => builder_call (projT1 m) (projT2 m)) ms ->
    fold_left (fun (c : circuit K) (m : {A : Type & circ K A}) => snd (projT2 m c)) ms c = c.
  Proof.
    intros F H. induction H as [|m ms Hm _ IH]; auto. cbn [fold_left].
    etransitivity; [|exact IH]. f_equal. exact (proj1 (C28_finalized_is_frozen _ _ c Hm F)).
  Qed.
  (** Finding: [create_table_and_lookup_variables] has no check of its own; it
      records the table before its first gate is refused, and with no lookups and
      an empty table it succeeds. *)
  Theorem C28_tables_refuted (c : circuit K) : is_finalized c = true ->
    (fst (create_table_and_lookup_variables [] [] c) = Ok tt /\
     table_ids (snd (create_table_and_lookup_variables [] [] c)) = table_ids c ++ [(num_gates c, 0%nat)]) /\
    ((0 < num_vars c)%nat ->
     fst (create_table_and_lookup_variables [] [(0, 0)%nat] c) <> Ok tt /\
     table_ids (snd (create_table_and_lookup_variables [] [(0, 0)%nat] c)) = table_ids c ++ [(num_gates c, 1%nat)]).
  Proof.
    intros F. split.
    - split; reflexivity.
    - intros Hv. assert (E0 : (num_vars c <=? 0)%nat = false) by (apply Nat.leb_gt; exact Hv).
      assert (F' : is_finalized (push_table (num_gates c) 1 c) = true) by exact F.
      assert (Run : create_table_and_lookup_variables [] [(0, 0)%nat] c = (Err ModifyFinalizedCircuit, push_table (num_gates c) 1 c)).
      { unfold create_table_and_lookup_variables, cbind, insert_gate, cbind, check_finalize_flag, check_var_bound, lift.
        cbn -[Nat.leb is_finalized push_table num_gates cbind ret]. unfold cbind, ret. cbv beta. rewrite !E0.
        cbn -[Nat.leb is_finalized push_table num_gates]. rewrite F'. reflexivity. }
      rewrite Run. split; [discriminate|reflexivity].
  Qed.
End C28.

(** C29, C30: the permutation argument *)
Section C29.
  Context {K : fld}.
  Add Field FinalPropsK29 : (fth K).
  (** What the permutation argument needs of a circuit: finalized circuits
      (below) and merged circuits (C31) have it. *)
  Theorem finalized_encodes ta (c c' : circuit K) T : reached c T -> tables_clear c ->
    finalize_for_arithmetization K ta c = (Ok tt, c') -> perm_encodes c' (wire_perm c') /\ columns_ok c'.
  Proof.
    intros R TC E. pose proof (reached_inv _ _ R) as (B & _).
    destruct (radix2_size ta (slots_needed K c)) as [n0|] eqn:Er.
    - destruct (finalize_ok ta c n0 B TC Er) as (c2 & E2 & F & D). rewrite E in E2. inversion E2; subst c2.
      split; [|apply (ff_cols _ _ _ F)]. apply sigma_encodes; [apply (ff_cols _ _ _ F)|apply (ff_perm _ _ _ F)].
    - exfalso. unfold finalize_for_arithmetization, is_finalized in E.
      rewrite (wf_open _ (gd_wf _ (bt_good _ B))) in E. cbn [Nat.eqb negb] in E. rewrite Er in E. discriminate.
  Qed.

  Definition honest_product (c' : circuit K) : Prop := forall (ws ids : list K) beta gamma,
    let n := domain c' in
    let nw := num_wire_types c' in
    let val := fun s => asg ws (wire_variable c' (fst s) (snd s)) in
    let id := fun s : nat * nat => nth (fst s * n + snd s) ids 0 in
    let sigma := fun s : nat * nat => nth (fst s * n + snd s) (wire_perm c') (0, 0)%nat in
    let num := fun j => fprod (map (fun i => val (i, j) + gamma + beta * id (i, j)) (seq 0 nw)) in
    let den := fun j => fprod (map (fun i => val (i, j) + gamma + beta * id (sigma (i, j))) (seq 0 nw)) in
    (forall j, (S j < n)%nat -> den j <> 0) ->
    let z := compute_prod_permutation K (with_witness c' ws) ids beta gamma in
    length z = n /\ nth 0 z 0 = 1 /\
    forall j, (j < n)%nat -> nth (S j mod n) z 0 * den j = nth j z 0 * num j.

  Lemma honest_product_encodes (c' : circuit K) : perm_encodes c' (wire_perm c') -> columns_ok c' -> honest_product c'.
  Proof.
    intros PE Co ws ids beta gamma n nw val id sigma num den Hden z.
    assert (Hn : (1 <= n)%nat) by apply (co_pos _ Co).
    assert (Ez : z = prod_vec K 1 num den 0 n) by reflexivity.
    assert (L : length z = n) by (rewrite Ez; apply prod_vec_length).
    assert (Z0 : nth 0 z 0 = 1) by (rewrite Ez; destruct n; [lia|reflexivity]).
    split; auto. split; auto. intros j Hj.
    destruct (Nat.eq_dec (S j) n) as [Hl|Hl].
    - rewrite <- Hl, Nat.mod_same, Z0 by lia.
      pose proof (prod_vec_nth num den n 0 1 j Hj (fun t Ht => Hden (0 + t)%nat (ltac:(lia)))) as Hp.
      rewrite <- Ez in Hp. cbn [Nat.add] in Hp.
      assert (Hq : fprod (map num (seq 0 n)) = fprod (map den (seq 0 n)))
        by exact (perm_products c' (wire_perm c') PE (asg ws) ids beta gamma).
      assert (Es : seq 0 n = seq 0 j ++ [j]) by (rewrite <- Hl, seq_S; reflexivity).
      rewrite Es, !map_app, !fprod_app in Hq. cbn [map] in Hq. rename Hq into Hq'.
      cbn [fprod fold_right] in Hq'.
      assert (Nz : fprod (map den (seq 0 j)) <> 0).
      { apply fprod_neq_0. intros x Hx. apply in_map_iff in Hx as (t & <- & Ht). apply in_seq in Ht. apply Hden. lia. }
      change (map (fun t : nat => den t)) with (map den) in Hp. change (map (fun t : nat => num t)) with (map num) in Hp.
      set (D := fprod (map den (seq 0 j))) in *. set (N := fprod (map num (seq 0 j))) in *. clearbody D N.
      apply (fmul_cancel_l K D); auto.
      transitivity (N * num j).
      { transitivity (D * (den j * 1)); [ring|]. rewrite <- Hq'. ring. }
      transitivity (nth j z 0 * D * num j); [rewrite Hp; ring|ring].
    - rewrite Nat.mod_small by lia. rewrite Ez.
      apply (prod_vec_step num den n 0 1 j); [lia|]. apply Hden. lia.
  Qed.
  Theorem C29_permutation_product ta (c c' : circuit K) T : reached c T -> tables_clear c ->
    finalize_for_arithmetization K ta c = (Ok tt, c') -> honest_product c'.
  Proof. intros R TC E. destruct (finalized_encodes ta c c' T R TC E). now apply honest_product_encodes. Qed.

  (** Soundness: whatever values [f] the slots carry, and whatever vector [z]
      closes the product, two slots of one variable with different values are
      caught outside few challenges. *)
  Definition product_sound (c' : circuit K) : Prop := forall (rnd ks : list K) (om : K) (f : nat * nat -> K) s t,
    let n := domain c' in
    let nw := num_wire_types c' in
    let sigma := fun s : nat * nat => nth (fst s * n + snd s) (wire_perm c') (0, 0)%nat in
    compute_coset_representatives K nw n rnd = Some (Ok ks) ->
    fpow om n = 1 -> (forall a b, (a < n)%nat -> (b < n)%nat -> fpow om a = fpow om b -> a = b) ->
    (fst s < nw /\ snd s < n)%nat -> (fst t < nw /\ snd t < n)%nat ->
    wire_variable c' (fst s) (snd s) = wire_variable c' (fst t) (snd t) -> f s <> f t ->
    let id := fun s : nat * nat => nth (fst s * n + snd s) (ext_id K ks om n) 0 in
    exists bad : list K, (length bad <= (n * nw) * (n * nw))%nat /\
      forall beta, ~ In beta bad -> forall gammas, NoDup gammas ->
        (forall gamma, In gamma gammas -> exists z : nat -> K, z 0%nat = 1 /\
           forall j, (j < n)%nat ->
             z (S j mod n)%nat * fprod (map (fun i => f (i, j) + gamma + beta * id (sigma (i, j))) (seq 0 nw))
             = z j * fprod (map (fun i => f (i, j) + gamma + beta * id (i, j)) (seq 0 nw))) ->
        (length gammas <= n * nw)%nat.
  Lemma product_sound_encodes (c' : circuit K) : perm_encodes c' (wire_perm c') -> columns_ok c' -> product_sound c'.
  Proof.
    intros PE Co rnd ks om f s t n nw sigma Ck Om1 Om2 Hs Ht Hv Hf id.
    assert (Hn : (1 <= n)%nat) by apply (co_pos _ Co).
    destruct (coset_representatives_spec nw n rnd ks Hn Ck) as (Lk & Nz & ND & _).
    destruct (perm_sound c' (wire_perm c') PE f (ext_id K ks om n) s t) as (bad & Lb & Hb); auto.
    { intros [a b] [a' b'] [A1 A2] [B1 B2] E. cbn [fst snd] in *. unfold enc in E. cbn [fst snd] in E.
      destruct (ext_id_distinct om n ks Om1 Om2 Nz ND a b a' b') as [-> ->]; auto; rewrite Lk; auto. }
    exists bad. split; auto. intros beta Hbeta gs NDg Hg. apply (Hb beta Hbeta gs NDg).
    intros gamma Hin. destruct (Hg gamma Hin) as (z & Z0 & Hz).
    set (num := fun j => fprod (map (fun i => f (i, j) + gamma + beta * id (i, j)) (seq 0 nw))) in Hz.
    set (den := fun j => fprod (map (fun i => f (i, j) + gamma + beta * id (sigma (i, j))) (seq 0 nw))) in Hz.
    change (fprod (map num (seq 0 n)) = fprod (map den (seq 0 n))).
    symmetry. rewrite <- (running_product num den (fun j => z (j mod n)) n).
    - rewrite Nat.mod_same, Z0 by lia. ring.
    - rewrite Nat.mod_small by lia. auto.
    - intros j Hj. rewrite (Nat.mod_small j) by auto. apply Hz; auto.
  Qed.
  Theorem C30_permutation_sound ta (c c' : circuit K) T : reached c T -> tables_clear c ->
    finalize_for_arithmetization K ta c = (Ok tt, c') -> product_sound c'.
  Proof. intros R TC E. destruct (finalized_encodes ta c c' T R TC E). now apply product_sound_encodes. Qed.
End C29.

(** C31: merging *)
Lemma nth_skipn_add {A} (d : A) k : forall l v, nth v (skipn k l) d = nth (k + v) l d.
Proof. induction k as [|k IH]; intros [|x l] v; cbn; auto. now destruct v. Qed.
Lemma nth_firstn_lt {A} (d : A) k : forall l v, (v < k)%nat -> nth v (firstn k l) d = nth v l d.
Proof. induction k as [|k IH]; intros [|x l] [|v] H; cbn; auto; try lia. apply IH. lia. Qed.
Section C31.
  Context {K : fld}.
  Variable zval : K -> Z.
  Variable p : Z.
  Variable nb L : nat.
  Hypothesis HF : pfield K zval p nb L.
  Lemma csat_ext_lt (c : circuit K) (w w' : nat -> K) pub : bounded c -> csat zval c w pub ->
    (forall v, (v < num_vars c)%nat -> w v = w' v) -> csat zval c w' pub.
  Proof.
    intros [B1 B2 B3 B4] [A1 A2 A3 A4 A5] E.
    assert (Rl : forall j r, nth_error (rows c) j = Some r -> row_lt (num_vars c) r).
    { intros j r Hr. rewrite Forall_forall in B2. apply B2. eapply nth_error_In; eauto. }
    split; auto.
    - intros i id Hi. destruct (A2 i id Hi) as (g & r & G1 & G2 & G3). exists g, r. split; auto. split; auto.
      eapply gsat_ext; [| |exact G3]; eauto.
    - intros j g r Hg Hr Io. eapply gsat_ext; [| |apply (A3 j g r); auto]; eauto.
    - intros v Hv. eapply rsat_ext; [|apply A4; auto]. apply E. rewrite Forall_forall in B3. auto.
    - intros Nt j g r Hg Hr Hq. specialize (A5 Nt j g r Hg Hr Hq). pose proof (Rl j r Hr) as (X0 & X1 & X2 & X3 & X4).
      rewrite <- !E by auto. destruct A5 as [A5|(j' & g' & r' & A6 & A7 & A8 & A9)]; [left; auto|right].
      pose proof (Rl j' r' A7) as (Y0 & Y1 & Y2 & Y3 & Y4).
      exists j', g', r'. rewrite <- !E by auto. auto.
  Qed.
  Theorem C31_merge ta (ca cb : circuit K) Ta Tb n n2 : reached ca Ta -> reached cb Tb ->
    ptype ca = Turbo -> ptype cb = Turbo -> num_inputs ca = num_inputs cb -> (1 <= num_inputs ca)%nat ->
    radix2_size ta (slots_needed K ca) = Some n -> radix2_size ta (slots_needed K cb) = Some n ->
    radix2_size ta (2 * n) = Some n2 ->
    exists a b m, finalize_for_mergeable_circuit K ta TypeA ca = (Ok tt, a)
      /\ finalize_for_mergeable_circuit K ta TypeB cb = (Ok tt, b)
      /\ merge K a b = Ok m /\ domain m = (2 * n)%nat /\ num_gates m = (2 * n)%nat
      /\ num_vars m = (num_vars ca + num_vars cb)%nat /\ witness m = witness ca ++ witness cb
      /\ num_inputs m = (2 * num_inputs ca)%nat
      /\ (forall ws pub, accepts zval m ws pub <->
            accepts zval ca (firstn (num_vars ca) ws) (firstn (num_inputs ca) pub) /\
            accepts zval cb (skipn (num_vars ca) ws) (skipn (num_inputs ca) pub))
      /\ (forall s t, (fst s < 5 /\ snd s < 2 * n)%nat -> (fst t < 5 /\ snd t < 2 * n)%nat ->
            (wire_variable m (fst s) (snd s) = wire_variable m (fst t) (snd t) <->
             exists k, Nat.iter k (fun s : nat * nat => nth (fst s * (2 * n) + snd s) (wire_perm m) (0, 0)%nat) s = t))
      /\ honest_product m /\ product_sound m.
  Proof.
    intros Ra Rb Pa Pb Hi Hi1 Sa Sb S2.
    pose proof (reached_inv _ _ Ra) as (Ba & _). pose proof (reached_inv _ _ Rb) as (Bb & _).
    destruct (mergeable_ok ta TypeA ca n n2 Ba (or_introl Pa) Pa Sa S2) as (fa & a & _ & Fa & Da & Ea & Wa).
    destruct (mergeable_ok ta TypeB cb n n2 Bb (or_introl Pb) Pb Sb S2) as (fb & b & _ & Fb & Db & Eb & Wb).
    assert (Hn : domain fa = domain fb) by congruence.
    exists a, b, (merged_of fa fb a b ca). split; auto. split; auto.
    split; [apply (merge_ok ta fa fb a b ca cb); auto|].
    assert (Hd : domain (merged_of fa fb a b ca) = (2 * n)%nat) by (cbn; lia).
    split; auto.
    destruct (merged_len ta fa fb a b ca cb Fa Fb Hn) as [Lg Lr]; auto.
    split; [unfold num_gates; rewrite Lg; lia|].
    assert (Nv : num_vars (merged_of fa fb a b ca) = (num_vars ca + num_vars cb)%nat).
    { cbn. now rewrite (ff_vars _ _ _ Fa), (ff_vars _ _ _ Fb). }
    split; auto.
    split; [cbn; now rewrite (ff_wit _ _ _ Fa), (ff_wit _ _ _ Fb)|].
    split. { unfold num_inputs at 1. cbn [pub_ids merged_of]. rewrite app_length, map_length, !seq_length. lia. }
    assert (Co : columns_ok (merged_of fa fb a b ca)) by (eapply merged_columns; eauto).
    assert (PE : perm_encodes (merged_of fa fb a b ca) (wire_perm (merged_of fa fb a b ca))) by (eapply merged_encodes; eauto).
    split; [|split; [|split; [now apply honest_product_encodes|now apply product_sound_encodes]]].
    - assert (Bm : bounded (merged_of fa fb a b ca)).
      { split.
        - congruence.
        - apply (co_row_lt _ Co).
        - constructor.
        - rewrite Lg. cbn [pub_ids merged_of]. pose proof (ni_le ta fa fb ca cb Ba Fa Hn Hi Hi1) as Hni.
          pose proof (co_pos _ (ff_cols _ _ _ Fa)).
          apply Forall_app; split; apply Forall_forall; intros x Hx.
          + apply in_seq in Hx. lia.
          + apply in_map_iff in Hx as (y & <- & Hy). apply in_seq in Hy. lia. }
      pose proof (finalized_bounded ta ca fa Ba Fa) as Ba'. pose proof (finalized_bounded ta cb fb Bb Fb) as Bb'.
      intros ws pub.
      assert (Sh : forall v, asg (skipn (num_vars ca) ws) v = asg ws (v + num_vars ca)%nat).
      { intros v. unfold asg. rewrite (Nat.add_comm v). apply nth_skipn_add. }
      assert (Fi : forall v, (v < num_vars ca)%nat -> asg (firstn (num_vars ca) ws) v = asg ws v).
      { intros v Hv. unfold asg. apply nth_firstn_lt; auto. }
      rewrite <- (finalize_accepts ta zval p nb L HF ca fa _ _ Ba Fa) by (intros b0 X; congruence).
      rewrite <- (finalize_accepts ta zval p nb L HF cb fb _ _ Bb Fb) by (intros b0 X; congruence).
      split.
      + intros A. pose proof (proj1 A) as Hl. apply accepts_csat in A; auto.
        apply (merged_csat ta fa fb a b ca cb) in A as (Lp & A1 & A2); auto.
        split; apply accepts_csat; auto.
        * rewrite firstn_length, (ff_vars _ _ _ Fa). lia.
        * eapply csat_ext_lt; [|exact A1|]; auto. intros v Hv. rewrite (ff_vars _ _ _ Fa) in Hv. symmetry. auto.
        * rewrite skipn_length, (ff_vars _ _ _ Fb). lia.
        * eapply csat_ext_lt; [|exact A2|]; auto. intros v _. cbn beta. rewrite Sh, (ff_vars _ _ _ Fa). reflexivity.
      + intros [A1 A2]. pose proof (proj1 A1) as L1. pose proof (proj1 A2) as L2.
        apply accepts_csat in A1; auto. apply accepts_csat in A2; auto.
        rewrite firstn_length in L1. rewrite skipn_length in L2. rewrite (ff_vars _ _ _ Fa) in L1. rewrite (ff_vars _ _ _ Fb) in L2.
        pose proof (ni_le ta fa fb ca cb Ba Fa Hn Hi Hi1).
        assert (Hnv : (2 <= num_vars cb)%nat).
        { pose proof (bd_row _ (gd_bd _ (bt_good _ Bb))) as Fr. pose proof (gd_r1 _ (bt_good _ Bb)) as X.
          apply nth_error_In in X. rewrite Forall_forall in Fr. apply Fr in X. destruct X as (_ & _ & _ & _ & X). cbn in X. lia. }
        assert (Hl : length ws = (num_vars ca + num_vars cb)%nat) by lia.
        apply accepts_csat; auto; [congruence|].
        apply (merged_csat ta fa fb a b ca cb); auto. split.
        * pose proof (cs_len _ _ _ _ A1) as P1. pose proof (cs_len _ _ _ _ A2) as P2.
          rewrite firstn_length in P1. rewrite skipn_length in P2. unfold num_inputs in P1, P2.
          rewrite (ff_pub _ _ _ Fa) in P1. rewrite (ff_pub _ _ _ Fb) in P2. rewrite seq_length in P1, P2. lia.
        * split.
          -- eapply csat_ext_lt; [|exact A1|]; auto. intros v Hv. rewrite (ff_vars _ _ _ Fa) in Hv. auto.
          -- eapply csat_ext_lt; [|exact A2|]; auto. intros v _. cbn beta. rewrite Sh, (ff_vars _ _ _ Fa). reflexivity.
    - intros s t Hs Ht. destruct PE as [_ _ PC]. rewrite Hd in PC.
      apply PC; split; try apply Hs; try apply Ht; rewrite Hd; try apply Hs; apply Ht.
  Qed.
End C31.

(** C32: lookups *)
Section C32.
  Context {K : fld}.
  Variable zval : K -> Z.
  Variable p : Z.
  Variable nb L : nat.
  Hypothesis HF : pfield K zval p nb L.
  Add Field FinalPropsK32 : (fth K).

  (** The sorted vector exists exactly when every lookup is in the table, and
      holds the table and the lookups. *)
  Theorem C32_sorted_vector n (t l : list K) : length t = n -> length l = (n - 1)%nat -> (1 <= n)%nat ->
    ((exists s, lookup_sorted_vec K n t l = Ok s) <-> (forall x, In x l -> In x t)) /\
    forall s, lookup_sorted_vec K n t l = Ok s -> Permutation s (t ++ l) /\ length s = (2 * n - 1)%nat.
  Proof.
    intros Lt Ll Hn. destruct (sorted_vec_spec K n t l Lt Ll Hn) as [[E I]|[E (x & Hx & Nx)]]; rewrite E.
    - split; [split; [intros _; exact I|eauto]|]. intros s Hs. inversion Hs; subst s. split; [now apply sorted_vec_perm|].
      unfold lookup_sorted_vec in E. destruct (Nat.eqb_spec (length (sorted_vec K t [] l)) (2 * n - 1)); [auto|discriminate].
    - split; [|discriminate]. split; [intros [s Hs]; discriminate|]. intros H. exfalso. auto.
  Qed.

  Definition pair_factor (beta gamma x y : K) : K := gamma * (1 + beta) + x + beta * y.
  Definition lookup_steps n (t l s : list K) (beta gamma : K) (z : nat -> K) : Prop :=
    forall j, (j < n - 1)%nat ->
      z (S j) * (pair_factor beta gamma (nth j s 0) (nth (S j) s 0) * pair_factor beta gamma (nth (n - 1 + j) s 0) (nth (n + j) s 0))
      = z j * ((1 + beta) * (gamma + nth j l 0) * pair_factor beta gamma (nth j t 0) (nth (S j) t 0)).
  (** Honest lookups: the product starts at one, every step holds and the last
      entry is one. *)
  Theorem C32_lookup_product n (t l s : list K) beta gamma : (2 <= n)%nat -> length t = n -> length l = (n - 1)%nat ->
    lookup_sorted_vec K n t l = Ok s ->
    (forall j, (S j < n - 1)%nat -> pair_factor beta gamma (nth j s 0) (nth (S j) s 0) <> 0 /\
       pair_factor beta gamma (nth (n - 1 + j) s 0) (nth (n + j) s 0) <> 0) ->
    let z := lookup_prod_vec K n t l s beta gamma in
    length z = n /\ nth 0 z 0 = 1 /\ nth (n - 1) z 0 = 1 /\ lookup_steps n t l s beta gamma (fun j => nth j z 0).
  Proof.
    intros Hn Lt Ll Hs Hd. destruct (sorted_vec_spec K n t l Lt Ll ltac:(lia)) as [[E I]|[E _]]; [|congruence].
    assert (s = sorted_vec K t [] l) as -> by congruence.
    apply (lookup_prod_vec_ok K n t l beta gamma); auto. intros j Hj. destruct (Hd j Hj). unfold lookup_den. apply fmul_neq_0; auto.
  Qed.
  (** Soundness: a lookup outside the table is caught, whatever sorted vector and
      product are used, outside few challenges. *)
  Theorem C32_lookup_product_sound n (t l s : list K) : (2 <= n)%nat -> length t = n -> length l = (n - 1)%nat ->
    length s = (2 * n - 1)%nat -> (exists x, In x l /\ ~ In x t) ->
    exists bad : list K, (length bad <= S ((2 * n - 2) * (2 * n - 2)))%nat /\
      forall beta, ~ In beta bad -> forall gammas, NoDup gammas ->
        (forall gamma, In gamma gammas -> exists z : nat -> K, z 0%nat = 1 /\ z (n - 1)%nat = 1 /\ lookup_steps n t l s beta gamma z) ->
        (length gammas <= 2 * n - 2)%nat.
  Proof.
    intros Hn Lt Ll Ls (x & Hx & Nx). apply (lookup_sound K n t l s); auto.
  Qed.

  (** The vectors of a finalized circuit. *)
  Definition lookup_passes (c' : circuit K) (ws : list K) (tau : K) : Prop :=
    exists rt s, range_table K (with_witness c' ws) = Ok rt /\
      lookup_sorted_vec K (domain c') (merged_table K (with_witness c' ws) tau rt) (lookup_values K (with_witness c' ws) tau) = Ok s.
  (** Every table keeps clear of the last row. *)
  Definition tables_end (c c' : circuit K) : Prop :=
    forall t, In t (table_ids c) -> (fst t + snd t + 2 <= domain c')%nat \/ snd t = 0%nat.

  Lemma passes_incl c' ws tau b : ptype c' = Ultra b -> (2 <= domain c')%nat ->
    forall rt, range_table K (with_witness c' ws) = Ok rt ->
    lookup_passes c' ws tau <-> incl (lookup_values K (with_witness c' ws) tau) (merged_table K (with_witness c' ws) tau rt).
  Proof.
    intros Ht Hn rt Hrt.
    destruct (sorted_vec_spec K (domain c') (merged_table K (with_witness c' ws) tau rt) (lookup_values K (with_witness c' ws) tau))
      as [[E I]|[E (x & Hx & Nx)]].
    - unfold merged_table. rewrite map_length, seq_length. reflexivity.
    - unfold lookup_values. rewrite map_length, seq_length. reflexivity.
    - lia.
    - split; auto. intros _. exists rt. eauto.
    - split.
      + intros (rt' & s & H1 & H2). rewrite Hrt in H1. inversion H1; subst rt'. congruence.
      + intros I. exfalso. auto.
  Qed.
  Theorem C32_circuit_complete ta (c c' : circuit K) T b ws pub : reached c T -> ptype c = Ultra b ->
    (1 <= b <= 31)%nat -> (b < nb)%nat -> tables_clear c ->
    finalize_for_arithmetization K ta c = (Ok tt, c') -> tables_end c c' ->
    accepts zval c ws pub -> forall tau, lookup_passes c' ws tau.
  Proof.
    intros R Ht Hb Hbn TC E TE A tau. pose proof (reached_inv _ _ R) as (B & P & Tb).
    destruct (radix2_size ta (slots_needed K c)) as [n0|] eqn:Er.
    2:{ exfalso. unfold finalize_for_arithmetization, is_finalized in E.
        rewrite (wf_open _ (gd_wf _ (bt_good _ B))) in E. cbn [Nat.eqb negb] in E. rewrite Er in E. discriminate. }
    destruct (finalize_ok ta c n0 B TC Er) as (c2 & E2 & F & D). rewrite E in E2. inversion E2; subst c2. clear E2.
    pose proof (finalize_rear ta c c' B P TC E TE) as HR.
    pose proof (ff_dom2 _ _ _ F) as Hn. pose proof (ff_type _ _ _ F) as Ht'. rewrite Ht in Ht'.
    assert (A' : accepts zval c' ws pub).
    { apply (finalize_accepts ta zval p nb L HF c c' ws pub B F); auto. intros b0 X. rewrite Ht in X. inversion X; subst. auto. }
    pose proof (proj1 A) as Hl. apply accepts_csat in A; auto; [|apply (gd_bd _ (bt_good _ B))].
    pose proof (proj1 A') as Hl'. apply accepts_csat in A'; auto; [|apply (finalized_bounded ta c c' B F)].
    assert (W0 : asg ws 0%nat = 0).
    { pose proof (cs_gate _ _ _ _ A 0%nat _ _ (gd_g0 _ (bt_good _ B)) (gd_r0 _ (bt_good _ B)) eq_refl) as H. now apply gsat_const in H. }
    eapply (passes_incl c' ws tau b Ht' Hn).
    - eapply range_table_eq; eauto.
    - eapply (lookup_vectors_complete zval p nb L HF ta c c' b P F HR Ht Hb Hbn ws); auto.
      + eapply range_table_eq; eauto.
      + intros v Hv. pose proof (cs_range _ _ _ _ A v Hv) as X. now rewrite Ht in X.
      + apply (cs_lookup _ _ _ _ A'). congruence.
  Qed.
  Theorem C32_circuit_sound ta (c c' : circuit K) T b ws taus : reached c T -> ptype c = Ultra b ->
    (1 <= b <= 31)%nat -> (b < nb)%nat -> tables_clear c -> (Z.of_nat (length T) < p)%Z ->
    finalize_for_arithmetization K ta c = (Ok tt, c') -> tables_end c c' -> asg ws 0%nat = 0 ->
    NoDup taus -> (domain c' * 4 < length taus)%nat -> (forall tau, In tau taus -> lookup_passes c' ws tau) ->
    (forall v, In v (range_col c) -> (0 <= zval (asg ws v) < 2 ^ Z.of_nat b)%Z) /\
    (forall t lookups table key v0 v1, nth_error T t = Some (lookups, table) -> In (key, v0, v1) lookups ->
      exists i t0 t1, nth_error table i = Some (t0, t1) /\
        asg ws key = fnat i /\ asg ws v0 = asg ws t0 /\ asg ws v1 = asg ws t1).
  Proof.
    intros R Ht Hb Hbn TC Hp E TE W0 ND Lt Hpass. pose proof (reached_inv _ _ R) as (B & P & Tb).
    destruct (radix2_size ta (slots_needed K c)) as [n0|] eqn:Er.
    2:{ exfalso. unfold finalize_for_arithmetization, is_finalized in E.
        rewrite (wf_open _ (gd_wf _ (bt_good _ B))) in E. cbn [Nat.eqb negb] in E. rewrite Er in E. discriminate. }
    destruct (finalize_ok ta c n0 B TC Er) as (c2 & E2 & F & D). rewrite E in E2. inversion E2; subst c2. clear E2.
    pose proof (finalize_rear ta c c' B P TC E TE) as HR.
    pose proof (ff_dom2 _ _ _ F) as Hn. pose proof (ff_type _ _ _ F) as Ht'. rewrite Ht in Ht'.
    pose proof (range_table_eq nb ta c c' b F Ht Hb Hbn ws) as Hrt.
    destruct (lookup_vectors_sound zval p nb L HF ta c c' b P F HR Ht Hb Hbn ws _ Hrt taus ND Lt) as [Hr Hlk].
    { intros tau Hin. apply (passes_incl c' ws tau b Ht' Hn _ Hrt). auto. }
    split.
    - intros v Hv. split; [apply (pf_range _ _ _ _ _ HF)|]. apply (rsat_ultra zval p nb L HF (asg ws) v b Hb Hbn). auto.
    - apply (tabs_lookup_ok c T (asg ws)); auto.
      + intros i j Hi Hj Ex. apply Nat2Z.inj. rewrite <- !fZ_nat in Ex.
        apply (f_equal zval) in Ex. rewrite !(pf_zval _ _ _ _ _ HF) in Ex. rewrite !Z.mod_small in Ex by lia. exact Ex.
      + intros j g r Hg Hr0 Hq.
        assert (Hh : hasgr c' g r) by (apply (ff_has _ _ _ F); left; exists j; auto).
        destruct Hh as (j1 & G1 & G2). destruct (Hlk j1 g r G1 G2 Hq) as [X|(j2 & g2 & r2 & G3 & G4 & G5 & X)]; [left; auto|right].
        assert (Hh : hasgr c' g2 r2) by (exists j2; auto).
        apply (ff_has _ _ _ F) in Hh as [(j3 & G6 & G7)|(_ & -> & _)].
        * exists j3, g2, r2. auto.
        * exfalso. apply G5. reflexivity.
  Qed.
End C32.

(** Findings on the field of 97 elements. *)
Lemma ok_tt {C} (r : outcome cerr unit * C) : is_okb (fst r) = true -> r = (Ok tt, snd r).
Proof. destruct r as [[[]| |]]; cbn; congruence. Qed.
Definition all97 : list F97 := map (fun i => e97 (Z.of_nat i)) (seq 0 97).
Lemma In_all97 (x : F97) : In x all97.
Proof.
  pose proof (pf_range _ _ _ _ _ F97_pfield x) as Hx. apply in_map_iff. exists (Z.to_nat (z97 x)). split.
  - rewrite Z2Nat.id by lia. apply (zmk_zv 97).
  - apply in_seq. lia.
Qed.
Definition pub97 (v : nat) (c : circuit F97) : circuit F97 := snd (set_variable_public v c).
Definition var97 (x : Z) (c : circuit F97) : circuit F97 := snd (create_variable (e97 x) c).
Definition range97 (v : nat) (c : circuit F97) : circuit F97 := snd (add_range_check_variable v c).
Definition con97 (v : nat) (x : Z) (c : circuit F97) : circuit F97 :=
  snd (insert_gate (mk_row 0 0 0 0 v) (constant_gate F97 (e97 x)) c).
Definition tab97 l t (c : circuit F97) : circuit F97 := snd (create_table_and_lookup_variables l t c).
Definition fin97 (c : circuit F97) : circuit F97 := snd (finalize_for_arithmetization F97 5 c).
Section Reach97.
  Variables (c : circuit F97) (T : tabs_t).
  Hypothesis R : reached c T.
  Lemma reach_pub v : (v <? num_vars c)%nat = true -> is_okb (fst (set_variable_public v c)) = true -> reached (pub97 v c) T.
  Proof. intros H E. apply Nat.ltb_lt in H. eapply r_public; eauto. now apply ok_tt. Qed.
  Lemma reach_var x : is_okb (fst (create_variable (e97 x) c)) = true -> reached (var97 x c) T.
  Proof. intros E. eapply r_variable; eauto. now apply (okv_eq 0%nat). Qed.
  Lemma reach_range v : is_okb (fst (add_range_check_variable v c)) = true -> reached (range97 v c) T.
  Proof. intros E. eapply r_range; eauto. now apply ok_tt. Qed.
  Lemma reach_con v x : (v <? num_vars c)%nat = true ->
    is_okb (fst (insert_gate (mk_row 0 0 0 0 v) (constant_gate F97 (e97 x)) c)) = true -> reached (con97 v x c) T.
  Proof.
    intros H E. apply Nat.ltb_lt in H.
    apply (r_gate c T (mk_row 0 0 0 0 v) (constant_gate F97 (e97 x))); auto; [|now apply ok_tt]. repeat split; cbn; lia.
  Qed.
  Lemma reach_tab l t : is_okb (fst (create_table_and_lookup_variables l t c)) = true -> reached (tab97 l t c) (T ++ [(l, t)]).
  Proof. intros E. eapply r_table; eauto. now apply ok_tt. Qed.
End Reach97.
Ltac rch := lazymatch goal with
  | |- reached (pub97 _ _) _ => eapply reach_pub; [rch|vm_compute; reflexivity|vm_compute; reflexivity]
  | |- reached (var97 _ _) _ => eapply reach_var; [rch|vm_compute; reflexivity]
  | |- reached (range97 _ _) _ => eapply reach_range; [rch|vm_compute; reflexivity]
  | |- reached (con97 _ _ _) _ => eapply reach_con; [rch|vm_compute; reflexivity|vm_compute; reflexivity]
  | |- reached (tab97 _ _ _) _ => eapply reach_tab; [rch|vm_compute; reflexivity]
  | |- reached (new_circuit _ _) _ => apply r_new
  end.
Lemma fin97_ok c : is_okb (fst (finalize_for_arithmetization F97 5 c)) = true ->
  finalize_for_arithmetization F97 5 c = (Ok tt, fin97 c).
Proof. intros H. unfold fin97. now apply ok_tt. Qed.
Definition passb (c : circuit F97) (tau : F97) : bool :=
  match range_table F97 c with
  | Ok rt => is_okb (lookup_sorted_vec F97 (domain c) (merged_table F97 c tau rt) (lookup_values F97 c tau))
  | _ => false
  end.
Lemma passb_spec (c : circuit F97) ws tau : passb (with_witness c ws) tau = true <-> lookup_passes c ws tau.
Proof.
  unfold passb, lookup_passes. change (domain (with_witness c ws)) with (domain c).
  destruct (range_table F97 (with_witness c ws)) as [rt| |].
  - split.
    + destruct (lookup_sorted_vec _ _ _ _) as [s| |] eqn:E; try discriminate. eauto.
    + intros (rt' & s & H1 & H2). inversion H1; subst rt'. now rewrite H2.
  - split; [discriminate|]. intros (? & ? & H & _). discriminate.
  - split; [discriminate|]. intros (? & ? & H & _). discriminate.
Qed.

(** A table made before there is room for the public inputs: finalization moves
    the gate of a public input away.  An accepted assignment is rejected
    afterwards, and a rejected one accepted. *)
Definition early_table : circuit F97 :=
  pub97 4 (var97 7 (pub97 3 (var97 6 (pub97 2 (var97 5 (tab97 [] [(0, 0)%nat] (new_circuit F97 (Ultra 1)))))))).
Theorem C27_early_table_refuted : exists T, reached early_table T /\
  finalize_for_arithmetization F97 5 early_table = (Ok tt, fin97 early_table) /\
  let ws := witness early_table in
  accepts z97 early_table ws [e97 5; e97 6; e97 7] /\ ~ accepts z97 (fin97 early_table) ws [e97 5; e97 6; e97 7] /\
  ~ accepts z97 early_table ws [e97 5; e97 6; e97 0] /\ accepts z97 (fin97 early_table) ws [e97 5; e97 6; e97 0].
Proof.
  eexists. split; [unfold early_table; rch|]. split; [apply fin97_ok; vm_compute; reflexivity|].
  split; [split; vm_compute; reflexivity|]. split; [intros [_ H]; vm_compute in H; discriminate|].
  split; [intros [_ H]; vm_compute in H; discriminate|]. split; vm_compute; reflexivity.
Qed.
(** A table gate in the last row is not looked up: its lookup is wrong, the check
    of the circuit rejects it and the lookup argument accepts it for every
    challenge. *)
Definition last_row_table : circuit F97 := tab97 [(2, 2, 2)%nat] [(0, 0)%nat] (con97 2 5 (var97 5 (new_circuit F97 (Ultra 1)))).
Theorem C32_last_row_refuted : exists T, reached last_row_table T /\ tables_clear last_row_table /\
  finalize_for_arithmetization F97 5 last_row_table = (Ok tt, fin97 last_row_table) /\
  let ws := witness last_row_table in
  ~ accepts z97 (fin97 last_row_table) ws [] /\ forall tau, lookup_passes (fin97 last_row_table) ws tau.
Proof.
  eexists. split; [unfold last_row_table; rch|].
  split; [right; vm_compute; repeat constructor|].
  split; [apply fin97_ok; vm_compute; reflexivity|].
  split; [intros [_ H]; vm_compute in H; discriminate|].
  intros tau. apply passb_spec. pose proof (In_all97 tau) as Hin.
  assert (H : forallb (passb (with_witness (fin97 last_row_table) (witness last_row_table))) all97 = true) by (vm_compute; reflexivity).
  rewrite forallb_forall in H. auto.
Qed.
(** A table gate in the last row but one stops the loop that moves tables: an
    accepted circuit whose lookup argument cannot be proved. *)
Definition stuck_table : circuit F97 :=
  range97 1 (range97 0 (range97 0 (tab97 [(0, 1, 2)%nat] [(2, 1)%nat] (con97 2 1 (con97 2 1 (con97 2 1
    (tab97 [(0, 2, 2)%nat] [(2, 2)%nat] (var97 1 (new_circuit F97 (Ultra 1)))))))))).
Theorem C32_stuck_table_refuted : exists T, reached stuck_table T /\ tables_clear stuck_table /\
  finalize_for_arithmetization F97 5 stuck_table = (Ok tt, fin97 stuck_table) /\
  let ws := witness stuck_table in
  accepts z97 stuck_table ws [] /\ accepts z97 (fin97 stuck_table) ws [] /\
  length (filter (fun tau => negb (passb (with_witness (fin97 stuck_table) ws) tau)) all97) = 93%nat.
Proof.
  eexists. split; [unfold stuck_table; rch|].
  split; [right; vm_compute; repeat constructor|].
  split; [apply fin97_ok; vm_compute; reflexivity|].
  split; [split; vm_compute; reflexivity|]. split; [split; vm_compute; reflexivity|]. vm_compute. reflexivity.
Qed.
(** [set_variable_public] does not check its variable: the circuit is left with a
    gate on a variable that does not exist, and checking it panics. *)
Theorem C27_unchecked_public_refuted : forall v : nat, (2 <= v)%nat ->
  let c := snd (set_variable_public v (new_circuit F97 Turbo)) in
  fst (set_variable_public v (new_circuit F97 Turbo)) = Ok tt /\
  forall pub, length pub = 1%nat -> check_circuit_satisfiability z97 c pub = Panic.
Proof.
  intros [|[|v]] Hv; try lia. split; [reflexivity|]. intros [|x [|y pub]] Hp; try discriminate.
  unfold check_circuit_satisfiability. cbn -[check_gate]. unfold check_gate. cbn. destruct v; reflexivity.
Qed.

(** The hypotheses are met: an UltraPlonk circuit with public inputs, range checks
    and a table. *)
Definition ex_ultra : circuit F97 :=
  tab97 [(1, 3, 2)%nat; (0, 2, 3)%nat] [(2, 3)%nat; (3, 2)%nat]
    (range97 1 (pub97 3 (var97 6 (pub97 2 (var97 5 (new_circuit F97 (Ultra 1))))))).
Example ex_ultra_reached : exists T, reached ex_ultra T.
Proof. eexists. unfold ex_ultra. rch. Qed.
Example ex_ultra_clear : tables_clear ex_ultra /\ tables_end ex_ultra (fin97 ex_ultra).
Proof.
  split.
  - right. vm_compute. constructor; [left; repeat constructor|constructor].
  - intros t Ht. assert (E : table_ids ex_ultra = [(4, 2)%nat]) by (vm_compute; reflexivity). rewrite E in Ht.
    destruct Ht as [<-|[]]. assert (D : domain (fin97 ex_ultra) = 8%nat) by (vm_compute; reflexivity). rewrite D. cbn. lia.
Qed.
Example ex_ultra_final : finalize_for_arithmetization F97 5 ex_ultra = (Ok tt, fin97 ex_ultra) /\
  radix2_size 5 (slots_needed F97 ex_ultra) = Some 8%nat.
Proof. split; [apply fin97_ok; vm_compute; reflexivity|vm_compute; reflexivity]. Qed.
Example ex_ultra_accepts : accepts z97 ex_ultra (witness ex_ultra) [e97 5; e97 6] /\ ~ accepts z97 ex_ultra (witness ex_ultra) [e97 6; e97 6].
Proof. split; [split; vm_compute; reflexivity|intros [_ H]; vm_compute in H; discriminate]. Qed.
Definition ex_turbo (x y : Z) : circuit F97 := con97 3 y (pub97 3 (var97 y (pub97 2 (var97 x (new_circuit F97 Turbo))))).
Example ex_turbo_reached x y : exists T, reached (ex_turbo x y) T.
Proof. eexists. unfold ex_turbo. rch. Qed.
(** Merging two circuits of eight rows, and the hypotheses of the permutation
    argument: 8 powers of an element of order 8, distinct cosets. *)
Example ex_merge : num_inputs (ex_turbo 5 6) = num_inputs (ex_turbo 7 8) /\
  radix2_size 5 (slots_needed F97 (ex_turbo 5 6)) = Some 8%nat /\ radix2_size 5 (slots_needed F97 (ex_turbo 7 8)) = Some 8%nat /\
  radix2_size 5 (2 * 8) = Some 16%nat.
Proof. vm_compute. auto. Qed.
Example ex_domain8 : fpow (e97 64) 8 = e97 1 /\
  (forall a b, (a < 8)%nat -> (b < 8)%nat -> fpow (e97 64) a = fpow (e97 64) b -> a = b) /\
  exists ks, compute_coset_representatives F97 6 8 [e97 5; e97 2; e97 6; e97 7; e97 3; e97 11; e97 13] = Some (Ok ks).
Proof.
  split; [apply (zp_ext 97); vm_compute; reflexivity|]. split.
  - intros a b Ha Hb E. apply (f_equal z97) in E.
    do 8 (destruct a as [|a]; [do 8 (destruct b as [|b]; [try reflexivity; vm_compute in E; discriminate|]); lia|]). lia.
  - eexists. vm_compute. reflexivity.
Qed.
Print Assumptions C26_wire_permutation.
Print Assumptions C27_finalize.
Print Assumptions C27_finalize_again.
Print Assumptions C27_no_domain.
Print Assumptions C66_lookup_tables.
Print Assumptions C66_lookup_tables_only.
Print Assumptions C28_finalized_is_frozen.
Print Assumptions C28_frozen_history.
Print Assumptions C28_tables_refuted.
Print Assumptions C29_permutation_product.
Print Assumptions C30_permutation_sound.
Print Assumptions C31_merge.
Print Assumptions C32_sorted_vector.
Print Assumptions C32_lookup_product.
Print Assumptions C32_lookup_product_sound.
Print Assumptions C32_circuit_complete.
Print Assumptions C32_circuit_sound.
Print Assumptions C27_early_table_refuted.
Print Assumptions C32_last_row_refuted.
Print Assumptions C32_stuck_table_refuted.
Print Assumptions C27_unchecked_public_refuted.
