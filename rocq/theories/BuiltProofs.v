(** Circuits held by a builder: preserved by every building call; lookup tables. *)

From Coq Require Import List Arith ZArith Bool Lia Sorted.
From Verif Require Import Base ListAux Alg CircuitModel CircuitProofs GadgetModel GadgetProofs SatProofs SatGadget
  FinalModel FinalProofs.
Import ListNotations.
Local Open Scope circ_scope.

Section Built.
  Context {K : fld}.
  Implicit Types c : circuit K.

  Lemma built_new t : built (new_circuit K t).
  Proof.
    split.
    - apply good_new.
    - constructor.
    - intros ? [].
    - reflexivity.
    - constructor.
  Qed.

  Ltac pre := rewrite nth_error_app1; auto; apply nth_error_Some; congruence.
  Ltac cs := cbn [capp push_gate push_row push_pub push_range push_table add_table_elems gates rows num_vars witness domain range_col pub_ids
                  ptype table_ids num_table_elems].

  (** Calls that append constraints without public inputs or tables. *)
  Lemma built_capp c d : built c -> plain (num_vars c) d -> built (capp c d).
  Proof.
    intros [G S I T TB] P. pose proof P as (P1 & P2 & P3 & P4 & P5). split; cs.
    - now apply good_capp.
    - rewrite P1, app_nil_r. auto.
    - rewrite P1, app_nil_r. intros id Hid. specialize (I id Hid). pre.
    - rewrite P2, P3, app_nil_r. lia.
    - rewrite P2, app_nil_r, app_length. eapply Forall_impl; [|exact TB]. cbn beta; intros; lia.
  Qed.
  Lemma built_gadget {A} zval (m : circ K A) c S C R a c' : built c -> gspec zval m c S C R -> m c = (Ok a, c') -> built c'.
  Proof. intros B (a' & d & E & P & _) E'. rewrite E in E'. inversion E'; subst. now apply built_capp. Qed.

  Lemma built_gate c g r : built c -> row_lt (num_vars c) r -> built (push_gate g (push_row r c)).
  Proof.
    intros [G S I T TB] Hr. destruct G as [W0 [B1 B2 B3 B4] G0 R0 G1 R1]. destruct W0 as [A1 A2 A3 A4].
    split; cs; auto.
    - split; cs; try pre.
      + split; cs; auto. rewrite !app_length. cbn. lia.
      + split; cs; auto.
        * rewrite !app_length. cbn. lia.
        * apply Forall_app; split; auto.
        * eapply Forall_impl; [|exact B4]. intros i Hi. rewrite app_length. cbn beta in Hi. cbn. lia.
    - intros id Hid. specialize (I id Hid). pre.
    - rewrite app_length. eapply Forall_impl; [|exact TB]. cbn. intros; lia.
  Qed.
  Lemma built_pub c v : built c -> (v < num_vars c)%nat ->
    built (push_gate (io_gate K) (push_row (mk_row 0 0 0 0 v) (push_pub (num_gates c) c))).
  Proof.
    intros B Hv. pose proof (built_gate c (io_gate K) (mk_row 0 0 0 0 v) B) as B'.
    pose proof (wf_two _ (gd_wf _ (bt_good _ B))) as H2.
    specialize (B' ltac:(unfold row_lt; cbn; lia)). destruct B as [G S I T TB]. destruct B' as [G' S' I' T' TB'].
    split; cs; auto.
    - destruct G' as [[W1 W2 W3 W4] [B1 B2 B3 B4] G0 R0 G1 R1]. split; auto; [split; auto|].
      split; auto. cs. apply Forall_app; split; [exact B4|]. constructor; auto. rewrite app_length; cbn. unfold num_gates. lia.
    - assert (Hf : Forall (fun i => (i < num_gates c)%nat) (pub_ids c)) by apply (bd_pub _ (gd_bd _ G)).
      clear - S Hf. induction (pub_ids c) as [|a l IH]; cbn; [repeat constructor|].
      inversion S; subst. inversion Hf; subst. constructor; auto. apply Forall_app; split; auto.
    - intros id Hid. apply in_app_or in Hid as [Hid|[<-|[]]].
      + specialize (I id Hid). pre.
      + unfold num_gates. rewrite nth_error_app2, Nat.sub_diag by lia. reflexivity.
  Qed.
  Lemma built_range c v : built c -> (v < num_vars c)%nat -> built (push_range v c).
  Proof.
    intros [G S I T TB] Hv. split; auto. destruct G as [[A1 A2 A3 A4] [B1 B2 B3 B4] G0 R0 G1 R1]. split; auto.
    - split; auto.
    - split; auto. cs. apply Forall_app; split; auto.
  Qed.

  Lemma finalize_false_run c : domain c = 1%nat -> check_finalize_flag false c = (Ok tt, c).
  Proof. intros E. unfold check_finalize_flag, lift, is_finalized. rewrite E. reflexivity. Qed.

  (** Building calls on a circuit under construction. *)
  Theorem create_variable_built c x v c' : built c -> create_variable x c = (Ok v, c') -> built c'.
  Proof.
    intros B E. pose proof (gd_wf _ (bt_good _ B)) as W.
    destruct (wpc_var x c (fun _ _ => True) W I) as (v' & d & E' & P & _).
    rewrite E in E'. inversion E'; subst. apply built_capp; auto.
  Qed.
  Theorem insert_gate_built c g r a c' : built c -> row_lt (num_vars c) r -> insert_gate r g c = (Ok a, c') -> built c'.
  Proof.
    intros B Hr E. pose proof (wf_open _ (gd_wf _ (bt_good _ B))) as W.
    unfold insert_gate, cbind in E. rewrite (finalize_false_run _ W) in E. unfold modify in E. inversion E; subst.
    now apply built_gate.
  Qed.
  Theorem set_variable_public_built c v a c' : built c -> (v < num_vars c)%nat ->
    set_variable_public v c = (Ok a, c') -> built c'.
  Proof.
    intros B Hv E. pose proof (wf_open _ (gd_wf _ (bt_good _ B))) as W.
    unfold set_variable_public, insert_gate, cbind in E. rewrite (finalize_false_run _ W) in E. unfold lift, modify in E.
    rewrite (finalize_false_run (push_pub (num_gates c) c)) in E by exact W. inversion E; subst. now apply built_pub.
  Qed.
  Theorem create_public_variable_built c x v c' : built c -> create_public_variable x c = (Ok v, c') -> built c'.
  Proof.
    intros B E. unfold create_public_variable, cbind in E.
    destruct (create_variable x c) as [[v1| |] c1] eqn:E1; try discriminate.
    assert (H1 : (v1 < num_vars c1)%nat).
    { unfold create_variable, cbind in E1. rewrite (finalize_false_run _ (wf_open _ (gd_wf _ (bt_good _ B)))) in E1.
      unfold modify, lift in E1. inversion E1; subst. cbn. lia. }
    apply create_variable_built in E1; auto.
    destruct (set_variable_public v1 c1) as [[a| |] c2] eqn:E2; try discriminate.
    unfold ret in E. inversion E; subst. eapply set_variable_public_built; eauto.
  Qed.
  Theorem add_range_check_variable_built c v a c' : built c -> add_range_check_variable v c = (Ok a, c') -> built c'.
  Proof.
    intros B E. pose proof (wf_open _ (gd_wf _ (bt_good _ B))) as W.
    unfold add_range_check_variable, cbind, lift in E.
    destruct (support_lookup c); [|discriminate]. rewrite (finalize_false_run _ W) in E.
    unfold check_var_bound, lift in E. destruct (Nat.leb_spec (num_vars c) v); [discriminate|].
    unfold modify in E. inversion E; subst. now apply built_range.
  Qed.

  (** Lookup tables *)
  Lemma iterM_check {A} (f : A -> circ K unit) l c :
    (forall a, In a l -> (f a c = (Ok tt, c)) \/ (exists e, f a c = (Err e, c))) ->
    (iterM f l c = (Ok tt, c) /\ forall a, In a l -> f a c = (Ok tt, c)) \/ exists e, iterM f l c = (Err e, c).
  Proof.
    induction l as [|a l IH]; intros H; cbn [iterM].
    - left. split; auto. intros ? [].
    - unfold cbind. destruct (H a (or_introl eq_refl)) as [E|[e E]]; rewrite E; [|right; eauto].
      destruct IH as [[E' F]|[e E']]; [auto|left|right].
      + intros x Hx. apply H. right; auto.
      + rewrite E'. split; auto. intros x [<-|Hx]; auto.
      + rewrite E'. eauto.
  Qed.
  Lemma check_var_run v c : check_var_bound v c = (if num_vars c <=? v then Err (VarIndexOutOfBound v (num_vars c)) else Ok tt, c).
  Proof. reflexivity. Qed.

  Definition lrow (lookups : list (nat * nat * nat)) (table : list (nat * nat)) (i : nat) : row :=
    let '(k, v0, v1) := nth i lookups (0, 0, 0)%nat in let '(t0, t1) := nth i table (0, 0)%nat in mk_row k v0 v1 t0 t1.
  Definition lgate (ctr nl nt i : nat) : gate K :=
    lookup_gate K (if (i <? nl)%nat then fnat ctr else 0%F) (if (i <? nt)%nat then fnat ctr else 0%F)
      (if (i <? nt)%nat then fnat i else 0%F).
  Lemma iterM_insert (R : nat -> row) (Gt : nat -> gate K) (f : nat -> circ K unit) l : forall c, domain c = 1%nat ->
    (forall i, In i l -> f i = insert_gate (R i) (Gt i)) ->
    iterM f l c = (Ok tt, mk_circuit K (num_vars c) (gates c ++ map Gt l) (rows c ++ map R l) (range_col c) (pub_ids c)
      (witness c) (wire_perm c) (domain c) (ptype c) (num_table_elems c) (table_ids c)).
  Proof.
    induction l as [|i l IH]; intros c W H; cbn [iterM].
    - cbn. rewrite !app_nil_r. destruct c; reflexivity.
    - rewrite H by (left; auto). unfold cbind at 1, insert_gate at 1. unfold cbind at 1. rewrite (finalize_false_run _ W).
      unfold modify, cbind. rewrite (IH (push_gate (Gt i) (push_row (R i) c)) W).
      + cs. cbn [wire_perm]. rewrite <- !app_assoc. reflexivity.
      + intros; apply H; right; auto.
  Qed.
  Definition after_tables c (lookups : list (nat * nat * nat)) (table : list (nat * nat)) : circuit K :=
    let n := Nat.max (length lookups) (length table) in
    let ctr := S (length (table_ids c)) in
    mk_circuit K (num_vars c) (gates c ++ map (lgate ctr (length lookups) (length table)) (seq 0 n))
      (rows c ++ map (lrow lookups table) (seq 0 n)) (range_col c) (pub_ids c) (witness c) (wire_perm c) (domain c)
      (ptype c) (num_table_elems c + n) (table_ids c ++ [(num_gates c, n)]).
  Definition vars_in c (lookups : list (nat * nat * nat)) (table : list (nat * nat)) : Prop :=
    Forall (fun l => (fst (fst l) < num_vars c /\ snd (fst l) < num_vars c /\ snd l < num_vars c)%nat) lookups /\
    Forall (fun t => (fst t < num_vars c /\ snd t < num_vars c)%nat) table.

  Lemma cbind_ok {A B} (m : circ K A) (k : A -> circ K B) c a c1 : m c = (Ok a, c1) -> cbind m k c = k a c1.
  Proof. intros E. unfold cbind. rewrite E. reflexivity. Qed.
  Lemma cbind_err {A B} (m : circ K A) (k : A -> circ K B) c e c1 : m c = (Err e, c1) -> cbind m k c = (Err e, c1).
  Proof. intros E. unfold cbind. rewrite E. reflexivity. Qed.

  Theorem tables_run c lookups table : built c ->
    (vars_in c lookups table /\ create_table_and_lookup_variables lookups table c = (Ok tt, after_tables c lookups table))
    \/ (~ vars_in c lookups table /\ exists e, create_table_and_lookup_variables lookups table c = (Err e, c)).
  Proof.
    intros B. pose proof (wf_open _ (gd_wf _ (bt_good _ B))) as W.
    unfold create_table_and_lookup_variables.
    match goal with |- context [iterM ?f lookups] => set (fl := f) end.
    destruct (iterM_check fl lookups c) as [[El Fl]|[e El]].
    { intros a _. unfold fl, cbind. rewrite !check_var_run.
      destruct (num_vars c <=? fst (fst a)); [right; eauto|]. rewrite ?check_var_run.
      destruct (num_vars c <=? snd (fst a)); [right; eauto|]. rewrite ?check_var_run.
      destruct (num_vars c <=? snd a); [right; eauto|left; auto]. }
    2:{ right. rewrite (cbind_err _ _ _ _ _ El). split; [|eauto]. intros [Hv _]. clear - El Hv W.
        assert (F : iterM fl lookups c = (Ok tt, c)).
        { clear El. induction Hv as [|a l Ha _ IH]; auto. cbn [iterM]. unfold cbind at 1.
          assert (Ea : fl a c = (Ok tt, c)).
          { unfold fl, cbind. rewrite !check_var_run. destruct Ha as (A1 & A2 & A3).
            destruct (Nat.leb_spec (num_vars c) (fst (fst a))); [lia|]. rewrite ?check_var_run.
            destruct (Nat.leb_spec (num_vars c) (snd (fst a))); [lia|]. rewrite ?check_var_run.
            destruct (Nat.leb_spec (num_vars c) (snd a)); [lia|]. auto. }
          rewrite Ea. auto. }
        congruence. }
    rewrite (cbind_ok _ _ _ _ _ El).
    match goal with |- context [iterM ?f table] => set (ft := f) end.
    destruct (iterM_check ft table c) as [[Et Ft]|[e Et]].
    { intros a _. unfold ft, cbind. rewrite !check_var_run.
      destruct (num_vars c <=? fst a); [right; eauto|]. rewrite ?check_var_run.
      destruct (num_vars c <=? snd a); [right; eauto|left; auto]. }
    2:{ right. rewrite (cbind_err _ _ _ _ _ Et). split; [|eauto]. intros [_ Hv]. clear - Et Hv W.
        assert (F : iterM ft table c = (Ok tt, c)).
        { clear Et. induction Hv as [|a l Ha _ IH]; auto. cbn [iterM]. unfold cbind at 1.
          assert (Ea : ft a c = (Ok tt, c)).
          { unfold ft, cbind. rewrite !check_var_run. destruct Ha as (A1 & A2).
            destruct (Nat.leb_spec (num_vars c) (fst a)); [lia|]. rewrite ?check_var_run.
            destruct (Nat.leb_spec (num_vars c) (snd a)); [lia|]. auto. }
          rewrite Ea. auto. }
        congruence. }
    rewrite (cbind_ok _ _ _ _ _ Et). left. split.
    { split; apply Forall_forall; intros a Ha.
      - specialize (Fl a Ha). unfold fl, cbind in Fl. rewrite !check_var_run in Fl.
        destruct (Nat.leb_spec (num_vars c) (fst (fst a))); [discriminate|]. rewrite ?check_var_run in Fl.
        destruct (Nat.leb_spec (num_vars c) (snd (fst a))); [discriminate|]. rewrite ?check_var_run in Fl.
        destruct (Nat.leb_spec (num_vars c) (snd a)); [discriminate|]. auto.
      - specialize (Ft a Ha). unfold ft, cbind in Ft. rewrite !check_var_run in Ft.
        destruct (Nat.leb_spec (num_vars c) (fst a)); [discriminate|]. rewrite ?check_var_run in Ft.
        destruct (Nat.leb_spec (num_vars c) (snd a)); [discriminate|]. auto. }
    clear fl ft El Et Fl Ft. unfold cbind at 1, lift at 1. unfold cbind at 1, modify at 1. unfold cbind at 1, lift at 1.
    unfold cbind.
    rewrite (iterM_insert (lrow lookups table) (lgate (length (table_ids (push_table (num_gates c) (Nat.max (length lookups) (length table)) c))) (length lookups) (length table))).
    - unfold modify, after_tables. cs. cbn [wire_perm]. rewrite !app_length. cbn [length]. rewrite Nat.add_1_r. reflexivity.
    - exact W.
    - intros i Hi. unfold lrow, lgate.
      destruct (nth_error lookups i) as [[[k v0] v1]|] eqn:E1; destruct (nth_error table i) as [[t0 t1]|] eqn:E2.
      + rewrite (nth_error_nth _ _ _ E1), (nth_error_nth _ _ _ E2).
        assert (i < length lookups)%nat by (apply nth_error_Some; congruence).
        assert (i < length table)%nat by (apply nth_error_Some; congruence).
        destruct (Nat.ltb_spec i (length lookups)); [|lia]. destruct (Nat.ltb_spec i (length table)); [|lia]. reflexivity.
      + assert (i < length lookups)%nat by (apply nth_error_Some; congruence). apply nth_error_None in E2.
        rewrite (nth_error_nth _ _ _ E1), nth_overflow by auto. destruct (Nat.ltb_spec i (length lookups)); [|lia].
        destruct (Nat.ltb_spec i (length table)); [lia|]. reflexivity.
      + assert (i < length table)%nat by (apply nth_error_Some; congruence). apply nth_error_None in E1.
        rewrite (nth_error_nth _ _ _ E2), nth_overflow by auto.
        destruct (Nat.ltb_spec i (length lookups)); [lia|]. destruct (Nat.ltb_spec i (length table)); [|lia]. reflexivity.
      + apply nth_error_None in E1, E2. rewrite !nth_overflow by auto.
        destruct (Nat.ltb_spec i (length lookups)); [lia|]. destruct (Nat.ltb_spec i (length table)); [lia|]. reflexivity.
  Qed.

  Lemma lrow_lt c lookups table i : built c -> vars_in c lookups table -> row_lt (num_vars c) (lrow lookups table i).
  Proof.
    intros B [H1 H2]. pose proof (wf_two _ (gd_wf _ (bt_good _ B))) as H0. rewrite Forall_forall in H1, H2. unfold lrow.
    destruct (nth i lookups (0, 0, 0)%nat) as [[k v0] v1] eqn:E1. destruct (nth i table (0, 0)%nat) as [t0 t1] eqn:E2.
    assert (A : (k < num_vars c /\ v0 < num_vars c /\ v1 < num_vars c)%nat).
    { destruct (Nat.lt_ge_cases i (length lookups)) as [Hi|Hi].
      - apply (H1 (k, v0, v1)). rewrite <- E1. now apply nth_In.
      - rewrite nth_overflow in E1 by auto. inversion E1. lia. }
    assert (A' : (t0 < num_vars c /\ t1 < num_vars c)%nat).
    { destruct (Nat.lt_ge_cases i (length table)) as [Hi|Hi].
      - apply (H2 (t0, t1)). rewrite <- E2. now apply nth_In.
      - rewrite nth_overflow in E2 by auto. inversion E2. lia. }
    unfold row_lt; cbn. lia.
  Qed.
  Theorem tables_built c lookups table : built c -> vars_in c lookups table -> built (after_tables c lookups table).
  Proof.
    intros B V. set (n := Nat.max (length lookups) (length table)).
    assert (Hr : Forall (row_lt (num_vars c)) (map (lrow lookups table) (seq 0 n))).
    { apply Forall_forall. intros r H. apply in_map_iff in H as (i & <- & _). now apply lrow_lt. }
    destruct B as [G S I T TB]. destruct G as [[A1 A2 A3 A4] [B1 B2 B3 B4] G0 R0 G1 R1].
    unfold after_tables. fold n. split; cs; auto.
    - split; cs; try pre.
      + split; cs; auto. rewrite !app_length, !map_length. lia.
      + split; cs; auto.
        * rewrite !app_length, !map_length. lia.
        * apply Forall_app; split; auto.
        * rewrite app_length. eapply Forall_impl; [|exact B4]. cbn; intros; lia.
    - intros id Hid. specialize (I id Hid). pre.
    - rewrite map_app, list_sum_app, T. cbn. lia.
    - rewrite app_length, map_length, seq_length. apply Forall_app; split.
      + eapply Forall_impl; [|exact TB]. cbn; intros; lia.
      + constructor; auto.
  Qed.

  (** The lookup arguments [T] made so far, in order: for each table its lookups
      and its rows. *)
  Definition tabs_t : Type := list (list (nat * nat * nat) * list (nat * nat)).
  Record tabs c (T : tabs_t) : Prop := {
    tb_len : length (table_ids c) = length T;
    tb_look : forall g r, hasgr c g r -> q_lookup g <> 0%F ->
       (q_dom_sep g = 0%F /\ r0 r = 0%nat /\ r1 r = 0%nat /\ r2 r = 0%nat) \/
       exists t l tb, nth_error T t = Some (l, tb) /\ q_dom_sep g = fnat (S t) /\ In (r0 r, r1 r, r2 r) l;
    tb_tab : forall g r, hasgr c g r -> q_lookup g <> 0%F ->
       (table_dom_sep g = 0%F /\ table_key g = 0%F /\ r3 r = 0%nat /\ r4 r = 0%nat) \/
       exists t l tb i, nth_error T t = Some (l, tb) /\ table_dom_sep g = fnat (S t) /\ table_key g = fnat i /\
         nth_error tb i = Some (r3 r, r4 r);
    tb_has_look : forall t l tb k v0 v1, nth_error T t = Some (l, tb) -> In (k, v0, v1) l ->
       exists g r, hasgr c g r /\ q_lookup g <> 0%F /\ q_dom_sep g = fnat (S t) /\ r0 r = k /\ r1 r = v0 /\ r2 r = v1;
    tb_has_tab : forall t l tb i t0 t1, nth_error T t = Some (l, tb) -> nth_error tb i = Some (t0, t1) ->
       exists g r, hasgr c g r /\ q_lookup g <> 0%F /\ table_dom_sep g = fnat (S t) /\ table_key g = fnat i /\
         r3 r = t0 /\ r4 r = t1 }.

  (** Every lookup finds its row: what the lookups of [T] ask of an assignment. *)
  Definition lookups_hold (T : tabs_t) (w : nat -> K) : Prop :=
    forall t l tb k v0 v1, nth_error T t = Some (l, tb) -> In (k, v0, v1) l ->
      exists i t0 t1, nth_error tb i = Some (t0, t1) /\ w k = fnat i /\ w v0 = w t0 /\ w v1 = w t1.

  Theorem tabs_lookup_ok c T w : tabs c T -> w 0%nat = 0%F ->
    (forall i j, (i <= length T)%nat -> (j <= length T)%nat -> fnat (K := K) i = fnat j -> i = j) ->
    lookup_ok c w <-> lookups_hold T w.
  Proof.
    intros H W0 Inj. split.
    - intros L t l tb k v0 v1 Ht Hl. destruct (tb_has_look _ _ H _ _ _ _ _ _ Ht Hl) as (g & r & (j & G1 & G2) & Hq & Hd & <- & <- & <-).
      assert (Hn : (t < length T)%nat) by (apply nth_error_Some; congruence).
      destruct (L j g r G1 G2 Hq) as [E|(j' & g' & r' & G1' & G2' & Hq' & E)].
      + exfalso. assert (Ex : fnat (K := K) (S t) = fnat 0) by (rewrite <- Hd; cbn [fnat]; congruence).
        apply Inj in Ex; lia.
      + destruct (tb_tab _ _ H g' r' (ex_intro _ j' (conj G1' G2')) Hq') as [(Z1 & _)|(t' & l' & tb' & i & Ht' & Z1 & Z2 & Z3)].
        * exfalso. assert (Ex : fnat (K := K) (S t) = fnat 0) by (rewrite <- Hd; cbn [fnat]; congruence).
          apply Inj in Ex; lia.
        * assert ((t' < length T)%nat) by (apply nth_error_Some; congruence).
          assert (Ex : fnat (K := K) (S t) = fnat (S t')) by congruence.
          apply Inj in Ex; try lia. inversion Ex; subst t'. rewrite Ht in Ht'. inversion Ht'; subst l' tb'.
          exists i, (r3 r'), (r4 r'). inversion E. repeat split; congruence.
    - intros L j g r G1 G2 Hq.
      destruct (tb_look _ _ H g r (ex_intro _ j (conj G1 G2)) Hq) as [(Z1 & Z2 & Z3 & Z4)|(t & l & tb & Ht & Z1 & Z2)].
      + left. rewrite Z1, Z2, Z3, Z4, W0. reflexivity.
      + right. destruct (L _ _ _ _ _ _ Ht Z2) as (i & t0 & t1 & E1 & E2 & E3 & E4).
        destruct (tb_has_tab _ _ H _ _ _ _ _ _ Ht E1) as (g' & r' & (j' & G1' & G2') & Hq' & Hd & Hk & <- & <-).
        exists j', g', r'. repeat split; auto. congruence.
  Qed.

  Lemma hasgr_app c gs rs g r : length (rows c) = length (gates c) -> length rs = length gs -> forall c',
    gates c' = gates c ++ gs -> rows c' = rows c ++ rs ->
    hasgr c' g r <-> hasgr c g r \/ exists j, nth_error gs j = Some g /\ nth_error rs j = Some r.
  Proof.
    intros E1 E2 c' E3 E4. unfold hasgr. rewrite E3, E4. split.
    - intros (j & G1 & G2). destruct (Nat.lt_ge_cases j (length (gates c))).
      + rewrite nth_error_app1 in G1, G2 by lia. left; eauto.
      + rewrite nth_error_app2 in G1, G2 by lia. rewrite E1 in G2. right; eauto.
    - intros [(j & G1 & G2)|(j & G1 & G2)].
      + exists j. assert (j < length (gates c))%nat by (apply nth_error_Some; congruence).
        rewrite !nth_error_app1 by lia. auto.
      + exists (length (gates c) + j)%nat. rewrite !nth_error_app2 by lia.
        rewrite E1. replace (length (gates c) + j - length (gates c))%nat with j by lia. auto.
  Qed.

  (** Constraints without lookup gates leave the tables as they are. *)
  Theorem tabs_more c T c' gs rs : tabs c T -> length (rows c) = length (gates c) -> length rs = length gs ->
    gates c' = gates c ++ gs -> rows c' = rows c ++ rs -> table_ids c' = table_ids c ->
    Forall (fun g => q_lookup g = 0%F) gs -> tabs c' T.
  Proof.
    intros H E1 E2 E3 E4 E5 F. rewrite Forall_forall in F.
    assert (A : forall g r, hasgr c' g r -> q_lookup g <> 0%F -> hasgr c g r).
    { intros g r Hg Hq. apply (hasgr_app c gs rs g r E1 E2 c' E3 E4) in Hg as [Hg|(j & G & _)]; auto.
      exfalso. apply Hq, F. eapply nth_error_In; eauto. }
    assert (B : forall g r, hasgr c g r -> hasgr c' g r).
    { intros g r Hg. apply (hasgr_app c gs rs g r E1 E2 c' E3 E4). auto. }
    split.
    - rewrite E5. apply (tb_len _ _ H).
    - intros; apply (tb_look _ _ H); auto.
    - intros; apply (tb_tab _ _ H); auto.
    - intros t l tb k v0 v1 X Y. destruct (tb_has_look _ _ H _ _ _ _ _ _ X Y) as (g & r & Hg & Q). exists g, r. split; auto.
    - intros t l tb i t0 t1 X Y. destruct (tb_has_tab _ _ H _ _ _ _ _ _ X Y) as (g & r & Hg & Q). exists g, r. split; auto.
  Qed.
  Theorem tabs_new t : tabs (new_circuit K t) [].
  Proof.
    split; auto.
    - intros g r (j & G & _) Hq. exfalso. apply Hq. cbn in G. destruct j as [|[|j]]; cbn in G; try (inversion G; reflexivity).
      destruct j; discriminate.
    - intros g r (j & G & _) Hq. exfalso. apply Hq. cbn in G. destruct j as [|[|j]]; cbn in G; try (inversion G; reflexivity).
      destruct j; discriminate.
    - intros [|t'] ? ? ? ? ? E; discriminate.
    - intros [|t'] ? ? ? ? ? E; discriminate.
  Qed.
  Theorem tabs_after c T lookups table : built c -> tabs c T -> tabs (after_tables c lookups table) (T ++ [(lookups, table)]).
  Proof.
    intros B H. pose proof (bd_rows _ (gd_bd _ (bt_good _ B))) as E1.
    set (n := Nat.max (length lookups) (length table)). set (ctr := S (length (table_ids c))).
    assert (HG : forall g r, hasgr (after_tables c lookups table) g r <-> hasgr c g r \/
       exists j, (j < n)%nat /\ g = lgate ctr (length lookups) (length table) j /\ r = lrow lookups table j).
    { intros g r. rewrite (hasgr_app c (map (lgate ctr (length lookups) (length table)) (seq 0 n)) (map (lrow lookups table) (seq 0 n))); auto.
      2:{ now rewrite !map_length. }
      split; (intros [A|A]; [left; auto|right]).
      - destruct A as (j & A1 & A2).
        assert (Hj : (j < n)%nat).
        { assert (X : (j < length (map (lrow lookups table) (seq 0 n)))%nat) by (apply nth_error_Some; congruence).
          now rewrite map_length, seq_length in X. }
        exists j. rewrite nth_error_map, nth_error_seq in A1, A2.
        destruct (Nat.ltb_spec j n); [|lia]. cbn in A1, A2. inversion A1; inversion A2. auto.
      - destruct A as (j & Hj & -> & ->). exists j. rewrite !nth_error_map, !nth_error_seq.
        destruct (Nat.ltb_spec j n); [|lia]. auto. }
    assert (Hlk : forall i k v0 v1, nth_error lookups i = Some (k, v0, v1) ->
       r0 (lrow lookups table i) = k /\ r1 (lrow lookups table i) = v0 /\ r2 (lrow lookups table i) = v1).
    { intros i k v0 v1 E. unfold lrow. rewrite (nth_error_nth _ _ _ E). destruct (nth i table _). auto. }
    assert (Htb : forall i t0 t1, nth_error table i = Some (t0, t1) ->
       r3 (lrow lookups table i) = t0 /\ r4 (lrow lookups table i) = t1).
    { intros i t0 t1 E. unfold lrow. rewrite (nth_error_nth _ _ _ E). destruct (nth i lookups _) as [[]]. auto. }
    assert (Hctr : ctr = S (length T)) by (unfold ctr; now rewrite (tb_len _ _ H)).
    assert (Hlast : nth_error (T ++ [(lookups, table)]) (length T) = Some (lookups, table)).
    { rewrite nth_error_app2, Nat.sub_diag by lia. auto. }
    assert (Hold : forall t x, nth_error T t = Some x -> nth_error (T ++ [(lookups, table)]) t = Some x).
    { intros t x E. rewrite nth_error_app1; auto. apply nth_error_Some; congruence. }
    split.
    - cbn. rewrite !app_length, (tb_len _ _ H). auto.
    - intros g r Hg Hq. apply HG in Hg as [Hg|(j & Hj & -> & ->)].
      + destruct (tb_look _ _ H g r Hg Hq) as [A|(t & l & tb & A & A')]; [left; auto|right].
        exists t, l, tb. split; auto.
      + unfold lgate; cbn [lookup_gate q_dom_sep]. destruct (nth_error lookups j) as [[[k v0] v1]|] eqn:E.
        * right. exists (length T), lookups, table. split; auto.
          destruct (Nat.ltb_spec j (length lookups)); [|exfalso; assert (j < length lookups)%nat by (apply nth_error_Some; congruence); lia].
          split; [congruence|]. destruct (Hlk _ _ _ _ E) as (-> & -> & ->). eapply nth_error_In; eauto.
        * left. apply nth_error_None in E. destruct (Nat.ltb_spec j (length lookups)); [lia|]. split; auto.
          unfold lrow. rewrite nth_overflow by auto. destruct (nth j table _); auto.
    - intros g r Hg Hq. apply HG in Hg as [Hg|(j & Hj & -> & ->)].
      + destruct (tb_tab _ _ H g r Hg Hq) as [A|(t & l & tb & i & A & A')]; [left; auto|right].
        exists t, l, tb, i. split; auto.
      + unfold lgate; cbn [lookup_gate table_dom_sep table_key]. destruct (nth_error table j) as [[t0 t1]|] eqn:E.
        * right. exists (length T), lookups, table, j. split; auto.
          destruct (Nat.ltb_spec j (length table)); [|exfalso; assert (j < length table)%nat by (apply nth_error_Some; congruence); lia].
          split; [congruence|]. split; auto. destruct (Htb _ _ _ E) as (-> & ->). auto.
        * left. apply nth_error_None in E. destruct (Nat.ltb_spec j (length table)); [lia|]. split; auto.
          unfold lrow. rewrite (nth_overflow table) by auto. destruct (nth j lookups _) as [[]]; auto.
    - intros t l tb k v0 v1 Ht Hl.
      destruct (Nat.lt_ge_cases t (length T)).
      + rewrite nth_error_app1 in Ht by auto. destruct (tb_has_look _ _ H _ _ _ _ _ _ Ht Hl) as (g & r & Hg & Q).
        exists g, r. split; auto. apply HG; auto.
      + assert (t = length T) as ->.
        { assert (X : (t < length (T ++ [(lookups, table)]))%nat) by (apply nth_error_Some; congruence).
          rewrite app_length in X. cbn in X. lia. }
        rewrite Hlast in Ht. inversion Ht; subst l tb. apply In_nth_error in Hl as [i Hi].
        assert (i < length lookups)%nat by (apply nth_error_Some; congruence).
        exists (lgate ctr (length lookups) (length table) i), (lrow lookups table i). split.
        { apply HG. right. exists i. split; auto. unfold n. lia. }
        unfold lgate; cbn [lookup_gate q_lookup q_dom_sep]. destruct (Nat.ltb_spec i (length lookups)); [|lia].
        split; [apply f1_neq_0|]. split; [congruence|]. eauto.
    - intros t l tb i t0 t1 Ht Hl.
      destruct (Nat.lt_ge_cases t (length T)).
      + rewrite nth_error_app1 in Ht by auto. destruct (tb_has_tab _ _ H _ _ _ _ _ _ Ht Hl) as (g & r & Hg & Q).
        exists g, r. split; auto. apply HG; auto.
      + assert (t = length T) as ->.
        { assert (X : (t < length (T ++ [(lookups, table)]))%nat) by (apply nth_error_Some; congruence).
          rewrite app_length in X. cbn in X. lia. }
        rewrite Hlast in Ht. inversion Ht; subst l tb.
        assert (i < length table)%nat by (apply nth_error_Some; congruence).
        exists (lgate ctr (length lookups) (length table) i), (lrow lookups table i). split.
        { apply HG. right. exists i. split; auto. unfold n. lia. }
        unfold lgate; cbn [lookup_gate q_lookup table_dom_sep table_key]. destruct (Nat.ltb_spec i (length table)); [|lia].
        split; [apply f1_neq_0|]. split; [congruence|]. split; auto.
  Qed.
End Built.
