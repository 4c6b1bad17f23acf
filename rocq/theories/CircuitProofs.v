(** Proof framework for circuit-building programs.

    Running a gadget appends a [delta] (gates with their wires, witness values,
    range-checked variables, ...) to the circuit.  [dsat w d] says that an
    arbitrary assignment [w] of all variables satisfies the appended constraints;
    [hext c w] that [w] agrees with the witness computed by the code. *)

From Coq Require Import List Arith ZArith Bool Lia.
From Verif Require Import Base ListAux Alg CircuitModel.
Import ListNotations.
Local Open Scope fld_scope.
Local Open Scope circ_scope.

Record delta (K : fld) := mk_delta {
  d_gates : list (gate K * row);
  d_vals : list K;
  d_range : list nat;
  d_pubs : list nat;
  d_tabs : list (nat * nat);
  d_ntab : nat }.
Arguments mk_delta {K}. Arguments d_gates {K}. Arguments d_vals {K}. Arguments d_range {K}.
Arguments d_pubs {K}. Arguments d_tabs {K}. Arguments d_ntab {K}.

Section Framework.
  Context {K : fld}.
  Variable zval : K -> Z.
  Add Field Kfield_circ : (fth K).

  Definition dnil : delta K := mk_delta [] [] [] [] [] 0.
  Definition dcat (a b : delta K) : delta K :=
    mk_delta (d_gates a ++ d_gates b) (d_vals a ++ d_vals b) (d_range a ++ d_range b)
             (d_pubs a ++ d_pubs b) (d_tabs a ++ d_tabs b) (d_ntab a + d_ntab b).
  Definition dgate (g : gate K) (r : row) : delta K := mk_delta [(g, r)] [] [] [] [] 0.
  Definition dval (x : K) : delta K := mk_delta [] [x] [] [] [] 0.
  Definition drange (v : nat) : delta K := mk_delta [] [] [v] [] [] 0.

  (** The circuit after appending [d]. *)
  Definition capp (c : circuit K) (d : delta K) : circuit K :=
    mk_circuit K (num_vars c + length (d_vals d)) (gates c ++ map fst (d_gates d))
      (rows c ++ map snd (d_gates d)) (range_col c ++ d_range d) (pub_ids c ++ d_pubs d)
      (witness c ++ d_vals d) (wire_perm c) (domain c) (ptype c)
      (num_table_elems c + d_ntab d) (table_ids c ++ d_tabs d).

  Lemma capp_nil c : capp c dnil = c.
  Proof. destruct c; unfold capp; cbn. rewrite !app_nil_r, !Nat.add_0_r; reflexivity. Qed.
  Lemma capp_cat c d d' : capp (capp c d) d' = capp c (dcat d d').
  Proof.
    unfold capp, dcat; cbn [num_vars gates rows range_col pub_ids witness wire_perm domain ptype
      num_table_elems table_ids d_gates d_vals d_range d_pubs d_tabs d_ntab].
    rewrite !map_app, !app_assoc, app_length, !Nat.add_assoc; reflexivity.
  Qed.

  Definition wire_vals (w : nat -> K) (r : row) := (w (r0 r), w (r1 r), w (r2 r), w (r3 r), w (r4 r)).
  (** The gate equation under an assignment. *)
  Definition gsat (w : nat -> K) (pi : K) (g : gate K) (r : row) : Prop :=
    gate_expected g pi (w (r0 r)) (w (r1 r)) (w (r2 r)) (w (r3 r)) (w (r4 r))
    = gate_output g (w (r4 r)).

  (** The range check under an assignment, for the circuit kind [t]. *)
  Definition rsat (t : plonk_type) (w : nat -> K) (v : nat) : Prop :=
    match t with
    | Turbo => True
    | Ultra b => (zval (w v) < zval (fZ ((2 ^ Z.of_nat b) mod 2 ^ 32)))%Z
    end.

  Definition dsat (t : plonk_type) (w : nat -> K) (d : delta K) : Prop :=
    Forall (fun gr => is_io (fst gr) = false -> gsat w 0 (fst gr) (snd gr)) (d_gates d)
    /\ Forall (rsat t w) (d_range d).

  Lemma dsat_nil t w : dsat t w dnil.
  Proof. split; constructor. Qed.
  Lemma dsat_cat t w a b : dsat t w (dcat a b) <-> dsat t w a /\ dsat t w b.
  Proof. unfold dsat, dcat; cbn. rewrite !Forall_app. tauto. Qed.
  Lemma dsat_val t w x : dsat t w (dval x) <-> True.
  Proof. unfold dsat; cbn; split; auto. Qed.
  Lemma dsat_gate t w g r : is_io g = false -> dsat t w (dgate g r) <-> gsat w 0 g r.
  Proof.
    intros Hio; unfold dsat; cbn. split.
    - intros [H _]. inversion H; auto.
    - auto.
  Qed.
  Lemma dsat_range t w v : dsat t w (drange v) <-> rsat t w v.
  Proof. unfold dsat; cbn. split; [intros [_ H]; inversion H; auto | auto]. Qed.

  (** A circuit under construction. *)
  Record wf (c : circuit K) : Prop := {
    wf_open : domain c = 1%nat;
    wf_wit : length (witness c) = num_vars c;
    wf_rows : length (rows c) = length (gates c);
    wf_two : (2 <= num_vars c)%nat }.

  Lemma wf_capp c d : wf c -> wf (capp c d).
  Proof.
    intros [A B C D]. split; cbn [capp domain witness num_vars rows gates]; auto.
    - rewrite app_length; lia.
    - rewrite !app_length, !map_length; lia.
    - lia.
  Qed.

  (** The first two variables hold 0 and 1 (forced by the first two gates of
      every circuit). *)
  Definition base (w : nat -> K) : Prop := w 0%nat = 0 /\ w 1%nat = 1.
  (** The honest value of a variable. *)
  Definition hon (c : circuit K) (v : nat) : K := nth v (witness c) 0.
  (** [w] extends the witness held by [c]. *)
  Definition hext (c : circuit K) (w : nat -> K) : Prop :=
    forall v, (v < num_vars c)%nat -> w v = hon c v.

  Lemma hext_hon c : hext c (hon c).
  Proof. intros v _; reflexivity. Qed.
  Lemma hext_capp c d w : wf c -> hext (capp c d) w ->
    hext c w /\ forall i, (i < length (d_vals d))%nat -> w (num_vars c + i)%nat = nth i (d_vals d) 0.
  Proof.
    intros Hw H. split.
    - intros v Hv. rewrite (H v) by (cbn [capp num_vars]; lia).
      unfold hon; cbn [capp witness]. rewrite app_nth1; [reflexivity|]. rewrite (wf_wit _ Hw); auto.
    - intros i Hi. rewrite (H (num_vars c + i)%nat) by (cbn [capp num_vars]; lia).
      unfold hon; cbn [capp witness]. rewrite <- (wf_wit _ Hw).
      rewrite app_nth2 by lia. f_equal; lia.
  Qed.
  Lemma hext_app1 c d w : wf c -> hext (capp c d) w -> hext c w.
  Proof. intros Hw H. apply (hext_capp c d w Hw H). Qed.
  Lemma hext_val c x w : wf c -> hext (capp c (dval x)) w -> w (num_vars c) = x.
  Proof.
    intros Hw H. destruct (hext_capp _ _ _ Hw H) as [_ E].
    specialize (E 0%nat (Nat.lt_0_succ _)). rewrite Nat.add_0_r in E. exact E.
  Qed.

  (** What a gadget may append to a circuit with [n] variables: no public input,
      no table, and only wires that carry existing variables. *)
  Definition row_lt (n : nat) (r : row) : Prop :=
    (r0 r < n /\ r1 r < n /\ r2 r < n /\ r3 r < n /\ r4 r < n)%nat.
  Definition plain_gate (n : nat) (gr : gate K * row) : Prop :=
    is_io (fst gr) = false /\ q_lookup (fst gr) = 0 /\ row_lt n (snd gr).
  Definition plain (n : nat) (d : delta K) : Prop :=
    d_pubs d = [] /\ d_tabs d = [] /\ d_ntab d = 0%nat
    /\ Forall (plain_gate (n + length (d_vals d))) (d_gates d)
    /\ Forall (fun v => v < n + length (d_vals d))%nat (d_range d).

  Lemma row_lt_mono n m r : (n <= m)%nat -> row_lt n r -> row_lt m r.
  Proof. unfold row_lt. intuition lia. Qed.
  Lemma plain_nil n : plain n dnil.
  Proof. repeat split; constructor. Qed.
  Lemma plain_val n x : plain n (dval x).
  Proof. repeat split; constructor. Qed.
  Lemma plain_dgate n g r : plain_gate n (g, r) -> plain n (dgate g r).
  Proof.
    intros H. repeat split; cbn [dgate d_vals d_gates d_range length]; try constructor; auto.
    rewrite Nat.add_0_r. exact H.
  Qed.
  Lemma plain_drange n v : (v < n)%nat -> plain n (drange v).
  Proof. intros H. repeat split; cbn; repeat constructor. lia. Qed.
  Lemma plain_cat n d d' : plain n d -> plain (n + length (d_vals d)) d' -> plain n (dcat d d').
  Proof.
    intros (A1 & A2 & A3 & A4 & A5) (B1 & B2 & B3 & B4 & B5).
    unfold plain, dcat; cbn [d_pubs d_tabs d_ntab d_gates d_range d_vals].
    rewrite A1, A2, A3, B1, B2, B3, app_length. repeat split; auto.
    - apply Forall_app; split.
      + eapply Forall_impl; [|exact A4]. intros gr (E1 & E2 & E3). repeat split; auto;
          eapply row_lt_mono in E3; try apply E3; lia.
      + rewrite Nat.add_assoc. exact B4.
    - apply Forall_app; split.
      + eapply Forall_impl; [|exact A5]. cbn beta. intros. lia.
      + rewrite Nat.add_assoc. exact B5.
  Qed.

  (** [m] runs without error on [c], appends some plain [d], and [Q] holds. *)
  Definition wpc {A} (m : circ K A) (c : circuit K) (Q : A -> delta K -> Prop) : Prop :=
    exists a d, m c = (Ok a, capp c d) /\ plain (num_vars c) d /\ Q a d.

  Lemma wpc_mono {A} (m : circ K A) c (Q Q' : A -> delta K -> Prop) :
    wpc m c Q -> (forall a d, m c = (Ok a, capp c d) -> Q a d -> Q' a d) -> wpc m c Q'.
  Proof. intros (a & d & E & P & H) HQ. exists a, d; auto. Qed.

  Lemma wpc_ret {A} (a : A) c (Q : A -> delta K -> Prop) : Q a dnil -> wpc (ret a) c Q.
  Proof. intros H. exists a, dnil. rewrite capp_nil. auto using plain_nil. Qed.

  Lemma wpc_bind {A B} (m : circ K A) (k : A -> circ K B) c Q :
    wpc m c (fun a d => wpc (k a) (capp c d) (fun b d' => Q b (dcat d d'))) ->
    wpc (cbind m k) c Q.
  Proof.
    intros (a & d & E & P & b & d' & E' & P' & H). exists b, (dcat d d').
    unfold cbind. rewrite E, E', capp_cat. auto using plain_cat.
  Qed.

  Lemma wpc_lift {A} (f : circuit K -> outcome cerr A) c a (Q : A -> delta K -> Prop) :
    f c = Ok a -> Q a dnil -> wpc (lift f) c Q.
  Proof. intros E H. exists a, dnil. unfold lift. rewrite E, capp_nil. auto using plain_nil. Qed.

  Lemma dcat_nil_l d : dcat dnil d = d.
  Proof. destruct d; reflexivity. Qed.

  Lemma wpc_bind_lift {A B} (f : circuit K -> outcome cerr A) (k : A -> circ K B) c a Q :
    f c = Ok a -> wpc (k a) c Q -> wpc (cbind (lift f) k) c Q.
  Proof.
    intros E H. apply wpc_bind. apply wpc_lift with a; auto.
    rewrite capp_nil. destruct H as (b & d & E' & HQ). exists b, d. rewrite dcat_nil_l. auto.
  Qed.

  Lemma wpc_chk {B} (v : nat) (k : unit -> circ K B) c Q :
    (v < num_vars c)%nat -> wpc (k tt) c Q -> wpc (cbind (check_var_bound v) k) c Q.
  Proof.
    intros Hv. apply wpc_bind_lift. destruct (Nat.leb_spec (num_vars c) v); [lia|reflexivity].
  Qed.

  Lemma wpc_chks {B} (vs : list nat) (k : unit -> circ K B) c Q :
    Forall (fun v => v < num_vars c)%nat vs -> wpc (k tt) c Q -> wpc (cbind (check_vars_bound vs) k) c Q.
  Proof.
    intros Hv (b & d & E & H). exists b, d. split; auto.
    assert (E' : check_vars_bound vs c = (Ok tt, c)).
    { clear E H. induction Hv as [|v vs Hv _ IH]; [reflexivity|].
      unfold check_vars_bound in *. cbn [iterM]. unfold cbind at 1. unfold check_var_bound, lift at 1.
      destruct (Nat.leb_spec (num_vars c) v); [lia|]. exact IH. }
    unfold cbind. rewrite E'. exact E.
  Qed.

  Lemma wpc_wit {B} (v : nat) (k : K -> circ K B) c Q :
    wf c -> (v < num_vars c)%nat -> wpc (k (hon c v)) c Q -> wpc (cbind (get_witness v) k) c Q.
  Proof.
    intros Hw Hv (b & d & E & H). exists b, d. split; auto.
    unfold cbind, get_witness, check_var_bound, lift, cbind.
    destruct (Nat.leb_spec (num_vars c) v); [lia|].
    unfold index. rewrite (nth_error_nth' _ 0) by (rewrite (wf_wit _ Hw); auto). exact E.
  Qed.

  Lemma finalize_false c : wf c -> check_finalize_flag false c = (Ok tt, c).
  Proof.
    intros Hw. unfold check_finalize_flag, lift, is_finalized. rewrite (wf_open _ Hw). reflexivity.
  Qed.

  Lemma wpc_insert (r : row) (g : gate K) c (Q : unit -> delta K -> Prop) :
    wf c -> plain_gate (num_vars c) (g, r) -> Q tt (dgate g r) -> wpc (insert_gate r g) c Q.
  Proof.
    intros Hw Hp H. exists tt, (dgate g r). split; [|split; auto using plain_dgate].
    unfold insert_gate, cbind. rewrite (finalize_false _ Hw). unfold modify.
    unfold push_row, push_gate, capp, dgate; cbn. rewrite !app_nil_r, !Nat.add_0_r. reflexivity.
  Qed.

  Lemma wpc_var (x : K) c (Q : nat -> delta K -> Prop) :
    wf c -> Q (num_vars c) (dval x) -> wpc (create_variable x) c Q.
  Proof.
    intros Hw H. exists (num_vars c), (dval x). split; [|split; auto using plain_val].
    unfold create_variable, cbind. rewrite (finalize_false _ Hw). unfold modify, lift, push_var; cbn.
    unfold capp; cbn. rewrite !app_nil_r, !Nat.add_0_r. f_equal; [f_equal; lia|].
    f_equal. lia.
  Qed.

  Lemma wpc_bind_var {B} (x : K) (k : nat -> circ K B) c Q : wf c ->
    wpc (k (num_vars c)) (capp c (dval x)) (fun b d' => Q b (dcat (dval x) d')) ->
    wpc (cbind (create_variable x) k) c Q.
  Proof. intros Hw H. apply wpc_bind. apply wpc_var; auto. Qed.

  Lemma wpc_bind_insert {B} r g (k : unit -> circ K B) c Q : wf c ->
    plain_gate (num_vars c) (g, r) ->
    wpc (k tt) (capp c (dgate g r)) (fun b d' => Q b (dcat (dgate g r) d')) ->
    wpc (cbind (insert_gate r g) k) c Q.
  Proof. intros Hw Hp H. apply wpc_bind. apply wpc_insert; auto. Qed.

  Lemma cbind_assoc {A B D} (m : circ K A) (f : A -> circ K B) (g : B -> circ K D) c :
    cbind (cbind m f) g c = cbind m (fun a => cbind (f a) g) c.
  Proof. unfold cbind. destruct (m c) as [[a| |] c']; reflexivity. Qed.
  Lemma wpc_assoc {A B D} (m : circ K A) (f : A -> circ K B) (g : B -> circ K D) c Q :
    wpc (cbind m (fun a => cbind (f a) g)) c Q -> wpc (cbind (cbind m f) g) c Q.
  Proof. intros (a & d & E & H). exists a, d. rewrite cbind_assoc. auto. Qed.

  (** The specification of a gadget: it succeeds on [c]; every satisfying
      assignment is in relation [S]; the assignment computed by the code
      satisfies the constraints whenever [C] holds of the inputs. *)
  Definition gspec {A} (m : circ K A) (c : circuit K)
      (S : (nat -> K) -> A -> Prop) (C : (nat -> K) -> Prop) (R : A -> nat -> Prop) : Prop :=
    wpc m c (fun a d =>
      (forall w, base w -> dsat (ptype c) w d -> S w a)
      /\ (forall w, base w -> hext (capp c d) w -> C w -> dsat (ptype c) w d)
      /\ R a (num_vars c + length (d_vals d))%nat).

  Lemma ptype_capp c d : ptype (capp c d) = ptype c.
  Proof. reflexivity. Qed.
  Lemma num_vars_capp c d : num_vars (capp c d) = (num_vars c + length (d_vals d))%nat.
  Proof. reflexivity. Qed.
  Lemma num_vars_le c d : (num_vars c <= num_vars (capp c d))%nat.
  Proof. cbn; lia. Qed.
End Framework.

Arguments dnil {K}. Arguments dcat {K}. Arguments dgate {K}. Arguments dval {K}. Arguments drange {K}.
