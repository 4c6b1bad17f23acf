(** [check_circuit_satisfiability] as a predicate on assignments, and the
    meaning of a gadget for the whole circuit. *)

From Coq Require Import List Arith ZArith Bool Lia.
From Verif Require Import Base ListAux Alg CircuitModel CircuitProofs.
Import ListNotations.
Local Open Scope fld_scope.

Lemma nth_error_combine {A B} (l : list A) (l' : list B) n : nth_error (combine l l') n =
  match nth_error l n, nth_error l' n with Some a, Some b => Some (a, b) | _, _ => None end.
Proof.
  revert l' n; induction l as [|a l IH]; intros l' n.
  - destruct n; reflexivity.
  - destruct l' as [|b l']; cbn [combine].
    + destruct n; cbn; [reflexivity|]. destruct (nth_error l n); reflexivity.
    + destruct n; cbn; auto.
Qed.

Section Sat.
  Context {K : fld}.
  Variable zval : K -> Z.

  (** The circuit with another assignment of its variables. *)
  Definition with_witness (c : circuit K) (ws : list K) : circuit K :=
    mk_circuit K (num_vars c) (gates c) (rows c) (range_col c) (pub_ids c) ws (wire_perm c)
      (domain c) (ptype c) (num_table_elems c) (table_ids c).
  (** The code accepts the assignment [ws] with the public input [pub]. *)
  Definition accepts (c : circuit K) (ws pub : list K) : Prop :=
    length ws = num_vars c /\ check_circuit_satisfiability zval (with_witness c ws) pub = Ok tt.
  (** The value of a variable. *)
  Definition asg (ws : list K) (v : nat) : K := nth v ws 0.

  (** A lookup gate is satisfied: its entry is the all-zero entry or an entry of
      the table rows of the circuit. *)
  Definition lookup_ok (c : circuit K) (w : nat -> K) : Prop :=
    forall j g r, nth_error (gates c) j = Some g -> nth_error (rows c) j = Some r -> q_lookup g <> 0 ->
      (q_dom_sep g, w (r0 r), w (r1 r), w (r2 r)) = (0, 0, 0, 0) \/
      exists j' g' r', nth_error (gates c) j' = Some g' /\ nth_error (rows c) j' = Some r' /\ q_lookup g' <> 0
        /\ (q_dom_sep g, w (r0 r), w (r1 r), w (r2 r)) = (table_dom_sep g', table_key g', w (r3 r'), w (r4 r')).

  Record csat (c : circuit K) (w : nat -> K) (pub : list K) : Prop := {
    cs_len : length pub = num_inputs c;
    cs_pub : forall i id, nth_error (pub_ids c) i = Some id ->
       exists g r, nth_error (gates c) id = Some g /\ nth_error (rows c) id = Some r /\ gsat w (nth i pub 0) g r;
    cs_gate : forall j g r, nth_error (gates c) j = Some g -> nth_error (rows c) j = Some r ->
       is_io g = false -> gsat w 0 g r;
    cs_range : forall v, In v (range_col c) -> rsat zval (ptype c) w v;
    cs_lookup : ptype c <> Turbo -> lookup_ok c w }.

  (** A circuit under construction whose wires carry existing variables. *)
  Record bounded (c : circuit K) : Prop := {
    bd_rows : length (rows c) = length (gates c);
    bd_row : Forall (row_lt (num_vars c)) (rows c);
    bd_range : Forall (fun v => v < num_vars c)%nat (range_col c);
    bd_pub : Forall (fun i => i < length (gates c))%nat (pub_ids c) }.

  Lemma each_ok {A} (f : A -> outcome cerr unit) l : each f l = Ok tt <-> Forall (fun a => f a = Ok tt) l.
  Proof.
    induction l as [|a l IH]; cbn [each].
    - split; auto.
    - rewrite Forall_cons_iff. unfold bind. destruct (f a) as [[]| |].
      + rewrite IH. tauto.
      + split; [discriminate|intros [H _]; discriminate].
      + split; [discriminate|intros [H _]; discriminate].
  Qed.
  Lemma bind_ok {X A B} (r : outcome X A) (k : A -> outcome X B) b :
    bind r k = Ok b <-> exists a, r = Ok a /\ k a = Ok b.
  Proof.
    destruct r; cbn; split.
    - intros H. eauto.
    - intros (a' & E & H). inversion E; subst; auto.
    - discriminate.
    - intros (a' & E & _); discriminate.
    - discriminate.
    - intros (a' & E & _); discriminate.
  Qed.
  Lemma index_ok {A} (l : list A) i a : @index cerr A l i = Ok a <-> nth_error l i = Some a.
  Proof. unfold index. destruct (nth_error l i); split; intros H; inversion H; auto. Qed.
  Lemma index_lt (l : list K) i : (i < length l)%nat -> @index cerr K l i = Ok (nth i l 0).
  Proof. intros H. apply index_ok. apply nth_error_nth'; auto. Qed.

  Lemma check_gate_ok c ws id pi : length ws = num_vars c ->
    Forall (row_lt (num_vars c)) (rows c) ->
    check_gate (with_witness c ws) id pi = Ok tt <->
    exists g r, nth_error (gates c) id = Some g /\ nth_error (rows c) id = Some r /\ gsat (asg ws) pi g r.
  Proof.
    intros Hl Hb. unfold check_gate. rewrite bind_ok. cbn [with_witness rows witness gates].
    split.
    - intros (r & Er & H). apply index_ok in Er.
      assert (Hr : row_lt (num_vars c) r) by (rewrite Forall_forall in Hb; apply Hb; eapply nth_error_In; eauto).
      destruct Hr as (H0 & H1 & H2 & H3 & H4).
      repeat (rewrite index_lt in H by lia; cbn [bind] in H).
      apply bind_ok in H as (g & Eg & H). apply index_ok in Eg.
      exists g, r. split; auto. split; auto. unfold gsat, asg.
      destruct (feqb _ _) eqn:E; [|discriminate]. now apply feqb_eq in E.
    - intros (g & r & Eg & Er & H). exists r. split; [now apply index_ok|].
      assert (Hr : row_lt (num_vars c) r) by (rewrite Forall_forall in Hb; apply Hb; eapply nth_error_In; eauto).
      destruct Hr as (H0 & H1 & H2 & H3 & H4).
      repeat (rewrite index_lt by lia; cbn [bind]).
      apply bind_ok. exists g. split; [now apply index_ok|].
      unfold gsat, asg in H. rewrite H, feqb_refl. reflexivity.
  Qed.

  Lemma quad_eqb_eq (x y : K * K * K * K) : quad_eqb x y = true <-> x = y.
  Proof.
    destruct x as [[[a b] u] v], y as [[[a' b'] u'] v']. unfold quad_eqb.
    rewrite !andb_true_iff, !feqb_eq. split.
    - intros [[[-> ->] ->] ->]. reflexivity.
    - intros H. inversion H. auto.
  Qed.

  Lemma nth_gate c j g : nth_error (gates c) j = Some g -> nth j (gates c) (padding_gate K) = g.
  Proof. apply nth_error_nth. Qed.

  Lemma wval_ok c ws v : length ws = num_vars c -> (v < num_vars c)%nat ->
    wval (with_witness c ws) v = Ok (asg ws v).
  Proof.
    intros Hl Hv. unfold wval. cbn [with_witness num_vars witness].
    destruct (Nat.leb_spec (num_vars c) v); [lia|]. apply index_lt. lia.
  Qed.

  (** The table of a circuit. *)
  Lemma table_entries_ok c ws : length ws = num_vars c -> bounded c ->
    exists t, table_entries (with_witness c ws) = Ok t /\
      forall e, In e t <-> e = (0, 0, 0, 0) \/
        exists j g r, nth_error (gates c) j = Some g /\ nth_error (rows c) j = Some r /\ q_lookup g <> 0
          /\ e = (table_dom_sep g, table_key g, asg ws (r3 r), asg ws (r4 r)).
  Proof.
    intros Hl Hb. unfold table_entries.
    match goal with |- context [map_res ?h _] => set (f := h) end.
    assert (Hf : forall j, (j < length (gates c))%nat -> exists es, f j = Ok es /\
      forall e, In e es <-> exists g r, nth_error (gates c) j = Some g /\ nth_error (rows c) j = Some r /\ q_lookup g <> 0
          /\ e = (table_dom_sep g, table_key g, asg ws (r3 r), asg ws (r4 r))).
    { intros j Hj. unfold f. cbn [with_witness gates].
      assert (exists g, nth_error (gates c) j = Some g) as [g Eg].
      { destruct (nth_error (gates c) j) eqn:E; eauto. apply nth_error_None in E. lia. }
      assert (exists r, nth_error (rows c) j = Some r) as [r Er].
      { destruct (nth_error (rows c) j) eqn:E; eauto. apply nth_error_None in E. rewrite (bd_rows _ Hb) in E. lia. }
      rewrite (nth_gate _ _ _ Eg).
      pose proof (bd_row _ Hb) as Hr. rewrite Forall_forall in Hr. specialize (Hr r (nth_error_In _ _ Er)).
      destruct Hr as (H0 & H1 & H2 & H3 & H4).
      destruct (feqb (q_lookup g) 0) eqn:Eq.
      - apply feqb_eq in Eq. exists []. split; auto. intros e. split; [intros []|].
        intros (g' & r' & Eg' & _ & Hq & _). congruence.
      - apply feqb_neq in Eq. unfold wire_variable. cbn [Nat.ltb Nat.leb with_witness rows wire_of].
        rewrite (nth_error_nth _ _ _ Er). rewrite !wval_ok by auto. cbn [bind].
        eexists. split; [reflexivity|]. intros e. split.
        + intros [<-|[]]. exists g, r. auto.
        + intros (g' & r' & Eg' & Er' & _ & ->). rewrite Eg in Eg'. rewrite Er in Er'.
          inversion Eg'; inversion Er'; subst. left; reflexivity. }
    assert (G : forall l, Forall (fun j => j < length (gates c))%nat l ->
      exists ess, map_res f l = Ok ess /\
      forall e, In e (concat ess) <-> exists j g r, In j l /\ nth_error (gates c) j = Some g /\ nth_error (rows c) j = Some r /\ q_lookup g <> 0
          /\ e = (table_dom_sep g, table_key g, asg ws (r3 r), asg ws (r4 r))).
    { induction l as [|j l IH]; intros Hlt.
      - exists []. split; auto. intros e. split; [intros []|]. intros (j & g & r & [] & _).
      - inversion Hlt; subst. destruct (Hf j) as (es & E & He); auto.
        destruct IH as (ess & E' & He'); auto. exists (es :: ess). cbn [map_res]. rewrite E. cbn [bind].
        rewrite E'. cbn [bind]. split; auto. intros e. cbn [concat]. rewrite in_app_iff, He, He'.
        split.
        + intros [(g & r & H)|(j' & g & r & H)]; [exists j, g, r|exists j', g, r]; firstorder.
        + intros (j' & g & r & [<-|Hj] & H); [left|right]; eauto. }
    destruct (G (seq 0 (num_gates (with_witness c ws)))) as (ess & E & He).
    { apply Forall_forall. intros j Hj. apply in_seq in Hj. unfold num_gates in Hj. cbn in Hj. lia. }
    rewrite E. cbn [bind]. eexists; split; [reflexivity|]. intros e. cbn [In]. rewrite He. split.
    - intros [<-|(j & g & r & _ & H)]; auto. right. exists j, g, r. auto.
    - intros [->|(j & g & r & H)]; auto. right. exists j, g, r. split; auto.
      destruct H as [H _]. apply in_seq. unfold num_gates. cbn.
      assert (nth_error (gates c) j <> None) by congruence. apply nth_error_Some in H0. lia.
  Qed.

  (** The check of the code, as a statement about assignments. *)
  Theorem accepts_csat c ws pub : bounded c -> length ws = num_vars c ->
    (accepts c ws pub <-> csat c (asg ws) pub).
  Proof.
    intros Hb Hl. unfold accepts, check_circuit_satisfiability.
    change (num_inputs (with_witness c ws)) with (num_inputs c).
    change (ptype (with_witness c ws)) with (ptype c).
    change (pub_ids (with_witness c ws)) with (pub_ids c).
    change (num_gates (with_witness c ws)) with (num_gates c).
    change (range_col (with_witness c ws)) with (range_col c).
    change (gates (with_witness c ws)) with (gates c).
    destruct (Nat.eqb_spec (length pub) (num_inputs c)) as [El|El]; cbn [negb].
    2:{ split; [intros [_ H]; discriminate|intros [H _]; contradiction]. }
    assert (Hpub : each (fun ip => let* pi := index pub (fst ip) in check_gate (with_witness c ws) (snd ip) pi)
                     (combine (seq 0 (num_inputs c)) (pub_ids c)) = Ok tt <->
       forall i id, nth_error (pub_ids c) i = Some id ->
       exists g r, nth_error (gates c) id = Some g /\ nth_error (rows c) id = Some r /\ gsat (asg ws) (nth i pub 0) g r).
    { rewrite each_ok, Forall_forall. split.
      - intros H i id E.
        assert (Hi : (i < num_inputs c)%nat) by (apply nth_error_Some; congruence).
        specialize (H (i, id)). cbn [fst snd] in H.
        rewrite index_lt in H by lia. cbn [bind] in H. apply check_gate_ok in H; auto; [apply (bd_row _ Hb)|].
        apply (nth_error_In _ i). rewrite nth_error_combine. rewrite E.
        rewrite (nth_error_nth' (seq 0 (num_inputs c)) 0%nat) by (rewrite seq_length; auto). now rewrite seq_nth.
      - intros H [i id] Hin. apply In_nth_error in Hin as [n Hn]. rewrite nth_error_combine in Hn.
        destruct (nth_error (seq 0 (num_inputs c)) n) eqn:E1; [|discriminate].
        destruct (nth_error (pub_ids c) n) eqn:E2; [|discriminate]. inversion Hn; subst.
        assert (n < num_inputs c)%nat by (apply nth_error_Some; congruence).
        rewrite (nth_error_nth' (seq 0 (num_inputs c)) 0%nat) in E1 by (rewrite seq_length; auto).
        rewrite seq_nth in E1 by auto. inversion E1; subst. cbn [fst snd Nat.add].
        rewrite index_lt by lia. cbn [bind]. apply check_gate_ok; auto. apply (bd_row _ Hb). }
    assert (Hgate : each (fun j => if is_io (nth j (gates c) (padding_gate K)) then Ok tt else check_gate (with_witness c ws) j 0)
                     (seq 0 (num_gates c)) = Ok tt <->
       forall j g r, nth_error (gates c) j = Some g -> nth_error (rows c) j = Some r -> is_io g = false -> gsat (asg ws) 0 g r).
    { rewrite each_ok, Forall_forall. split.
      - intros H j g r Eg Er Hio.
        assert (Hj : (j < num_gates c)%nat) by (apply nth_error_Some; congruence).
        specialize (H j). rewrite (nth_gate _ _ _ Eg), Hio in H.
        apply check_gate_ok in H; auto; [|apply (bd_row _ Hb)|apply in_seq; lia].
        destruct H as (g' & r' & Eg' & Er' & H). congruence.
      - intros H j Hj. apply in_seq in Hj. unfold num_gates in Hj.
        destruct (nth_error (gates c) j) as [g|] eqn:Eg; [|apply nth_error_None in Eg; lia].
        destruct (nth_error (rows c) j) as [r|] eqn:Er; [|apply nth_error_None in Er; rewrite (bd_rows _ Hb) in Er; lia].
        rewrite (nth_gate _ _ _ Eg). destruct (is_io g) eqn:Eio; auto.
        apply check_gate_ok; auto; [apply (bd_row _ Hb)|]. exists g, r. split; auto. split; auto. eapply H; eauto. }
    assert (Hrange : forall b, ptype c = Ultra b -> each (check_range_gate zval (with_witness c ws)) (seq 0 (length (range_col c))) = Ok tt <->
       forall v, In v (range_col c) -> rsat zval (ptype c) (asg ws) v).
    { intros b Ht. rewrite each_ok, Forall_forall. unfold check_range_gate, range_bound, range_size, range_bit_len.
      change (ptype (with_witness c ws)) with (ptype c).
      change (range_col (with_witness c ws)) with (range_col c).
      change (witness (with_witness c ws)) with ws. rewrite Ht. cbn [bind].
      assert (Hr : forall v, In v (range_col c) -> (v < length ws)%nat).
      { intros v Hv. pose proof (bd_range _ Hb) as H. rewrite Forall_forall in H. rewrite Hl. auto. }
      split.
      - intros H v Hv. pose proof (Hr v Hv). apply In_nth_error in Hv as [i Hi].
        assert (i < length (range_col c))%nat by (apply nth_error_Some; congruence).
        specialize (H i ltac:(apply in_seq; lia)).
        destruct (Nat.leb_spec (length (range_col c)) i); [lia|].
        rewrite (proj2 (index_ok _ _ _) Hi) in H. cbn [bind] in H. rewrite index_lt in H by auto. cbn [bind] in H.
        match type of H with (if ?b then _ else _) = _ => destruct b eqn:E; [discriminate|] end.
        apply Z.leb_gt in E. exact E.
      - intros H i Hi. apply in_seq in Hi.
        destruct (Nat.leb_spec (length (range_col c)) i); [lia|].
        destruct (nth_error (range_col c) i) as [v|] eqn:E; [|apply nth_error_None in E; lia].
        pose proof (nth_error_In _ _ E) as Hin. specialize (H v Hin). pose proof (Hr v Hin).
        rewrite (proj2 (index_ok _ _ _) E). cbn [bind]. rewrite index_lt by auto. cbn [bind].
        cbn [rsat] in H. unfold asg in H. apply Z.leb_gt in H. rewrite H. reflexivity. }
    destruct (table_entries_ok c ws Hl Hb) as (t & Et & Ht).
    assert (Hlook : each (check_lookup_gate (with_witness c ws) t) (seq 0 (num_gates c)) = Ok tt <-> lookup_ok c (asg ws)).
    { rewrite each_ok, Forall_forall.
      assert (Hone : forall j g r, nth_error (gates c) j = Some g -> nth_error (rows c) j = Some r ->
        (check_lookup_gate (with_witness c ws) t j = Ok tt <->
         (q_lookup g <> 0 -> In (q_dom_sep g, asg ws (r0 r), asg ws (r1 r), asg ws (r2 r)) t))).
      { intros j g r Eg Er. unfold check_lookup_gate. cbn [with_witness gates]. rewrite (nth_gate _ _ _ Eg).
        pose proof (bd_row _ Hb) as Hr. rewrite Forall_forall in Hr. specialize (Hr r (nth_error_In _ _ Er)).
        destruct Hr as (H0 & H1 & H2 & H3 & H4).
        destruct (feqb (q_lookup g) 0) eqn:Eq.
        - apply feqb_eq in Eq. split; [intros _ H; contradiction|auto].
        - apply feqb_neq in Eq. unfold wire_variable. cbn [Nat.ltb Nat.leb with_witness rows wire_of].
          rewrite (nth_error_nth _ _ _ Er). rewrite !wval_ok by auto. cbn [bind].
          destruct (existsb _ t) eqn:Ex.
          + apply existsb_exists in Ex as (e & He & Hq). apply quad_eqb_eq in Hq. subst e. split; auto.
          + split; [discriminate|]. intros H. specialize (H Eq).
            assert (existsb (quad_eqb (q_dom_sep g, asg ws (r0 r), asg ws (r1 r), asg ws (r2 r))) t = true).
            { apply existsb_exists. eexists; split; [exact H|]. now apply quad_eqb_eq. }
            congruence. }
      split.
      - intros H j g r Eg Er Hq. assert (Hj : (j < num_gates c)%nat) by (apply nth_error_Some; congruence).
        specialize (H j ltac:(apply in_seq; lia)). apply (Hone j g r Eg Er) in H; auto.
        apply Ht in H. exact H.
      - intros H j Hj. apply in_seq in Hj. unfold num_gates in Hj.
        destruct (nth_error (gates c) j) as [g|] eqn:Eg; [|apply nth_error_None in Eg; lia].
        destruct (nth_error (rows c) j) as [r|] eqn:Er; [|apply nth_error_None in Er; rewrite (bd_rows _ Hb) in Er; lia].
        apply (Hone j g r Eg Er). intros Hq. apply Ht. eapply H; eauto. }
    split.
    - intros [_ H]. apply bind_ok in H as ([] & H1 & H). apply bind_ok in H as ([] & H2 & H).
      pose proof (proj1 Hpub H1) as P1. pose proof (proj1 Hgate H2) as P2. destruct (ptype c) eqn:Ep.
      + split; auto; [|congruence]. intros v _. rewrite Ep. exact I.
      + apply bind_ok in H as ([] & H3 & H). rewrite Et in H. cbn [bind] in H.
        pose proof (proj1 (Hrange _ eq_refl) H3) as P3. pose proof (proj1 Hlook H) as P4. split; auto. rewrite Ep. exact P3.
    - intros [C1 C2 C3 C4 C5]. split; auto.
      apply bind_ok. exists tt. split; [now apply Hpub|]. apply bind_ok. exists tt. split; [now apply Hgate|].
      destruct (ptype c) eqn:Ep; auto.
      apply bind_ok. exists tt. split.
      + apply (Hrange _ eq_refl). exact C4.
      + rewrite Et. cbn [bind]. apply Hlook. apply C5. congruence.
  Qed.
End Sat.
