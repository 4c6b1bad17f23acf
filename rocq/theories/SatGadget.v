(** From the constraints a gadget appends to what the code accepts. *)

From Coq Require Import List Arith ZArith Bool Lia.
From Verif Require Import Base ListAux Alg CircuitModel CircuitProofs GadgetProofs SatProofs.
Import ListNotations.
Local Open Scope fld_scope.
Local Open Scope circ_scope.

Section Sat.
  Context {K : fld}.
  Variable zval : K -> Z.
  Notation accepts := (accepts zval).
  Notation csat := (csat zval).

  (** A circuit under construction: it started from [new_circuit], it is not
      finalized and its wires carry existing variables. *)
  Record good (c : circuit K) : Prop := {
    gd_wf : wf c;
    gd_bd : bounded c;
    gd_g0 : nth_error (gates c) 0 = Some (constant_gate K 0);
    gd_r0 : nth_error (rows c) 0 = Some (mk_row 0 0 0 0 0);
    gd_g1 : nth_error (gates c) 1 = Some (constant_gate K 1);
    gd_r1 : nth_error (rows c) 1 = Some (mk_row 0 0 0 0 1) }.

  (** [c'] is a later state of the circuit [c]. *)
  Record extends (c c' : circuit K) : Prop := {
    ex_type : ptype c' = ptype c;
    ex_vars : (num_vars c <= num_vars c')%nat;
    ex_gates : exists l, gates c' = gates c ++ l;
    ex_rows : exists l, rows c' = rows c ++ l;
    ex_range : exists l, range_col c' = range_col c ++ l }.

  Lemma good_new t : good (new_circuit K t).
  Proof.
    split; try reflexivity.
    - split; try reflexivity.
    - split; try reflexivity; cbn; repeat constructor; cbn; lia.
  Qed.

  Lemma good_capp c d : good c -> plain (num_vars c) d -> good (capp c d).
  Proof.
    intros [W B G0 R0 G1 R1] (P1 & P2 & P3 & P4 & P5). split; cbn [capp gates rows].
    - apply wf_capp; auto.
    - destruct B as [B1 B2 B3 B4]. split; cbn [capp gates rows num_vars range_col pub_ids].
      + rewrite !app_length, !map_length. lia.
      + apply Forall_app; split.
        * eapply Forall_impl; [|exact B2]. intros r. apply row_lt_mono. lia.
        * apply Forall_forall. intros r Hr. apply in_map_iff in Hr as (gr & <- & Hgr).
          rewrite Forall_forall in P4. apply (P4 gr Hgr).
      + apply Forall_app; split; auto. eapply Forall_impl; [|exact B3]. cbn beta. intros; lia.
      + rewrite P1, app_nil_r, app_length. eapply Forall_impl; [|exact B4]. cbn beta. intros; lia.
    - rewrite nth_error_app1; auto. apply nth_error_Some. congruence.
    - rewrite nth_error_app1; auto. apply nth_error_Some. congruence.
    - rewrite nth_error_app1; auto. apply nth_error_Some. congruence.
    - rewrite nth_error_app1; auto. apply nth_error_Some. congruence.
  Qed.
  Lemma extends_capp c d : extends c (capp c d).
  Proof. split; cbn; eauto. lia. Qed.
  Lemma extends_refl c : extends c c.
  Proof. split; auto; exists []; now rewrite app_nil_r. Qed.
  Lemma extends_trans a b c : extends a b -> extends b c -> extends a c.
  Proof.
    intros [A1 A2 [l1 A3] [l2 A4] [l3 A5]] [B1 B2 [m1 B3] [m2 B4] [m3 B5]].
    split; try congruence; try lia.
    - exists (l1 ++ m1). now rewrite B3, A3, app_assoc.
    - exists (l2 ++ m2). now rewrite B4, A4, app_assoc.
    - exists (l3 ++ m3). now rewrite B5, A5, app_assoc.
  Qed.

  Lemma prefix_nth {A} (l l' : list A) j x : (exists m, l' = l ++ m) -> nth_error l j = Some x -> nth_error l' j = Some x.
  Proof. intros [m ->] H. rewrite nth_error_app1; auto. apply nth_error_Some. congruence. Qed.

  Lemma csat_base c w pub : good c -> csat c w pub -> base w.
  Proof.
    intros G C. split.
    - pose proof (cs_gate _ _ _ _ C 0%nat _ _ (gd_g0 _ G) (gd_r0 _ G) eq_refl) as H. now apply gsat_const in H.
    - pose proof (cs_gate _ _ _ _ C 1%nat _ _ (gd_g1 _ G) (gd_r1 _ G) eq_refl) as H. now apply gsat_const in H.
  Qed.
  Lemma csat_base_ext c c' w pub : good c -> extends c c' -> csat c' w pub -> base w.
  Proof.
    intros G E C. split.
    - pose proof (cs_gate _ _ _ _ C 0%nat _ _ (prefix_nth _ _ _ _ (ex_gates _ _ E) (gd_g0 _ G))
        (prefix_nth _ _ _ _ (ex_rows _ _ E) (gd_r0 _ G)) eq_refl) as H. now apply gsat_const in H.
    - pose proof (cs_gate _ _ _ _ C 1%nat _ _ (prefix_nth _ _ _ _ (ex_gates _ _ E) (gd_g1 _ G))
        (prefix_nth _ _ _ _ (ex_rows _ _ E) (gd_r1 _ G)) eq_refl) as H. now apply gsat_const in H.
  Qed.

  (** The appended constraints hold in every later state. *)
  Lemma csat_dsat c d c' w pub : wf c -> extends (capp c d) c' -> csat c' w pub -> dsat zval (ptype c) w d.
  Proof.
    intros W E C. destruct E as [E1 E2 [l1 E3] [l2 E4] [l3 E5]]. cbn [capp gates rows range_col ptype] in *.
    split.
    - apply Forall_forall. intros [g r] Hin Hio. cbn [fst snd] in *.
      apply In_nth_error in Hin as [k Hk].
      eapply (cs_gate _ _ _ _ C (length (gates c) + k)%nat g r); auto.
      + rewrite E3. rewrite nth_error_app1.
        * rewrite nth_error_app2 by lia. replace (length (gates c) + k - length (gates c))%nat with k by lia.
          apply (map_nth_error fst _ _ Hk).
        * rewrite app_length, map_length. assert (k < length (d_gates d))%nat by (apply nth_error_Some; congruence). lia.
      + rewrite E4. rewrite nth_error_app1.
        * rewrite nth_error_app2 by (rewrite (wf_rows _ W); lia). rewrite (wf_rows _ W).
          replace (length (gates c) + k - length (gates c))%nat with k by lia.
          apply (map_nth_error snd _ _ Hk).
        * rewrite app_length, map_length, (wf_rows _ W). assert (k < length (d_gates d))%nat by (apply nth_error_Some; congruence). lia.
    - apply Forall_forall. intros v Hv. rewrite <- E1. apply (cs_range _ _ _ _ C). rewrite E5.
      apply in_or_app; left. apply in_or_app; right; auto.
  Qed.

  Lemma gsat_ext (w w' : nat -> K) pi g r n : row_lt n r -> (forall v, (v < n)%nat -> w v = w' v) ->
    gsat w pi g r -> gsat w' pi g r.
  Proof.
    intros (H0 & H1 & H2 & H3 & H4) E. unfold gsat. rewrite !E by auto. auto.
  Qed.
  Lemma rsat_ext t (w w' : nat -> K) v : w v = w' v -> rsat zval t w v -> rsat zval t w' v.
  Proof. destruct t; cbn; auto. intros ->. auto. Qed.

  Lemma bd_row_lt (c : circuit K) j r : bounded c -> nth_error (rows c) j = Some r -> row_lt (num_vars c) r.
  Proof. intros B H. pose proof (bd_row _ B) as F. rewrite Forall_forall in F. apply F. eapply nth_error_In; eauto. Qed.

  (** A circuit with plain additions is satisfied exactly when the circuit and
      the additions are. *)
  Lemma csat_plain c d w w0 pub : good c -> plain (num_vars c) d ->
    (forall v, (v < num_vars c)%nat -> w v = w0 v) ->
    csat (capp c d) w pub <-> csat c w0 pub /\ dsat zval (ptype c) w d.
  Proof.
    intros G P Hw. pose proof (gd_wf _ G) as W. pose proof (gd_bd _ G) as B. pose proof P as (P1 & P2 & P3 & P4 & P5).
    assert (Hw' : forall v, (v < num_vars c)%nat -> w0 v = w v) by (intros; symmetry; auto).
    assert (Hg : forall j g, nth_error (gates (capp c d)) j = Some g ->
      nth_error (gates c) j = Some g \/ exists k r, j = (length (gates c) + k)%nat /\ nth_error (d_gates d) k = Some (g, r)).
    { intros j g H. cbn [capp gates] in H. destruct (Nat.lt_ge_cases j (length (gates c))) as [L|L].
      - left. rewrite nth_error_app1 in H; auto.
      - right. rewrite nth_error_app2 in H by auto. exists (j - length (gates c))%nat.
        rewrite nth_error_map in H. destruct (nth_error (d_gates d) (j - length (gates c))) as [[g' r]|] eqn:E; [|discriminate].
        cbn in H. inversion H; subst. exists r. split; auto. lia. }
    assert (Hgr : forall j g r, nth_error (gates (capp c d)) j = Some g -> nth_error (rows (capp c d)) j = Some r ->
      (nth_error (gates c) j = Some g /\ nth_error (rows c) j = Some r) \/ In (g, r) (d_gates d)).
    { intros j g r H1 H2. destruct (Hg j g H1) as [L|(k & r' & -> & E)].
      - left. split; auto. cbn [capp rows] in H2. rewrite nth_error_app1 in H2; auto.
        rewrite (wf_rows _ W). apply nth_error_Some. congruence.
      - right. cbn [capp rows] in H2. rewrite <- (wf_rows _ W), nth_error_app2 in H2 by lia.
        replace (length (rows c) + k - length (rows c))%nat with k in H2 by lia.
        rewrite nth_error_map, E in H2. cbn in H2. inversion H2; subst. eapply nth_error_In; eauto. }
    assert (Hold : forall j g, nth_error (gates c) j = Some g -> nth_error (gates (capp c d)) j = Some g).
    { intros. apply (prefix_nth (gates c)); auto. cbn; eauto. }
    assert (Holr : forall j r, nth_error (rows c) j = Some r -> nth_error (rows (capp c d)) j = Some r).
    { intros. apply (prefix_nth (rows c)); auto. cbn; eauto. }
    assert (Hdr : forall g r, In (g, r) (d_gates d) -> is_io g = false /\ q_lookup g = 0).
    { intros g r Hin. rewrite Forall_forall in P4. specialize (P4 _ Hin). destruct P4 as (A1 & A2 & _). auto. }
    split.
    - intros C. split.
      + split.
        * rewrite (cs_len _ _ _ _ C). unfold num_inputs. cbn. now rewrite P1, app_nil_r.
        * intros i id E. destruct (cs_pub _ _ _ _ C i id) as (g & r & Eg & Er & H).
          { cbn. rewrite P1, app_nil_r. exact E. }
          assert (id < length (gates c))%nat.
          { pose proof (bd_pub _ B) as F. rewrite Forall_forall in F. apply F. eapply nth_error_In; eauto. }
          exists g, r. cbn [capp gates rows] in Eg, Er. rewrite nth_error_app1 in Eg by auto.
          rewrite nth_error_app1 in Er by (rewrite (wf_rows _ W); auto). split; auto. split; auto.
          eapply gsat_ext; [| |exact H]; eauto. eapply bd_row_lt; eauto.
        * intros j g r Eg Er Hio. eapply gsat_ext; [| |eapply (cs_gate _ _ _ _ C j g r); auto]; eauto.
          eapply bd_row_lt; eauto.
        * intros v Hv. eapply rsat_ext; [|apply (cs_range _ _ _ _ C)].
          -- apply Hw. pose proof (bd_range _ B) as F. rewrite Forall_forall in F. auto.
          -- cbn. apply in_or_app; auto.
        * intros Ht j g r Eg Er Hq.
          destruct (cs_lookup _ _ _ _ C Ht j g r (Hold _ _ Eg) (Holr _ _ Er) Hq) as [H|(j' & g' & r' & Eg' & Er' & Hq' & H)].
          -- left. destruct (bd_row_lt _ _ _ B Er) as (A0 & A1 & A2 & A3 & A4). now rewrite <- !Hw by auto.
          -- right. destruct (Hgr j' g' r' Eg' Er') as [[L1 L2]|Hin].
             ++ exists j', g', r'. split; auto. split; auto. split; auto.
                destruct (bd_row_lt _ _ _ B Er) as (A0 & A1 & A2 & A3 & A4).
                destruct (bd_row_lt _ _ _ B L2) as (B0 & B1 & B2 & B3 & B4).
                now rewrite <- !Hw by auto.
             ++ destruct (Hdr _ _ Hin). contradiction.
      + eapply csat_dsat; eauto. apply extends_refl.
    - intros [C [D1 D2]]. split.
      + rewrite (cs_len _ _ _ _ C). unfold num_inputs. cbn. now rewrite P1, app_nil_r.
      + intros i id E. cbn [capp pub_ids] in E. rewrite P1, app_nil_r in E.
        destruct (cs_pub _ _ _ _ C i id E) as (g & r & Eg & Er & H).
        exists g, r. split; auto. split; auto. eapply gsat_ext; [| |exact H]; eauto. eapply bd_row_lt; eauto.
      + intros j g r Eg Er Hio. destruct (Hgr j g r Eg Er) as [[L1 L2]|Hin].
        * eapply gsat_ext; [| |eapply (cs_gate _ _ _ _ C j g r); auto]; eauto. eapply bd_row_lt; eauto.
        * rewrite Forall_forall in D1. apply (D1 _ Hin). auto.
      + intros v Hv. cbn [capp range_col ptype] in *. apply in_app_or in Hv as [Hv|Hv].
        * eapply rsat_ext; [|apply (cs_range _ _ _ _ C); auto].
          apply Hw'. pose proof (bd_range _ B) as F. rewrite Forall_forall in F. auto.
        * rewrite Forall_forall in D2. auto.
      + intros Ht j g r Eg Er Hq. destruct (Hgr j g r Eg Er) as [[L1 L2]|Hin]; [|destruct (Hdr _ _ Hin); contradiction].
        destruct (cs_lookup _ _ _ _ C Ht j g r L1 L2 Hq) as [H|(j' & g' & r' & Eg' & Er' & Hq' & H)].
        * left. destruct (bd_row_lt _ _ _ B L2) as (A0 & A1 & A2 & A3 & A4). now rewrite !Hw by auto.
        * right. exists j', g', r'. split; auto. split; auto. split; auto.
          destruct (bd_row_lt _ _ _ B L2) as (A0 & A1 & A2 & A3 & A4).
          destruct (bd_row_lt _ _ _ B Er') as (B0 & B1 & B2 & B3 & B4).
          now rewrite !Hw by auto.
  Qed.

  (** What a gadget call means for the circuit.  It succeeds and yields a later
      state [c'] of the circuit, and
      - every assignment accepted in [c'], or in any state after it, satisfies [S];
      - it only adds constraints;
      - the assignment the code computes is accepted exactly as before, provided
        [C] holds. *)
  Definition gadget_ok {A} (m : circ K A) (c : circuit K)
      (S : (nat -> K) -> A -> Prop) (C : (nat -> K) -> Prop) (R : A -> nat -> Prop) : Prop :=
    exists a c', m c = (Ok a, c') /\ good c' /\ extends c c' /\ R a (num_vars c')
      /\ (exists l, witness c' = witness c ++ l)
      /\ (forall c'' ws pub, extends c' c'' -> bounded c'' -> accepts c'' ws pub -> S (asg ws) a)
      /\ (forall ws pub, accepts c' ws pub -> accepts c (firstn (num_vars c) ws) pub)
      /\ (forall pub, accepts c (witness c) pub -> C (asg (witness c)) -> accepts c' (witness c') pub).

  Lemma asg_firstn n (ws : list K) v : (v < n)%nat -> asg (firstn n ws) v = asg ws v.
  Proof.
    intros H. unfold asg. rewrite <- (firstn_skipn n ws) at 2.
    destruct (Nat.lt_ge_cases v (length (firstn n ws))).
    - now rewrite app_nth1.
    - rewrite firstn_length in *. rewrite !nth_overflow; auto; rewrite ?app_length, ?firstn_length, ?skipn_length; lia.
  Qed.

  (** [C] must only look at the variables that exist when the gadget is called. *)
  Definition local (n : nat) (C : (nat -> K) -> Prop) : Prop :=
    forall w w', (forall v, (v < n)%nat -> w v = w' v) -> C w -> C w'.

  Theorem gspec_gadget {A} (m : circ K A) c S C R : good c -> local (num_vars c) C ->
    gspec zval m c S C R -> gadget_ok m c S C R.
  Proof.
    intros G Hloc (a & d & E & P & Snd & Cmp & HR).
    pose proof (gd_wf _ G) as W. exists a, (capp c d). split; auto.
    pose proof (good_capp _ _ G P) as G'. split; auto. split; [apply extends_capp|]. split; [exact HR|].
    split; [cbn; eauto|]. split; [|split].
    - intros c'' ws pub E' B'' Hacc. pose proof (proj1 Hacc) as Hl.
      apply (accepts_csat zval c'' ws pub B'' Hl) in Hacc.
      apply Snd; [|eapply csat_dsat; eauto].
      eapply csat_base_ext; [exact G| |exact Hacc]. eapply extends_trans; [apply extends_capp|exact E'].
    - intros ws pub Hacc. pose proof (proj1 Hacc) as Hl. cbn [capp num_vars] in Hl.
      assert (Hl' : length (firstn (num_vars c) ws) = num_vars c) by (rewrite firstn_length; lia).
      apply accepts_csat in Hacc; [|apply (gd_bd _ G')|exact Hl].
      apply accepts_csat; [apply (gd_bd _ G)|auto|].
      assert (Hx : forall v, (v < num_vars c)%nat -> asg ws v = asg (firstn (num_vars c) ws) v).
      { intros v Hv. symmetry. now apply asg_firstn. }
      exact (proj1 (proj1 (csat_plain c d (asg ws) _ pub G P Hx) Hacc)).
    - intros pub Hacc HC. pose proof (proj1 Hacc) as Hl.
      assert (Hl' : length (witness (capp c d)) = num_vars (capp c d)) by (cbn; rewrite app_length; lia).
      apply accepts_csat in Hacc; [|apply (gd_bd _ G)|exact Hl].
      apply accepts_csat; [apply (gd_bd _ G')|auto|].
      assert (Hw : forall v, (v < num_vars c)%nat -> asg (witness (capp c d)) v = asg (witness c) v).
      { intros v Hv. unfold asg. cbn. rewrite app_nth1; auto. lia. }
      apply (csat_plain c d _ (asg (witness c)) pub G P Hw). split; auto.
      apply Cmp.
      + pose proof (csat_base _ _ _ G Hacc) as [B0 B1]. pose proof (wf_two _ W).
        split; rewrite Hw by lia; auto.
      + intros v Hv. reflexivity.
      + eapply Hloc; [|exact HC]. intros v Hv. symmetry. auto.
  Qed.
  (** For a gadget that only enforces a condition, acceptance after the call is
      acceptance before it together with the condition. *)
  Theorem gadget_enforces (m : circ K unit) c (P : (nat -> K) -> Prop) R : good c -> local (num_vars c) P ->
    gadget_ok m c (fun w _ => P w) P R ->
    exists c', m c = (Ok tt, c') /\ good c' /\ extends c c' /\
      forall pub, accepts c' (witness c') pub <-> accepts c (witness c) pub /\ P (asg (witness c)).
  Proof.
    intros G Hloc ([] & c' & E & G' & Ex & _ & [l Hl] & Snd & Low & Cmp). exists c'. split; auto. split; auto. split; auto.
    pose proof (wf_wit _ (gd_wf _ G)) as Hw.
    intros pub. split.
    - intros H. split.
      + specialize (Low _ _ H). rewrite Hl, <- Hw, firstn_app, Nat.sub_diag, firstn_all in Low.
        cbn [firstn] in Low. now rewrite app_nil_r in Low.
      + specialize (Snd c' _ pub (extends_refl _) (gd_bd _ G') H). eapply Hloc; [|exact Snd].
        intros v Hv. unfold asg. rewrite Hl. rewrite app_nth1; auto. lia.
    - intros [H HP]. auto.
  Qed.
End Sat.
