(** C75: the Merkle tree gadgets.

    The levels of a proof are read off an assignment as pairs of a branch and two
    siblings; [member_root] folds them from a leaf as the off-circuit verifier does,
    and [lefts_ok] says that the leftmost label of every level is not zero.
    [gadget_ok] is explained in [CircuitProps]. *)

From Coq Require Import List Arith NArith ZArith Znumtheory Bool Lia.
From Verif Require Import Base ListAux Alg FiniteField BitProofs RescueModel RescueConst RescueProps
  CircuitModel CircuitProofs GadgetModel GadgetProofs SatProofs SatGadget CircuitProps IndepProofs RescueGadgetModel RescueGadgetProofs RescueGadgetProps
  MerkleModel MerkleSpec MerkleProofs MerklePrune MerkleHistory MerkleAppend MerkleHist MerkleApi MerkleGadgetModel MerkleGadgetProofs MerkleGadgetTree.
Import ListNotations.
Local Open Scope fld_scope.
Local Open Scope circ_scope.

Section Props.
  Context {K : fld}.
  Variable zval : K -> Z.
  Variable P : rescue_params K.
  Hypothesis HP : rescue_ok P.
  Hypothesis H2 : (1 + 1 : K) <> 0.
  Ltac start := destruct HP as ((q & Hq & Ha) & Ha5 & Hk & Hi).
  Notation path := (to_traversal_path 3).
  Notation verify := (MerkleModel.verify feqb 0 (rescue_node P) (rescue_leaf P) 3).
  Notation nm_verify := (MerkleModel.non_membership_verify feqb 0 (rescue_node P) (rescue_leaf P) 3).
  Notation uhist := (uhist 0 (rescue_node P) (rescue_leaf P) 3).
  Notation ahist := (ahist feqb 0 (rescue_node P) (rescue_leaf P) 3).
  Notation contents m h := (canon 0 (rescue_node P) (rescue_leaf P) 3 m h 0).
  Notation cap t := (3 ^ height t)%nat.

  (** The levels that an assignment gives to the proof nodes. *)
  Definition levels (w : nat -> K) (ns : list mnode) : list (nat * list K) := map (step_of w) ns.
  Lemma levels_good w ns : Forall good_step (levels w ns).
  Proof.
    unfold levels. apply Forall_forall. intros bs H. apply in_map_iff in H as (n & <- & _). unfold good_step, step_of, branch. cbn [fst snd sibs length].
    destruct (feqb (w (is_left n)) 1), (feqb (w (is_right n)) 1); split; lia.
  Qed.

  (** A membership statement as a caller writes it: proof variables from a position and
      the sibling lists, then the check for the variables of index, value and root. *)
  Definition prove_membership (pos : nat) (pf : list (list K)) (idx e com : nat) : circ K (list mnode) :=
    ns <- create_membership_proof_variable pos pf ;;
    enforce_membership_proof P idx e ns com >> ret ns.
  Definition prove_non_membership (pos : nat) (pf : list (list K)) (idx com : nat) : circ K (list mnode) :=
    ns <- create_non_membership_proof_variable pos pf ;;
    enforce_non_membership_proof P idx ns com >> ret ns.
  (** The same with the answer as a Boolean. *)
  Definition test_membership (pos : nat) (pf : list (list K)) (idx e com : nat) : circ K (nat * list mnode) :=
    ns <- create_membership_proof_variable pos pf ;;
    o <- is_member P idx e ns com ;; ret (o, ns).
  Definition test_non_membership (pos : nat) (pf : list (list K)) (idx com : nat) : circ K (nat * list mnode) :=
    ns <- create_non_membership_proof_variable pos pf ;;
    o <- is_non_member P idx ns com ;; ret (o, ns).

  (** What the circuit checks. *)
  Definition member_rel (w : nat -> K) (idx e com : nat) (l : list (nat * list K)) : Prop :=
    w com = member_root P (w idx) (w e) l /\ lefts_ok P (rescue_leaf_at P (w idx) (w e)) l.
  Definition nodes_in (pf : list (list K)) (ns : list mnode) (n : nat) : Prop :=
    length ns = length pf /\ Forall (fun x => nb x n) ns.

  Lemma base_later (c c' : circuit K) : wf c -> base (hon c) -> later c c' -> base (hon c').
  Proof. intros W [B0 B1] (_ & _ & _ & H). pose proof (wf_two _ W). split; rewrite H by lia; auto. Qed.
  Lemma hspec_gspec' {A} (m : circ K A) c S C V R : hspec zval m c S C V R -> gspec zval m c S C R.
  Proof. intros H. unfold hspec, gspec in *. eapply wpc_mono; [exact H|]. intros a d _ (A1 & A2 & _ & A4). auto. Qed.
  Lemma hspec_value {A} (m : circ K A) c S C (V : (nat -> K) -> A -> Prop) R a c' : wf c -> base (hon c) -> hspec zval m c S C V R ->
    m c = (Ok a, c') -> V (asg (witness c')) a.
  Proof.
    intros W B (a' & d & E & _ & _ & _ & Hv & _) E'. rewrite E in E'. injection E' as <- <-. apply Hv; [|apply hext_hon].
    apply (base_later c); auto. apply later_capp; auto.
  Qed.
  Lemma nodes_nh (c c' : circuit K) ns : Forall (fun n => nb n (num_vars c')) ns -> Forall (flags_ok (hon c')) ns -> later c c' -> Forall (nh c') ns.
  Proof. intros B F _. rewrite Forall_forall in *. intros n Hn. specialize (B n Hn). destruct (F n Hn) as (F1 & F2 & _). repeat split; auto; apply B. Qed.
  Lemma nb_later (c c' : circuit K) ns : later c c' -> Forall (fun n => nb n (num_vars c)) ns -> Forall (fun n => nb n (num_vars c')) ns.
  Proof. intros (_ & L & _) H. eapply Forall_impl; [|exact H]. intros a. cbn beta. unfold nb. lia. Qed.

  Lemma b2k_iff (b : bool) : (b2k b : K) = 1 <-> b = true.
  Proof. pose proof (f1_neq_0 K). destruct b; cbn; split; auto; try discriminate; intros E; exfalso; congruence. Qed.
  Lemma member_local (c : circuit K) l idx e com : inc c idx -> inc c e -> inc c com -> local (num_vars c) (fun w => member_rel w idx e com l).
  Proof. intros A B D w w' E. unfold member_rel. rewrite !E by auto. auto. Qed.

  Section Membership.
    Variables (c : circuit K) (pos : nat) (pf : list (list K)) (idx e com : nat).
    Hypothesis G : good c.
    Hypothesis B : base (hon c).
    Hypotheses (Hidx : inc c idx) (He : inc c e) (Hcom : inc c com).

    Theorem C75_membership : Forall (fun s => length s = 2%nat) pf ->
      gadget_ok zval (prove_membership pos pf idx e com) c
        (fun w ns => member_rel w idx e com (levels w ns))
        (fun w => member_rel w idx e com (combine (path pos (length pf)) pf)) (nodes_in pf).
    Proof.
      intros Hpf. start. pose proof (gd_wf _ G) as W. apply gspec_gadget; [exact G|apply member_local; auto|].
      unfold prove_membership. apply (hspec_gspec' _ _ _ _ (fun _ _ => True)).
      eapply hspec_seq with (1 := W) (2 := create_membership_spec zval P q Ha Ha5 Hk Hi pos pf c W Hpf); [auto|].
      intros ns c1 L1 [R1 R2] V1. cbn beta. destruct (V1 (base_later _ _ W B L1)) as [_ F1].
      assert (N1 : Forall (nh c1) ns) by (eapply nodes_nh; eauto).
      eapply hspec_seq with (2 := gspec_hspec zval _ _ _ _ _ (enforce_membership_spec zval P q Hq Ha Ha5 Hk Hi H2 idx e ns com c1 ltac:(lt) ltac:(lt) ltac:(lt) ltac:(lt) N1)); [lt| |].
      { cbn beta. intros w _ ((E & Ls) & F & Ev & _). rewrite Ev. auto. }
      intros [] c2 L2 _ _. apply hspec_ret; cbn beta.
      - split; auto. eapply nb_later; eauto.
      - intros w _ S F. destruct (S F). split; auto.
      - intros w _ _ _. exact I.
    Qed.
    Theorem C75_is_member : Forall (fun s => length s = 2%nat) pf ->
      gadget_ok zval (test_membership pos pf idx e com) c
        (fun w o => (w (fst o) = 1 <-> w com = member_root P (w idx) (w e) (levels w (snd o))) /\ isb (w (fst o)) /\
                    lefts_ok P (rescue_leaf_at P (w idx) (w e)) (levels w (snd o)))
        (fun w => lefts_ok P (rescue_leaf_at P (w idx) (w e)) (combine (path pos (length pf)) pf))
        (fun o n => out (fst o) n /\ nodes_in pf (snd o) n).
    Proof.
      intros Hpf. start. pose proof (gd_wf _ G) as W. apply gspec_gadget; [exact G| |].
      { intros w w' E. now rewrite !E by auto. }
      unfold test_membership. apply (hspec_gspec' _ _ _ _ (fun _ _ => True)).
      eapply hspec_seq with (1 := W) (2 := create_membership_spec zval P q Ha Ha5 Hk Hi pos pf c W Hpf); [auto|].
      intros ns c1 L1 [R1 R2] V1. cbn beta. destruct (V1 (base_later _ _ W B L1)) as [_ F1].
      assert (N1 : Forall (nh c1) ns) by (eapply nodes_nh; eauto).
      eapply hspec_seq with (2 := gspec_hspec zval _ _ _ _ _ (is_member_spec zval P q Hq Ha Ha5 Hk Hi H2 idx e ns com c1 ltac:(lt) ltac:(lt) ltac:(lt) ltac:(lt) N1)); [lt| |].
      { cbn beta. intros w _ (Ls & F & Ev & _). rewrite Ev. auto. }
      intros o c2 L2 O2 _. apply hspec_ret; cbn beta; cbn [fst snd].
      - split; [lt|]. split; auto. eapply nb_later; eauto.
      - intros w _ S F. destruct (S F) as [Eo Ls]. split; [|split; [|exact Ls]]; rewrite Eo; fold (levels w ns).
        + rewrite b2k_iff, feqb_eq. reflexivity.
        + destruct (feqb _ _); [right|left]; reflexivity.
      - intros w _ _ _. exact I.
    Qed.
    Theorem C75_non_membership : Forall (fun s => length s = 2 \/ length s = 0)%nat pf ->
      gadget_ok zval (prove_non_membership pos pf idx com) c
        (fun w ns => w idx = fZ (Z.of_nat (pos_of (map fst (levels w ns)))) /\ w com = fold_left (nm_step P) (levels w ns) 0)
        (fun w => w idx = fZ (Z.of_nat (pos_of (path pos (length pf)))) /\
                  w com = fold_left (nm_step P) (map fill (combine (path pos (length pf)) pf)) 0) (nodes_in pf).
    Proof.
      clear He e. intros Hpf. start. pose proof (gd_wf _ G) as W. apply gspec_gadget; [exact G| |].
      { intros w w' E. now rewrite !E by auto. }
      unfold prove_non_membership. apply (hspec_gspec' _ _ _ _ (fun _ _ => True)).
      eapply hspec_seq with (1 := W) (2 := create_non_membership_spec zval P q Ha Ha5 Hk Hi pos pf c W Hpf); [auto|].
      intros ns c1 L1 [R1 R2] V1. cbn beta. destruct (V1 (base_later _ _ W B L1)) as [_ F1].
      assert (N1 : Forall (nh c1) ns) by (eapply nodes_nh; eauto).
      eapply hspec_seq with (2 := gspec_hspec zval _ _ _ _ _ (enforce_non_membership_spec zval P q Hq Ha Ha5 Hk Hi H2 idx ns com c1 ltac:(lt) (base_later _ _ W B L1) ltac:(lt) ltac:(lt) N1)); [lt| |].
      { cbn beta. intros w _ ((Ei & Ec) & F & Ev & _). split; auto. unfold non_member_ok. rewrite Ev, andb_true_iff, !feqb_eq. split; [|auto].
        rewrite Ei. f_equal. f_equal. f_equal. rewrite map_map. clear. cbn [fill fst].
        generalize (to_traversal_path 3 pos (length pf)) (path_length 3 pos (length pf)). generalize pf as l.
        induction l as [|x l IH]; intros [|d p] Hp; try discriminate; cbn [combine map fst]; auto. f_equal. apply IH. cbn in Hp. lia. }
      intros [] c2 L2 _ _. apply hspec_ret; cbn beta.
      - split; auto. eapply nb_later; eauto.
      - intros w _ S F. specialize (S F). unfold non_member_ok in S. rewrite andb_true_iff, !feqb_eq in S. destruct S. split; auto.
      - intros w _ _ _. exact I.
    Qed.
    Theorem C75_is_non_member : Forall (fun s => length s = 2 \/ length s = 0)%nat pf ->
      gadget_ok zval (test_non_membership pos pf idx com) c
        (fun w o => isb (w (fst o)) /\ (w (fst o) = 1 <->
           w idx = fZ (Z.of_nat (pos_of (map fst (levels w (snd o))))) /\ w com = fold_left (nm_step P) (levels w (snd o)) 0))
        (fun _ => True) (fun o n => out (fst o) n /\ nodes_in pf (snd o) n).
    Proof.
      clear He e. intros Hpf. start. pose proof (gd_wf _ G) as W. apply gspec_gadget; [exact G|intros ? ? ? ?; exact I|].
      unfold test_non_membership. apply (hspec_gspec' _ _ _ _ (fun _ _ => True)).
      eapply hspec_seq with (1 := W) (2 := create_non_membership_spec zval P q Ha Ha5 Hk Hi pos pf c W Hpf); [auto|].
      intros ns c1 L1 [R1 R2] V1. cbn beta. destruct (V1 (base_later _ _ W B L1)) as [_ F1].
      assert (N1 : Forall (nh c1) ns) by (eapply nodes_nh; eauto).
      eapply hspec_seq with (2 := gspec_hspec zval _ _ _ _ _ (is_non_member_spec zval P q Hq Ha Ha5 Hk Hi H2 idx ns com c1 ltac:(lt) (base_later _ _ W B L1) ltac:(lt) ltac:(lt) N1)); [lt| |].
      { cbn beta. tauto. }
      intros o c2 L2 O2 _. apply hspec_ret; cbn beta; cbn [fst snd].
      - split; [lt|]. split; auto. eapply nb_later; eauto.
      - intros w _ S F. rewrite (S F). fold (levels w ns). split; [destruct (non_member_ok _ _ _ _); [right|left]; reflexivity|].
        rewrite b2k_iff. unfold non_member_ok. rewrite andb_true_iff, !feqb_eq. split; intros [E1 E2]; auto.
      - intros w _ _ _. exact I.
    Qed.

    (** The nodes hold the given proof in the assignment the code computes. *)
    Lemma member_honest ns c' : Forall (fun s => length s = 2%nat) pf -> prove_membership pos pf idx e com c = (Ok ns, c') ->
      levels (asg (witness c')) ns = combine (path pos (length pf)) pf.
    Proof.
      intros Hpf Er. start. pose proof (gd_wf _ G) as W.
      assert (Hs : hspec zval (prove_membership pos pf idx e com) c (fun _ _ => True) (fun w => member_rel w idx e com (combine (path pos (length pf)) pf))
        (fun w ns => levels w ns = combine (path pos (length pf)) pf) (fun _ _ => True)).
      { unfold prove_membership.
        eapply hspec_seq with (1 := W) (2 := create_membership_spec zval P q Ha Ha5 Hk Hi pos pf c W Hpf); [auto|].
        intros ns1 c1 L1 [R1 R2] V1. cbn beta. destruct (V1 (base_later _ _ W B L1)) as [_ F1].
        assert (N1 : Forall (nh c1) ns1) by (eapply nodes_nh; eauto).
        eapply hspec_seq with (2 := gspec_hspec zval _ _ _ _ _ (enforce_membership_spec zval P q Hq Ha Ha5 Hk Hi H2 idx e ns1 com c1 ltac:(lt) ltac:(lt) ltac:(lt) ltac:(lt) N1)); [lt| |].
        { cbn beta. intros w _ ((E & Ls) & F & Ev & _). rewrite Ev. auto. }
        intros [] c2 L2 _ _. apply hspec_ret; cbn beta; auto. intros w _ _ [H _]. exact H. }
      exact (hspec_value _ _ _ _ _ _ _ _ W B Hs Er).
    Qed.
  End Membership.

  (** ** Against the off-circuit verifier *)
  Lemma verify_member_root com pos e pf :
    verify com pos e pf = Ok true <-> Forall (fun s => length s = 2%nat) pf /\ com = member_root P (fZ (Z.of_nat pos)) e (combine (path pos (length pf)) pf).
  Proof.
    rewrite (verify_eq feqb (feqb_eq K)). unfold member_root, root_from, rescue_leaf. split; intros [A B]; split; auto.
  Qed.
  (** For the position and the sibling lists handed in, the circuit is satisfied by the
      computed assignment exactly when the off-circuit verifier accepts them and no
      leftmost label on the path is zero. *)
  Theorem C75_membership_exact c pos pf idx e com pub : good c -> base (hon c) -> inc c idx -> inc c e -> inc c com ->
    Forall (fun s => length s = 2%nat) pf -> accepts zval c (witness c) pub -> asg (witness c) idx = fZ (Z.of_nat pos) ->
    exists ns c', prove_membership pos pf idx e com c = (Ok ns, c') /\
      (accepts zval c' (witness c') pub <->
       verify (asg (witness c) com) pos (asg (witness c) e) pf = Ok true /\
       lefts_ok P (rescue_leaf P pos (asg (witness c) e)) (combine (path pos (length pf)) pf)).
  Proof.
    intros G B Hidx He Hcom Hpf Hacc Ei. destruct (C75_membership c pos pf idx e com G B Hidx He Hcom Hpf) as (ns & c' & Er & G' & Ex & _ & (l & Hl) & S1 & _ & S3).
    exists ns, c'. split; [exact Er|]. rewrite verify_member_root. unfold rescue_leaf. rewrite <- Ei.
    pose proof (member_honest c pos pf idx e com G B Hidx He Hcom ns c' Hpf Er) as Hh.
    assert (Hw : forall v, inc c v -> asg (witness c') v = asg (witness c) v).
    { intros v Hv. unfold asg. rewrite Hl, app_nth1; auto. now rewrite (wf_wit _ (gd_wf _ G)). }
    split.
    - intros H. pose proof (S1 c' _ pub (extends_refl _) (gd_bd _ G') H) as [E Ls]. rewrite Hh in *. rewrite !Hw in * by auto. auto.
    - intros ((_ & E) & Ls). apply S3; auto. split; auto.
  Qed.

  (** ** Soundness against trees *)
  Lemma tree_value_u t m : uhist t m -> MerkleModel.commitment 0 t = MerkleModel.value 0 (contents m (height t)).
  Proof. intros H. apply (uhist_inv 0 (rescue_node P) (rescue_leaf P) 3 ltac:(lia)) in H as [Hs _]. unfold MerkleModel.commitment. apply (sprunes_value 0 _ _ Hs). Qed.
  Lemma tree_value_a lw t xs : ahist lw t xs -> MerkleModel.commitment 0 t = MerkleModel.value 0 (contents (klist xs) (height t)).
  Proof.
    intros H. apply (ahist_inv feqb (feqb_eq K) 0 (rescue_node P) (rescue_leaf P) 3 ltac:(lia)) in H as (Hs & _). unfold MerkleModel.commitment. apply (rel_value 0 _ _ _ Hs).
  Qed.
  Lemma levels_pos w ns : (pos_of (map fst (levels w ns)) < 3 ^ length ns)%nat.
  Proof.
    replace (length ns) with (length (map fst (levels w ns))) by (unfold levels; now rewrite !map_length). apply pos_of_lt.
    pose proof (levels_good w ns) as H. induction H as [|bs l [Hb _]]; cbn [map]; constructor; auto.
  Qed.
  (** The inputs the circuit hashes under an assignment. *)
  Definition member_inputs (w : nat -> K) (idx e : nat) (ns : list mnode) : list (kquery K) :=
    KLeaf (w idx) (w e) :: mqueries P (rescue_leaf_at P (w idx) (w e)) (levels w ns).
  Definition non_member_inputs (w : nat -> K) (ns : list mnode) : list (kquery K) := KDefault :: nqueries P 0 (levels w ns).

  Lemma sound_member_w (w : nat -> K) idx e com ns m h : member_rel w idx e com (levels w ns) ->
    w com = MerkleModel.value 0 (contents m h) -> kfree P (contents m h) (member_inputs w idx e ns) ->
    exists k, (k < 3 ^ h)%nat /\ w idx = fZ (Z.of_nat k) /\ m k = Some (w e) /\ length ns = h /\ left_full m k h.
  Proof.
    intros [E Ls] Ec Hf. rewrite Ec in E.
    assert (H0 : (0 mod 3 ^ h = 0)%nat) by (apply Nat.mod_0_l, Nat.pow_nonzero; lia).
    pose proof (sound_member_left P m (w idx) (w e) (levels w ns) h 0 H0 (levels_good w ns) Hf (eq_sym E) Ls) as E4. destruct (sound_member_g P m (w idx) (w e) (levels w ns) h 0 (levels_good w ns) Hf (eq_sym E)) as (E1 & E2 & E3).
    rewrite Nat.add_0_l in *. pose proof (levels_pos w ns) as Hl. unfold levels in E1 at 1. rewrite map_length in E1.
    eexists. split; [|split; [exact E2|split; [exact E3|split; [exact E1|exact E4]]]]. now rewrite <- E1.
  Qed.

  (** Whoever satisfies the circuit for the root of a tree has put a stored value and
      (the field image of) its key into the variables, whatever proof they used, unless
      they found a hash collision with the tree.  Moreover no leftmost block on the path
      of the key is empty: the other stored pairs cannot be proved at all. *)
  Theorem C75_membership_sound_universal c pos pf idx e com ns c' t m : good c -> base (hon c) -> inc c idx -> inc c e -> inc c com ->
    Forall (fun s => length s = 2%nat) pf -> prove_membership pos pf idx e com c = (Ok ns, c') -> uhist t m ->
    forall c'' ws pub, extends c' c'' -> bounded c'' -> accepts zval c'' ws pub ->
      asg ws com = MerkleModel.commitment 0 t -> kfree P (contents m (height t)) (member_inputs (asg ws) idx e ns) ->
      exists k, (k < cap t)%nat /\ asg ws idx = fZ (Z.of_nat k) /\ m k = Some (asg ws e) /\ length ns = height t /\ left_full m k (height t).
  Proof.
    intros G B Hidx He Hcom Hpf Er Ht c'' ws pub Ex Bd Acc Ec Hf. destruct (C75_membership c pos pf idx e com G B Hidx He Hcom Hpf) as (ns' & c1 & Er' & _ & _ & _ & _ & S1 & _).
    rewrite Er in Er'. injection Er' as <- <-. eapply sound_member_w; [eapply S1; eauto| |exact Hf]. now rewrite Ec, (tree_value_u t m Ht).
  Qed.
  Theorem C75_membership_sound_append c pos pf idx e com ns c' lw t xs : good c -> base (hon c) -> inc c idx -> inc c e -> inc c com ->
    Forall (fun s => length s = 2%nat) pf -> prove_membership pos pf idx e com c = (Ok ns, c') -> ahist lw t xs ->
    forall c'' ws pub, extends c' c'' -> bounded c'' -> accepts zval c'' ws pub ->
      asg ws com = MerkleModel.commitment 0 t -> kfree P (contents (klist xs) (height t)) (member_inputs (asg ws) idx e ns) ->
      exists k, (k < cap t)%nat /\ asg ws idx = fZ (Z.of_nat k) /\ nth_error xs k = Some (asg ws e) /\ length ns = height t.
  Proof.
    intros G B Hidx He Hcom Hpf Er Ht c'' ws pub Ex Bd Acc Ec Hf. destruct (C75_membership c pos pf idx e com G B Hidx He Hcom Hpf) as (ns' & c1 & Er' & _ & _ & _ & _ & S1 & _).
    rewrite Er in Er'. injection Er' as <- <-. 
    destruct (sound_member_w (asg ws) idx e com ns (klist xs) (height t)) as (k & A1 & A2 & A3 & A4 & _); [eapply S1; eauto| |exact Hf|exists k; auto]. now rewrite Ec, (tree_value_a lw t xs Ht).
  Qed.
  (** If the field tells the keys of the tree apart, the key is the one in the variable. *)
  Definition keys_distinct (n : nat) : Prop := forall a b, (a < n)%nat -> (b < n)%nat -> (fZ (Z.of_nat a) : K) = fZ (Z.of_nat b) -> a = b.
  Theorem C75_membership_sound_at_key c pos pf idx e com ns c' t m k0 : good c -> base (hon c) -> inc c idx -> inc c e -> inc c com ->
    Forall (fun s => length s = 2%nat) pf -> prove_membership pos pf idx e com c = (Ok ns, c') -> uhist t m ->
    keys_distinct (cap t) -> (k0 < cap t)%nat ->
    forall c'' ws pub, extends c' c'' -> bounded c'' -> accepts zval c'' ws pub ->
      asg ws com = MerkleModel.commitment 0 t -> asg ws idx = fZ (Z.of_nat k0) -> kfree P (contents m (height t)) (member_inputs (asg ws) idx e ns) ->
      m k0 = Some (asg ws e).
  Proof.
    intros G B Hidx He Hcom Hpf Er Ht Hd Hk0 c'' ws pub Ex Bd Acc Ec Ei Hf.
    destruct (C75_membership_sound_universal c pos pf idx e com ns c' t m G B Hidx He Hcom Hpf Er Ht c'' ws pub Ex Bd Acc Ec Hf) as (k & Hk & E1 & E2 & _).
    rewrite Ei in E1. now rewrite (Hd _ _ Hk0 Hk E1).
  Qed.
  (** Non-membership, for proofs with as many levels as the tree. *)
  Theorem C75_non_membership_sound c pos pf idx com ns c' t m : good c -> base (hon c) -> inc c idx -> inc c com ->
    Forall (fun s => length s = 2 \/ length s = 0)%nat pf -> prove_non_membership pos pf idx com c = (Ok ns, c') -> uhist t m -> length pf = height t ->
    forall c'' ws pub, extends c' c'' -> bounded c'' -> accepts zval c'' ws pub ->
      asg ws com = MerkleModel.commitment 0 t -> kfree P (contents m (height t)) (non_member_inputs (asg ws) ns) ->
      exists k, (k < cap t)%nat /\ asg ws idx = fZ (Z.of_nat k) /\ m k = None.
  Proof.
    intros G B Hidx Hcom Hpf Er Ht Hlen c'' ws pub Ex Bd Acc Ec Hf. destruct (C75_non_membership c pos pf idx com G B Hidx Hcom Hpf) as (ns' & c1 & Er' & _ & _ & [HL _] & _ & S1 & _).
    rewrite Er in Er'. injection Er' as <- <-. destruct (S1 c'' ws pub Ex Bd Acc) as [E1 E2]. rewrite Ec, (tree_value_u t m Ht) in E2.
    assert (HL' : length (levels (asg ws) ns) = height t) by (unfold levels; rewrite map_length; lia).
    rewrite <- HL' in E2, Hf. pose proof (sound_nonmember_g P m _ 0 (levels_good _ ns) Hf (eq_sym E2)) as Hm. rewrite Nat.add_0_l in Hm.
    eexists. split; [|split; [exact E1|exact Hm]]. rewrite <- Hlen, <- HL. apply levels_pos.
  Qed.
  Theorem C75_non_membership_sound_at_key c pos pf idx com ns c' t m k0 : good c -> base (hon c) -> inc c idx -> inc c com ->
    Forall (fun s => length s = 2 \/ length s = 0)%nat pf -> prove_non_membership pos pf idx com c = (Ok ns, c') -> uhist t m -> length pf = height t ->
    keys_distinct (cap t) -> (k0 < cap t)%nat ->
    forall c'' ws pub, extends c' c'' -> bounded c'' -> accepts zval c'' ws pub ->
      asg ws com = MerkleModel.commitment 0 t -> asg ws idx = fZ (Z.of_nat k0) -> kfree P (contents m (height t)) (non_member_inputs (asg ws) ns) ->
      m k0 = None.
  Proof.
    intros G B Hidx Hcom Hpf Er Ht Hlen Hd Hk0 c'' ws pub Ex Bd Acc Ec Ei Hf.
    destruct (C75_non_membership_sound c pos pf idx com ns c' t m G B Hidx Hcom Hpf Er Ht Hlen c'' ws pub Ex Bd Acc Ec Hf) as (k & Hk & E1 & E2).
    rewrite Ei in E1. now rewrite (Hd _ _ Hk0 Hk E1).
  Qed.

  (** ** Completeness for proofs taken from a tree *)
  Lemma tree_lookup t m k r : prunes 0 (root t) (contents m (height t)) -> (k < cap t)%nat ->
    MerkleModel.universal_lookup 0 3 t k = Ok r -> r <> LNotInMemory ->
    lookup_internal 0 (height t) (canon 0 (rescue_node P) (rescue_leaf P) 3 m (height t) (blk 3 k (height t))) (path k (height t)) = Ok r.
  Proof.
    intros Hp Hk Hl Hr. rewrite blk_small by auto. unfold MerkleModel.universal_lookup in Hl. eapply prunes_lookup; eauto.
  Qed.
  Theorem C75_membership_complete_universal c k pf idx e com pub t m : good c -> base (hon c) -> inc c idx -> inc c e -> inc c com ->
    uhist t m -> (k < cap t)%nat -> MerkleModel.lookup 0 3 t k = Ok (LOk (asg (witness c) e) pf) -> hash_nonzero P (contents m (height t)) ->
    accepts zval c (witness c) pub -> asg (witness c) idx = fZ (Z.of_nat k) -> asg (witness c) com = MerkleModel.commitment 0 t ->
    exists ns c', prove_membership k pf idx e com c = (Ok ns, c') /\
      (accepts zval c' (witness c') pub <-> left_full m k (height t)).
  Proof.
    intros G B Hidx He Hcom Ht Hk Hl Hz Hacc Ei Ec. pose proof (tree_value_u t m Ht) as Hv.
    apply (uhist_inv 0 (rescue_node P) (rescue_leaf P) 3 ltac:(lia)) in Ht as [Hs _]. apply sprunes_prunes in Hs.
    unfold MerkleModel.lookup in Hl. destruct (lookup_internal _ _ _ _) as [r| |] eqn:El; try discriminate. cbn [bind] in Hl.
    destruct r as [e' p'| |]; try discriminate. injection Hl as -> ->.
    pose proof (tree_lookup t m k _ Hs Hk El ltac:(discriminate)) as Hc.
    destruct (lookup_canon 0 (rescue_node P) (rescue_leaf P) 3 ltac:(lia) m k (height t) _ ltac:(lia) (gp 3 ltac:(lia) k (height t))) as (r & Hr & Hspec).
    rewrite Hc in Hr. injection Hr as <-. destruct Hspec as (_ & Hlen & Hpf & Hroot).
    destruct (C75_membership_exact c k pf idx e com pub G B Hidx He Hcom Hpf Hacc Ei) as (ns & c' & Er & Hiff). exists ns, c'. split; [exact Er|].
    rewrite Hiff, verify_member_root, Hlen.
    pose proof (honest_lefts P m k (path k (height t)) (height t) (asg (witness c) e) pf (gp 3 ltac:(lia) k (height t))) as HL.
    rewrite (blk_small 3 k (height t) Hk) in HL, Hc, Hroot. rewrite (HL Hz Hc).
    split; [tauto|]. intros H. split; [|exact H]. split; [exact Hpf|]. rewrite Ec, Hv, <- Hroot. reflexivity.
  Qed.
  (** In an append-only tree the leftmost label is never empty, so that every proof
      taken from the tree can be proved. *)
  Lemma append_left_full (xs : list K) k h : (k < length xs)%nat -> left_full (klist xs) k h.
  Proof.
    intros Hk i Hi. exists (blk 3 k (S i)). assert (0 < 3 ^ i)%nat by (apply Nat.neq_0_lt_0, Nat.pow_nonzero; lia).
    split; [lia|]. unfold klist. apply nth_error_Some. unfold blk. pose proof (Nat.mul_div_le k (3 ^ S i)). 
    assert (3 ^ S i <> 0)%nat by (apply Nat.pow_nonzero; lia). nia.
  Qed.
  Theorem C75_membership_complete_append c k pf idx e com pub lw t xs : good c -> base (hon c) -> inc c idx -> inc c e -> inc c com ->
    ahist lw t xs -> (k < cap t)%nat -> MerkleModel.lookup 0 3 t k = Ok (LOk (asg (witness c) e) pf) -> hash_nonzero P (contents (klist xs) (height t)) ->
    accepts zval c (witness c) pub -> asg (witness c) idx = fZ (Z.of_nat k) -> asg (witness c) com = MerkleModel.commitment 0 t ->
    exists ns c', prove_membership k pf idx e com c = (Ok ns, c') /\ accepts zval c' (witness c') pub.
  Proof.
    intros G B Hidx He Hcom Ht Hk Hl Hz Hacc Ei Ec. pose proof (tree_value_a lw t xs Ht) as Hv.
    apply (ahist_inv feqb (feqb_eq K) 0 (rescue_node P) (rescue_leaf P) 3 ltac:(lia)) in Ht. apply klist_prunes in Ht. rename Ht into Hs.
    unfold MerkleModel.lookup in Hl. destruct (lookup_internal _ _ _ _) as [r| |] eqn:El; try discriminate. cbn [bind] in Hl.
    destruct r as [e' p'| |]; try discriminate. injection Hl as -> ->.
    pose proof (tree_lookup t (klist xs) k _ Hs Hk El ltac:(discriminate)) as Hc.
    destruct (lookup_canon 0 (rescue_node P) (rescue_leaf P) 3 ltac:(lia) (klist xs) k (height t) _ ltac:(lia) (gp 3 ltac:(lia) k (height t))) as (r & Hr & Hspec).
    rewrite Hc in Hr. injection Hr as <-. destruct Hspec as (Hm & Hlen & Hpf & Hroot).
    destruct (C75_membership_exact c k pf idx e com pub G B Hidx He Hcom Hpf Hacc Ei) as (ns & c' & Er & Hiff). exists ns, c'. split; [exact Er|].
    apply Hiff. rewrite verify_member_root, Hlen.
    pose proof (honest_lefts P (klist xs) k (path k (height t)) (height t) (asg (witness c) e) pf (gp 3 ltac:(lia) k (height t))) as HL.
    rewrite (blk_small 3 k (height t) Hk) in HL, Hc, Hroot. rewrite (HL Hz Hc).
    split; [|apply append_left_full; unfold klist in Hm; apply nth_error_Some; congruence].
    split; [exact Hpf|]. rewrite Ec, Hv, <- Hroot. reflexivity.
  Qed.
  Theorem C75_non_membership_complete c k pf idx com pub t m : good c -> base (hon c) -> inc c idx -> inc c com ->
    uhist t m -> (k < cap t)%nat -> MerkleModel.universal_lookup 0 3 t k = Ok (LNotFound pf) -> hash_nonzero P (contents m (height t)) ->
    accepts zval c (witness c) pub -> asg (witness c) idx = fZ (Z.of_nat k) -> asg (witness c) com = MerkleModel.commitment 0 t ->
    exists ns c', prove_non_membership k pf idx com c = (Ok ns, c') /\ accepts zval c' (witness c') pub.
  Proof.
    intros G B Hidx Hcom Ht Hk Hl Hz Hacc Ei Ec. pose proof (tree_value_u t m Ht) as Hv.
    apply (uhist_inv 0 (rescue_node P) (rescue_leaf P) 3 ltac:(lia)) in Ht as [Hs _]. apply sprunes_prunes in Hs.
    pose proof (tree_lookup t m k _ Hs Hk Hl ltac:(discriminate)) as Hc.
    destruct (lookup_canon 0 (rescue_node P) (rescue_leaf P) 3 ltac:(lia) m k (height t) _ ltac:(lia) (gp 3 ltac:(lia) k (height t))) as (r & Hr & Hspec).
    rewrite Hc in Hr. injection Hr as <-. destruct Hspec as (_ & Hlen & Hpf & _).
    destruct (C75_non_membership c k pf idx com G B Hidx Hcom Hpf) as (ns & c' & Er & _ & _ & _ & _ & _ & _ & S3). exists ns, c'. split; [exact Er|].
    apply S3; auto. rewrite Hlen, pos_of_path by auto. split; [exact Ei|]. rewrite Ec, Hv.
    pose proof (honest_nonmember P m k (path k (height t)) (height t) pf (gp 3 ltac:(lia) k (height t))) as HL.
    rewrite (blk_small 3 k (height t) Hk) in HL, Hc. now rewrite (HL Hz Hc).
  Qed.
End Props.
Print Assumptions C75_membership_sound_universal.
Print Assumptions C75_non_membership_sound.
Print Assumptions C75_membership_complete_universal.
Print Assumptions C75_membership_complete_append.
Print Assumptions C75_non_membership_complete.

(** ** The constraints do not depend on the proof (C72) *)
Section Independence.
  Context {K : fld}.
  Notation rel := IndepProofs.rel.
  Variable P : rescue_params K.
  Lemma order_ind n a b l r : @indep K _ (constrain_sibling_order n a b l r).
  Proof. unfold constrain_sibling_order. pose proof (@conditional_select_ind K). pose proof (@add_ind K). pose proof (@lc_ind K). rauto. Qed.
  Lemma digest_ind l : indep (digest_g P l).
  Proof. unfold digest_g, next_len. pose proof (sponge_ind P). rauto. Qed.
  Lemma digest_leaf_ind a b : indep (digest_leaf_g P a b).
  Proof. unfold digest_leaf_g, next_len. pose proof (sponge_ind P). rauto. Qed.
  Lemma member_step_ind l n : indep (member_step P l n).
  Proof. unfold member_step. pose proof order_ind. pose proof digest_ind. pose proof (@non_zero_gate_ind K). rauto. Qed.
  Lemma is_member_ind a b ns c : indep (is_member P a b ns c).
  Proof. unfold is_member. pose proof digest_leaf_ind. pose proof member_step_ind. pose proof (@is_equal_ind K). rauto. Qed.
  Lemma enforce_member_ind a b ns c : indep (enforce_membership_proof P a b ns c).
  Proof. unfold enforce_membership_proof, enforce_true. pose proof is_member_ind. pose proof (@enforce_constant_ind K). rauto. Qed.
  Lemma non_member_step_ind l n : indep (non_member_step P l n).
  Proof. unfold non_member_step. pose proof order_ind. pose proof digest_ind. pose proof (@is_zero_ind K). pose proof (@logic_and_all_ind K). pose proof (@conditional_select_ind K). rauto. Qed.
  Lemma flags_index_ind ns : forall b a, @indep K _ (flags_index b a ns).
  Proof.
    induction ns as [|n ns IH]; intros b a; cbn [flags_index]; pose proof (@sub_ind K); pose proof (@add_ind K); pose proof (@mul_constant_ind K); rauto.
  Qed.
  Lemma is_non_member_ind a ns c : indep (is_non_member P a ns c).
  Proof. unfold is_non_member. pose proof flags_index_ind. pose proof non_member_step_ind. pose proof (@is_equal_ind K). pose proof (@logic_and_ind K). rauto. Qed.
  Lemma enforce_non_member_ind a ns c : indep (enforce_non_membership_proof P a ns c).
  Proof. unfold enforce_non_membership_proof, enforce_true. pose proof is_non_member_ind. pose proof (@enforce_constant_ind K). rauto. Qed.
  Lemma check_flags_ind ns : @indep K _ (check_flags ns).
  Proof. unfold check_flags. pose proof (@add_ind K). pose proof (@enforce_bool_ind K). rauto. Qed.
  Lemma idx_pure {A} (l : list A) i : @pure K _ (idx l i).
  Proof. intros c. unfold idx, lift. destruct (index l i); reflexivity. Qed.
  Lemma bool_rel a b : rel (@create_boolean_variable K a) (create_boolean_variable b) eq.
  Proof. unfold create_boolean_variable. pose proof (@enforce_bool_ind K). rauto. Qed.
  Lemma create_node_rel bs bs' : rel (@create_node K bs) (create_node bs') eq.
  Proof.
    destruct bs as [b s], bs' as [b' s']. unfold create_node.
    apply rel_bind_any; [apply rel_pure; apply idx_pure|]. intros x x'. apply rel_bind_eq; [apply var_rel|]. intros v.
    apply rel_bind_any; [apply rel_pure; apply idx_pure|]. intros y y'. apply rel_bind_eq; [apply var_rel|]. intros v'.
    apply rel_bind_eq; [apply bool_rel|]. intros l. apply rel_bind_eq; [apply bool_rel|]. intros r. apply rel_ret. reflexivity.
  Qed.
  (** Two membership circuits for proofs with the same number of levels have the same
      constraints, whatever the positions, siblings and values; likewise the two checks
      for given proof variables. *)
  Theorem C72_merkle pos pos' pf pf' idx e ns com : length pf = length pf' ->
    rel (prove_membership P pos pf idx e com) (prove_membership P pos' pf' idx e com) eq /\
    rel (test_membership P pos pf idx e com) (test_membership P pos' pf' idx e com) eq /\
    indep (is_member P idx e ns com) /\ indep (enforce_membership_proof P idx e ns com) /\
    indep (is_non_member P idx ns com) /\ indep (enforce_non_membership_proof P idx ns com).
  Proof.
    intros HL.
    assert (Hc : rel (create_membership_proof_variable pos pf) (create_membership_proof_variable pos' pf') eq).
    { unfold create_membership_proof_variable. apply rel_bind_eq.
      - apply rel_mapM_len; [|apply create_node_rel]. rewrite !combine_length, !path_length. lia.
      - intros l. pose proof check_flags_ind. rauto. }
    split; [|split; [|split; [apply is_member_ind|split; [apply enforce_member_ind|split; [apply is_non_member_ind|apply enforce_non_member_ind]]]]].
    - unfold prove_membership. apply rel_bind_eq; [exact Hc|]. intros l. pose proof enforce_member_ind. rauto.
    - unfold test_membership. apply rel_bind_eq; [exact Hc|]. intros l. pose proof is_member_ind. rauto.
  Qed.
End Independence.
Print Assumptions C72_merkle.

(** ** Concrete cases *)
(** In a prime field larger than the capacity the keys are distinct. *)
Lemma keys_distinct_Zp p (Hp : prime p) n : (Z.of_nat n <= p)%Z -> @keys_distinct (Zp p Hp) n.
Proof.
  intros H a b A1 B1 E. rewrite !fZ_Zp in E. apply (f_equal (zv p)) in E. cbn [zmk zv] in E.
  rewrite !Z.mod_small in E by lia. lia.
Qed.
(** The queries of a tree in memory, as a list. *)
Fixpoint tqueries {K : fld} (n : node K K) : list (hquery K K) :=
  match n with
  | Empty => [QDefault]
  | Leaf _ p e => [QLeaf p e]
  | Branch _ cs => QNode (map (MerkleModel.value 0) cs) :: flat_map tqueries cs
  | Forgotten _ => []
  end.
Lemma tqueries_all {K : fld} (n : node K K) q : tree_query 0 n q -> In q (tqueries n).
Proof.
  induction 1 as [| | |v cs c q Hc _ IH]; cbn [tqueries]; auto using in_eq. right. apply in_flat_map. eauto.
Qed.
Definition keqb {K : fld} (a b : kquery K) : bool :=
  match a, b with
  | KLeaf x e, KLeaf x' e' => feqb x x' && feqb e e'
  | KNode l, KNode l' => if list_eq_dec (fun x y => match feqb x y as b return feqb x y = b -> _ with true => fun H => left (proj1 (feqb_eq K x y) H) | false => fun H => right (proj1 (feqb_neq K x y) H) end eq_refl) l l' then true else false
  | KDefault, KDefault => true
  | _, _ => false
  end.
Lemma keqb_eq {K : fld} (a b : kquery K) : keqb a b = true -> a = b.
Proof.
  destruct a, b; cbn; try discriminate; auto.
  - rewrite andb_true_iff, !feqb_eq. intros [-> ->]; auto.
  - destruct (list_eq_dec _ _ _); [congruence|discriminate].
Qed.
Definition kfreeb {K : fld} (P : rescue_params K) (n : node K K) (qs : list (kquery K)) : bool :=
  forallb (fun q1 => forallb (fun q2 => negb (feqb (khash P (kq_of q1)) (khash P q2)) || keqb (kq_of q1) q2) qs) (tqueries n).
Lemma kfreeb_ok {K : fld} (P : rescue_params K) n qs : kfreeb P n qs = true -> kfree P n qs.
Proof.
  intros H q1 q2 H1 H2 E. unfold kfreeb in H. rewrite forallb_forall in H. specialize (H _ (tqueries_all _ _ H1)).
  rewrite forallb_forall in H. specialize (H _ H2). rewrite (proj2 (feqb_eq _ _ _) E) in H. now apply keqb_eq.
Qed.
Definition nonzerob {K : fld} (P : rescue_params K) (n : node K K) : bool :=
  forallb (fun q => match q with QDefault => true | _ => negb (feqb (khash P (kq_of q)) 0) end) (tqueries n).
Lemma nonzerob_ok {K : fld} (P : rescue_params K) n : nonzerob P n = true -> hash_nonzero P n.
Proof.
  intros H q Hq Hd E. unfold nonzerob in H. rewrite forallb_forall in H. specialize (H _ (tqueries_all _ _ Hq)).
  destruct q; try congruence; rewrite (proj2 (feqb_eq _ _ _) E) in H; discriminate.
Qed.

(** A sparse tree of height 2 with the keys 0, 1 and 4. *)
Notation rn := (rescue_node R97).
Notation rl := (rescue_leaf R97).
Definition gset (k : nat) (v : Z) (t : @tree F97 F97) : @tree F97 F97 :=
  match update_with 0 rn rl 3 t k (fun _ => Some (e97 v)) with Ok (t', _) => t' | _ => t end.
Definition gtree : @tree F97 F97 := gset 4 13 (gset 1 9 (gset 0 7 (tree_new 2))).
Definition gmap : kmap F97 := kset (kset (kset kempty 0 (Some (e97 7))) 1 (Some (e97 9))) 4 (Some (e97 13)).
Definition gcom : F97 := commitment 0 gtree.
Definition gproof (t : @tree F97 F97) (k : nat) : list (list F97) :=
  match universal_lookup 0 3 t k with Ok (LOk _ p) => p | Ok (LNotFound p) => p | _ => [] end.
(** The variables 2, 3 and 4 hold the root (public), the index and the value. *)
Definition gcirc (com idx e : F97) : circuit F97 :=
  snd ((create_public_variable com >> create_variable idx >> create_variable e) (new_circuit F97 Turbo)).
Lemma gcirc_good com idx e : good (gcirc com idx e) /\ base (hon (gcirc com idx e)).
Proof.
  split; [|split; reflexivity]. split; try reflexivity; split; try reflexivity; cbn; try lia; repeat constructor; cbn; lia.
Qed.
Definition grun (com : F97) (idx : Z) (e : F97) (k : nat) (pf : list (list F97)) := prove_membership R97 k pf 3 4 2 (gcirc com (e97 idx) e).
Definition nrun (com : F97) (idx : Z) (k : nat) (pf : list (list F97)) := prove_non_membership R97 k pf 3 2 (gcirc com (e97 idx) (e97 0)).

Theorem C75_case_tree : uhist 0 rn rl 3 gtree gmap /\ nonzerob R97 (canon 0 rn rl 3 gmap 2 0) = true /\ @keys_distinct F97 (3 ^ height gtree).
Proof.
  split; [|split; [vm_compute; reflexivity|apply keys_distinct_Zp; cbn; lia]].
  unfold gtree, gmap. set (t1 := gset 0 7 (tree_new 2)). set (t2 := gset 1 9 t1).
  eapply (uh_update _ _ _ _ t2 _ 4 (fun _ => Some (e97 13))); [|vm_compute; lia|vm_compute; reflexivity].
  eapply (uh_update _ _ _ _ t1 _ 1 (fun _ => Some (e97 9))); [|vm_compute; lia|vm_compute; reflexivity].
  eapply (uh_update _ _ _ _ (tree_new 2) _ 0 (fun _ => Some (e97 7))); [|vm_compute; lia|vm_compute; reflexivity].
  apply uh_new.
Qed.

(** The key 1 is proved; the circuit then accepts, and rejects another root. *)
Definition p1 := gproof gtree 1.
Theorem C75_case_member :
  lookup 0 3 gtree 1 = Ok (LOk (e97 9) p1) /\ left_full gmap 1 2 /\
  is_okb (fst (grun gcom 1 (e97 9) 1 p1)) = true /\
  check_circuit_satisfiability z97 (snd (grun gcom 1 (e97 9) 1 p1)) [gcom] = Ok tt /\
  is_okb (check_circuit_satisfiability z97 (snd (grun gcom 1 (e97 9) 1 p1)) [gcom + 1]) = false /\
  is_okb (check_circuit_satisfiability z97 (snd (grun gcom 1 (e97 8) 1 p1)) [gcom]) = false /\
  is_okb (check_circuit_satisfiability z97 (snd (grun gcom 2 (e97 9) 1 p1)) [gcom]) = false /\
  kfreeb R97 (canon 0 rn rl 3 gmap 2 0) (member_inputs R97 (asg (witness (snd (grun gcom 1 (e97 9) 1 p1)))) 3 4 (okv [] (fst (grun gcom 1 (e97 9) 1 p1)))) = true.
Proof.
  split; [vm_compute; reflexivity|]. split.
  { intros [|[|i]] Hi; [exists 0%nat|exists 0%nat|lia]; (split; [vm_compute; lia|discriminate]). }
  do 5 (split; [vm_compute; reflexivity|]). vm_compute. reflexivity.
Qed.
(** Absent keys: 2 next to stored keys, 8 in an empty block; 1 is refused. *)
Theorem C75_case_non_member :
  (exists p, universal_lookup 0 3 gtree 2 = Ok (LNotFound p)) /\
  check_circuit_satisfiability z97 (snd (nrun gcom 2 2 (gproof gtree 2))) [gcom] = Ok tt /\
  check_circuit_satisfiability z97 (snd (nrun gcom 8 8 (gproof gtree 8))) [gcom] = Ok tt /\
  is_okb (check_circuit_satisfiability z97 (snd (nrun gcom 1 2 (gproof gtree 2))) [gcom]) = false /\
  is_okb (check_circuit_satisfiability z97 (snd (nrun gcom 1 1 (gproof gtree 1))) [gcom]) = false /\
  kfreeb R97 (canon 0 rn rl 3 gmap 2 0) (non_member_inputs R97 (asg (witness (snd (nrun gcom 8 8 (gproof gtree 8))))) (okv [] (fst (nrun gcom 8 8 (gproof gtree 8))))) = true.
Proof. split; [eexists; vm_compute; reflexivity|]. do 4 (split; [vm_compute; reflexivity|]). vm_compute. reflexivity. Qed.

(** ** Findings *)
(** A stored pair whose left neighbour is empty has a proof that the off-circuit
    verifier accepts, but no circuit for it can be satisfied. *)
Theorem C75_empty_left_sibling_refuted :
  lookup 0 3 gtree 4 = Ok (LOk (e97 13) (gproof gtree 4)) /\
  verify feqb 0 rn rl 3 gcom 4 (e97 13) (gproof gtree 4) = Ok true /\
  is_okb (check_circuit_satisfiability z97 (snd (grun gcom 4 (e97 13) 4 (gproof gtree 4))) [gcom]) = false /\
  ~ left_full gmap 4 2.
Proof.
  split; [vm_compute; reflexivity|]. split; [vm_compute; reflexivity|]. split; [vm_compute; reflexivity|].
  intros H. destruct (H 0%nat ltac:(lia)) as (j & Hj & Hm). vm_compute in Hj. assert (j = 3%nat) as -> by lia. apply Hm. reflexivity.
Qed.
(** The circuit does not tie the index to the branches: for a root that is not of a tree
    it accepts a leaf of index 1 in the first branch, which the off-circuit verifier
    rejects for every index of the tree. *)
Definition odd_root : F97 := rn [rl 1 (e97 9); e97 3; e97 4].
Theorem C75_index_not_bound_refuted :
  check_circuit_satisfiability z97 (snd (grun odd_root 1 (e97 9) 0 [[e97 3; e97 4]])) [odd_root] = Ok tt /\
  forallb (fun k => match verify feqb 0 rn rl 3 odd_root k (e97 9) [[e97 3; e97 4]] with Ok b => negb b | _ => false end) [0; 1; 2]%nat = true.
Proof. split; vm_compute; reflexivity. Qed.
(** A tree with more keys than the field has elements: the key 3 is stored, and the
    circuit accepts its absence with the proof for the absent key 100. *)
Definition btree : @tree F97 F97 := gset 3 11 (tree_new 5).
Theorem C75_index_wrap_refuted :
  let com := commitment 0 btree in
  (exists p, lookup 0 3 btree 3 = Ok (LOk (e97 11) p)) /\ (exists p, universal_lookup 0 3 btree 100 = Ok (LNotFound p)) /\
  check_circuit_satisfiability z97 (snd (nrun com 3 100 (gproof btree 100))) [com] = Ok tt.
Proof. cbv zeta. split; [eexists; vm_compute; reflexivity|]. split; [eexists; vm_compute; reflexivity|]. vm_compute. reflexivity. Qed.
(** A level of two zero siblings above an empty leaf is an empty level for the circuit,
    and the hash of three zeros for the off-circuit verifier. *)
Theorem C75_zero_level_refuted :
  let h0 := rn [0; 0; 0] in
  non_membership_verify feqb 0 rn rl 3 h0 0 [[0; 0]] = Ok true /\
  is_okb (check_circuit_satisfiability z97 (snd (nrun h0 0 0 [[0; 0]])) [h0]) = false /\
  non_membership_verify feqb 0 rn rl 3 0 0 [[0; 0]] = Ok false /\
  check_circuit_satisfiability z97 (snd (nrun 0 0 0 [[0; 0]])) [0] = Ok tt.
Proof. cbv zeta. do 3 (split; [vm_compute; reflexivity|]). vm_compute. reflexivity. Qed.
(** A membership proof with an empty list of siblings stops the program. *)
Theorem C75_short_level_panics {K : fld} pos (c : circuit K) : fst (create_membership_proof_variable pos [[]] c) = Panic.
Proof. reflexivity. Qed.
(** The constraints of a non-membership circuit depend on the proof: for two absent keys of
    one tree the circuits have different wires, since an empty level is wired to the
    constant zero.  A proving key for one of them does not fit the other. *)
Theorem C72_non_membership_refuted :
  length (gproof gtree 2) = length (gproof gtree 8) /\
  num_vars (snd (nrun gcom 2 2 (gproof gtree 2))) <> num_vars (snd (nrun gcom 8 8 (gproof gtree 8))) /\
  length (gates (snd (nrun gcom 2 2 (gproof gtree 2)))) = length (gates (snd (nrun gcom 8 8 (gproof gtree 8)))) /\
  nth_error (rows (snd (nrun gcom 2 2 (gproof gtree 2)))) 20 <> nth_error (rows (snd (nrun gcom 8 8 (gproof gtree 8)))) 20.
Proof. split; [vm_compute; reflexivity|]. split; [vm_compute; discriminate|]. split; [vm_compute; reflexivity|]. vm_compute. discriminate. Qed.
