(** Specifications of the Merkle tree gadgets. *)

From Coq Require Import List Arith NArith ZArith Bool Lia Ring Field.
From Verif Require Import Base ListAux Alg FiniteField ConvModel RescueModel RescueProofs CircuitModel CircuitProofs GadgetModel
  GadgetProofs RangeProofs RescueGadgetModel RescueGadgetProofs MerkleModel MerkleSpec MerkleProofs MerklePrune MerkleGadgetModel.
Import ListNotations.
Local Open Scope fld_scope.
Local Open Scope circ_scope.

(** ** Sequencing with conditions *)
Section Seq.
  Context {K : fld}.
  Variable zval : K -> Z.
  Notation gspec := (gspec zval).
  Definition later (c c' : circuit K) : Prop :=
    wf c' /\ (num_vars c <= num_vars c')%nat /\ ptype c' = ptype c /\ (forall v, (v < num_vars c)%nat -> hon c' v = hon c v).
  Lemma later_refl c : wf c -> later c c.
  Proof. intros H. repeat split; auto; apply H. Qed.
  Lemma later_trans c c' c'' : later c c' -> later c' c'' -> later c c''.
  Proof.
    intros (W1 & L1 & P1 & H1) (W2 & L2 & P2 & H2). split; [exact W2|]. split; [lia|]. split; [congruence|].
    intros v Hv. rewrite H2 by lia. auto.
  Qed.
  Lemma later_capp c d : wf c -> later c (capp c d).
  Proof.
    intros Hw. split; [wfs|]. split; [cbn; lia|]. split; [reflexivity|]. intros v Hv. symmetry.
    symmetry. apply (hext_app1 c d); auto. apply hext_hon.
  Qed.
  (** [hb]: the two constants have their values in the witness. *)
  Lemma hon_base c c' : later c c' -> (2 <= num_vars c)%nat -> base (hon c) -> base (hon c').
  Proof. intros (_ & _ & _ & H) H2 [B0 B1]. split; rewrite H by lia; auto. Qed.

  Lemma gspec_bind {A B} (m : circ K A) (f : A -> circ K B) c S1 C1 R1 S2 C2 (S : (nat -> K) -> B -> Prop) (C : (nat -> K) -> Prop) R :
    wf c -> gspec m c S1 C1 R1 ->
    (forall a c', later c c' -> R1 a (num_vars c') -> (base (hon c') -> C1 (hon c') -> S1 (hon c') a) -> gspec (f a) c' (S2 a) (C2 a) R) ->
    (forall a b w, base w -> S1 w a -> S2 a w b -> S w b) ->
    (forall a w, base w -> C w -> C1 w /\ (S1 w a -> C2 a w)) ->
    gspec (cbind m f) c S C R.
  Proof.
    intros Hw H1 H2 HS HC. unfold CircuitProofs.gspec in *. apply wpc_bind. eapply wpc_mono; [exact H1|]. intros a d _ (Sd & Cd & Rd).
    eapply wpc_mono; [apply (H2 a (capp c d)); [apply later_capp; auto|exact Rd|]|].
    { intros Hb Hc. apply Sd; auto. apply Cd; auto. apply hext_hon. }
    intros b d' _ (Sd' & Cd' & Rd'). change (ptype (capp c d)) with (ptype c) in *. split; [|split].
    - intros w Hb Hs. rewrite dsat_cat in Hs. destruct Hs as [D1 D2]. apply (HS a); auto.
    - intros w Hb Hh Hc. rewrite <- capp_cat in Hh. rewrite dsat_cat. destruct (HC a w Hb Hc) as [Hc1 Hc2].
      assert (D1 : dsat zval (ptype c) w d). { apply Cd; auto. apply (hext_app1 (capp c d) d'); [wfs|exact Hh]. }
      split; [exact D1|]. apply Cd'; auto.
    - cbn [dcat d_vals capp num_vars] in *. rewrite app_length, Nat.add_assoc. exact Rd'.
  Qed.
  Lemma gspec_seq {A B} (m : circ K A) (f : A -> circ K B) c S1 (C1 : (nat -> K) -> Prop) R1 (S : (nat -> K) -> B -> Prop) (C : (nat -> K) -> Prop) R :
    wf c -> gspec m c S1 C1 R1 -> (forall w, base w -> C w -> C1 w) ->
    (forall a c', later c c' -> R1 a (num_vars c') -> (base (hon c') -> C1 (hon c') -> S1 (hon c') a) ->
       gspec (f a) c' (fun w b => S1 w a -> S w b) (fun w => C w /\ S1 w a) R) ->
    gspec (cbind m f) c S C R.
  Proof.
    intros Hw H1 HC H2. eapply gspec_bind with (1 := Hw) (2 := H1) (3 := H2); cbn beta; auto.
  Qed.
  Lemma gspec_weaken {A} (m : circ K A) c (S S' : (nat -> K) -> A -> Prop) (C C' : (nat -> K) -> Prop) (R R' : A -> nat -> Prop) :
    (forall w a, base w -> S w a -> S' w a) -> (forall w, base w -> C' w -> C w) -> (forall a n, R a n -> R' a n) -> gspec m c S C R -> gspec m c S' C' R'.
  Proof.
    intros HS HC HR H. unfold CircuitProofs.gspec in *. eapply wpc_mono; [exact H|]. intros a d _ (Sd & Cd & Rd).
    split; [|split]; auto.
  Qed.
  Lemma gspec_ret {A} (a : A) c (S : (nat -> K) -> A -> Prop) C (R : A -> nat -> Prop) :
    R a (num_vars c) -> (forall w, base w -> S w a) -> gspec (ret a) c S C R.
  Proof.
    intros Hb E. unfold CircuitProofs.gspec. apply wpc_ret. split; [auto|]. split; [intros; apply dsat_nil|]. cbn. now rewrite Nat.add_0_r.
  Qed.
  Lemma gspec_lift {A A'} (f0 : circuit K -> outcome cerr A) (f : A -> circ K A') c a S C R :
    f0 c = Ok a -> gspec (f a) c S C R -> gspec (cbind (lift f0) f) c S C R.
  Proof. intros E H. unfold CircuitProofs.gspec in *. apply wpc_bind_lift with a; auto. Qed.
  (** ** Calls whose witnesses are known *)
  Definition hspec {A} (m : circ K A) (c : circuit K) (S : (nat -> K) -> A -> Prop) (C : (nat -> K) -> Prop)
      (V : (nat -> K) -> A -> Prop) (R : A -> nat -> Prop) : Prop :=
    wpc m c (fun a d => (forall w, base w -> dsat zval (ptype c) w d -> S w a) /\
      (forall w, base w -> hext (capp c d) w -> C w -> dsat zval (ptype c) w d) /\
      (forall w, base w -> hext (capp c d) w -> V w a) /\ R a (num_vars c + length (d_vals d))%nat).
  Lemma hspec_weaken {A} (m : circ K A) c (S S' : (nat -> K) -> A -> Prop) (C C' : (nat -> K) -> Prop) (V V' : (nat -> K) -> A -> Prop) (R R' : A -> nat -> Prop) :
    (forall w a, base w -> S w a -> S' w a) -> (forall w, base w -> C' w -> C w) -> (forall w a, base w -> V w a -> V' w a) ->
    (forall a n, R a n -> R' a n) -> hspec m c S C V R -> hspec m c S' C' V' R'.
  Proof.
    intros HS HC HV HR H. unfold hspec in *. eapply wpc_mono; [exact H|]. intros a d _ (Sd & Cd & Vd & Rd).
    split; [|split; [|split]]; auto.
  Qed.
  Lemma hspec_gspec {A} (m : circ K A) c S C V R : hspec m c S C V R -> gspec m c S C R.
  Proof. intros H. unfold hspec, CircuitProofs.gspec in *. eapply wpc_mono; [exact H|]. intros a d _ (Sd & Cd & Vd & Rd). auto. Qed.
  Lemma gspec_hspec {A} (m : circ K A) c S C R : gspec m c S C R -> hspec m c S C (fun _ _ => True) R.
  Proof. intros H. unfold hspec, CircuitProofs.gspec in *. eapply wpc_mono; [exact H|]. intros a d _ (Sd & Cd & Rd). auto. Qed.
  Lemma hspec_ret {A} (a : A) c (S : (nat -> K) -> A -> Prop) C (V : (nat -> K) -> A -> Prop) (R : A -> nat -> Prop) :
    R a (num_vars c) -> (forall w, base w -> S w a) -> (forall w, base w -> V w a) -> hspec (ret a) c S C V R.
  Proof.
    intros Hb E HV. unfold hspec. apply wpc_ret. split; [auto|]. split; [intros; apply dsat_nil|]. cbn. rewrite Nat.add_0_r. auto.
  Qed.
  Lemma hspec_lift {A A'} (f0 : circuit K -> outcome cerr A) (f : A -> circ K A') c a S C V R :
    f0 c = Ok a -> hspec (f a) c S C V R -> hspec (cbind (lift f0) f) c S C V R.
  Proof. intros E H. unfold hspec in *. apply wpc_bind_lift with a; auto. Qed.
  Lemma hspec_seq {A B} (m : circ K A) (f : A -> circ K B) c S1 (C1 : (nat -> K) -> Prop) (V1 : (nat -> K) -> A -> Prop) R1
      (S : (nat -> K) -> B -> Prop) (C : (nat -> K) -> Prop) (V : (nat -> K) -> B -> Prop) R :
    wf c -> hspec m c S1 C1 V1 R1 -> (forall w, base w -> C w -> C1 w) ->
    (forall a c', later c c' -> R1 a (num_vars c') -> (base (hon c') -> V1 (hon c') a) ->
       hspec (f a) c' (fun w b => S1 w a -> S w b) (fun w => C w /\ S1 w a /\ V1 w a) (fun w b => V1 w a -> V w b) R) ->
    hspec (cbind m f) c S C V R.
  Proof.
    intros Hw H1 HC H2. unfold hspec in *. apply wpc_bind. eapply wpc_mono; [exact H1|]. intros a d _ (Sd & Cd & Vd & Rd).
    eapply wpc_mono; [apply (H2 a (capp c d)); [apply later_capp; auto|exact Rd|]|].
    { intros Hb. apply Vd; auto. apply hext_hon. }
    intros b d' _ (Sd' & Cd' & Vd' & Rd'). change (ptype (capp c d)) with (ptype c) in *. split; [|split; [|split]].
    - intros w Hb Hs. rewrite dsat_cat in Hs. destruct Hs as [D1 D2]. auto.
    - intros w Hb Hh Hc. rewrite <- capp_cat in Hh. rewrite dsat_cat.
      assert (X : hext (capp c d) w) by (apply (hext_app1 (capp c d) d'); [wfs|exact Hh]).
      assert (D1 : dsat zval (ptype c) w d) by (apply Cd; auto).
      split; [exact D1|]. apply Cd'; auto.
    - intros w Hb Hh. rewrite <- capp_cat in Hh.
      assert (X : hext (capp c d) w) by (apply (hext_app1 (capp c d) d'); [wfs|exact Hh]). apply Vd'; auto.
    - cbn [dcat d_vals capp num_vars] in *. rewrite app_length, Nat.add_assoc. exact Rd'.
  Qed.
  Lemma var_hspec c (x : K) : wf c -> hspec (create_variable x) c (fun _ _ => True) (fun _ => True) (fun w v => w v = x) out.
  Proof.
    intros Hw. unfold hspec. apply wpc_var; auto. split; [auto|]. split; [intros; split; constructor|]. split.
    - intros w _ Hh. apply (hext_val c x w Hw Hh).
    - unfold out. cbn. lia.
  Qed.
  Lemma bool_hspec c (b : bool) : wf c ->
    hspec (create_boolean_variable b) c (fun w v => isb (w v)) (fun _ => True) (fun w v => w v = b2k b) out.
  Proof.
    intros Hw. unfold create_boolean_variable.
    eapply hspec_seq with (1 := Hw) (2 := var_hspec c _ Hw); [auto|]. intros v c1 L1 O1 _.
    eapply hspec_seq with (2 := gspec_hspec _ _ _ _ _ (enforce_bool_spec zval c1 v ltac:(apply L1) O1)); [apply L1| |].
    { cbn beta. intros w _ (_ & _ & ->). destruct b; auto. }
    intros [] c2 L2 _ _. apply hspec_ret; cbn beta.
    - destruct L2 as (_ & L & _). unfold out in *. lia.
    - intros w _ E _. exact E.
    - intros w _ _ E. exact E.
  Qed.
End Seq.
Ltac lt := unfold later, out in *; repeat match goal with H : _ /\ _ |- _ => destruct H end; try lia; eauto.

Section Spec.
  Context {K : fld}.
  Variable zval : K -> Z.
  Variable P : rescue_params K.
  Variable q : nat.
  Hypothesis Hq : has_card K q.
  Hypothesis Ha : ((rp_a P * limbs_N (rp_a_inv P)) mod N.of_nat (q - 1) = 1)%N.
  Hypothesis Ha5 : rp_a P = 5%N \/ rp_a P = 11%N.
  Hypothesis Hkeys : length (rp_keys P) = 25%nat.
  Hypothesis Hinj : length (rp_inject P) = 24%nat.
  Hypothesis H2 : (1 + 1 : K) <> 0.
  Add Field Kmg : (fth K).
  Notation fg := (fg zval).
  Notation gspec := (gspec zval).

  (** ** Digests *)
  Lemma zero_padded (l : list K) : exists h, sponge_with_zero_padding P l 1 = Ok [h].
  Proof.
    unfold sponge_with_zero_padding, CRHF_RATE. destruct (pad_ok K l 3 ltac:(lia)) as (k & -> & Hm & _). cbn [bind].
    unfold sponge_no_padding. change CRHF_RATE with 3%nat. rewrite app_length, repeat_length, Hm. cbn [negb Nat.eqb].
    rewrite (absorb_ok K P Hkeys) by lia. cbn [bind].
    edestruct (squeeze_ok K P Hkeys 3 1) as (o & s' & -> & E); [lia|]. cbn [bind expect].
    destruct o as [|h [|? ?]]; try discriminate E. exists h. reflexivity.
  Qed.
  Lemma hash_spec l c : wf c -> bdl l (num_vars c) -> l <> [] ->
    fg (n <- next_len (length l) CRHF_RATE ;; r <- rescue_sponge_no_padding P (l ++ repeat 0%nat (n - length l)) 1 ;; idx r 0) c
      (fun w o => Ok [w o]) (fun w => sponge_with_zero_padding P (map w l) 1) out.
  Proof.
    intros Hw Hb Hne. pose proof (wf_two _ Hw) as Hn2.
    destruct (next_len_ok (length l) CRHF_RATE ltac:(unfold CRHF_RATE; lia)) as (k & Ek & Em). apply fg_next_len with (1 := Ek).
    replace (length l + k - length l)%nat with k by lia.
    assert (Hl : bdl (l ++ repeat 0%nat k) (num_vars c)) by (apply bdl_app; [auto|apply bdl_repeat; lia]).
    eapply fg_bind with (1 := Hw) (2 := sponge_no_padding_spec zval P q Hq Ha Ha5 Hkeys Hinj (l ++ repeat 0%nat k) 1 c Hw Hl ltac:(destruct l; [congruence|discriminate]) ltac:(rewrite app_length, repeat_length; exact Em))
      (G := fun a w => match a with v :: _ => Ok [w v] | [] => Panic end).
    - intros a c1 W1 L1 _ [B1 E1]. destruct a as [|v [|? ?]]; try discriminate E1. inversion_clear B1.
      unfold idx, lift. unfold RescueGadgetProofs.fg, CircuitProofs.gspec. cbn. exists v, dnil. rewrite capp_nil.
      split; [reflexivity|]. split; [apply plain_nil|]. repeat split; auto; try constructor. cbn. unfold out. now rewrite Nat.add_0_r.
    - intros a w [E0 _] E. unfold sponge_with_zero_padding, pad_with_zeros. rewrite map_length, Ek. cbn [bind].
      rewrite firstn_all2 by (rewrite map_length; lia). replace (length l + k - length l)%nat with k by lia.
      rewrite map_app, map_repeat, E0 in E. rewrite <- E. unfold rok. cbn [expect].
      assert (Ha1 : length a = 1%nat) by (rewrite <- (map_length w); eapply (sponge_len P q); eauto).
      destruct a as [|v [|? ?]]; try discriminate Ha1. reflexivity.
  Qed.
  Lemma digest_spec data c : wf c -> bdl data (num_vars c) ->
    gspec (digest_g P data) c (fun w o => w o = rescue_node P (map w data)) (fun _ => True) out.
  Proof.
    intros Hw Hb. pose proof (wf_two _ Hw) as Hn2.
    eapply gspec_weaken; [| | |apply (hash_spec (0%nat :: data) c); auto]; auto.
    - cbn beta. intros w o [E0 _] E. unfold rescue_node. rewrite <- E0. change (w 0%nat :: map w data) with (map w (0%nat :: data)). rewrite <- E. reflexivity.
    - constructor; auto. lia.
    - discriminate.
  Qed.
  Lemma digest_leaf_spec pos e c : wf c -> (pos < num_vars c)%nat -> (e < num_vars c)%nat ->
    gspec (digest_leaf_g P pos e) c (fun w o => w o = rescue_leaf_at P (w pos) (w e)) (fun _ => True) out.
  Proof.
    intros Hw Hp He. pose proof (wf_two _ Hw) as Hn2.
    eapply gspec_weaken; [| | |apply (hash_spec [1; pos; e]%nat c); auto]; auto.
    - cbn beta. intros w o [_ E1] E. unfold rescue_leaf_at. rewrite <- E1. change ([w 1%nat; w pos; w e]) with (map w [1; pos; e]%nat). rewrite <- E. reflexivity.
    - repeat constructor; auto.
    - discriminate.
  Qed.

  (** ** One node of the path *)
  Definition nb (n : mnode) (m : nat) : Prop := (sib1 n < m /\ sib2 n < m /\ is_left n < m /\ is_right n < m)%nat.
  Lemma nb_le n m m' : nb n m -> (m <= m')%nat -> nb n m'.
  Proof. unfold nb. lia. Qed.
  (** The flags are Boolean and not both set. *)
  Definition flags_ok (w : nat -> K) (n : mnode) : Prop :=
    isb (w (is_left n)) /\ isb (w (is_right n)) /\ isb (w (is_left n) + w (is_right n)).
  (** The branch that the flags denote. *)
  Definition branch (w : nat -> K) (n : mnode) : nat :=
    if feqb (w (is_left n)) 1 then 0 else if feqb (w (is_right n)) 1 then 2 else 1.
  Definition sibs (w : nat -> K) (n : mnode) : list K := [w (sib1 n); w (sib2 n)].
  Definition step_of (w : nat -> K) (n : mnode) : nat * list K := (branch w n, sibs w n).
  Definition place (v : K) (bs : nat * list K) : list K := firstn (fst bs) (snd bs) ++ v :: skipn (fst bs) (snd bs).

  Lemma order_value (w : nat -> K) n v x y z : flags_ok w n ->
    x = (if feqb (w (is_left n)) 1 then v else w (sib1 n)) ->
    z = (if feqb (w (is_right n)) 1 then v else w (sib2 n)) ->
    y = 1 * v + 1 * w (sib1 n) + 1 * w (sib2 n) + - (1) * (x + z) ->
    [x; y; z] = place v (step_of w n).
  Proof.
    intros (Bl & Br & Bs) -> -> ->. unfold place, step_of, branch, sibs. cbn [fst snd].
    pose proof (f1_neq_0 K) as N1.
    destruct Bl as [El|El], Br as [Er|Er]; rewrite El, Er in *;
      repeat match goal with
      | |- context [feqb 1 1] => rewrite (feqb_refl K 1)
      | |- context [feqb 0 1] => rewrite (proj2 (feqb_neq K 0 1)) by congruence
      end; cbn [firstn skipn app]; try (f_equal; [ring|]; f_equal; [ring|]; f_equal; ring); try (repeat f_equal; ring).
    exfalso. destruct Bs as [E|E]; [exact (H2 E)|]. apply N1. transitivity (1 + 1 - 1 : K); [ring|]. rewrite E. ring.
  Qed.
  Lemma order_spec label n c : wf c -> (label < num_vars c)%nat -> nb n (num_vars c) ->
    isb (hon c (is_left n)) -> isb (hon c (is_right n)) ->
    gspec (constrain_sibling_order label (sib1 n) (sib2 n) (is_left n) (is_right n)) c
      (fun w o => flags_ok w n -> map w o = place (w label) (step_of w n)) (fun _ => True)
      (fun o m => bdl o m /\ length o = 3%nat).
  Proof.
    intros Hw Hl (B1 & B2 & B3 & B4) Bl Br. unfold constrain_sibling_order.
    eapply gspec_seq with (1 := Hw) (2 := conditional_select_spec zval c _ _ _ Hw B3 B1 Hl Bl); [auto|].
    intros x c1 L1 O1 _.
    assert (Br1 : isb (hon c1 (is_right n))). { destruct L1 as (_ & _ & _ & ->); auto. }
    eapply gspec_seq with (2 := conditional_select_spec zval c1 (is_right n) (sib2 n) label ltac:(lt) ltac:(lt) ltac:(lt) ltac:(lt) Br1); [lt|auto|].
    intros z c2 L2 O2 _.
    eapply gspec_seq with (2 := add_spec zval c2 x z ltac:(lt) ltac:(lt) ltac:(lt)); [lt|auto|].
    intros s c3 L3 O3 _.
    eapply gspec_seq with (2 := lc_spec zval c3 label (sib1 n) (sib2 n) s 1 1 1 (- (1)) ltac:(lt) ltac:(lt) ltac:(lt) ltac:(lt) ltac:(lt)); [lt|auto|].
    intros y c4 L4 O4 _. apply gspec_ret.
    - split; [|reflexivity]. repeat constructor; lt.
    - intros w Hb Ey Es Ez Ex F. cbn [map]. apply order_value; auto.
      + apply Ex. apply F.
      + apply Ez. apply F.
      + rewrite Ey, Es. reflexivity.
  Qed.

  (** ** Membership *)
  Notation vstep := (verify_step 0 (rescue_node P)).
  (** The left label of every level is not zero. *)
  Fixpoint lefts_ok (v : K) (l : list (nat * list K)) : Prop :=
    match l with
    | [] => True
    | bs :: l' => hd 0 (place v bs) <> 0 /\ lefts_ok (vstep v bs) l'
    end.
  Lemma vstep_place (w : nat -> K) v n : vstep v (step_of w n) = rescue_node P (place v (step_of w n)).
  Proof. reflexivity. Qed.
  (** What is known about a node when the gadget is called. *)
  Definition nh (c : circuit K) (n : mnode) : Prop := nb n (num_vars c) /\ isb (hon c (is_left n)) /\ isb (hon c (is_right n)).
  Lemma nh_later c c' n : later c c' -> nh c n -> nh c' n.
  Proof.
    intros (_ & L & _ & H) (B & Bl & Br). split; [eapply nb_le; eauto|]. unfold nb in B. rewrite !H by lia. auto.
  Qed.
  Lemma nhs_later c c' l : later c c' -> Forall (nh c) l -> Forall (nh c') l.
  Proof. intros L H. eapply Forall_impl; [|exact H]. intros n. now apply nh_later. Qed.

  Lemma member_step_spec label n c : wf c -> (label < num_vars c)%nat -> nh c n ->
    gspec (member_step P label n) c
      (fun w o => flags_ok w n -> w o = vstep (w label) (step_of w n) /\ hd 0 (place (w label) (step_of w n)) <> 0)
      (fun w => flags_ok w n /\ hd 0 (place (w label) (step_of w n)) <> 0) out.
  Proof.
    intros Hw Hl (B & Bl & Br). unfold member_step.
    eapply gspec_seq with (1 := Hw) (2 := order_spec label n c Hw Hl B Bl Br); [auto|]. intros ls c1 L1 [O1 N1] _.
    destruct ls as [|x [|y [|z [|? ?]]]]; try discriminate N1. inversion O1 as [|? ? Ox _]; subst.
    unfold idx. apply gspec_lift with x; [reflexivity|].
    eapply gspec_seq with (2 := non_zero_gate_spec zval c1 x ltac:(lt) Ox); [lt| |].
    { cbn beta. intros w _ [[F Hn] E]. specialize (E F). cbn [map] in E. rewrite <- E in Hn. exact Hn. }
    intros _ c2 L2 _ _. eapply gspec_weaken; [| | |apply digest_spec; [lt|eapply bdl_le; [exact O1|lt]]]; cbn beta; auto.
    cbn beta. intros w o _ Eo Hx E F. specialize (E F). rewrite vstep_place, <- E. split; [exact Eo|]. exact Hx.
  Qed.
  Lemma member_fold_spec nodes : forall label c, wf c -> (label < num_vars c)%nat -> Forall (nh c) nodes ->
    gspec (foldM (member_step P) label nodes) c
      (fun w o => Forall (flags_ok w) nodes ->
         w o = fold_left vstep (map (step_of w) nodes) (w label) /\ lefts_ok (w label) (map (step_of w) nodes))
      (fun w => Forall (flags_ok w) nodes /\ lefts_ok (w label) (map (step_of w) nodes)) out.
  Proof.
    induction nodes as [|n nodes IH]; intros label c Hw Hl Hn; cbn [foldM].
    - apply gspec_ret; [exact Hl|]. intros w _ _. split; [reflexivity|exact I].
    - inversion_clear Hn as [|? ? Hn0 Hn1].
      eapply gspec_seq with (1 := Hw) (2 := member_step_spec label n c Hw Hl Hn0).
      { cbn [map lefts_ok]. intros w _ [F [N _]]. inversion_clear F. auto. }
      intros l' c1 L1 O1 _. eapply gspec_weaken; [| | |apply (IH l' c1); [lt|exact O1|eapply nhs_later; eauto]]; cbn beta; auto.
      + intros w o _ H S F. inversion_clear F as [|? ? F0 F1]. destruct (S F0) as [E N]. destruct (H F1) as [E1 N1].
        cbn [map fold_left lefts_ok]. rewrite <- E. auto.
      + intros w _ [[F [N Ls]] S]. inversion_clear F as [|? ? F0 F1]. destruct (S F0) as [E _]. split; [exact F1|]. rewrite E. exact Ls.
  Qed.
  Definition member_root (x e : K) (l : list (nat * list K)) : K := fold_left vstep l (rescue_leaf_at P x e).
  Lemma is_member_spec pos e nodes com c : wf c -> (pos < num_vars c)%nat -> (e < num_vars c)%nat -> (com < num_vars c)%nat ->
    Forall (nh c) nodes ->
    gspec (is_member P pos e nodes com) c
      (fun w o => Forall (flags_ok w) nodes ->
         w o = b2k (feqb (w com) (member_root (w pos) (w e) (map (step_of w) nodes))) /\
         lefts_ok (rescue_leaf_at P (w pos) (w e)) (map (step_of w) nodes))
      (fun w => Forall (flags_ok w) nodes /\ lefts_ok (rescue_leaf_at P (w pos) (w e)) (map (step_of w) nodes)) out.
  Proof.
    intros Hw Hp He Hc Hn. unfold is_member.
    eapply gspec_seq with (1 := Hw) (2 := digest_leaf_spec pos e c Hw Hp He); [auto|]. intros l0 c1 L1 O1 _.
    eapply gspec_seq with (2 := member_fold_spec nodes l0 c1 ltac:(lt) O1 (nhs_later _ _ _ L1 Hn)); [lt| |].
    { cbn beta. intros w _ [[F Ls] ->]. auto. }
    intros l c2 L2 O2 _. eapply gspec_weaken; [| | |apply (is_equal_spec zval c2 com l); lt]; cbn beta; auto.
    cbn beta. intros w o _ Eo S E0 F. destruct (S F) as [El Ls]. rewrite Eo, El, E0. split; [reflexivity|]. now rewrite <- E0.
  Qed.
  Lemma enforce_membership_spec pos e nodes com c : wf c -> (pos < num_vars c)%nat -> (e < num_vars c)%nat -> (com < num_vars c)%nat ->
    Forall (nh c) nodes ->
    gspec (enforce_membership_proof P pos e nodes com) c
      (fun w _ => Forall (flags_ok w) nodes ->
         w com = member_root (w pos) (w e) (map (step_of w) nodes) /\
         lefts_ok (rescue_leaf_at P (w pos) (w e)) (map (step_of w) nodes))
      (fun w => Forall (flags_ok w) nodes /\ w com = member_root (w pos) (w e) (map (step_of w) nodes) /\
         lefts_ok (rescue_leaf_at P (w pos) (w e)) (map (step_of w) nodes)) noout.
  Proof.
    intros Hw Hp He Hc Hn. unfold enforce_membership_proof.
    eapply gspec_seq with (1 := Hw) (2 := is_member_spec pos e nodes com c Hw Hp He Hc Hn).
    { cbn beta. intros w _ (F & _ & Ls). auto. }
    intros b c1 L1 O1 _. eapply gspec_weaken; [| | |apply (enforce_constant_spec zval c1 b 1); lt]; cbn beta; auto.
    - intros w _ _ Eb S F. destruct (S F) as [E Ls]. split; [|exact Ls]. rewrite Eb in E.
      destruct (feqb (w com) _) eqn:Ec; [now apply feqb_eq in Ec|]. cbn in E. exfalso. now apply (f1_neq_0 K).
    - intros w _ [(F & E & Ls) S]. destruct (S F) as [-> _]. rewrite (proj2 (feqb_eq _ _ _) E). reflexivity.
  Qed.

  (** ** Creating the proof variable *)
  Lemma check_flags_spec nodes : forall c, wf c -> Forall (fun n => nb n (num_vars c)) nodes ->
    gspec (check_flags nodes) c (fun w _ => Forall (fun n => isb (w (is_left n) + w (is_right n))) nodes)
      (fun w => Forall (fun n => isb (w (is_left n) + w (is_right n))) nodes) noout.
  Proof.
    unfold check_flags. induction nodes as [|n nodes IH]; intros c Hw Hn; cbn [iterM].
    - apply gspec_ret; [exact I|]. auto.
    - inversion_clear Hn as [|? ? [B1 [B2 [B3 B4]]] Hn1].
      eapply gspec_seq with (S1 := fun w (_ : unit) => isb (w (is_left n) + w (is_right n))) (C1 := fun w => isb (w (is_left n) + w (is_right n)))
        (R1 := noout) (1 := Hw).
      + eapply gspec_seq with (1 := Hw) (2 := add_spec zval c _ _ Hw B3 B4); [auto|]. intros s c1 L1 O1 _.
        eapply gspec_weaken; [| | |apply (enforce_bool_spec zval c1 s); lt]; cbn beta; auto.
        * intros w _ _ E Es. unfold isb. rewrite <- Es. exact E.
        * intros w _ [E ->]. exact E.
      + cbn beta. intros w _ F. now inversion_clear F.
      + intros _ c1 L1 _ _. eapply gspec_weaken; [| | |apply (IH c1); [lt|]]; cbn beta.
        * intros w _ _ H S. constructor; auto.
        * intros w _ [F _]. now inversion_clear F.
        * auto.
        * eapply Forall_impl; [|exact Hn1]. intros a Hb. eapply nb_le; [exact Hb|lt].
  Qed.
  Definition flag_bools (w : nat -> K) (n : mnode) : Prop := isb (w (is_left n)) /\ isb (w (is_right n)).
  Lemma step_of_values (w : nat -> K) n b x y : (b < 3)%nat -> w (sib1 n) = x -> w (sib2 n) = y ->
    w (is_left n) = b2k (b =? 0)%nat -> w (is_right n) = b2k (b =? 2)%nat ->
    step_of w n = (b, [x; y]) /\ flags_ok w n.
  Proof.
    intros Hb <- <- El Er. unfold step_of, branch, sibs, flags_ok. rewrite El, Er.
    pose proof (f1_neq_0 K) as N1. assert (N0 : feqb (0 : K) 1 = false) by (apply feqb_neq; congruence).
    destruct b as [|[|[|b]]]; [| | |lia]; cbn [Nat.eqb b2k]; rewrite ?N0, ?(feqb_refl K 1); (split; [reflexivity|]);
      repeat split; try (left; ring); try (right; ring).
  Qed.
  Definition good_step (bs : nat * list K) : Prop := (fst bs < 3 /\ length (snd bs) = 2)%nat.
  Lemma create_node_spec b x y c : wf c -> (b < 3)%nat ->
    hspec zval (create_node (b, [x; y])) c flag_bools (fun _ => True)
      (fun w n => step_of w n = (b, [x; y]) /\ flags_ok w n) nb.
  Proof.
    intros Hw Hb. unfold create_node, idx. apply hspec_lift with x; [reflexivity|].
    eapply hspec_seq with (1 := Hw) (2 := var_hspec zval c x Hw); [auto|]. intros s1 c1 L1 O1 _.
    apply hspec_lift with y; [reflexivity|].
    eapply hspec_seq with (2 := var_hspec zval c1 y ltac:(lt)); [lt|auto|]. intros s2 c2 L2 O2 _.
    eapply hspec_seq with (2 := bool_hspec zval c2 (b =? 0)%nat ltac:(lt)); [lt|auto|]. intros l c3 L3 O3 _.
    eapply hspec_seq with (2 := bool_hspec zval c3 (b =? 2)%nat ltac:(lt)); [lt|auto|]. intros r c4 L4 O4 _.
    apply hspec_ret; cbn beta.
    - unfold nb. cbn [sib1 sib2 is_left is_right]. lt.
    - intros w _ Br Bl _ _. split; auto.
    - intros w _ Vr Vl V2 V1. apply step_of_values; auto.
  Qed.
  (** Nodes made one after the other. *)
  Lemma create_nodes_spec (mk : nat * list K -> circ K mnode) (val : nat * list K -> nat * list K) l :
    (forall bs c, In bs l -> wf c -> hspec zval (mk bs) c flag_bools (fun _ => True) (fun w n => step_of w n = val bs /\ flags_ok w n) nb) ->
    forall c, wf c -> hspec zval (mapM mk l) c (fun w ns => Forall (flag_bools w) ns) (fun _ => True)
      (fun w ns => map (step_of w) ns = map val l /\ Forall (flags_ok w) ns) (fun ns m => Forall (fun n => nb n m) ns /\ length ns = length l).
  Proof.
    induction l as [|bs l IH]; intros H c Hw; cbn [mapM].
    - apply hspec_ret; auto.
    - eapply hspec_seq with (1 := Hw) (2 := H bs c (or_introl eq_refl) Hw); [auto|]. intros n c1 L1 O1 _.
      eapply hspec_seq with (2 := IH (fun bs c Hi => H bs c (or_intror Hi)) c1 ltac:(lt)); [lt|auto|]. intros ns c2 L2 [O2 N2] _.
      apply hspec_ret; cbn beta.
      + split; [|cbn [length]; congruence]. constructor; auto. eapply nb_le; [exact O1|lt].
      + intros w _ F B. constructor; auto.
      + intros w _ [E F] [E1 F1]. cbn [map]. rewrite E, E1. auto.
  Qed.
  Lemma checked_nodes_spec (mk : nat * list K -> circ K mnode) (val : nat * list K -> nat * list K) l c :
    (forall bs c, In bs l -> wf c -> hspec zval (mk bs) c flag_bools (fun _ => True) (fun w n => step_of w n = val bs /\ flags_ok w n) nb) -> wf c ->
    hspec zval (nodes <- mapM mk l ;; check_flags nodes >> ret nodes) c (fun w ns => Forall (flags_ok w) ns) (fun _ => True)
      (fun w ns => map (step_of w) ns = map val l /\ Forall (flags_ok w) ns) (fun ns m => Forall (fun n => nb n m) ns /\ length ns = length l).
  Proof.
    intros H Hw. eapply hspec_seq with (1 := Hw) (2 := create_nodes_spec mk val l H c Hw); [auto|]. intros ns c1 L1 [O1 N1] _.
    eapply hspec_seq with (2 := gspec_hspec zval _ _ _ _ _ (check_flags_spec ns c1 ltac:(lt) O1)); [lt| |].
    { cbn beta. intros w _ (_ & _ & _ & F). eapply Forall_impl; [|exact F]. intros a Fa. apply Fa. }
    intros [] c2 L2 _ _. apply hspec_ret; cbn beta.
    - split; [|auto]. eapply Forall_impl; [|exact O1]. intros a Hb. eapply nb_le; [exact Hb|lt].
    - intros w _ F B. clear -F B. induction B as [|n ns [B1 B2] _ IH]; constructor; inversion_clear F; auto. split; auto.
    - intros w _ _ V. exact V.
  Qed.
  Lemma path_good pos h : Forall (fun b => b < 3)%nat (to_traversal_path 3 pos h).
  Proof.
    revert pos. induction h as [|h IH]; intros pos; cbn [to_traversal_path]; constructor; auto.
    apply Nat.mod_upper_bound. lia.
  Qed.
  Lemma create_membership_spec pos pf c : wf c -> Forall (fun s => length s = 2%nat) pf ->
    hspec zval (create_membership_proof_variable pos pf) c (fun w ns => Forall (flags_ok w) ns) (fun _ => True)
      (fun w ns => map (step_of w) ns = combine (to_traversal_path 3 pos (length pf)) pf /\ Forall (flags_ok w) ns)
      (fun ns m => Forall (fun n => nb n m) ns /\ length ns = length pf).
  Proof.
    intros Hw Hp. unfold create_membership_proof_variable.
    eapply hspec_weaken; [| | | |apply (checked_nodes_spec create_node (fun bs => bs)); [|exact Hw]]; cbn beta; auto.
    - intros w a _. now rewrite map_id.
    - intros a n [H E]. split; auto. rewrite E, combine_length, path_length. lia.
    - intros [b s] c' Hi Hw'. pose proof (in_combine_l _ _ _ _ Hi) as Hb. pose proof (in_combine_r _ _ _ _ Hi) as Hs.
      rewrite Forall_forall in Hp. specialize (Hp s Hs). destruct s as [|x [|y [|? ?]]]; try discriminate Hp.
      apply create_node_spec; auto. pose proof (path_good pos (length pf)) as G. rewrite Forall_forall in G. auto.
  Qed.

  (** ** Non-membership *)
  Definition zeros (l : list K) : bool := forallb (fun x => feqb x 0) l.
  (** One level: an all-zero level is empty. *)
  Definition nm_step (v : K) (bs : nat * list K) : K :=
    if zeros (place v bs) then 0 else rescue_node P (place v bs).
  Lemma isb_b2k (b : bool) : isb (b2k b : K).
  Proof. destruct b; [right|left]; reflexivity. Qed.
  Lemma b2k_and (a b : bool) : b2k a * b2k b = b2k (a && b) :> K.
  Proof. destruct a, b; cbn; ring. Qed.
  Lemma b2k_1 (b : bool) : feqb (b2k b : K) 1 = b.
  Proof. destruct b; cbn [b2k]; [apply feqb_refl|]. apply feqb_neq. intros E. apply (f1_neq_0 K). auto. Qed.
  Lemma non_member_step_spec label n c : wf c -> base (hon c) -> (label < num_vars c)%nat -> nh c n ->
    gspec (non_member_step P label n) c
      (fun w o => flags_ok w n -> w o = nm_step (w label) (step_of w n)) (fun w => flags_ok w n) out.
  Proof.
    intros Hw Hbs Hl (B & Bl & Br). unfold non_member_step. pose proof (wf_two _ Hw) as Hn2.
    eapply gspec_seq with (1 := Hw) (2 := order_spec label n c Hw Hl B Bl Br); [auto|]. intros ls c1 L1 [O1 N1] _.
    destruct ls as [|x [|y [|z [|? ?]]]]; try discriminate N1.
    assert (Ox : (x < num_vars c1 /\ y < num_vars c1 /\ z < num_vars c1)%nat).
    { inversion_clear O1 as [|? ? ? O2]. inversion_clear O2 as [|? ? ? O3]. inversion_clear O3. auto. }
    destruct Ox as (Ox & Oy & Oz).
    unfold idx. apply gspec_lift with x; [reflexivity|].
    eapply gspec_seq with (2 := is_zero_spec zval c1 x ltac:(lt) ltac:(lt)); [lt|auto|]. intros zx c2 L2 O2 Hzx.
    apply gspec_lift with y; [reflexivity|].
    eapply gspec_seq with (2 := is_zero_spec zval c2 y ltac:(lt) ltac:(lt)); [lt|auto|]. intros zy c3 L3 O3 Hzy.
    apply gspec_lift with z; [reflexivity|].
    eapply gspec_seq with (2 := is_zero_spec zval c3 z ltac:(lt) ltac:(lt)); [lt|auto|]. intros zz c4 L4 O4 Hzz.
    eapply gspec_seq with (2 := logic_and_all_spec zval c4 [zx; zy; zz] ltac:(lt) ltac:(discriminate) ltac:(repeat constructor; lt)); [lt|auto|].
    intros all c5 L5 O5 Hall.
    assert (Ba : isb (hon c5 all)).
    { assert (X2 : base (hon c2)) by (apply (hon_base c); [eapply later_trans; eauto|auto|auto]).
      assert (X3 : base (hon c3)) by (apply (hon_base c2); [auto|lt|auto]).
      assert (X4 : base (hon c4)) by (apply (hon_base c3); [auto|lt|auto]).
      assert (X5 : base (hon c5)) by (apply (hon_base c4); [auto|lt|auto]).
      rewrite (Hall X5 I). cbn [map]. rewrite !fprod_cons.
      assert (Y : forall v, (v < num_vars c4)%nat -> hon c5 v = hon c4 v) by (intros; apply L5; auto).
      assert (Y4 : forall v, (v < num_vars c3)%nat -> hon c4 v = hon c3 v) by (intros; apply L4; auto).
      assert (Y3 : forall v, (v < num_vars c2)%nat -> hon c3 v = hon c2 v) by (intros; apply L3; auto).
      rewrite (Y zx), (Y4 zx), (Y3 zx) by lt. rewrite (Hzx X2 I). rewrite (Y zy), (Y4 zy) by lt. rewrite (Hzy X3 I). rewrite (Y zz) by lt. rewrite (Hzz X4 I).
      unfold fprod. cbn [fold_right]. change (1 : K) with (b2k true : K). rewrite !b2k_and. apply isb_b2k. }
    eapply gspec_seq with (2 := digest_spec [x; y; z] c5 ltac:(lt) ltac:(repeat constructor; lt)); [lt|auto|]. intros d c6 L6 O6 _.
    assert (Ba6 : isb (hon c6 all)). { destruct L6 as (_ & _ & _ & ->); auto. }
    eapply gspec_weaken; [| | |apply (conditional_select_spec zval c6 all d 0); [lt|lt|lt|lt|exact Ba6]]; cbn beta; auto.
    intros w o [E0 _] Eo Ed Eall Ezz Ezy Ezx E F. specialize (E F). unfold nm_step. rewrite <- E. cbn [map zeros forallb].
    cbn [map] in Eall. rewrite !fprod_cons, Ezx, Ezy, Ezz in Eall. unfold fprod in Eall. cbn [fold_right] in Eall.
    change (1 : K) with (b2k true : K) in Eall at 1. rewrite !b2k_and in Eall. cbn [map zeros forallb]. fold (zeros [w x; w y; w z]).
    unfold zeros. cbn [forallb]. rewrite Eo by (rewrite Eall; apply isb_b2k). rewrite Eall, b2k_1, E0, Ed. reflexivity.
  Qed.
  Lemma non_member_fold_spec nodes : forall label c, wf c -> base (hon c) -> (label < num_vars c)%nat -> Forall (nh c) nodes ->
    gspec (foldM (non_member_step P) label nodes) c
      (fun w o => Forall (flags_ok w) nodes -> w o = fold_left nm_step (map (step_of w) nodes) (w label))
      (fun w => Forall (flags_ok w) nodes) out.
  Proof.
    induction nodes as [|n nodes IH]; intros label c Hw Hbs Hl Hn; cbn [foldM].
    - apply gspec_ret; [exact Hl|]. intros w _ _. reflexivity.
    - inversion_clear Hn as [|? ? Hn0 Hn1]. pose proof (wf_two _ Hw) as Hn2.
      eapply gspec_seq with (1 := Hw) (2 := non_member_step_spec label n c Hw Hbs Hl Hn0).
      { intros w _ F. now inversion_clear F. }
      intros l' c1 L1 O1 _. eapply gspec_weaken; [| | |apply (IH l' c1); [lt|apply (hon_base c); auto|exact O1|eapply nhs_later; eauto]]; cbn beta; auto.
      + intros w o _ H S F. inversion_clear F as [|? ? F0 F1]. rewrite (H F1), (S F0). reflexivity.
      + intros w _ [F _]. now inversion_clear F.
  Qed.
  (** The position with the given digits, least significant first. *)
  Fixpoint pos_of (ds : list nat) : nat := match ds with [] => 0 | d :: ds' => d + 3 * pos_of ds' end.
  Lemma fZ_nat_add a b : fZ (Z.of_nat (a + b)) = (fZ (Z.of_nat a) + fZ (Z.of_nat b) : K).
  Proof. rewrite Nat2Z.inj_add. apply fZ_add. Qed.
  Lemma flags_coef (w : nat -> K) n : flags_ok w n -> 1 - w (is_left n) + w (is_right n) = fZ (Z.of_nat (branch w n)).
  Proof.
    intros (Bl & Br & Bs). unfold branch. pose proof (f1_neq_0 K) as N1. assert (N0 : feqb (0 : K) 1 = false) by (apply feqb_neq; congruence).
    destruct Bl as [El|El], Br as [Er|Er]; rewrite El, Er in *; rewrite ?N0, ?(feqb_refl K 1).
    - change (Z.of_nat 1) with 1%Z. rewrite fZ_1. ring.
    - change (Z.of_nat 2) with (1 + 1)%Z. rewrite fZ_add, fZ_1. ring.
    - change (Z.of_nat 0) with 0%Z. change (fZ 0 : K) with (0 : K). ring.
    - exfalso. destruct Bs as [E|E]; [exact (H2 E)|]. apply N1. transitivity (1 + 1 - 1 : K); [ring|]. rewrite E. ring.
  Qed.
  Lemma flags_index_spec nodes : forall base acc c, wf c -> (acc < num_vars c)%nat -> Forall (fun n => nb n (num_vars c)) nodes ->
    gspec (flags_index base acc nodes) c
      (fun w o => Forall (flags_ok w) nodes -> w o = w acc + base * fZ (Z.of_nat (pos_of (map (branch w) nodes))))
      (fun _ => True) out.
  Proof.
    induction nodes as [|n nodes IH]; intros bs acc c Hw Hacc Hn; cbn [flags_index].
    - apply gspec_ret; [exact Hacc|]. intros w _ _. cbn [map pos_of]. change (Z.of_nat 0) with 0%Z. change (fZ 0 : K) with (0 : K). ring.
    - inversion_clear Hn as [|? ? [B1 [B2 [B3 B4]]] Hn1]. pose proof (wf_two _ Hw) as Hn2.
      eapply gspec_seq with (1 := Hw) (2 := sub_spec zval c 1 (is_left n) Hw ltac:(lia) B3); [auto|]. intros k1 c1 L1 O1 _.
      eapply gspec_seq with (2 := add_spec zval c1 k1 (is_right n) ltac:(lt) ltac:(lt) ltac:(lt)); [lt|auto|]. intros k2 c2 L2 O2 _.
      eapply gspec_seq with (2 := mul_constant_spec zval c2 k2 bs ltac:(lt) ltac:(lt)); [lt|auto|]. intros t c3 L3 O3 _.
      eapply gspec_seq with (2 := add_spec zval c3 acc t ltac:(lt) ltac:(lt) ltac:(lt)); [lt|auto|]. intros acc' c4 L4 O4 _.
      eapply gspec_weaken; [| | |apply (IH (bs + bs + bs) acc' c4); [lt|lt|]]; cbn beta; auto.
      + intros w o [_ E1] H Ea Et E2 Ek F. inversion_clear F as [|? ? F0 F1]. rewrite (H F1), Ea, Et, E2, Ek, E1. cbn [map pos_of].
        rewrite flags_coef by exact F0. rewrite fZ_nat_add. rewrite Nat2Z.inj_mul, fZ_mul. change (Z.of_nat 3) with (1 + 1 + 1)%Z. rewrite !fZ_add, !fZ_1. ring.
      + eapply Forall_impl; [|exact Hn1]. intros a Hb. eapply nb_le; [exact Hb|lt].
  Qed.
  Definition non_member_ok (x com : K) (l : list (nat * list K)) : bool :=
    feqb (fZ (Z.of_nat (pos_of (map fst l)))) x && feqb (fold_left nm_step l 0) com.
  Lemma branch_fst (w : nat -> K) nodes : map fst (map (step_of w) nodes) = map (branch w) nodes.
  Proof. rewrite map_map. reflexivity. Qed.
  Lemma is_non_member_spec pos nodes com c : wf c -> base (hon c) -> (pos < num_vars c)%nat -> (com < num_vars c)%nat ->
    Forall (nh c) nodes ->
    gspec (is_non_member P pos nodes com) c
      (fun w o => Forall (flags_ok w) nodes -> w o = b2k (non_member_ok (w pos) (w com) (map (step_of w) nodes)))
      (fun w => Forall (flags_ok w) nodes) out.
  Proof.
    intros Hw Hbs Hp Hc Hn. unfold is_non_member. pose proof (wf_two _ Hw) as Hn2.
    assert (Hn' : Forall (fun n => nb n (num_vars c)) nodes) by (eapply Forall_impl; [|exact Hn]; intros a Hx; apply Hx).
    eapply gspec_seq with (1 := Hw) (2 := flags_index_spec nodes 1 0 c Hw ltac:(lia) Hn'); [auto|]. intros cum c1 L1 O1 _.
    eapply gspec_seq with (2 := is_equal_spec zval c1 cum pos ltac:(lt) ltac:(lt) ltac:(lt)); [lt|auto|]. intros ic c2 L2 O2 _.
    assert (L02 : later c c2) by (eapply later_trans; eauto).
    eapply gspec_seq with (2 := non_member_fold_spec nodes 0 c2 ltac:(lt) (hon_base _ _ L02 Hn2 Hbs) ltac:(lt) (nhs_later _ _ _ L02 Hn)); [lt| |].
    { cbn beta. intros w _ [[F _] _]. exact F. }
    intros l c3 L3 O3 _.
    eapply gspec_seq with (2 := is_equal_spec zval c3 l com ltac:(lt) ltac:(lt) ltac:(lt)); [lt|auto|]. intros cc c4 L4 O4 _.
    eapply gspec_weaken; [| | |apply (logic_and_spec zval c4 ic cc); lt]; cbn beta; auto.
    intros w o [E0 _] Eo Ecc El Eic Ecum F. rewrite Eo, Ecc, Eic, (El F), (Ecum F), E0, b2k_and. f_equal. unfold non_member_ok. rewrite branch_fst.
    f_equal. f_equal. ring.
  Qed.
  Lemma enforce_non_membership_spec pos nodes com c : wf c -> base (hon c) -> (pos < num_vars c)%nat -> (com < num_vars c)%nat ->
    Forall (nh c) nodes ->
    gspec (enforce_non_membership_proof P pos nodes com) c
      (fun w _ => Forall (flags_ok w) nodes -> non_member_ok (w pos) (w com) (map (step_of w) nodes) = true)
      (fun w => Forall (flags_ok w) nodes /\ non_member_ok (w pos) (w com) (map (step_of w) nodes) = true) noout.
  Proof.
    intros Hw Hbs Hp Hc Hn. unfold enforce_non_membership_proof.
    eapply gspec_seq with (1 := Hw) (2 := is_non_member_spec pos nodes com c Hw Hbs Hp Hc Hn).
    { intros w _ [F _]. exact F. }
    intros b c1 L1 O1 _. eapply gspec_weaken; [| | |apply (enforce_constant_spec zval c1 b 1); lt]; cbn beta; auto.
    - intros w _ _ Eb S F. rewrite (S F) in Eb. rewrite <- (b2k_1 (non_member_ok _ _ _)), Eb. apply feqb_refl.
    - intros w _ [[F E] S]. rewrite (S F), E. reflexivity.
  Qed.
  (** An empty list of siblings stands for two zeros. *)
  Definition fill (bs : nat * list K) : nat * list K := (fst bs, match snd bs with [] => [0; 0] | l => l end).
  Lemma create_node_opt_spec b s c : wf c -> (b < 3)%nat -> (length s = 2 \/ length s = 0)%nat ->
    hspec zval (create_node_opt (b, s)) c flag_bools (fun _ => True)
      (fun w n => step_of w n = fill (b, s) /\ flags_ok w n) nb.
  Proof.
    intros Hw Hb Hs. unfold create_node_opt, fill. cbn [fst snd]. pose proof (wf_two _ Hw) as Hn2. destruct s as [|x [|y [|? ?]]].
    - cbn [length Nat.eqb].
      eapply hspec_seq with (1 := Hw) (S1 := fun _ v => v = 0%nat) (C1 := fun _ => True) (V1 := fun _ v => v = 0%nat) (R1 := fun v n => v = 0%nat); [apply hspec_ret; auto|auto|].
      intros a c1 L1 -> _.
      eapply hspec_seq with (S1 := fun _ v => v = 0%nat) (C1 := fun _ => True) (V1 := fun _ v => v = 0%nat) (R1 := fun v n => v = 0%nat); [lt|apply hspec_ret; auto|auto|].
      intros a c2 L2 -> _.
      eapply hspec_seq with (2 := bool_hspec zval c2 (b =? 0)%nat ltac:(lt)); [lt|auto|]. intros l c3 L3 O3 _.
      eapply hspec_seq with (2 := bool_hspec zval c3 (b =? 2)%nat ltac:(lt)); [lt|auto|]. intros r c4 L4 O4 _.
      apply hspec_ret; cbn beta.
      + unfold nb. cbn [sib1 sib2 is_left is_right]. lt.
      + intros w _ Br Bl _ _. split; auto.
      + intros w [E0 _] Vr Vl V2 V1. apply step_of_values; auto.
    - cbn in Hs. lia.
    - cbn [length Nat.eqb]. unfold idx.
      eapply hspec_seq with (1 := Hw) (S1 := fun _ _ => True) (C1 := fun _ => True) (V1 := fun w v => w v = x) (R1 := out).
      { apply hspec_lift with x; [reflexivity|]. apply var_hspec; auto. }
      { auto. }
      intros s1 c1 L1 O1 _.
      eapply hspec_seq with (S1 := fun _ _ => True) (C1 := fun _ => True) (V1 := fun w v => w v = y) (R1 := out); [lt| |auto|].
      { apply hspec_lift with y; [reflexivity|]. apply var_hspec; lt. }
      intros s2 c2 L2 O2 _.
      eapply hspec_seq with (2 := bool_hspec zval c2 (b =? 0)%nat ltac:(lt)); [lt|auto|]. intros l c3 L3 O3 _.
      eapply hspec_seq with (2 := bool_hspec zval c3 (b =? 2)%nat ltac:(lt)); [lt|auto|]. intros r c4 L4 O4 _.
      apply hspec_ret; cbn beta.
      + unfold nb. cbn [sib1 sib2 is_left is_right]. lt.
      + intros w _ Br Bl _ _. split; auto.
      + intros w _ Vr Vl V2 V1. apply step_of_values; auto.
    - cbn in Hs. lia.
  Qed.
  Lemma create_non_membership_spec pos pf c : wf c -> Forall (fun s => length s = 2 \/ length s = 0)%nat pf ->
    hspec zval (create_non_membership_proof_variable pos pf) c (fun w ns => Forall (flags_ok w) ns) (fun _ => True)
      (fun w ns => map (step_of w) ns = map fill (combine (to_traversal_path 3 pos (length pf)) pf) /\ Forall (flags_ok w) ns)
      (fun ns m => Forall (fun n => nb n m) ns /\ length ns = length pf).
  Proof.
    intros Hw Hp. unfold create_non_membership_proof_variable.
    eapply hspec_weaken; [| | | |apply (checked_nodes_spec create_node_opt fill); [|exact Hw]]; cbn beta; auto.
    - intros a n [H E]. split; auto. rewrite E, combine_length, path_length. lia.
    - intros [b s] c' Hi Hw'. pose proof (in_combine_l _ _ _ _ Hi) as Hb. pose proof (in_combine_r _ _ _ _ Hi) as Hs.
      rewrite Forall_forall in Hp. apply create_node_opt_spec; auto.
      pose proof (path_good pos (length pf)) as G. rewrite Forall_forall in G. auto.
  Qed.
End Spec.
