(** Proofs about the gadgets on points of a curve over an emulated field, for C88.

    Points are pairs of emulated elements, on short Weierstrass curves with a flag
    for the point at infinity.  The arithmetic below is that of C33: [prod_rel] and
    [sum_rel] say what one emulated product or sum enforces. *)

From Coq Require Import List Arith ZArith Znumtheory Bool Lia Ring Field.
From Verif Require Import Base ListAux Alg Poly CircuitModel CircuitProofs GadgetModel GadgetProofs RangeProofs
  BitProofs CmpProofs RangeLookup SatProofs SatGadget CircuitProps MerkleGadgetProofs EmulatedModel EmulatedProofs
  EmulatedMul EmulatedAdd IndepProofs EmulatedGate EmulatedExact EmulatedProps.
Import ListNotations.
Local Open Scope fld_scope.
Local Open Scope circ_scope.

Section Ecc.
  Context {K : fld}.
  Variable zval : K -> Z.
  Variable p : Z.
  Variable nb L : nat.
  Hypothesis HF : pfield K zval p nb L.
  Add Field EccK : (fth K).
  Context {E : fld}.
  Add Field EccE : (fth E).
  Variable ez : E -> Z.
  Variable q : Z.
  Hypothesis HE : zfield E ez q.
  Variables T B NL : nat.
  Hypothesis HB : (1 <= B)%nat.
  Hypothesis HNL : (1 <= NL)%nat.
  Hypothesis HT : T = (B * NL)%nat.
  Hypothesis Hq : (0 < q < 2 ^ Z.of_nat T)%Z.
  Hypothesis Hroom : (4 * Z.of_nat NL * 2 ^ (2 * Z.of_nat B) <= p)%Z.
  Notation ev := (ev zval B).
  Notation rng := (rng zval B).
  Notation rok := (rok nb).
  Notation vlt n a := (Forall (fun v => v < n)%nat a).
  Notation hspec := (hspec zval).
  Notation gspec := (gspec zval).
  Notation prod_rel := (prod_rel p q T).
  Notation sum_rel := (sum_rel q T).
  Notation addable := (addable q B NL).
  Notation lim n a := (length a = NL /\ vlt n a).

  (** ** Equality and selection of elements *)

  (** Two elements have the same limbs. *)
  Definition same (w : nat -> K) (a b : evar) : Prop := map w a = map w b.
  (** The Boolean [x] tells whether [P] holds. *)
  Definition flag (x : K) (P : Prop) : Prop := (x = 1 /\ P) \/ (x = 0 /\ ~ P).

  Lemma one_zero : (1 : K) <> 0.
  Proof. apply f1_neq_0. Qed.
  Lemma flag_b2k b (P : Prop) : (b = true <-> P) -> flag (b2k b) P.
  Proof. intros H. destruct b; cbn [b2k]; [left|right]; split; auto; [apply H; auto|]. intros X. apply H in X. discriminate. Qed.
  Lemma flag_1 x P : flag x P -> x = 1 -> P.
  Proof. intros [[_ H]|[-> _]] E1; auto. exfalso. apply one_zero. auto. Qed.
  Lemma flag_0 x P : flag x P -> x = 0 -> ~ P.
  Proof. intros [[-> _]|[_ H]] E1; auto. exfalso. apply one_zero. auto. Qed.
  Lemma flag_isb x P : flag x P -> isb x.
  Proof. intros [[-> _]|[-> _]]; [right|left]; auto. Qed.
  Lemma flag_iff x P Q : (P <-> Q) -> flag x P -> flag x Q.
  Proof. intros H [[X Y]|[X Y]]; [left|right]; tauto. Qed.
  Lemma flag_and x y P Q : flag x P -> flag y Q -> flag (x * y) (P /\ Q).
  Proof.
    intros [[-> HP]|[-> HP]] [[-> HQ]|[-> HQ]]; [left|right|right|right]; (split; [ring|tauto]).
  Qed.
  Lemma flag_or x y P Q : flag x P -> flag y Q -> flag (x + y - x * y) (P \/ Q).
  Proof.
    intros [[-> HP]|[-> HP]] [[-> HQ]|[-> HQ]]; [left|left|left|right]; (split; [ring|tauto]).
  Qed.
  Lemma flag_neg x P : flag x P -> flag (b2k (feqb x 0)) (~ P).
  Proof.
    intros [[-> HP]|[-> HP]].
    - rewrite (proj2 (feqb_neq K _ _) one_zero). right. cbn. tauto.
    - rewrite (proj2 (feqb_eq K _ _) eq_refl). left. cbn. tauto.
  Qed.
  (** A Boolean variable is the flag of being one. *)
  Lemma flag_bit x : isb x -> flag x (x = 1).
  Proof. intros [-> | ->]; [right|left]; split; auto. intros H. apply one_zero. auto. Qed.

  Lemma fprod_bits (bs : list bool) : fprod (map b2k bs) = b2k (forallb (fun b => b) bs) :> K.
  Proof.
    induction bs as [|b bs IH]; [reflexivity|]. cbn [map forallb]. change (fprod (b2k b :: map b2k bs)) with ((b2k b : K) * fprod (map b2k bs)).
    rewrite IH. destruct b; cbn; ring.
  Qed.
  Lemma bits_of (w : nat -> K) {X} (f : X -> bool) l r : Forall2 (fun x y => w y = b2k (f x)) l r -> map w r = map b2k (map f l).
  Proof. induction 1; cbn; [auto|]. f_equal; auto. Qed.
  Lemma same_forallb (w : nat -> K) : forall a b, length a = length b ->
    (forallb (fun b => b) (map (fun xy => feqb (w (fst xy)) (w (snd xy))) (combine a b)) = true <-> same w a b).
  Proof.
    induction a as [|x a IH]; intros [|y b] Hl; try discriminate; [cbn; unfold same; tauto|].
    cbn [combine map forallb fst snd]. unfold same in *. cbn [map]. rewrite andb_true_iff, feqb_eq, (IH b) by (cbn in Hl; lia).
    split; [intros [-> ->]; auto|intros H; inversion H; auto].
  Qed.
  Lemma in_combine_vlt n (a b : evar) x : vlt n a -> vlt n b -> In x (combine a b) -> (fst x < n)%nat /\ (snd x < n)%nat.
  Proof.
    intros Ha Hb Hx. destruct x as [u v]. cbn. rewrite Forall_forall in Ha, Hb.
    split; [apply Ha; eapply in_combine_l; eauto|apply Hb; eapply in_combine_r; eauto].
  Qed.

  Lemma forallb_map' {X Y} (f : X -> Y) g l : forallb g (map f l) = forallb (fun x => g (f x)) l.
  Proof. induction l; cbn; congruence. Qed.
  Lemma mapM_length {A A'} (f : A -> circ K A') l : forall c vs c', mapM f l c = (Ok vs, c') -> length vs = length l.
  Proof.
    induction l as [|x l IH]; intros c vs c' Em; cbn [mapM] in Em; [inversion Em; auto|].
    unfold cbind in Em. destruct (f x c) as [[a| |] c1]; try discriminate. destruct (mapM f l c1) as [[b| |] c2] eqn:E1; try discriminate.
    inversion Em; subst. cbn. f_equal. eapply IH; eauto.
  Qed.
  Lemma gspec_res {A} (m : circ K A) c S C R (P : A -> Prop) : gspec m c S C R -> (forall r c', m c = (Ok r, c') -> P r) ->
    gspec m c S C (fun r n => R r n /\ P r).
  Proof.
    intros H HP. unfold CircuitProofs.gspec in *. eapply wpc_mono; [exact H|]. intros a d Em (Sd & Cd & Rd). split; [|split; [|split]]; auto.
    apply (HP a _ Em).
  Qed.
  Lemma check_gspec {A} (vs : list nat) (m : circ K A) c S C R : vlt (num_vars c) vs -> gspec m c S C R -> gspec (check_vars_bound vs >> m) c S C R.
  Proof. intros Hv H. unfold CircuitProofs.gspec in *. apply wpc_chks; auto. Qed.
  Lemma check1_gspec {A} v (m : circ K A) c S C R : (v < num_vars c)%nat -> gspec m c S C R -> gspec (check_var_bound v >> m) c S C R.
  Proof. intros Hv H. unfold CircuitProofs.gspec in *. apply wpc_chk; auto. Qed.
  Lemma all_spec {X} (f : X -> circ K nat) (g : X -> (nat -> K) -> bool) l c : wf c -> l <> [] ->
    (forall x c', In x l -> wf c' -> (num_vars c <= num_vars c')%nat -> gspec (f x) c' (fun w y => w y = b2k (g x w)) (fun _ => True) out) ->
    gspec (r <- mapM f l ;; logic_and_all r) c (fun w r => w r = b2k (forallb (fun x => g x w) l)) (fun _ => True) out.
  Proof.
    intros Hw Hl Hf. eapply gspec_seq with (1 := Hw).
    - eapply (gspec_res (mapM f l) c) with (P := fun r => length r = length l).
      + apply (mapM_gspec zval f (fun x w y => w y = b2k (g x w)) out l); auto. unfold out. intros; lia.
      + intros r c' Em. exact (mapM_length f l c r c' Em).
    - intros; exact I.
    - intros r c' Lt [Hr Lr] _. eapply MerkleGadgetProofs.gspec_weaken; [| | |apply (logic_and_all_spec zval c' r); [apply Lt| |exact Hr]].
      + cbn beta. intros w y _ Hy HS. rewrite Hy, (bits_of w (fun x => g x w) l r HS), fprod_bits, forallb_map'. reflexivity.
      + intros; exact I.
      + auto.
      + destruct l; [congruence|]. destruct r; discriminate.
  Qed.
  Lemma nonempty {X} (a : list X) : length a = NL -> a <> [].
  Proof. intros H ->. cbn in H. lia. Qed.
  Lemma combine_nonempty (a b : evar) : length a = NL -> length b = NL -> combine a b <> [].
  Proof. intros Ha Hb H. assert (X : length (combine a b) = NL) by (rewrite combine_length; lia). rewrite H in X. cbn in X. lia. Qed.

  Lemma is_equal_evar_spec a b c : wf c -> lim (num_vars c) a -> lim (num_vars c) b ->
    gspec (is_emulated_var_equal a b) c (fun w r => flag (w r) (same w a b)) (fun _ => True) out.
  Proof.
    intros Hw [La Ba] [Lb Bb]. unfold is_emulated_var_equal. apply check_gspec; auto. apply check_gspec; auto.
    eapply MerkleGadgetProofs.gspec_weaken; [| | |apply (all_spec (fun xy => is_equal (fst xy) (snd xy)) (fun xy w => feqb (w (fst xy)) (w (snd xy))))]; auto.
    - cbn beta. intros w r _ ->. apply flag_b2k. rewrite <- same_forallb by lia. rewrite forallb_map'. reflexivity.
    - apply combine_nonempty; auto.
    - intros x c' Hx Hw' Hn. destruct (in_combine_vlt _ _ _ _ Ba Bb Hx). apply is_equal_spec; auto; lia.
  Qed.
  Lemma is_zero_evar_spec a c : wf c -> lim (num_vars c) a ->
    gspec (is_emulated_var_zero a) c (fun w r => flag (w r) (Forall (fun v => w v = 0) a)) (fun _ => True) out.
  Proof.
    intros Hw [La Ba]. unfold is_emulated_var_zero. apply check_gspec; auto.
    eapply MerkleGadgetProofs.gspec_weaken; [| | |apply (all_spec is_zero (fun x w => feqb (w x) 0))]; auto.
    - cbn beta. intros w r _ ->. apply flag_b2k. rewrite forallb_forall, Forall_forall. split; intros H x Hx; apply feqb_eq; auto.
    - apply nonempty; auto.
    - intros x c' Hx Hw' Hn. rewrite Forall_forall in Ba. specialize (Ba x Hx). apply is_zero_spec; auto; lia.
  Qed.
  Lemma same_Forall (w : nat -> K) : forall a b : evar, length a = length b -> (Forall (fun xy => w (fst xy) = w (snd xy)) (combine a b) <-> same w a b).
  Proof.
    induction a as [|x a IH]; intros [|y b] Hl; try discriminate; [cbn; unfold same; split; auto|].
    cbn [combine]. unfold same in *. cbn [map]. rewrite Forall_cons_iff, (IH b) by (cbn in Hl; lia). cbn [fst snd].
    split; [intros [-> ->]; auto|intros H; inversion H; auto].
  Qed.
  Lemma enforce_equal_evar_spec a b c : wf c -> lim (num_vars c) a -> lim (num_vars c) b ->
    gspec (enforce_emulated_var_equal a b) c (fun w _ => same w a b) (fun w => same w a b) noout.
  Proof.
    intros Hw [La Ba] [Lb Bb]. unfold enforce_emulated_var_equal. apply check_gspec; auto. apply check_gspec; auto.
    eapply MerkleGadgetProofs.gspec_weaken; [| | |apply (iterM_gspec zval (fun xy => enforce_equal (fst xy) (snd xy)) (fun xy w => w (fst xy) = w (snd xy)) (fun xy w => w (fst xy) = w (snd xy)) (combine a b) c Hw)]; auto.
    - cbn beta. intros w _ _ H. apply same_Forall; auto. lia.
    - cbn beta. intros w _ H. apply same_Forall; auto. lia.
    - intros x c' Hx Hw' Hn _. destruct (in_combine_vlt _ _ _ _ Ba Bb Hx). apply enforce_equal_spec; auto; lia.
  Qed.
  (** The value of a selected list. *)
  Definition picks (w : nat -> K) (b : nat) (r a0 a1 : evar) : Prop := map w r = if feqb (w b) 1 then map w a1 else map w a0.
  Lemma fst_combine : forall (a b : evar), length a = length b -> map fst (combine a b) = a.
  Proof. induction a as [|x a IH]; intros [|y b] H; try discriminate; cbn; auto. f_equal. apply IH. cbn in H; lia. Qed.
  Lemma snd_combine : forall (a b : evar), length a = length b -> map snd (combine a b) = b.
  Proof. induction a as [|x a IH]; intros [|y b] H; try discriminate; cbn; auto. f_equal. apply IH. cbn in H; lia. Qed.
  Lemma select_list_spec b l : forall c, wf c -> (b < num_vars c)%nat -> isb (hon c b) ->
    Forall (fun xy => fst xy < num_vars c /\ snd xy < num_vars c)%nat l ->
    gspec (mapM (fun xy => conditional_select b (fst xy) (snd xy)) l) c
      (fun w r => isb (w b) -> map w r = map (fun xy => if feqb (w b) 1 then w (snd xy) else w (fst xy)) l) (fun _ => True)
      (fun r n => length r = length l /\ vlt n r).
  Proof.
    induction l as [|[x y] l IH]; intros c Hw Bb Hbit Hl.
    - apply MerkleGadgetProofs.gspec_ret; cbn; auto.
    - inversion Hl as [|u v [H1 H2] H3]; subst. cbn [mapM fst snd] in *.
      eapply gspec_seq with (1 := Hw) (2 := conditional_select_spec zval c b x y Hw Bb H1 H2 Hbit); [auto|].
      intros a c1 L1 O1 _. assert (Hw1 : wf c1) by apply L1. pose proof L1 as (_ & N1 & _ & V1).
      eapply gspec_seq with (1 := Hw1) (2 := IH c1 Hw1 ltac:(lia) ltac:(rewrite V1; auto) ltac:(eapply Forall_impl; [|exact H3]; cbn beta; intros; lia)); [auto|].
      intros r c2 L2 [Lr Br] _. apply MerkleGadgetProofs.gspec_ret.
      + destruct L2 as (_ & N2 & _). cbn. split; [lia|]. constructor; auto. unfold out in O1. lia.
      + cbn [map fst snd]. intros w _ S2 S1 Hbw. rewrite S1, S2 by auto. reflexivity.
  Qed.
  Lemma select_evar_spec b a0 a1 c : wf c -> (b < num_vars c)%nat -> isb (hon c b) -> lim (num_vars c) a0 -> lim (num_vars c) a1 ->
    gspec (conditional_select_emulated b a0 a1) c (fun w r => isb (w b) -> picks w b r a0 a1) (fun _ => True) (fun r n => lim n r).
  Proof.
    intros Hw Bb Hbit [La Ba] [Lb Bb']. unfold conditional_select_emulated. apply check1_gspec; auto. apply check_gspec; auto. apply check_gspec; auto.
    eapply MerkleGadgetProofs.gspec_weaken; [| | |apply (select_list_spec b (combine a0 a1) c); auto]; auto.
    - cbn beta. intros w r _ H Hbw. unfold picks. rewrite H by auto. destruct (feqb (w b) 1).
      + rewrite <- (map_map snd w). rewrite snd_combine; auto. lia.
      + rewrite <- (map_map fst w). rewrite fst_combine; auto. lia.
    - cbn beta. intros r n. rewrite combine_length. intros [-> H]. split; auto. lia.
    - apply Forall_forall. intros x Hx. apply (in_combine_vlt _ _ _ _ Ba Bb' Hx).
  Qed.

  (** ** Points on short Weierstrass curves *)

  Definition sw_ok (n : nat) (P : sw_var) : Prop := lim n (sv_x P) /\ lim n (sv_y P) /\ (sv_inf P < n)%nat.
  (** The two points have the same limbs and the same flag. *)
  Definition sames (w : nat -> K) (P Q : sw_var) : Prop :=
    same w (sv_x P) (sv_x Q) /\ same w (sv_y P) (sv_y Q) /\ w (sv_inf P) = w (sv_inf Q).
  Lemma lim_mono n m (a : evar) : (n <= m)%nat -> lim n a -> lim m a.
  Proof. intros H [La Ba]. split; auto. eapply Forall_impl; [|exact Ba]. cbn beta. intros; lia. Qed.
  Lemma sw_mono n m P : (n <= m)%nat -> sw_ok n P -> sw_ok m P.
  Proof. intros H (H1 & H2 & H3). split; [|split]; [eapply lim_mono; eauto|eapply lim_mono; eauto|lia]. Qed.
  Lemma later_le (c c' : circuit K) : later c c' -> (num_vars c <= num_vars c')%nat.
  Proof. intros (_ & H & _); auto. Qed.
  Lemma later_wf (c c' : circuit K) : later c c' -> wf c'.
  Proof. intros (H & _); auto. Qed.
  Lemma later_trans (c c' c'' : circuit K) : later c c' -> later c' c'' -> later c c''.
  Proof.
    intros (H1 & H2 & H3 & H4) (H5 & H6 & H7 & H8). split; [auto|]. split; [lia|]. split; [congruence|].
    intros v Hv. rewrite H8 by lia. apply H4; auto.
  Qed.

  Lemma enforce_sw_spec P Q c : wf c -> sw_ok (num_vars c) P -> sw_ok (num_vars c) Q ->
    gspec (enforce_sw_equal P Q) c (fun w _ => sames w P Q) (fun w => sames w P Q) noout.
  Proof.
    intros Hw (Px & Py & Pi) (Qx & Qy & Qi). unfold enforce_sw_equal.
    eapply gspec_seq with (1 := Hw) (2 := enforce_equal_evar_spec _ _ c Hw Px Qx).
    { intros w _ H. apply H. }
    intros [] c1 L1 _ _. pose proof (later_le _ _ L1) as N1. pose proof (later_wf _ _ L1) as W1.
    eapply gspec_seq with (1 := W1) (2 := enforce_equal_evar_spec _ _ c1 W1 (lim_mono _ _ _ N1 Py) (lim_mono _ _ _ N1 Qy)).
    { intros w _ H. apply H. }
    intros [] c2 L2 _ _. pose proof (later_le _ _ L2) as N2. pose proof (later_wf _ _ L2) as W2.
    eapply MerkleGadgetProofs.gspec_weaken; [| | |apply (enforce_equal_spec zval c2 (sv_inf P) (sv_inf Q) W2)]; try lia; auto.
    - cbn beta. intros w _ _ H H2 H1. split; [|split]; auto.
    - cbn beta. intros w _ [[H _] _]. apply H.
  Qed.
  Lemma is_sw_spec P Q c : wf c -> sw_ok (num_vars c) P -> sw_ok (num_vars c) Q ->
    gspec (is_sw_equal P Q) c (fun w r => flag (w r) (sames w P Q)) (fun _ => True) out.
  Proof.
    intros Hw (Px & Py & Pi) (Qx & Qy & Qi). unfold is_sw_equal.
    eapply gspec_seq with (1 := Hw) (2 := is_equal_evar_spec _ _ c Hw Px Qx); [auto|].
    intros r0 c1 L1 O1 _. pose proof (later_le _ _ L1) as N1. pose proof (later_wf _ _ L1) as W1.
    eapply gspec_seq with (1 := W1) (2 := is_equal_evar_spec _ _ c1 W1 (lim_mono _ _ _ N1 Py) (lim_mono _ _ _ N1 Qy)); [auto|].
    intros r1 c2 L2 O2 _. pose proof (later_le _ _ L2) as N2. pose proof (later_wf _ _ L2) as W2.
    eapply gspec_seq with (1 := W2) (2 := is_equal_spec zval c2 (sv_inf P) (sv_inf Q) W2 ltac:(lia) ltac:(lia)); [auto|].
    intros r2 c3 L3 O3 _. pose proof (later_le _ _ L3) as N3. pose proof (later_wf _ _ L3) as W3. unfold out in *.
    eapply gspec_seq with (1 := W3) (2 := mul_spec zval c3 r0 r1 W3 ltac:(lia) ltac:(lia)); [auto|].
    intros r c4 L4 O4 _. pose proof (later_le _ _ L4) as N4. pose proof (later_wf _ _ L4) as W4. unfold out in *.
    eapply MerkleGadgetProofs.gspec_weaken; [| | |apply (mul_spec zval c4 r r2 W4 ltac:(lia) ltac:(lia))]; cbn beta; auto.
    cbn beta. intros w o _ -> -> -> F1 F0.
    assert (F2 : flag (b2k (feqb (w (sv_inf P)) (w (sv_inf Q)))) (w (sv_inf P) = w (sv_inf Q))) by (apply flag_b2k, feqb_eq).
    eapply flag_iff; [|apply (flag_and _ _ _ _ (flag_and _ _ _ _ F0 F1) F2)]. unfold sames. tauto.
  Qed.
  Lemma select_sw_spec b P Q c : wf c -> (b < num_vars c)%nat -> isb (hon c b) -> sw_ok (num_vars c) P -> sw_ok (num_vars c) Q ->
    gspec (sw_select b P Q) c (fun w R => isb (w b) -> sames w R (if feqb (w b) 1 then Q else P)) (fun _ => True) (fun R n => sw_ok n R).
  Proof.
    intros Hw Bb Hbit (Px & Py & Pi) (Qx & Qy & Qi). unfold sw_select.
    eapply gspec_seq with (1 := Hw) (2 := select_evar_spec b _ _ c Hw Bb Hbit Px Qx); [auto|].
    intros x c1 L1 O1 _. pose proof (later_le _ _ L1) as N1. pose proof (later_wf _ _ L1) as W1.
    assert (Hb1 : isb (hon c1 b)) by (destruct L1 as (_ & _ & _ & ->); auto).
    eapply gspec_seq with (1 := W1) (2 := select_evar_spec b _ _ c1 W1 ltac:(lia) Hb1 (lim_mono _ _ _ N1 Py) (lim_mono _ _ _ N1 Qy)); [auto|].
    intros y c2 L2 O2 _. pose proof (later_le _ _ L2) as N2. pose proof (later_wf _ _ L2) as W2.
    assert (Hb2 : isb (hon c2 b)) by (destruct L2 as (_ & _ & _ & V); rewrite V by lia; auto).
    eapply gspec_seq with (1 := W2) (2 := conditional_select_spec zval c2 b (sv_inf P) (sv_inf Q) W2 ltac:(lia) ltac:(lia) ltac:(lia) Hb2); [auto|].
    intros i c3 L3 O3 _. pose proof (later_le _ _ L3) as N3. unfold out in *. apply MerkleGadgetProofs.gspec_ret.
    - split; [|split]; cbn [sv_x sv_y sv_inf]; [apply (lim_mono (num_vars c1)); auto; lia|apply (lim_mono (num_vars c2)); auto; lia|lia].
    - intros w _ Si Sy Sx Hbw. specialize (Si Hbw). specialize (Sy Hbw). specialize (Sx Hbw). unfold sames, same, picks in *. cbn [sv_x sv_y sv_inf].
      destruct (feqb (w b) 1); auto.
  Qed.

  (** ** The arithmetic, with the values that the code computes *)

  (** [a] holds the canonical limbs of [x]. *)
  Definition is (w : nat -> K) (a : evar) (x : E) : Prop := rng w a /\ ev w a = ez x.
  Definition gives2 (w : nat -> K) (a b r : evar) (f : E -> E -> E) : Prop := forall x y, is w a x -> is w b y -> is w r (f x y).
  Definition gives1 (w : nat -> K) (a r : evar) (f : E -> E) : Prop := forall x, is w a x -> is w r (f x).
  (** The limbs of [a] are canonical, and the element they stand for. *)
  Definition can (w : nat -> K) (a : evar) : Prop := rng w a /\ (ev w a < q)%Z.
  Definition el (w : nat -> K) (a : evar) : E := fZ (ev w a).
  Notation range := (ev_range zval p nb L HF T B NL HB HNL HT).
  Lemma can_is w a : length a = NL -> can w a -> is w a (el w a).
  Proof.
    intros La [R Q]. split; auto. unfold el. rewrite (zf_ez _ _ _ HE). pose proof (range w a La R). rewrite Z.mod_small; lia.
  Qed.
  Lemma is_can w a x : is w a x -> can w a.
  Proof. intros [R Er]. split; auto. rewrite Er. apply (zf_range _ _ _ HE). Qed.
  Lemma is_same w a b x : length a = NL -> length b = NL -> is w a x -> is w b x -> same w a b.
  Proof.
    intros La Lb [Ra Ea] [Rb Eb]. assert (Hb : (0 < 2 ^ Z.of_nat B)%Z) by (apply Z.pow_pos_nonneg; lia).
    assert (Z1 : zl zval w a = zl zval w b).
    { apply (hval_inj (2 ^ Z.of_nat B)); auto; try (apply (zl_range zval p nb L HF T B NL HB HNL HT); auto).
      - rewrite !length_zl; lia.
      - change (ev w a = ev w b). congruence. }
    unfold zl in Z1. unfold same.
    rewrite (map_ext w (fun v => fZ (zval (w v)))) by (intros v; symmetry; apply (pf_fZ _ _ _ _ _ HF)).
    rewrite (map_ext w (fun v => fZ (zval (w v)))) by (intros v; symmetry; apply (pf_fZ _ _ _ _ _ HF)).
    rewrite <- !(map_map (fun v => zval (w v)) fZ). now rewrite Z1.
  Qed.
  Lemma same_ev w a b : same w a b -> ev w a = ev w b.
  Proof. intros H. unfold EmulatedMul.ev, EmulatedMul.zl. rewrite <- !(map_map w zval). now rewrite H. Qed.
  Lemma same_el w a b : length a = NL -> length b = NL -> can w a -> can w b -> (same w a b <-> el w a = el w b).
  Proof.
    intros La Lb Ca Cb. split; intros H.
    - unfold el. now rewrite (same_ev _ _ _ H).
    - apply (is_same w a b (el w a)); auto; [apply can_is; auto|]. rewrite H. apply can_is; auto.
  Qed.

  (** One product or one sum, with a result in range. *)
  Definition M (x y z : Z) : Prop := (0 <= z < 2 ^ Z.of_nat T)%Z /\ prod_rel x y z.
  Definition A (x y z : Z) : Prop := (0 <= z < 2 ^ Z.of_nat T)%Z /\ sum_rel x y z.
  Definition D (x y z : Z) : Prop := (0 <= z < 2 ^ Z.of_nat T)%Z /\ sum_rel z y x.

  Lemma ez_mul x y : ((ez x * ez y) mod q)%Z = ez (x * y).
  Proof. rewrite <- (zf_ez _ _ _ HE), fZ_mul, !(zf_fZ _ _ _ HE). auto. Qed.
  Lemma ez_add x y : ((ez x + ez y) mod q)%Z = ez (x + y).
  Proof. rewrite <- (zf_ez _ _ _ HE), fZ_add, !(zf_fZ _ _ _ HE). auto. Qed.
  Lemma ez_sub x y : ((ez x - ez y) mod q)%Z = ez (x - y).
  Proof. rewrite <- (zf_ez _ _ _ HE), fZ_sub, !(zf_fZ _ _ _ HE). auto. Qed.
  Lemma is_lt w a x : is w a x -> (ev w a < q)%Z.
  Proof. intros [_ ->]. apply (zf_range _ _ _ HE). Qed.

  Ltac op lem := unfold MerkleGadgetProofs.hspec; eapply wpc_mono; [apply (lem K zval p nb L HF E ez q HE T B NL HB HNL HT Hq Hroom); auto|];
    cbn beta; intros r d _ (H1 & H2 & H3 & H4); split; [|split; [|split; [|exact H3]]].
  Lemma mul_h a b c : wf c -> rok (ptype c) -> lim (num_vars c) a -> lim (num_vars c) b ->
    hspec (emulated_mul zval p nb L ez q T B NL a b) c (fun w r => rng w r /\ (rng w a -> rng w b -> M (ev w a) (ev w b) (ev w r)))
      (fun w => exists x y, is w a x /\ is w b y) (fun w r => gives2 w a b r fmul) (fun r n => lim n r).
  Proof.
    intros Hw Ht [La Ba] [Lb Bb]. op @emulated_mul_spec.
    - intros w Hb Hs. destruct (H1 w Hb Hs) as [R HS]. split; auto. intros Ra Rb. destruct H3. split; [apply range; auto|].
      apply (prod_mul zval p nb L HF q T B NL HB HNL HT Hroom); auto.
    - intros w Hb Hh (x & y & Ia & Ib). apply H2; auto. pose proof (is_lt _ _ _ Ia). pose proof (is_lt _ _ _ Ib). destruct Ia, Ib. auto.
    - intros w Hb Hh x y Ia Ib. destruct (H4 w Hh) as [R Ev]. split; auto. rewrite Ev.
      rewrite <- (ev_hext zval B c d w a), <- (ev_hext zval B c d w b) by auto. destruct Ia as [_ ->], Ib as [_ ->]. apply ez_mul.
  Qed.
  Lemma mulc_h a v c : wf c -> rok (ptype c) -> lim (num_vars c) a ->
    hspec (emulated_mul_constant zval p nb L ez q T B NL a v) c (fun w r => rng w r /\ (rng w a -> M (ev w a) (ez v) (ev w r)))
      (fun w => exists x, is w a x) (fun w r => gives1 w a r (fun x => x * v)) (fun r n => lim n r).
  Proof.
    intros Hw Ht [La Ba]. op @emulated_mul_constant_spec.
    - intros w Hb Hs. destruct (H1 w Hb Hs) as [R HS]. split; auto. intros Ra. destruct H3. split; [apply range; auto|].
      apply (prod_mul zval p nb L HF q T B NL HB HNL HT Hroom); auto.
    - intros w Hb Hh (x & Ia). apply H2; auto. pose proof (is_lt _ _ _ Ia). destruct Ia. auto.
    - intros w Hb Hh x Ia. destruct (H4 w Hh) as [R Ev]. split; auto. rewrite Ev.
      rewrite <- (ev_hext zval B c d w a) by auto. destruct Ia as [_ ->]. apply ez_mul.
  Qed.
  Lemma add_h a b c : wf c -> rok (ptype c) -> lim (num_vars c) a -> lim (num_vars c) b ->
    hspec (emulated_add zval p nb L ez q B NL a b) c (fun w r => rng w r /\ (rng w a -> rng w b -> A (ev w a) (ev w b) (ev w r)))
      (fun w => exists x y, is w a x /\ is w b y /\ addable (ez x) (ez y)) (fun w r => gives2 w a b r fadd) (fun r n => lim n r).
  Proof.
    intros Hw Ht [La Ba] [Lb Bb]. op @emulated_add_spec.
    - intros w Hb Hs. destruct (H1 w Hb Hs) as [R HS]. split; auto. intros Ra Rb. destruct H3. split; [apply range; auto|].
      apply (sum_add q T B NL HB HNL HT Hq); auto; apply range; auto.
    - intros w Hb Hh (x & y & Ia & Ib & N). apply H2; auto. pose proof (is_lt _ _ _ Ia). pose proof (is_lt _ _ _ Ib).
      destruct Ia as [Ra Ea], Ib as [Rb Eb]. rewrite Ea, Eb in *. auto.
    - intros w Hb Hh x y Ia Ib. destruct (H4 w Hh) as [R Ev]. split; auto. rewrite Ev.
      rewrite <- (ev_hext zval B c d w a), <- (ev_hext zval B c d w b) by auto. destruct Ia as [_ ->], Ib as [_ ->]. apply ez_add.
  Qed.
  Lemma sub_h a b c : wf c -> rok (ptype c) -> lim (num_vars c) a -> lim (num_vars c) b ->
    hspec (emulated_sub zval p nb L ez q B NL a b) c (fun w r => rng w r /\ (rng w a -> rng w b -> D (ev w a) (ev w b) (ev w r)))
      (fun w => exists x y, is w a x /\ is w b y /\ addable (ez (x - y)) (ez y)) (fun w r => gives2 w a b r fsub) (fun r n => lim n r).
  Proof.
    intros Hw Ht [La Ba] [Lb Bb]. op @emulated_sub_spec.
    - intros w Hb Hs. destruct (H1 w Hb Hs) as [R HS]. split; auto. intros Ra Rb. destruct H3. split; [apply range; auto|].
      apply (sum_add q T B NL HB HNL HT Hq); auto; apply range; auto.
    - intros w Hb Hh (x & y & Ia & Ib & N). apply H2; auto. pose proof (is_lt _ _ _ Ia). pose proof (is_lt _ _ _ Ib).
      destruct Ia as [Ra Ea], Ib as [Rb Eb]. rewrite Ea, Eb in *. rewrite ez_sub. auto.
    - intros w Hb Hh x y Ia Ib. destruct (H4 w Hh) as [R Ev]. split; auto. rewrite Ev.
      rewrite <- (ev_hext zval B c d w a), <- (ev_hext zval B c d w b) by auto. destruct Ia as [_ ->], Ib as [_ ->]. apply ez_sub.
  Qed.
  Lemma addc_h a v c : wf c -> rok (ptype c) -> lim (num_vars c) a ->
    hspec (emulated_add_constant zval p nb L ez q B NL a v) c (fun w r => rng w r /\ (rng w a -> A (ev w a) (ez v) (ev w r)))
      (fun w => exists x, is w a x /\ addable (ez x) (ez v)) (fun w r => gives1 w a r (fun x => x + v)) (fun r n => lim n r).
  Proof.
    intros Hw Ht [La Ba]. op @emulated_add_constant_spec.
    - intros w Hb Hs. destruct (H1 w Hb Hs) as [R HS]. split; auto. intros Ra. destruct H3. split; [apply range; auto|].
      pose proof (zf_range _ _ _ HE v). apply (sum_add q T B NL HB HNL HT Hq); auto; try (apply range; auto). lia.
    - intros w Hb Hh (x & Ia & N). apply H2; auto. pose proof (is_lt _ _ _ Ia). destruct Ia as [Ra Ea]. rewrite Ea in *. auto.
    - intros w Hb Hh x Ia. destruct (H4 w Hh) as [R Ev]. split; auto. rewrite Ev.
      rewrite <- (ev_hext zval B c d w a) by auto. destruct Ia as [_ ->]. apply ez_add.
  Qed.
  Lemma addg_h a b e c : wf c -> rok (ptype c) -> lim (num_vars c) a -> lim (num_vars c) b -> lim (num_vars c) e ->
    hspec (emulated_add_gate zval p nb L ez q B NL a b e) c (fun w _ => rng w a -> rng w b -> rng w e -> A (ev w a) (ev w b) (ev w e))
      (fun w => exists x y, is w a x /\ is w b y /\ is w e (x + y) /\ addable (ez x) (ez y)) (fun _ _ => True) noout.
  Proof.
    intros Hw Ht [La Ba] [Lb Bb] [Le Be]. apply gspec_hspec.
    eapply MerkleGadgetProofs.gspec_weaken; [| | |apply (emulated_add_gate_spec zval p nb L HF ez q HE T B NL HB HNL HT Hq Hroom); auto]; auto.
    - cbn beta. intros w _ _ H Ra Rb Re. split; [apply range; auto|]. apply (sum_add q T B NL HB HNL HT Hq); auto; apply range; auto.
    - cbn beta. intros w _ (x & y & Ia & Ib & Ie & N). unfold addC. pose proof (is_lt _ _ _ Ia). pose proof (is_lt _ _ _ Ib).
      destruct Ia as [Ra Ea], Ib as [Rb Eb], Ie as [Re Ee]. rewrite Ea, Eb, Ee in *. rewrite ez_add. repeat (split; auto).
  Qed.
  (** A Boolean as an emulated element. *)
  Definition bk (k : K) : E := if feqb k 1 then 1 else 0.
  Lemma ez_0 : ez 0 = 0%Z.
  Proof. change (0 : E) with (fZ 0 : E). rewrite (zf_ez _ _ _ HE). apply Z.mod_0_l. lia. Qed.
  Lemma ez_1 : ez 1 = 1%Z.
  Proof.
    rewrite <- fZ_1, (zf_ez _ _ _ HE). apply Z.mod_small. split; [lia|]. destruct (Z.eq_dec q 1) as [E1|]; [|lia].
    exfalso. apply (@f1_neq_0 E). rewrite <- (zf_fZ _ _ _ HE 1), <- (zf_fZ _ _ _ HE 0). f_equal.
    pose proof (zf_range _ _ _ HE 1). pose proof (zf_range _ _ _ HE 0). lia.
  Qed.
  Lemma zval_0 : zval 0 = 0%Z.
  Proof. change (0 : K) with (fZ 0 : K). rewrite (pf_zval _ _ _ _ _ HF). apply Z.mod_0_l. pose proof (pf_range _ _ _ _ _ HF 0). lia. Qed.
  Lemma zval_1 : zval 1 = 1%Z.
  Proof.
    rewrite <- fZ_1, (pf_zval _ _ _ _ _ HF). apply Z.mod_small. split; [lia|].
    assert (0 < 2 ^ (2 * Z.of_nat B))%Z by (apply Z.pow_pos_nonneg; lia). nia.
  Qed.
  Lemma bool_evar_eq n x : (1 <= n)%nat -> @bool_evar K n x = ret (x :: repeat 0%nat (n - 1)).
  Proof. intros H. destruct n; [lia|]. unfold bool_evar. now rewrite Nat.sub_1_r. Qed.
  Lemma bool_h x c : wf c -> (x < num_vars c)%nat ->
    hspec (bool_evar NL x) c (fun w r => isb (w x) -> rng w r /\ ev w r = ez (bk (w x))) (fun _ => True)
      (fun w r => isb (w x) -> is w r (bk (w x))) (fun r n => lim n r).
  Proof.
    intros Hw Hx. rewrite bool_evar_eq by exact HNL. set (n := (NL - 1)%nat).
    assert (Hv : forall w : nat -> K, base w -> isb (w x) -> rng w (x :: repeat 0%nat n) /\ ev w (x :: repeat 0%nat n) = ez (bk (w x))).
    { intros w [B0 B1] Hbit. assert (Hb : (2 <= 2 ^ Z.of_nat B)%Z) by (change 2%Z with (2 ^ 1)%Z at 1; apply Z.pow_le_mono_r; lia).
      assert (Z0 : forall n, hval (2 ^ Z.of_nat B) (map (fun v => zval (w v)) (repeat 0%nat n)) = 0%Z).
      { induction n0 as [|k IH]; [reflexivity|]. cbn [repeat map hval]. rewrite IH, B0, zval_0. lia. }
      split.
      - constructor.
        + destruct Hbit as [-> | ->]; [rewrite zval_0|rewrite zval_1]; lia.
        + apply Forall_forall. intros y Hy. apply repeat_spec in Hy. subst y. rewrite B0, zval_0. lia.
      - unfold EmulatedMul.ev, EmulatedMul.zl. cbn [map hval]. rewrite Z0. unfold bk.
        destruct Hbit as [-> | ->].
        + rewrite (proj2 (feqb_neq K _ _)) by (intros H; apply one_zero; auto). rewrite zval_0, ez_0. lia.
        + rewrite (proj2 (feqb_eq K _ _) eq_refl), zval_1, ez_1. lia. }
    apply hspec_ret.
    - split; [cbn; rewrite repeat_length; unfold n; lia|]. constructor; auto. apply Forall_forall. intros y Hy. apply repeat_spec in Hy. subst y. lia.
    - auto.
    - intros w Hb Hbit. apply Hv; auto.
  Qed.

  Ltac spl := repeat match goal with H : _ /\ _ |- _ => lazymatch type of H with (0 < q < _)%Z => fail | _ => destruct H end end.
  Ltac fwd := repeat match goal with
    | V : gives2 ?w ?a ?b ?r ?f, I1 : is ?w ?a ?X, I2 : is ?w ?b ?Y |- _ => pose proof (V X Y I1 I2 : is w r (f X Y)); clear V
    | V : gives2 ?w ?a ?a ?r ?f, I1 : is ?w ?a ?X |- _ => pose proof (V X X I1 I1 : is w r (f X X)); clear V
    | V : gives1 ?w ?a ?r ?f, I1 : is ?w ?a ?X |- _ => pose proof (V X I1 : is w r (f X)); clear V
    end; cbn beta in *.
  Ltac bds := lazymatch goal with
    | |- wf ?c => match goal with H : wf c |- _ => exact H end
    | |- rok ?t => match goal with H : rok t |- _ => exact H end
    | |- lim _ ?a => match goal with H : lim _ a |- _ => apply (fun X => lim_mono _ _ a X H); lia end
    | |- _ => lia
    end.
  Ltac sv := repeat match goal with |- _ /\ _ => split end;
    repeat match goal with
    | H : is ?w ?a _ |- is ?w ?a ?e => is_evar e; exact H
    | H : is ?w ?a ?x |- is ?w ?a ?x => exact H
    end;
    repeat match goal with H : addable ?x ?y |- addable ?x ?y => exact H end.
  Ltac cob := cbn beta; let w := fresh "w" in let Hb := fresh "Hb" in let HC := fresh "HC" in intros w Hb HC; cbn beta in HC; spl; fwd;
    lazymatch goal with
    | |- True => exact I
    | |- exists _ _, _ => do 2 eexists; sv
    | |- exists _, _ => eexists; sv
    | |- _ => idtac
    end.
  Ltac chn lem r := 
    lazymatch goal with |- MerkleGadgetProofs.hspec _ _ ?c _ _ _ _ =>
      eapply (hspec_seq zval); [bds|eapply lem; bds|cob|
        let c' := fresh "c" in let Lt := fresh "Lt" in let O := fresh "O" in intros r c' Lt O _;
        assert (wf c') by (apply Lt); assert (num_vars c <= num_vars c')%nat by (apply Lt);
        assert (rok (ptype c')) by (let X := fresh in destruct Lt as (_ & _ & X & _); rewrite X; assumption); unfold out in *; clear Lt ]
    end.

  (** ** Twisted Edwards addition *)

  (** The equations of the gate, with the relation that each product, sum or
      difference enforces as a parameter. *)
  Definition te_equations (M A : Z -> Z -> Z -> Prop) (d x0 y0 x1 y1 x2 y2 : Z) : Prop :=
    exists x0y1 x1y0 x0x1 y0y1 x0x1y0y1 dx,
      M x0 y1 x0y1 /\ M x1 y0 x1y0 /\ M x0 x1 x0x1 /\ M y0 y1 y0y1 /\ M x0x1 y0y1 x0x1y0y1 /\ M x0x1y0y1 d dx /\
    exists t1 t2, A x0y1 x1y0 t1 /\ M dx x2 t2 /\ A x2 t2 t1 /\
    exists t3 t4, A x0x1 y0y1 t3 /\ M dx y2 t4 /\ A t3 t4 y2.
  Definition te_ok (n : nat) (P : te_var) : Prop := lim n (tv_x P) /\ lim n (tv_y P).
  Definition te_can (w : nat -> K) (P : te_var) : Prop := can w (tv_x P) /\ can w (tv_y P).
  Definition te_rng (w : nat -> K) (P : te_var) : Prop := rng w (tv_x P) /\ rng w (tv_y P).
  Definition te_dd (d X0 Y0 X1 Y1 : E) : E := X0 * X1 * (Y0 * Y1) * d.
  (** None of the additions meets a limb of all ones (see C33). *)
  Definition te_room (d X0 Y0 X1 Y1 X2 Y2 : E) : Prop :=
    addable (ez (X0 * Y1)) (ez (X1 * Y0)) /\ addable (ez X2) (ez (te_dd d X0 Y0 X1 Y1 * X2)) /\
    addable (ez (X0 * X1)) (ez (Y0 * Y1)) /\ addable (ez (X0 * X1 + Y0 * Y1)) (ez (te_dd d X0 Y0 X1 Y1 * Y2)).
  (** [(X2, Y2)] is the sum on the curve [y^2 - x^2 = 1 + d x^2 y^2]. *)
  Definition te_sum (d X0 Y0 X1 Y1 X2 Y2 : E) : Prop :=
    let t := d * (X0 * Y1) * (X1 * Y0) in
    X2 * (1 + t) = X0 * Y1 + X1 * Y0 /\ Y2 * (1 - t) = X0 * X1 + Y0 * Y1.
  Definition elx w P := el w (tv_x P).
  Definition ely w P := el w (tv_y P).

  Lemma te_gate_spec P0 P1 P2 d c : wf c -> rok (ptype c) -> te_ok (num_vars c) P0 -> te_ok (num_vars c) P1 -> te_ok (num_vars c) P2 ->
    gspec (emulated_te_ecc_add_gate zval p nb L ez q T B NL P0 P1 P2 d) c
      (fun w _ => te_rng w P0 -> te_rng w P1 -> te_rng w P2 ->
         te_equations M A (ez d) (ev w (tv_x P0)) (ev w (tv_y P0)) (ev w (tv_x P1)) (ev w (tv_y P1)) (ev w (tv_x P2)) (ev w (tv_y P2)))
      (fun w => te_can w P0 /\ te_can w P1 /\ te_can w P2 /\
         te_room d (elx w P0) (ely w P0) (elx w P1) (ely w P1) (elx w P2) (ely w P2) /\
         te_sum d (elx w P0) (ely w P0) (elx w P1) (ely w P1) (elx w P2) (ely w P2)) noout.
  Proof.
    intros Hw Ht [Lx0 Ly0] [Lx1 Ly1] [Lx2 Ly2]. destruct P0 as [x0 y0], P1 as [x1 y1], P2 as [x2 y2].
    unfold te_can, te_rng, elx, ely. cbn [tv_x tv_y] in *. unfold emulated_te_ecc_add_gate. cbn [tv_x tv_y].
    apply (hspec_gspec zval) with (V := fun _ _ => True).
    apply hspec_weaken with (S := fun w (_ : unit) => (rng w x0 /\ rng w y0) -> (rng w x1 /\ rng w y1) -> (rng w x2 /\ rng w y2) ->
         te_equations M A (ez d) (ev w x0) (ev w y0) (ev w x1) (ev w y1) (ev w x2) (ev w y2))
      (C := fun w => (is w x0 (el w x0) /\ is w y0 (el w y0)) /\ (is w x1 (el w x1) /\ is w y1 (el w y1)) /\ (is w x2 (el w x2) /\ is w y2 (el w y2)) /\
        te_room d (el w x0) (el w y0) (el w x1) (el w y1) (el w x2) (el w y2) /\ te_sum d (el w x0) (el w y0) (el w x1) (el w y1) (el w x2) (el w y2))
      (V := fun _ _ => True) (R := noout); [intros ? ? ? H; exact H| |intros; exact I|intros ? ? H; exact H|].
    { intros w _ ((Cx0 & Cy0) & (Cx1 & Cy1) & (Cx2 & Cy2) & H). destruct Lx0, Ly0, Lx1, Ly1, Lx2, Ly2.
      split; [split; apply can_is; assumption|]. split; [split; apply can_is; assumption|]. split; [split; apply can_is; assumption|]. exact H. }
    unfold te_room, te_dd, te_sum.
    chn (mul_h x0 y1) v1. chn (mul_h x1 y0) v2. chn (mul_h x0 x1) v3. chn (mul_h y0 y1) v4. chn (mul_h v3 v4) v5.
    chn (mulc_h v5 d) v6. chn (add_h v1 v2) t1. chn (mul_h v6 x2) t2. chn (addg_h x2 t2 t1) u.
    { match goal with H : is w t1 ?a |- is w t1 ?b => replace b with a; [exact H|] end.
      match goal with H : _ * (1 + _) = _ |- _ => rewrite <- H end. ring. }
    chn (add_h v3 v4) t3. chn (mul_h v6 y2) t4.
    eapply hspec_weaken; [| | | |apply (addg_h t3 t4 y2); bds]; auto.
    - cbn beta. intros w _ _ G4 S11 S10 G3 S8 S7 S6 S5 S4 S3 S2 S1 (R0 & R1) (R2 & R3) (R4 & R5). spl.
      exists (ev w v1), (ev w v2), (ev w v3), (ev w v4), (ev w v5), (ev w v6). repeat (split; [solve [auto]|]).
      exists (ev w t1), (ev w t2). repeat (split; [solve [auto]|]). exists (ev w t3), (ev w t4). auto 10.
    - cob. match goal with H : is w y2 ?a |- is w y2 ?b => replace b with a; [exact H|] end.
      match goal with H : _ * (1 - _) = _ |- _ => rewrite <- H end. ring.
  Qed.

  (** ** Short Weierstrass addition *)

  Definition flags2 (w : nat -> K) (a b r : nat) (f : Prop -> Prop -> Prop) : Prop := forall P Q, flag (w a) P -> flag (w b) Q -> flag (w r) (f P Q).
  Definition flags1 (w : nat -> K) (a r : nat) (f : Prop -> Prop) : Prop := forall P, flag (w a) P -> flag (w r) (f P).
  Lemma mul_f a b c : wf c -> (a < num_vars c)%nat -> (b < num_vars c)%nat ->
    hspec (mul a b) c (fun w r => flags2 w a b r and) (fun _ => True) (fun _ _ => True) out.
  Proof.
    intros Hw Ha Hb. apply gspec_hspec. eapply MerkleGadgetProofs.gspec_weaken; [| | |apply (mul_spec zval c a b Hw Ha Hb)]; auto.
    cbn beta. intros w r _ E1 P Q FP FQ. rewrite E1. apply flag_and; auto.
  Qed.
  Lemma and_f a b c : wf c -> (a < num_vars c)%nat -> (b < num_vars c)%nat ->
    hspec (logic_and a b) c (fun w r => flags2 w a b r and) (fun _ => True) (fun _ _ => True) out.
  Proof.
    intros Hw Ha Hb. apply gspec_hspec. eapply MerkleGadgetProofs.gspec_weaken; [| | |apply (logic_and_spec zval c a b Hw Ha Hb)]; auto.
    cbn beta. intros w r _ E1 P Q FP FQ. rewrite E1. apply flag_and; auto.
  Qed.
  Lemma or_f a b c : wf c -> (a < num_vars c)%nat -> (b < num_vars c)%nat ->
    hspec (logic_or a b) c (fun w r => flags2 w a b r or) (fun _ => True) (fun _ _ => True) out.
  Proof.
    intros Hw Ha Hb. apply gspec_hspec. eapply MerkleGadgetProofs.gspec_weaken; [| | |apply (logic_or_spec zval c a b Hw Ha Hb)]; auto.
    cbn beta. intros w r _ E1 P Q FP FQ. rewrite E1. apply flag_or; auto.
  Qed.
  Lemma neg_f a c : wf c -> (a < num_vars c)%nat ->
    hspec (logic_neg a) c (fun w r => flags1 w a r not) (fun _ => True) (fun _ _ => True) out.
  Proof.
    intros Hw Ha. unfold logic_neg. apply gspec_hspec. eapply MerkleGadgetProofs.gspec_weaken; [| | |apply (is_zero_spec zval c a Hw Ha)]; auto.
    cbn beta. intros w r _ E1 P FP. rewrite E1. apply flag_neg; auto.
  Qed.
  Lemma zero_f a c : wf c -> (a < num_vars c)%nat ->
    hspec (logic_neg a) c (fun w r => flag (w r) (w a = 0)) (fun _ => True) (fun _ _ => True) out.
  Proof.
    intros Hw Ha. unfold logic_neg. apply gspec_hspec. eapply MerkleGadgetProofs.gspec_weaken; [| | |apply (is_zero_spec zval c a Hw Ha)]; auto.
    cbn beta. intros w r _ E1. rewrite E1. apply flag_b2k, feqb_eq.
  Qed.
  Lemma bool_f x c : wf c -> (x < num_vars c)%nat ->
    hspec (bool_evar NL x) c (fun w r => forall P, flag (w x) P -> is w r (bk (w x))) (fun _ => True) (fun _ _ => True) (fun r n => lim n r).
  Proof.
    intros Hw Hx. eapply hspec_weaken; [| | | |apply (bool_h x c Hw Hx)]; auto.
    cbn beta. intros w r _ H P F. apply H. eapply flag_isb; eauto.
  Qed.
  Lemma flag_eq x y P : flag x P -> flag y P -> x = y.
  Proof. intros [[-> H]|[-> H]] [[-> H']|[-> H']]; tauto. Qed.

  Definition zeros (w : nat -> K) (a : evar) : Prop := Forall (fun v => w v = 0) a.
  (** What the gate requires of the flags. *)
  Definition sw_guard (w : nat -> K) (P0 P1 P2 : sw_var) : Prop :=
    flag (w (sv_inf P0)) (sames w P1 P2) /\ flag (w (sv_inf P1)) (sames w P0 P2) /\
    (w (sv_inf P0) = 1 \/ w (sv_inf P1) = 1 \/ w (sv_inf P2) = 0 \/ ~ same w (sv_x P0) (sv_x P1) \/
     (same w (sv_y P0) (sv_y P1) /\ ~ zeros w (sv_y P0))).
  (** When the equations of a doubling are in force, and those of an addition. *)
  Definition doubling (w : nat -> K) (P0 P1 : sw_var) : Prop :=
    ((same w (sv_x P0) (sv_x P1) /\ same w (sv_y P0) (sv_y P1)) /\ ~ (w (sv_inf P0) = 1 \/ w (sv_inf P1) = 1)) /\ ~ zeros w (sv_y P0).
  Definition adding (w : nat -> K) (P0 P1 : sw_var) : Prop :=
    ~ (w (sv_inf P0) = 1 \/ w (sv_inf P1) = 1) /\ ~ same w (sv_x P0) (sv_x P1).
  Definition ind (P : Prop) (z : Z) : Prop := (z = 1%Z /\ P) \/ (z = 0%Z /\ ~ P).

  (** The equations, with the relations of products, sums and differences as
      parameters; [dc] and [ac] switch the two pairs on. *)
  Definition sw_equations (M A D : Z -> Z -> Z -> Prop) (three a dc ac x0 y0 x1 y1 x2 y2 : Z) : Prop :=
    exists dy xx xxx l1 l1' sq sq3 s r1 u1,
      A y0 y0 dy /\ A x0 x1 xx /\ A x2 xx xxx /\ M xxx dy l1 /\ M l1 dy l1' /\
      M x0 x0 sq /\ M sq three sq3 /\ A sq3 a s /\ M s s r1 /\ M l1' dc u1 /\ M r1 dc u1 /\
    exists sy l2 x02 r2 u2,
      A y2 y0 sy /\ M sy dy l2 /\ D x0 x2 x02 /\ M s x02 r2 /\ M l2 dc u2 /\ M r2 dc u2 /\
    exists x01 l3 l3' y01 r3 u3,
      D x0 x1 x01 /\ M x01 x01 l3 /\ M l3 xxx l3' /\ D y0 y1 y01 /\ M y01 y01 r3 /\ M l3' ac u3 /\ M r3 ac u3 /\
    exists l4 sy' r4 u4,
      M x02 y01 l4 /\ A y0 y2 sy' /\ M sy' x01 r4 /\ M l4 ac u4 /\ M r4 ac u4.
  Definition sw_room (a X0 Y0 X1 Y1 X2 Y2 : E) : Prop :=
    addable (ez Y0) (ez Y0) /\ addable (ez X0) (ez X1) /\ addable (ez X2) (ez (X0 + X1)) /\ addable (ez (X0 * X0 * fZ 3)) (ez a) /\
    addable (ez Y2) (ez Y0) /\ addable (ez (X0 - X2)) (ez X2) /\ addable (ez (X0 - X1)) (ez X1) /\ addable (ez (Y0 - Y1)) (ez Y1) /\
    addable (ez Y0) (ez Y2).
  Definition sw_double (a X0 Y0 X1 X2 Y2 : E) : Prop :=
    let s := fZ 3 * (X0 * X0) + a in
    (X0 + X1 + X2) * ((Y0 + Y0) * (Y0 + Y0)) = s * s /\ (Y2 + Y0) * (Y0 + Y0) = s * (X0 - X2).
  Definition sw_add (X0 Y0 X1 Y1 X2 Y2 : E) : Prop :=
    (X0 - X1) * (X0 - X1) * (X0 + X1 + X2) = (Y0 - Y1) * (Y0 - Y1) /\ (X0 - X2) * (Y0 - Y1) = (Y0 + Y2) * (X0 - X1).
  Definition sw_can (w : nat -> K) (P : sw_var) : Prop := can w (sv_x P) /\ can w (sv_y P).
  Definition sw_rng (w : nat -> K) (P : sw_var) : Prop := rng w (sv_x P) /\ rng w (sv_y P).
  Definition wx w P := el w (sv_x P).
  Definition wy w P := el w (sv_y P).
  Definition xv w P := ev w (sv_x P).
  Definition yv w P := ev w (sv_y P).

  Definition sw_S (a : E) (w : nat -> K) (P0 P1 P2 : sw_var) : Prop :=
    sw_guard w P0 P1 P2 /\
    (sw_rng w P0 -> sw_rng w P1 -> sw_rng w P2 -> exists dc ac, ind (doubling w P0 P1) dc /\ ind (adding w P0 P1) ac /\
       sw_equations M A D (ez (fZ 3)) (ez a) dc ac (xv w P0) (yv w P0) (xv w P1) (yv w P1) (xv w P2) (yv w P2)).
  Definition sw_C (a : E) (w : nat -> K) (P0 P1 P2 : sw_var) : Prop :=
    (sw_can w P0 /\ sw_can w P1 /\ sw_can w P2) /\ sw_guard w P0 P1 P2 /\
    sw_room a (wx w P0) (wy w P0) (wx w P1) (wy w P1) (wx w P2) (wy w P2) /\
    (doubling w P0 P1 -> sw_double a (wx w P0) (wy w P0) (wx w P1) (wx w P2) (wy w P2)) /\
    (adding w P0 P1 -> sw_add (wx w P0) (wy w P0) (wx w P1) (wy w P1) (wx w P2) (wy w P2)).
  Definition isp w P := is w (sv_x P) (wx w P) /\ is w (sv_y P) (wy w P).

  Lemma bk_ind x P : flag x P -> ind P (ez (bk x)).
  Proof.
    unfold bk. intros [[-> H]|[-> H]].
    - rewrite (proj2 (feqb_eq K _ _) eq_refl), ez_1. left; auto.
    - rewrite (proj2 (feqb_neq K _ _)) by (intros X; apply one_zero; auto). rewrite ez_0. right; auto.
  Qed.
  (** An equation multiplied by a flag. *)
  Lemma switched x P (l r : E) : flag x P -> (P -> l = r) -> l * bk x = r * bk x.
  Proof.
    unfold bk. intros [[-> H]|[-> H]] HP; [now rewrite HP|].
    rewrite (proj2 (feqb_neq K _ _)) by (intros X; apply one_zero; auto). ring.
  Qed.

  Ltac fwd2 := repeat match goal with
    | V : flags2 ?w ?a ?b ?r ?f, I1 : flag (?w ?a) ?X, I2 : flag (?w ?b) ?Y |- _ => pose proof (V X Y I1 I2 : flag (w r) (f X Y)); clear V
    | V : flags1 ?w ?a ?r ?f, I1 : flag (?w ?a) ?X |- _ => pose proof (V X I1 : flag (w r) (f X)); clear V
    | V : forall P, flag (?w ?x) P -> is ?w ?r (bk (?w ?x)), I1 : flag (?w ?x) ?X |- _ => pose proof (V X I1); clear V
    end; fwd.
  Ltac cob2 := cbn beta; let w := fresh "w" in let Hb := fresh "Hb" in let HC := fresh "HC" in intros w Hb HC; cbn beta in HC; spl; fwd2;
    lazymatch goal with
    | |- True => exact I
    | |- exists _ _, _ => do 2 eexists; sv
    | |- exists _, _ => eexists; sv
    | |- _ => idtac
    end.
  Ltac bds2 := lazymatch goal with
    | |- sw_ok _ ?P => match goal with H : sw_ok _ P |- _ => apply (fun X => sw_mono _ _ P X H); lia end
    | |- _ => bds
    end.
  Ltac post c r := 
        let c' := fresh "c" in let Lt := fresh "Lt" in let O := fresh "O" in intros r c' Lt O _;
        assert (wf c') by (apply Lt); assert (num_vars c <= num_vars c')%nat by (apply Lt);
        assert (rok (ptype c')) by (let X := fresh in destruct Lt as (_ & _ & X & _); rewrite X; assumption); unfold out in *; clear Lt.
  Ltac chs lem r := 
    lazymatch goal with |- MerkleGadgetProofs.hspec _ _ ?c _ _ _ _ =>
      eapply (hspec_seq zval); [bds|eapply lem; bds2|cob2|post c r] end.
  Ltac chg lem r := 
    lazymatch goal with |- MerkleGadgetProofs.hspec _ _ ?c _ _ _ _ =>
      eapply (hspec_seq zval); [bds|apply gspec_hspec; eapply lem; bds2|cob2|post c r] end.

  Ltac eqs l r k := match goal with Hl : is ?w l ?x, Hr : is ?w r ?y |- _ =>
      apply (is_same w l r x); [assumption|assumption|exact Hl|]; replace x with y; [exact Hr|]; symmetry end;
    match goal with F : flag (?w k) ?Q |- _ => apply (switched (w k) Q); [exact F|] end.
  Lemma sw_gate_spec P0 P1 P2 a c : wf c -> rok (ptype c) -> sw_ok (num_vars c) P0 -> sw_ok (num_vars c) P1 -> sw_ok (num_vars c) P2 ->
    gspec (emulated_sw_ecc_add_gate zval p nb L ez q T B NL P0 P1 P2 a) c (fun w _ => sw_S a w P0 P1 P2) (fun w => sw_C a w P0 P1 P2) noout.
  Proof.
    intros Hw Ht K0 K1 K2.
    assert (Lx0 : lim (num_vars c) (sv_x P0)) by apply K0. assert (Ly0 : lim (num_vars c) (sv_y P0)) by apply K0.
    assert (Lx1 : lim (num_vars c) (sv_x P1)) by apply K1. assert (Ly1 : lim (num_vars c) (sv_y P1)) by apply K1.
    assert (Lx2 : lim (num_vars c) (sv_x P2)) by apply K2. assert (Ly2 : lim (num_vars c) (sv_y P2)) by apply K2.
    assert (I0 : (sv_inf P0 < num_vars c)%nat) by apply K0. assert (I1 : (sv_inf P1 < num_vars c)%nat) by apply K1.
    assert (I2 : (sv_inf P2 < num_vars c)%nat) by apply K2.
    unfold emulated_sw_ecc_add_gate.
    apply (hspec_gspec zval) with (V := fun _ _ => True).
    apply hspec_weaken with (S := fun w (_ : unit) => sw_S a w P0 P1 P2)
      (C := fun w => (isp w P0 /\ isp w P1 /\ isp w P2) /\ (flag (w (sv_inf P0)) (w (sv_inf P0) = 1) /\ flag (w (sv_inf P1)) (w (sv_inf P1) = 1)) /\
        sw_guard w P0 P1 P2 /\ sw_room a (wx w P0) (wy w P0) (wx w P1) (wy w P1) (wx w P2) (wy w P2) /\
    (doubling w P0 P1 -> sw_double a (wx w P0) (wy w P0) (wx w P1) (wx w P2) (wy w P2)) /\
    (adding w P0 P1 -> sw_add (wx w P0) (wy w P0) (wx w P1) (wy w P1) (wx w P2) (wy w P2)))
      (V := fun _ _ => True) (R := noout); [intros ? ? ? H; exact H| |intros; exact I|intros ? ? H; exact H|].
    { intros w _ (((Cx0 & Cy0) & (Cx1 & Cy1) & (Cx2 & Cy2)) & G & H). destruct Lx0, Ly0, Lx1, Ly1, Lx2, Ly2. unfold isp, wx, wy.
      split; [split; [split; apply can_is; assumption|split; split; apply can_is; assumption]|].
      split; [|split; [exact G|exact H]]. destruct G as (G1 & G2 & _). split; apply flag_bit; eapply flag_isb; eauto. }
    unfold sw_room, isp.
    chg (is_sw_spec P1 P2) e12. chg (is_sw_spec P0 P2) e02.
    chg (enforce_equal_spec zval) u1.
    { match goal with H : sw_guard _ _ _ _ |- _ => destruct H as (G1 & G2 & G3) end. eapply flag_eq; eauto. }
    chg (enforce_equal_spec zval) u2.
    { match goal with H : sw_guard _ _ _ _ |- _ => destruct H as (G1 & G2 & G3) end. eapply flag_eq; eauto. }
    chs (or_f (sv_inf P0) (sv_inf P1)) im. chs (neg_f im) nim. chs (zero_f (sv_inf P2)) ni2.
    chg (is_equal_evar_spec (sv_x P0) (sv_x P1)) exx. chs (neg_f exx) nxx.
    chg (is_equal_evar_spec (sv_y P0) (sv_y P1)) eyy. chg (is_zero_evar_spec (sv_y P0)) zy. chs (neg_f zy) nzy.
    chs (and_f eyy nzy) t1. chs (or_f nxx t1) t2. chs (or_f ni2 t2) t3.
    chg (logic_or_gate_spec zval) u3.
    { match goal with H : sw_guard _ _ _ _ |- _ => destruct H as (G1 & G2 & G3) end.
      match goal with F1 : flag (w im) _, F2 : flag (w t3) _ |- _ => destruct (flag_or _ _ _ _ F1 F2) as [[-> _]|[_ N]] end; [reflexivity|].
      exfalso. apply N. unfold zeros in *. tauto. }
    chs (mul_f exx eyy) dm. chs (mul_f dm nim) dc0. chs (mul_f dc0 nzy) dc. chs (bool_f dc) dcv.
    chs (add_h (sv_y P0) (sv_y P0)) dy. chs (add_h (sv_x P0) (sv_x P1)) xx. chs (add_h (sv_x P2) xx) xxx.
    chs (mul_h xxx dy) l1. chs (mul_h l1 dy) l1'. chs (mul_h (sv_x P0) (sv_x P0)) sq. chs (mulc_h sq (fZ 3)) sq3. chs (addc_h sq3 a) s.
    chs (mul_h s s) m1. chs (mul_h l1' dcv) u1l. chs (mul_h m1 dcv) u1r.
    chg (enforce_equal_evar_spec u1l u1r) u4.
    { eqs u1l u1r dc. intros HP. match goal with H : doubling w P0 P1 -> _ |- _ => destruct (H HP) as [E1 _] end.
      etransitivity; [|etransitivity; [exact E1|]]; ring. }
    chs (add_h (sv_y P2) (sv_y P0)) sy. chs (mul_h sy dy) l2. chs (sub_h (sv_x P0) (sv_x P2)) x02. chs (mul_h s x02) m2.
    chs (mul_h l2 dcv) u2l. chs (mul_h m2 dcv) u2r.
    chg (enforce_equal_evar_spec u2l u2r) u5.
    { eqs u2l u2r dc. intros HP. match goal with H : doubling w P0 P1 -> _ |- _ => destruct (H HP) as [_ E1] end.
      etransitivity; [exact E1|]; ring. }
    chs (mul_f nim nxx) ac. chs (bool_f ac) acv. chs (sub_h (sv_x P0) (sv_x P1)) x01. chs (mul_h x01 x01) l3. chs (mul_h l3 xxx) l3'.
    chs (sub_h (sv_y P0) (sv_y P1)) y01. chs (mul_h y01 y01) m3. chs (mul_h l3' acv) u3l. chs (mul_h m3 acv) u3r.
    chg (enforce_equal_evar_spec u3l u3r) u6.
    { eqs u3l u3r ac. intros HP. match goal with H : adding w P0 P1 -> _ |- _ => destruct (H HP) as [E1 _] end.
      etransitivity; [|exact E1]; ring. }
    chs (mul_h x02 y01) l4. chs (add_h (sv_y P0) (sv_y P2)) sy'. chs (mul_h sy' x01) m4. chs (mul_h l4 acv) u4l. chs (mul_h m4 acv) u4r.
    eapply hspec_weaken; [| | | |apply gspec_hspec; eapply (enforce_equal_evar_spec u4l u4r); bds]; [|cob2|intros; exact I|auto].
    2:{ eqs u4l u4r ac. intros HP. match goal with H : adding w P0 P1 -> _ |- _ => destruct (H HP) as [_ E1] end. exact E1. }
    cbn beta. intros w u Hb. intros.
    match goal with H : w (sv_inf P0) = w e12, F : flag (w e12) _ |- _ => assert (G1 : flag (w (sv_inf P0)) (sames w P1 P2)) by (rewrite H; exact F) end.
    match goal with H : w (sv_inf P1) = w e02, F : flag (w e02) _ |- _ => assert (G2 : flag (w (sv_inf P1)) (sames w P0 P2)) by (rewrite H; exact F) end.
    assert (F0 : flag (w (sv_inf P0)) (w (sv_inf P0) = 1)) by (apply flag_bit; eapply flag_isb; exact G1).
    assert (F1 : flag (w (sv_inf P1)) (w (sv_inf P1) = 1)) by (apply flag_bit; eapply flag_isb; exact G2).
    assert (GG : sw_guard w P0 P1 P2 -> sw_S a w P0 P1 P2); [|apply GG; split; [exact G1|split; [exact G2|]]].
    - intros GG. split; [exact GG|]. clear GG. intros [Rx0 Ry0] [Rx1 Ry1] [Rx2 Ry2].
      revert F0 F1 G1 G2. spl. intros F0 F1 G1 G2.
      clear G1 G2. fwd2.
      match goal with F : flag (w dc) _, V : is w dcv _ |- _ => pose proof (bk_ind _ _ F) as Id; destruct V as [Rd Ed]; rewrite <- Ed in Id end.
      match goal with F : flag (w ac) _, V : is w acv _ |- _ => pose proof (bk_ind _ _ F) as Ia; destruct V as [Ra Ea]; rewrite <- Ea in Ia end.
      exists (ev w dcv), (ev w acv). split; [exact Id|]. split; [exact Ia|]. unfold xv, yv.
      repeat match goal with H : same w ?x ?y |- _ => apply same_ev in H; rewrite <- H in * end.
      exists (ev w dy), (ev w xx), (ev w xxx), (ev w l1), (ev w l1'), (ev w sq), (ev w sq3), (ev w s), (ev w m1), (ev w u1l).
      repeat (split; [solve [auto]|]).
      exists (ev w sy), (ev w l2), (ev w x02), (ev w m2), (ev w u2l). repeat (split; [solve [auto]|]).
      exists (ev w x01), (ev w l3), (ev w l3'), (ev w y01), (ev w m3), (ev w u3l). repeat (split; [solve [auto]|]).
      exists (ev w l4), (ev w sy'), (ev w m4), (ev w u4l). repeat (split; [solve [auto]|]). auto.
    - clear G1 G2. fwd2.
      match goal with FI : flag (w im) _, F2 : flag (w t3) _, E1 : _ = 1 |- _ => pose proof (flag_1 _ _ (flag_or _ _ _ _ FI F2) E1) end.
      unfold zeros. tauto.
  Qed.
End Ecc.
