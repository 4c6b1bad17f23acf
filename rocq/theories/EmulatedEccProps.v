(** C88: the gadgets on points of a curve over an emulated field
    (relation/src/gadgets/emulated.rs lines 589-656 and
    relation/src/gadgets/ecc/emulated).

    [rng w a] says that the limbs of the element [a] are in range under the
    assignment [w], [ev w a] is the integer they represent and [el w a] the element
    of the emulated field.  [can w a]: in range and below the modulus. *)

From Coq Require Import List Arith ZArith Znumtheory Bool Lia Ring Field.
From Verif Require Import Base ListAux Alg Poly CircuitModel CircuitProofs GadgetModel GadgetProofs RangeProofs
  BitProofs CmpProofs RangeLookup SatProofs SatGadget CircuitProps MerkleGadgetProofs EmulatedModel EmulatedProofs
  EmulatedMul EmulatedAdd IndepProofs EmulatedGate EmulatedExact EmulatedProps EmulatedEcc.
Import ListNotations.
Local Open Scope fld_scope.
Local Open Scope circ_scope.

Section Props.
  Context {K : fld}.
  Variable zval : K -> Z.
  Variable p : Z.
  Variable nb L : nat.
  Hypothesis HF : pfield K zval p nb L.
  Add Field EccPK : (fth K).
  Context {E : fld}.
  Add Field EccPE : (fth E).
  Variable ez : E -> Z.
  Variable q : Z.
  Hypothesis HE : zfield E ez q.
  Variables T B NL : nat.
  Hypothesis HB : (1 <= B)%nat.
  Hypothesis HNL : (1 <= NL)%nat.
  Hypothesis HT : T = (B * NL)%nat.
  Hypothesis Hq : (0 < q < 2 ^ Z.of_nat T)%Z.
  Hypothesis Hroom : (4 * Z.of_nat NL * 2 ^ (2 * Z.of_nat B) <= p)%Z.
  Notation ev := (ev zval B).
  Notation rng := (rng zval B).
  Notation rok := (rok nb).
  Notation vlt n a := (Forall (fun v => v < n)%nat a).
  Notation lim n a := (length a = NL /\ vlt n a).
  Notation accepts := (accepts zval).
  Notation gadget_ok := (gadget_ok zval).
  Notation can := (can zval q B).
  Notation el := (@el K zval E B).
  Notation sw_ok := (sw_ok NL).
  Notation te_ok := (te_ok NL).

  (** *** Comparison and selection, limb by limb *)
  Theorem C88_is_equal a b c : good c -> lim (num_vars c) a -> lim (num_vars c) b ->
    gadget_ok (is_emulated_var_equal a b) c (fun w r => flag (w r) (map w a = map w b)) (fun _ => True) out.
  Proof.
    intros G Ha Hb. apply gspec_gadget; auto; [intros ? ? ? ?; exact I|]. apply (is_equal_evar_spec zval q T B NL HB HNL HT Hq); auto. apply G.
  Qed.
  Theorem C88_is_zero a c : good c -> lim (num_vars c) a ->
    gadget_ok (is_emulated_var_zero a) c (fun w r => flag (w r) (Forall (fun v => w v = 0) a)) (fun _ => True) out.
  Proof.
    intros G Ha. apply gspec_gadget; auto; [intros ? ? ? ?; exact I|]. apply (is_zero_evar_spec zval q T B NL HB HNL HT Hq); auto. apply G.
  Qed.
  Lemma map_local n (a : evar) (w w' : nat -> K) : vlt n a -> (forall v, (v < n)%nat -> w v = w' v) -> map w a = map w' a.
  Proof. intros Ha H. apply map_ext_in. intros v Hv. apply H. rewrite Forall_forall in Ha. auto. Qed.
  Theorem C88_enforce_equal a b c : good c -> lim (num_vars c) a -> lim (num_vars c) b ->
    gadget_ok (enforce_emulated_var_equal a b) c (fun w _ => map w a = map w b) (fun w => map w a = map w b) noout.
  Proof.
    intros G Ha Hb. apply gspec_gadget; auto.
    - intros w w' H E1. rewrite <- !(map_local (num_vars c) _ w w'); auto; tauto.
    - apply (enforce_equal_evar_spec zval T B NL HB HNL HT); auto. apply G.
  Qed.
  Theorem C88_select b a0 a1 c : good c -> (b < num_vars c)%nat -> isb (asg (witness c) b) -> lim (num_vars c) a0 -> lim (num_vars c) a1 ->
    gadget_ok (conditional_select_emulated b a0 a1) c (fun w r => isb (w b) -> map w r = if feqb (w b) 1 then map w a1 else map w a0)
      (fun _ => True) (fun r n => lim n r).
  Proof.
    intros G Hb Hbit Ha0 Ha1. apply gspec_gadget; auto; [intros ? ? ? ?; exact I|]. apply (select_evar_spec zval q T B NL HB HNL HT Hq); auto. apply G.
  Qed.
  (** Two elements below the modulus are equal exactly if their limbs are. *)
  Theorem C88_canonical_equal w a b : length a = NL -> length b = NL -> can w a -> can w b -> (map w a = map w b <-> el w a = el w b).
  Proof. intros La Lb Ca Cb. apply (same_el zval p nb L HF ez q HE T B NL HB HNL HT w a b La Lb Ca Cb). Qed.

  Theorem C88_sw_is_equal P Q c : good c -> sw_ok (num_vars c) P -> sw_ok (num_vars c) Q ->
    gadget_ok (is_sw_equal P Q) c (fun w r => flag (w r) (sames w P Q)) (fun _ => True) out.
  Proof.
    intros G HP HQ. apply gspec_gadget; auto; [intros ? ? ? ?; exact I|]. apply (is_sw_spec zval q T B NL HB HNL HT Hq); auto. apply G.
  Qed.
  Lemma sames_local n P Q (w w' : nat -> K) : sw_ok n P -> sw_ok n Q -> (forall v, (v < n)%nat -> w v = w' v) -> sames w P Q -> sames w' P Q.
  Proof.
    intros ((_ & H1) & (_ & H2) & H3) ((_ & H4) & (_ & H5) & H6) H (S1 & S2 & S3). unfold sames, same.
    rewrite <- !(map_local n _ w w') by auto. rewrite <- !H by auto. split; [exact S1|split; [exact S2|exact S3]].
  Qed.
  Theorem C88_sw_enforce_equal P Q c : good c -> sw_ok (num_vars c) P -> sw_ok (num_vars c) Q ->
    gadget_ok (enforce_sw_equal P Q) c (fun w _ => sames w P Q) (fun w => sames w P Q) noout.
  Proof.
    intros G HP HQ. apply gspec_gadget; auto.
    - intros w w' H. apply (sames_local (num_vars c)); auto.
    - apply (enforce_sw_spec zval T B NL HB HNL HT); auto. apply G.
  Qed.
  Theorem C88_sw_select b P Q c : good c -> (b < num_vars c)%nat -> isb (asg (witness c) b) -> sw_ok (num_vars c) P -> sw_ok (num_vars c) Q ->
    gadget_ok (sw_select b P Q) c (fun w R => isb (w b) -> sames w R (if feqb (w b) 1 then Q else P)) (fun _ => True) (fun R n => sw_ok n R).
  Proof.
    intros G Hb Hbit HP HQ. apply gspec_gadget; auto; [intros ? ? ? ?; exact I|]. apply (select_sw_spec zval q T B NL HB HNL HT Hq); auto. apply G.
  Qed.

  (** *** The addition gates *)
  Notation te_C := (fun P0 P1 P2 d w => te_can zval q B w P0 /\ te_can zval q B w P1 /\ te_can zval q B w P2 /\
     te_room ez q B NL d (el w (tv_x P0)) (el w (tv_y P0)) (el w (tv_x P1)) (el w (tv_y P1)) (el w (tv_x P2)) (el w (tv_y P2)) /\
     te_sum d (el w (tv_x P0)) (el w (tv_y P0)) (el w (tv_x P1)) (el w (tv_y P1)) (el w (tv_x P2)) (el w (tv_y P2))).
  Lemma can_local n a (w w' : nat -> K) : vlt n a -> (forall v, (v < n)%nat -> w v = w' v) -> can w a -> can w' a.
  Proof.
    intros Ha H [R Q]. split; [apply (rng_ext zval B w w' n); auto|]. rewrite <- (ev_ext zval B w w' n); auto.
  Qed.
  Lemma el_local n a (w w' : nat -> K) : vlt n a -> (forall v, (v < n)%nat -> w v = w' v) -> el w a = el w' a.
  Proof. intros Ha H. unfold EmulatedEcc.el. rewrite (ev_ext zval B w w' n); auto. Qed.
  Theorem C88_te_add_gate P0 P1 P2 d c : good c -> rok (ptype c) ->
    te_ok (num_vars c) P0 -> te_ok (num_vars c) P1 -> te_ok (num_vars c) P2 ->
    gadget_ok (emulated_te_ecc_add_gate zval p nb L ez q T B NL P0 P1 P2 d) c
      (fun w _ => te_rng zval B w P0 -> te_rng zval B w P1 -> te_rng zval B w P2 ->
         te_equations (M p q T) (A q T) (ez d) (ev w (tv_x P0)) (ev w (tv_y P0)) (ev w (tv_x P1)) (ev w (tv_y P1)) (ev w (tv_x P2)) (ev w (tv_y P2)))
      (te_C P0 P1 P2 d) noout.
  Proof.
    intros G Ht H0 H1 H2. apply gspec_gadget; auto.
    - intros w w' H ([A1 A2] & [A3 A4] & [A5 A6] & A7 & A8). destruct H0 as [[_ X0] [_ Y0]], H1 as [[_ X1] [_ Y1]], H2 as [[_ X2] [_ Y2]].
      unfold te_can. rewrite <- !(el_local (num_vars c) _ w w') by auto.
      split; [split; eapply can_local; eauto|]. split; [split; eapply can_local; eauto|]. split; [split; eapply can_local; eauto|]. auto.
    - apply (te_gate_spec zval p nb L HF ez q HE T B NL HB HNL HT Hq Hroom); auto. apply G.
  Qed.
  Lemma sw_C_local n P0 P1 P2 a (w w' : nat -> K) : sw_ok n P0 -> sw_ok n P1 -> sw_ok n P2 -> (forall v, (v < n)%nat -> w v = w' v) ->
    sw_C zval ez q B NL a w P0 P1 P2 -> sw_C zval ez q B NL a w' P0 P1 P2.
  Proof.
    intros ((_ & X0) & (_ & Y0) & I0) ((_ & X1) & (_ & Y1) & I1) ((_ & X2) & (_ & Y2) & I2) H.
    assert (Z0 : zeros w' (sv_y P0) <-> zeros w (sv_y P0)).
    { unfold zeros. rewrite !Forall_forall. rewrite Forall_forall in Y0. split; intros HH v Hv; [rewrite H|rewrite <- H]; auto. }
    unfold sw_C, sw_guard, doubling, adding, sames, same, wx, wy, sw_can.
    rewrite <- !(map_local n _ w w') by auto. rewrite <- !(el_local n _ w w') by auto. rewrite <- !H by auto. rewrite !Z0.
    intros ((C0 & C1 & C2) & R). split; [|exact R]. split; [|split]; split; eapply can_local; eauto; tauto.
  Qed.
  Theorem C88_sw_add_gate P0 P1 P2 a c : good c -> rok (ptype c) ->
    sw_ok (num_vars c) P0 -> sw_ok (num_vars c) P1 -> sw_ok (num_vars c) P2 ->
    gadget_ok (emulated_sw_ecc_add_gate zval p nb L ez q T B NL P0 P1 P2 a) c
      (fun w _ => sw_S zval p ez q T B a w P0 P1 P2) (fun w => sw_C zval ez q B NL a w P0 P1 P2) noout.
  Proof.
    intros G Ht H0 H1 H2. apply gspec_gadget; auto.
    - intros w w' H. apply (sw_C_local (num_vars c)); auto.
    - apply (sw_gate_spec zval p nb L HF ez q HE T B NL HB HNL HT Hq Hroom); auto. apply G.
  Qed.

  (** The equations that the gates enforce, read modulo [q], are those of the group
      law: the only gap is that between [M], [A], [D] and these relations (C33). *)
  Definition mul_q (x y z : Z) : Prop := (z mod q = (x * y) mod q)%Z.
  Definition add_q (x y z : Z) : Prop := (z mod q = (x + y) mod q)%Z.
  Definition sub_q (x y z : Z) : Prop := (z mod q = (x - y) mod q)%Z.
  Lemma fZ_mod x y : (x mod q = y mod q)%Z -> (fZ x : E) = fZ y.
  Proof. intros H. rewrite <- (zf_fZ _ _ _ HE (fZ x)), <- (zf_fZ _ _ _ HE (fZ y)), !(zf_ez _ _ _ HE). now rewrite H. Qed.
  Lemma mul_E x y z : mul_q x y z -> (fZ z : E) = fZ x * fZ y.
  Proof. intros H. rewrite <- fZ_mul. apply fZ_mod; auto. Qed.
  Lemma add_E x y z : add_q x y z -> (fZ z : E) = fZ x + fZ y.
  Proof. intros H. rewrite <- fZ_add. apply fZ_mod; auto. Qed.
  Lemma sub_E x y z : sub_q x y z -> (fZ z : E) = fZ x - fZ y.
  Proof. intros H. rewrite <- fZ_sub. apply fZ_mod; auto. Qed.
  Ltac toE := repeat match goal with
    | H : exists _, _ |- _ => destruct H
    | H : mul_q _ _ _ /\ _ |- _ => destruct H
    | H : add_q _ _ _ /\ _ |- _ => destruct H
    | H : sub_q _ _ _ /\ _ |- _ => destruct H
    | H : mul_q _ _ _ |- _ => apply mul_E in H
    | H : add_q _ _ _ |- _ => apply add_E in H
    | H : sub_q _ _ _ |- _ => apply sub_E in H end.
  Theorem C88_te_meaning d x0 y0 x1 y1 x2 y2 : te_equations mul_q add_q (ez d) x0 y0 x1 y1 x2 y2 ->
    te_sum d (fZ x0) (fZ y0) (fZ x1) (fZ y1) (fZ x2) (fZ y2).
  Proof.
    unfold te_equations. intros H. toE. rewrite !(zf_fZ _ _ _ HE) in *. split.
    - transitivity (fZ x2 + fZ x0 * fZ x1 * (fZ y0 * fZ y1) * d * fZ x2 : E); [ring|]. congruence.
    - transitivity (fZ y2 - fZ x0 * fZ x1 * (fZ y0 * fZ y1) * d * fZ y2 : E); [ring|].
      match goal with H : fZ y2 = _ |- _ => rewrite H at 1 end. 
      match goal with |- fZ ?u + fZ ?v - _ = _ => assert (Ev : (fZ v : E) = fZ x0 * fZ x1 * (fZ y0 * fZ y1) * d * fZ y2) by congruence;
        assert (Eu : (fZ u : E) = fZ x0 * fZ x1 + fZ y0 * fZ y1) by congruence; rewrite Ev, Eu end. ring.
  Qed.
  Theorem C88_sw_meaning a dc ac x0 y0 x1 y1 x2 y2 : sw_equations mul_q add_q sub_q (ez (fZ 3)) (ez a) dc ac x0 y0 x1 y1 x2 y2 ->
    (dc = 1%Z -> sw_double a (fZ x0) (fZ y0) (fZ x1) (fZ x2) (fZ y2)) /\
    (ac = 1%Z -> sw_add (fZ x0 : E) (fZ y0) (fZ x1) (fZ y1) (fZ x2) (fZ y2)).
  Proof.
    intros (dy & xx & xxx & l1 & l1' & sq & sq3 & s & m1 & u1 & A1 & A2 & A3 & A4 & A5 & A6 & A7 & A8 & A9 & A10 & A11 &
      sy & l2 & x02 & m2 & u2 & B1 & B2 & B3 & B4 & B5 & B6 & x01 & l3 & l3' & y01 & m3 & u3 & C1 & C2 & C3 & C4 & C5 & C6 & C7 &
      l4 & sy' & m4 & u4 & D1 & D2 & D3 & D4 & D5).
    apply add_E in A1, A2, A3, A8, B1, D2. apply sub_E in B3, C1, C4.
    apply mul_E in A4, A5, A6, A7, A9, A10, A11, B2, B4, B5, B6, C2, C3, C5, C6, C7, D1, D3, D4, D5.
    rewrite !(zf_fZ _ _ _ HE) in *.
    assert (one : forall u l r : E, u = l * 1 -> u = r * 1 -> l = r).
    { intros u l r U1 U2. transitivity (l * 1); [ring|]. rewrite <- U1, U2. ring. }
    split; intros ->; rewrite ?(@fZ_1 E) in *; split.
    - pose proof (one _ _ _ A10 A11) as H. rewrite A5, A9, A4, A3, A2, A1, A8, A7, A6 in H.
      etransitivity; [|etransitivity; [exact H|]]; ring.
    - pose proof (one _ _ _ B5 B6) as H. rewrite B2, B4, B1, B3, A1, A8, A7, A6 in H.
      etransitivity; [exact H|]; ring.
    - pose proof (one _ _ _ C6 C7) as H. rewrite C3, C5, C2, C1, C4, A3, A2 in H.
      etransitivity; [|exact H]; ring.
    - pose proof (one _ _ _ D4 D5) as H. rewrite D1, D3, D2, B3, C1, C4 in H. exact H.
  Qed.

  (** *** Findings: the point at infinity *)

  (** Two finite points with the same abscissa and different ordinates, or with
      ordinate zero: their sum is the point at infinity. *)
  Definition opposite (w : nat -> K) (P0 P1 : sw_var) : Prop :=
    w (sv_inf P0) = 0 /\ w (sv_inf P1) = 0 /\ map w (sv_x P0) = map w (sv_x P1) /\
    (map w (sv_y P0) <> map w (sv_y P1) \/ Forall (fun v => w v = 0) (sv_y P0)).
  (** Every assignment that the gate accepts for two opposite points has the flag of the
      result at zero: the right result is refused. *)
  Theorem C88_opposite_refused_refuted P0 P1 P2 a c : good c -> rok (ptype c) ->
    sw_ok (num_vars c) P0 -> sw_ok (num_vars c) P1 -> sw_ok (num_vars c) P2 ->
    exists c', emulated_sw_ecc_add_gate zval p nb L ez q T B NL P0 P1 P2 a c = (Ok tt, c') /\
      forall c'' ws pub, extends c' c'' -> bounded c'' -> accepts c'' ws pub -> opposite (asg ws) P0 P1 -> asg ws (sv_inf P2) = 0.
  Proof.
    intros G Ht H0 H1 H2. destruct (C88_sw_add_gate P0 P1 P2 a c G Ht H0 H1 H2) as ([] & c' & Em & _ & _ & _ & _ & Snd & _).
    exists c'. split; auto. intros c'' ws pub Ex Bd Ha (F0 & F1 & X & Y).
    destruct (Snd c'' ws pub Ex Bd Ha) as [(_ & _ & Gd) _]. unfold same, zeros in Gd. pose proof (@f1_neq_0 K) as N.
    destruct Gd as [Gd|[Gd|[Gd|[Gd|[Gd1 Gd2]]]]]; [exfalso; congruence|exfalso; congruence|exact Gd|exfalso; auto|]. exfalso. destruct Y; auto.
  Qed.
  (** The run of [emulated_sw_ecc_add]. *)
  Notation hspec := (hspec zval).
  Notation is := (is zval ez B).
  Definition sval (w : nat -> K) (P : sw_var) : sw_point := mk_sw (el w (sv_x P)) (el w (sv_y P)) (feqb (w (sv_inf P)) 1).
  Lemma sw_witness_eq P c : wf c -> sw_ok (num_vars c) P -> sw_witness zval B NL P c = (Ok (sval (asg (witness c)) P), c).
  Proof.
    intros W ((Lx & Bx) & (Ly & By) & Bi). unfold sw_witness, cbind.
    rewrite (emulated_witness_eq zval T B NL HB HNL HT (sv_x P) c W Lx Bx).
    rewrite (emulated_witness_eq zval T B NL HB HNL HT (sv_y P) c W Ly By).
    assert (G : get_witness (sv_inf P) c = (Ok (hon c (sv_inf P)), c)).
    { unfold get_witness, check_var_bound, lift, cbind. destruct (Nat.leb_spec (num_vars c) (sv_inf P)); [lia|].
      unfold index. rewrite (nth_error_nth' _ 0) by (rewrite (wf_wit _ W); auto). reflexivity. }
    rewrite G. reflexivity.
  Qed.
  Lemma create_h v c : wf c -> rok (ptype c) ->
    hspec (create_emulated_variable zval p nb L ez B NL v) c (fun w r => rng w r) (fun _ => True) (fun w r => is w r v) (fun r n => lim n r).
  Proof.
    intros Hw Ht. unfold MerkleGadgetProofs.hspec. eapply wpc_mono; [apply (create_evar_spec zval p nb L HF ez q HE T B NL HB HNL HT Hq Hroom v c Hw Ht)|].
    cbn beta. intros r d _ (H1 & H2 & H3 & H4). split; [|split; [|split; [|exact H3]]].
    - intros w Hb Hs. apply (H1 w Hb Hs).
    - exact H2.
    - intros w Hb Hh. apply (H4 w Hh).
  Qed.
  Lemma hs_assoc {U V W} (m : circ K U) (f : U -> circ K V) (g : V -> circ K W) c S C X R :
    hspec (cbind m (fun u => cbind (f u) g)) c S C X R -> hspec (cbind (cbind m f) g) c S C X R.
  Proof. apply wpc_assoc. Qed.
  Lemma hs_ret {U V} (u : U) (g : U -> circ K V) c S C X R : hspec (g u) c S C X R -> hspec (cbind (ret u) g) c S C X R.
  Proof. apply wpc_bind_ret. Qed.
  Lemma hs_pure {U V} (m : circ K U) (u : U) (g : U -> circ K V) c S C X R : m c = (Ok u, c) -> hspec (g u) c S C X R -> hspec (cbind m g) c S C X R.
  Proof. apply wpc_bind_pure. Qed.
  Lemma sw_add_h P0 P1 a v2 c : wf c -> rok (ptype c) -> sw_ok (num_vars c) P0 -> sw_ok (num_vars c) P1 ->
    sw_sum (sval (asg (witness c)) P0) (sval (asg (witness c)) P1) a c = (Ok v2, c) ->
    hspec (emulated_sw_ecc_add zval p nb L ez q T B NL P0 P1 a) c
      (fun w R => sw_S zval p ez q T B a w P0 P1 R /\ sw_rng zval B w R /\ isb (w (sv_inf R)))
      (fun w => forall R, length (sv_x R) = NL -> length (sv_y R) = NL -> is w (sv_x R) (sw_x v2) -> is w (sv_y R) (sw_y v2) ->
         w (sv_inf R) = b2k (sw_inf v2) -> sw_C zval ez q B NL a w P0 P1 R)
      (fun w R => is w (sv_x R) (sw_x v2) /\ is w (sv_y R) (sw_y v2) /\ w (sv_inf R) = b2k (sw_inf v2)) (fun R n => sw_ok n R).
  Proof.
    intros Hw Ht H0 H1 Hs. unfold emulated_sw_ecc_add.
    eapply hs_pure; [apply sw_witness_eq; auto|]. eapply hs_pure; [apply sw_witness_eq; auto|].
    eapply hs_pure; [exact Hs|]. unfold create_sw_variable. apply hs_assoc.
    eapply (hspec_seq zval); [exact Hw|apply create_h; auto|intros; exact I|]. intros x c1 L1 O1 _.
    assert (W1 : wf c1) by apply L1. assert (T1 : rok (ptype c1)) by (destruct L1 as (_ & _ & X & _); rewrite X; exact Ht).
    apply hs_assoc.
    eapply (hspec_seq zval); [exact W1|apply create_h; auto|intros; exact I|]. intros y c2 L2 O2 _.
    assert (W2 : wf c2) by apply L2. assert (T2 : rok (ptype c2)) by (destruct L2 as (_ & _ & X & _); rewrite X; exact T1).
    apply hs_assoc.
    eapply (hspec_seq zval); [exact W2|apply (bool_hspec zval c2 (sw_inf v2) W2)|intros; exact I|]. intros i c3 L3 O3 _.
    assert (W3 : wf c3) by apply L3. assert (T3 : rok (ptype c3)) by (destruct L3 as (_ & _ & X & _); rewrite X; exact T2).
    assert (N1 : (num_vars c <= num_vars c1)%nat) by apply L1. assert (N2 : (num_vars c1 <= num_vars c2)%nat) by apply L2.
    assert (N3 : (num_vars c2 <= num_vars c3)%nat) by apply L3. unfold out in O3.
    apply hs_ret. set (R := mk_swv x y i).
    assert (HR : sw_ok (num_vars c3) R).
    { split; [|split]; cbn [R sv_x sv_y sv_inf]; [eapply (lim_mono T B NL HB HNL HT); [|exact O1]; lia|eapply (lim_mono T B NL HB HNL HT); [|exact O2]; lia|exact O3]. }
    eapply (hspec_seq zval); [exact W3|apply gspec_hspec, (sw_gate_spec zval p nb L HF ez q HE T B NL HB HNL HT Hq Hroom P0 P1 R a c3 W3 T3); auto;
      eapply (sw_mono T B NL HB HNL HT); [|eassumption| |eassumption]; lia| |].
    - cbn beta. intros w _ (((HC & _ & V1) & _ & V2) & _ & V3). apply HC; auto; [apply O1|apply O2].
    - intros [] c4 L4 _ _. apply hspec_ret.
      + eapply (sw_mono T B NL HB HNL HT); [|exact HR]. apply L4.
      + cbn beta. intros w _ S4 S3 S2 S1. split; [exact S4|]. split; [split; [exact S1|exact S2]|exact S3].
      + cbn beta. intros w _ _ V3 V2 V1. split; [exact V1|]. split; [exact V2|exact V3].
  Qed.
  Lemma el_same_b w a b : can w a -> can w b -> length a = NL -> length b = NL -> (feqb (el w a) (el w b) = true <-> map w a = map w b).
  Proof. intros Ca Cb La Lb. rewrite feqb_eq. symmetry. apply C88_canonical_equal; auto. Qed.
  Lemma zeros_el w a : length a = NL -> can w a -> (Forall (fun v => w v = 0) a <-> el w a = 0).
  Proof.
    intros La [R Q]. unfold EmulatedEcc.el. pose proof (ev_range zval p nb L HF T B NL HB HNL HT w a La R) as Rg. split; intros H.
    - assert (Z0 : ev w a = 0%Z).
      { unfold EmulatedMul.ev, EmulatedMul.zl. clear - H HF Hroom HB HNL HT. induction H as [|v a Hv Ha IH]; [reflexivity|]. cbn [map hval]. rewrite IH, Hv.
        rewrite (EmulatedEcc.zval_0 zval p nb L HF T B NL HB HNL HT Hroom). lia. }
      rewrite Z0. reflexivity.
    - assert (Z0 : ev w a = 0%Z).
      { apply (f_equal ez) in H. rewrite (zf_ez _ _ _ HE), (EmulatedEcc.ez_0 ez q HE T B NL HB HNL HT Hq), Z.mod_small in H by lia. exact H. }
      revert Z0 R. unfold EmulatedMul.ev, EmulatedMul.zl, EmulatedMul.rng. clear - HF HB.
      assert (Hb : (0 < 2 ^ Z.of_nat B)%Z) by (apply Z.pow_pos_nonneg; lia).
      induction a as [|v a IH]; intros Z0 R; [constructor|]. cbn [map hval] in Z0. inversion_clear R as [|? ? R1 R2].
      pose proof (pf_range _ _ _ _ _ HF (w v)) as Rv.
      assert (Hn : (0 <= hval (2 ^ Z.of_nat B) (map (fun v => zval (w v)) a))%Z).
      { clear - HF Hb. induction a as [|u a IH]; cbn [map hval]; [lia|]. pose proof (pf_range _ _ _ _ _ HF (w u)). nia. }
      constructor; [|apply IH; auto; nia].
      rewrite <- (pf_fZ _ _ _ _ _ HF (w v)). replace (zval (w v)) with 0%Z by nia. reflexivity.
  Qed.
  Lemma bit0 (x : K) : x = 0 -> feqb x 1 = false.
  Proof. intros ->. apply feqb_neq. intros H. apply (@f1_neq_0 K). auto. Qed.

  (** [emulated_sw_ecc_add] computes the point at infinity for opposite points, so that
      the circuit it builds refuses its own assignment. *)
  Theorem C88_sw_ecc_add_opposite_refuted P0 P1 a c : good c -> rok (ptype c) -> sw_ok (num_vars c) P0 -> sw_ok (num_vars c) P1 ->
    sw_can zval q B (asg (witness c)) P0 -> sw_can zval q B (asg (witness c)) P1 -> opposite (asg (witness c)) P0 P1 ->
    exists P2 c', emulated_sw_ecc_add zval p nb L ez q T B NL P0 P1 a c = (Ok P2, c') /\
      forall pub, ~ accepts c' (witness c') pub.
  Proof.
    intros G Ht H0 H1 [Cx0 Cy0] [Cx1 Cy1] Op. pose proof (gd_wf _ G) as W. pose proof Op as (F0 & F1 & X & Y).
    assert (Lx0 : length (sv_x P0) = NL) by apply H0. assert (Ly0 : length (sv_y P0) = NL) by apply H0.
    assert (Lx1 : length (sv_x P1) = NL) by apply H1. assert (Ly1 : length (sv_y P1) = NL) by apply H1.
    assert (Hs : sw_sum (sval (asg (witness c)) P0) (sval (asg (witness c)) P1) a c = (Ok (mk_sw 0 0 true), c)).
    { unfold sval, sw_sum. rewrite (bit0 _ F0), (bit0 _ F1), (proj2 (el_same_b _ _ _ Cx0 Cx1 Lx0 Lx1) X). cbn [andb].
      destruct (feqb (el (asg (witness c)) (sv_y P0)) (el (asg (witness c)) (sv_y P1))) eqn:EY; [|reflexivity].
      apply (el_same_b _ _ _ Cy0 Cy1 Ly0 Ly1) in EY. destruct Y as [Y|Y]; [exfalso; auto|].
      apply (zeros_el _ _ Ly0 Cy0) in Y. rewrite (proj2 (feqb_eq E _ _) Y). reflexivity. }
    destruct (honest_sat zval _ c _ G (sw_add_h P0 P1 a _ c W Ht H0 H1 Hs)) as (R & c' & Em & G' & d & -> & (Sd & _ & Vd & _) & Hacc).
    exists R, (capp c d). split; [exact Em|].
    assert (Hh : hext (capp c d) (asg (witness (capp c d)))) by (intros v _; reflexivity).
    assert (Hin : forall pub, accepts (capp c d) (witness (capp c d)) pub -> asg (witness (capp c d)) (sv_inf R) = 1).
    { intros pub Ha. destruct (Hacc pub Ha) as (Hb & _). apply (Vd _ Hb Hh). }
    intros pub Ha. pose proof (Hin pub Ha) as I1. destruct (Hacc pub Ha) as (Hb & Hs' & _).
    destruct (Sd _ Hb Hs') as (((_ & _ & Gd) & _) & _).
    assert (Hag : forall v, (v < num_vars c)%nat -> asg (witness (capp c d)) v = asg (witness c) v).
    { intros v Hv. apply (hext_app1 c d _ W Hh). exact Hv. }
    pose proof (@f1_neq_0 K) as N. revert Gd. destruct H0 as ((_ & BX0) & (_ & BY0) & BI0), H1 as ((_ & BX1) & (_ & BY1) & BI1).
    unfold same, zeros. rewrite !(map_local (num_vars c) _ (asg (witness (capp c d))) (asg (witness c))) by auto. rewrite (Hag _ BI0), (Hag _ BI1), F0, F1, I1.
    intros [Gd|[Gd|[Gd|[Gd|[Gd1 Gd2]]]]]; [congruence|congruence|congruence|exact (Gd X)|].
    destruct Y as [Y|Y]; [auto|]. apply Gd2. rewrite Forall_forall in *. intros v Hv. rewrite Hag; auto.
  Qed.

  Notation sw_room_w a w P0 P1 P2 := (sw_room ez q B NL a (el w (sv_x P0)) (el w (sv_y P0)) (el w (sv_x P1)) (el w (sv_y P1)) (el w (sv_x P2)) (el w (sv_y P2))).
  (** Any finite point other than the two, up to the limbs of all ones of C33, is accepted
      as the sum of two opposite points. *)
  Theorem C88_opposite_any_refuted P0 P1 P2 a c : let w := asg (witness c) in good c -> rok (ptype c) ->
    sw_ok (num_vars c) P0 -> sw_ok (num_vars c) P1 -> sw_ok (num_vars c) P2 ->
    sw_can zval q B w P0 -> sw_can zval q B w P1 -> sw_can zval q B w P2 -> sw_room_w a w P0 P1 P2 ->
    opposite w P0 P1 -> w (sv_inf P2) = 0 -> ~ sames w P0 P2 -> ~ sames w P1 P2 ->
    exists c', emulated_sw_ecc_add_gate zval p nb L ez q T B NL P0 P1 P2 a c = (Ok tt, c') /\
      forall pub, accepts c (witness c) pub -> accepts c' (witness c') pub.
  Proof.
    intros w G Ht H0 H1 H2 C0 C1 C2 Rm (F0 & F1 & X & Y) F2 N0 N1.
    destruct (C88_sw_add_gate P0 P1 P2 a c G Ht H0 H1 H2) as ([] & c' & Em & _ & _ & _ & _ & _ & _ & Cmp).
    exists c'. split; auto. intros pub Ha. apply Cmp; auto. fold w.
    split; [split; [|split]; assumption|]. split; [split; [right; auto|split; [right; auto|right; right; left; exact F2]]|].
    split; [exact Rm|]. split.
    - intros [[[_ Sy] _] Nz]. exfalso. destruct Y; auto.
    - intros [_ Nx]. exfalso. apply Nx. exact X.
  Qed.
  (** A finite sum may be declared to be the point at infinity. *)
  Theorem C88_infinity_claimed_refuted P0 P1 P2 a c : let w := asg (witness c) in good c -> rok (ptype c) ->
    sw_ok (num_vars c) P0 -> sw_ok (num_vars c) P1 -> sw_ok (num_vars c) P2 ->
    sw_can zval q B w P0 -> sw_can zval q B w P1 -> sw_can zval q B w P2 -> sw_room_w a w P0 P1 P2 ->
    w (sv_inf P0) = 0 -> w (sv_inf P1) = 0 -> map w (sv_x P0) <> map w (sv_x P1) -> w (sv_inf P2) = 1 ->
    sw_add (el w (sv_x P0)) (el w (sv_y P0)) (el w (sv_x P1)) (el w (sv_y P1)) (el w (sv_x P2)) (el w (sv_y P2)) ->
    exists c', emulated_sw_ecc_add_gate zval p nb L ez q T B NL P0 P1 P2 a c = (Ok tt, c') /\
      forall pub, accepts c (witness c) pub -> accepts c' (witness c') pub.
  Proof.
    intros w G Ht H0 H1 H2 C0 C1 C2 Rm F0 F1 X F2 Sm.
    destruct (C88_sw_add_gate P0 P1 P2 a c G Ht H0 H1 H2) as ([] & c' & Em & _ & _ & _ & _ & _ & _ & Cmp).
    exists c'. split; auto. intros pub Ha. apply Cmp; auto. fold w. pose proof (@f1_neq_0 K) as N.
    split; [split; [|split]; assumption|]. split.
    { split; [right; split; auto; intros (_ & _ & S3); congruence|]. split; [right; split; auto; intros (_ & _ & S3); congruence|].
      right; right; right; left. exact X. }
    split; [exact Rm|]. split; [|auto]. intros [[[Sx _] _] _]. exfalso. apply X. exact Sx.
  Qed.

  (** *** [emulated_sw_ecc_add] on finite points that are not opposite *)
  Definition chord (a X0 Y0 X1 Y1 : E) : E * E :=
    let s := if feqb X0 X1 then (X0 * X0 * fZ 3 + a) * finv (Y0 + Y0) else (Y0 - Y1) * finv (X0 - X1) in
    let X2 := s * s - X0 - X1 in (X2, s * (X0 - X2) - Y0).
  Lemma chord_double a X0 Y0 : Y0 + Y0 <> 0 -> sw_double a X0 Y0 X0 (fst (chord a X0 Y0 X0 Y0)) (snd (chord a X0 Y0 X0 Y0)).
  Proof.
    intros H. unfold chord. rewrite (proj2 (feqb_eq E X0 X0) eq_refl). cbv zeta. cbn [fst snd]. unfold sw_double.
    set (i := finv (Y0 + Y0)). assert (Hi : i * (Y0 + Y0) = 1) by (apply finv_l; auto). split.
    - transitivity ((X0 * X0 * fZ 3 + a) * (X0 * X0 * fZ 3 + a) * ((i * (Y0 + Y0)) * (i * (Y0 + Y0)))); [ring|]. rewrite Hi. ring.
    - set (x2 := _ - X0 - X0). transitivity ((X0 * X0 * fZ 3 + a) * (X0 - x2) * (i * (Y0 + Y0))); [ring|]. rewrite Hi. ring.
  Qed.
  Lemma chord_add a X0 Y0 X1 Y1 : X0 <> X1 -> sw_add X0 Y0 X1 Y1 (fst (chord a X0 Y0 X1 Y1)) (snd (chord a X0 Y0 X1 Y1)).
  Proof.
    intros H. unfold chord. rewrite (proj2 (feqb_neq E X0 X1) H). cbv zeta. cbn [fst snd]. unfold sw_add.
    set (i := finv (X0 - X1)).
    assert (Hi : i * (X0 - X1) = 1). { apply finv_l. intros H'. apply H. replace X0 with (X0 - X1 + X1) by ring. rewrite H'. ring. } split.
    - transitivity ((Y0 - Y1) * (Y0 - Y1) * ((i * (X0 - X1)) * (i * (X0 - X1)))); [ring|]. rewrite Hi. ring.
    - set (x2 := _ - X0 - X1). transitivity ((Y0 - Y1) * (X0 - x2) * (i * (X0 - X1))); [rewrite Hi; ring|]. ring.
  Qed.
  (** The honest run: the computed point is the sum of the two and, if it is neither of
      them and the limbs of all ones of C33 do not occur, the circuit accepts it. *)
  Theorem C88_sw_ecc_add P0 P1 a c : let w := asg (witness c) in
    let S := chord a (el w (sv_x P0)) (el w (sv_y P0)) (el w (sv_x P1)) (el w (sv_y P1)) in
    good c -> rok (ptype c) -> (1 + 1 : E) <> 0 -> sw_ok (num_vars c) P0 -> sw_ok (num_vars c) P1 ->
    sw_can zval q B w P0 -> sw_can zval q B w P1 -> w (sv_inf P0) = 0 -> w (sv_inf P1) = 0 -> ~ opposite w P0 P1 ->
    S <> (el w (sv_x P0), el w (sv_y P0)) -> S <> (el w (sv_x P1), el w (sv_y P1)) ->
    sw_room ez q B NL a (el w (sv_x P0)) (el w (sv_y P0)) (el w (sv_x P1)) (el w (sv_y P1)) (fst S) (snd S) ->
    exists P2 c', emulated_sw_ecc_add zval p nb L ez q T B NL P0 P1 a c = (Ok P2, c') /\ good c' /\ sw_ok (num_vars c') P2 /\
      forall pub, accepts c (witness c) pub -> accepts c' (witness c') pub /\
        (el (asg (witness c')) (sv_x P2), el (asg (witness c')) (sv_y P2)) = S /\ asg (witness c') (sv_inf P2) = 0.
  Proof.
    intros w S G Ht N2 H0 H1 [Cx0 Cy0] [Cx1 Cy1] F0 F1 Nop NS0 NS1 Rm. pose proof (gd_wf _ G) as W.
    assert (Lx0 : length (sv_x P0) = NL) by apply H0. assert (Ly0 : length (sv_y P0) = NL) by apply H0.
    assert (Lx1 : length (sv_x P1) = NL) by apply H1. assert (Ly1 : length (sv_y P1) = NL) by apply H1.
    pose proof (C88_canonical_equal w _ _ Lx0 Lx1 Cx0 Cx1) as EX. pose proof (C88_canonical_equal w _ _ Ly0 Ly1 Cy0 Cy1) as EY.
    pose proof (zeros_el w _ Ly0 Cy0) as EZ.
    set (X0 := el w (sv_x P0)) in *. set (Y0 := el w (sv_y P0)) in *. set (X1 := el w (sv_x P1)) in *. set (Y1 := el w (sv_y P1)) in *.
    assert (Cs : (X0 = X1 /\ Y0 = Y1 /\ Y0 + Y0 <> 0 /\ Y0 <> 0) \/ X0 <> X1).
    { destruct (feqb X0 X1) eqn:E1; [left|right; apply feqb_neq; auto]. apply feqb_eq in E1. split; auto.
      destruct (feqb Y0 Y1) eqn:E2.
      - apply feqb_eq in E2. split; auto. assert (Y0 <> 0).
        { intros Z0. apply Nop. split; [exact F0|split; [exact F1|split; [apply EX; exact E1|right; apply EZ; exact Z0]]]. }
        split; auto. intros Z0. assert (Z1 : (1 + 1) * Y0 = 0) by (rewrite <- Z0; ring). apply fmul_eq_0 in Z1. tauto.
      - exfalso. apply feqb_neq in E2. apply Nop. split; [exact F0|split; [exact F1|split; [apply EX; exact E1|left; rewrite EY; exact E2]]]. }
    assert (Hs : sw_sum (sval w P0) (sval w P1) a c = (Ok (mk_sw (fst S) (snd S) false), c)).
    { unfold sval, sw_sum. rewrite (bit0 _ F0), (bit0 _ F1). fold X0 Y0 X1 Y1. subst S. unfold chord.
      assert (Hd : forall u v : E, v <> 0 -> forall d : circuit K, ediv u v d = (Ok (u * finv v), d)).
      { intros u v Hv d. unfold ediv. rewrite (proj2 (feqb_neq E v 0) Hv). reflexivity. }
      destruct Cs as [(E1 & E2 & Nd & Ny)|Nx].
      - rewrite (proj2 (feqb_eq E _ _) E1), (proj2 (feqb_eq E _ _) E2), (proj2 (feqb_neq E _ _) Ny). cbn [andb]. unfold cbind.
        rewrite Hd by exact Nd. reflexivity.
      - rewrite (proj2 (feqb_neq E _ _) Nx). cbn [andb]. unfold cbind. rewrite Hd; [reflexivity|].
        intros H'. apply Nx. replace X0 with (X0 - X1 + X1) by ring. rewrite H'. ring. }
    assert (Sdbl : X0 = X1 /\ Y0 = Y1 -> sw_double a X0 Y0 X1 (fst S) (snd S)).
    { intros [E1 E2]. destruct Cs as [(_ & _ & Nd & _)|Nx]; [|exfalso; auto]. subst S. rewrite <- E1, <- E2. apply chord_double; auto. }
    assert (Sadd : X0 <> X1 -> sw_add X0 Y0 X1 Y1 (fst S) (snd S)) by (intros Nx; apply chord_add; auto).
    pose proof (sw_add_h P0 P1 a _ c W Ht H0 H1 Hs) as Hh. cbn [sw_x sw_y sw_inf] in Hh.
    set (Ag := fun v : nat -> K => forall i, (i < num_vars c)%nat -> v i = w i).
    assert (HC : hspec (emulated_sw_ecc_add zval p nb L ez q T B NL P0 P1 a) c
      (fun _ _ => True) Ag (fun v R => is v (sv_x R) (fst S) /\ is v (sv_y R) (snd S) /\ v (sv_inf R) = b2k false) (fun R n => sw_ok n R)).
    { eapply hspec_weaken; [| | | |exact Hh]; cbn beta; auto. intros v _ Av R LX LY IX IY IF.
      destruct H0 as ((_ & BX0) & (_ & BY0) & BI0), H1 as ((_ & BX1) & (_ & BY1) & BI1). unfold Ag in Av.
      assert (Av' : forall i, (i < num_vars c)%nat -> w i = v i) by (intros i Hi; symmetry; auto).
      assert (EXR : el v (sv_x R) = fst S) by (unfold EmulatedEcc.el; rewrite (proj2 IX); apply (zf_fZ _ _ _ HE)).
      assert (EYR : el v (sv_y R) = snd S) by (unfold EmulatedEcc.el; rewrite (proj2 IY); apply (zf_fZ _ _ _ HE)).
      pose proof (is_can zval ez q HE B v _ _ IX) as CXR. pose proof (is_can zval ez q HE B v _ _ IY) as CYR.
      pose proof (can_local (num_vars c) _ w v BX0 Av' Cx0) as VX0. pose proof (can_local (num_vars c) _ w v BY0 Av' Cy0) as VY0.
      pose proof (can_local (num_vars c) _ w v BX1 Av' Cx1) as VX1. pose proof (can_local (num_vars c) _ w v BY1 Av' Cy1) as VY1.
      pose proof (el_local (num_vars c) _ v w BX0 Av) as LX0'. pose proof (el_local (num_vars c) _ v w BY0 Av) as LY0'.
      pose proof (el_local (num_vars c) _ v w BX1 Av) as LX1'. pose proof (el_local (num_vars c) _ v w BY1 Av) as LY1'.
      assert (D0 : ~ sames v P0 R).
      { intros (S1 & S2 & _). apply NS0. unfold same in *. apply (C88_canonical_equal v) in S1, S2; auto. rewrite EXR, LX0' in S1. rewrite EYR, LY0' in S2.
        fold X0 in S1. fold Y0 in S2. rewrite S1, S2. apply surjective_pairing. }
      assert (D1 : ~ sames v P1 R).
      { intros (S1 & S2 & _). apply NS1. unfold same in *. apply (C88_canonical_equal v) in S1, S2; auto. rewrite EXR, LX1' in S1. rewrite EYR, LY1' in S2.
        fold X1 in S1. fold Y1 in S2. rewrite S1, S2. apply surjective_pairing. }
      unfold sw_C, wx, wy. rewrite LX0', LY0', LX1', LY1', EXR, EYR. fold X0 Y0 X1 Y1.
      split; [split; [split; assumption|split; split; assumption]|]. split.
      { split; [right; split; [rewrite Av; auto|exact D1]|]. split; [right; split; [rewrite Av; auto|exact D0]|]. right; right; left. exact IF. }
      split; [exact Rm|]. split.
      - intros [[[Sx Sy] _] _]. apply Sdbl. unfold same in Sx, Sy. rewrite !(map_local (num_vars c) _ v w) in Sx by auto. rewrite !(map_local (num_vars c) _ v w) in Sy by auto. split; [apply EX|apply EY]; assumption.
      - intros [_ Nx]. apply Sadd. intros E1. apply Nx. unfold same. rewrite !(map_local (num_vars c) _ v w) by auto. apply EX. exact E1. }
    destruct (honest_sat zval _ c _ G HC) as (R & c' & Em & G' & d & E' & (_ & _ & Vd & Rd) & Hacc).
    assert (HG : gadget_ok (emulated_sw_ecc_add zval p nb L ez q T B NL P0 P1 a) c (fun _ _ => True) Ag (fun R n => sw_ok n R)).
    { apply gspec_gadget; auto; [intros v v' Hv Av i Hi; rewrite <- Hv by auto; apply Av; auto|]. eapply hspec_gspec; exact HC. }
    destruct HG as (R' & c1 & Em' & _ & _ & _ & _ & _ & _ & Cmp). rewrite Em in Em'. injection Em' as <- <-.
    exists R, c'. split; [exact Em|]. split; [exact G'|]. split; [rewrite E'; exact Rd|]. intros pub Ha.
    assert (Ha' : accepts c' (witness c') pub) by (apply Cmp; [exact Ha|intros i _; reflexivity]). split; [exact Ha'|].
    destruct (Hacc pub Ha') as (Hb & _ & He). rewrite E' in *. destruct (Vd _ Hb He) as (V1 & V2 & V3). split; [|exact V3].
    rewrite (surjective_pairing S). unfold EmulatedEcc.el. rewrite (proj2 V1), (proj2 V2), !(zf_fZ _ _ _ HE). reflexivity.
  Qed.

  (** *** [emulated_te_ecc_add] *)
  Theorem C88_te_ecc_add P0 P1 d c : let w := asg (witness c) in
    let X0 := el w (tv_x P0) in let Y0 := el w (tv_y P0) in let X1 := el w (tv_x P1) in let Y1 := el w (tv_y P1) in
    let t := d * (X0 * Y1) * (X1 * Y0) in
    let X2 := (X0 * Y1 + X1 * Y0) * finv (1 + t) in let Y2 := (X0 * X1 + Y0 * Y1) * finv (1 - t) in
    good c -> rok (ptype c) -> te_ok (num_vars c) P0 -> te_ok (num_vars c) P1 -> 1 + t <> 0 -> 1 - t <> 0 ->
    exists P2 c', emulated_te_ecc_add zval p nb L ez q T B NL P0 P1 d c = (Ok P2, c') /\ good c' /\ te_ok (num_vars c') P2 /\
      (forall c'' ws pub, extends c' c'' -> bounded c'' -> accepts c'' ws pub ->
         te_rng zval B (asg ws) P2 /\
         (te_rng zval B (asg ws) P0 -> te_rng zval B (asg ws) P1 ->
          te_equations (M p q T) (A q T) (ez d) (ev (asg ws) (tv_x P0)) (ev (asg ws) (tv_y P0)) (ev (asg ws) (tv_x P1)) (ev (asg ws) (tv_y P1))
            (ev (asg ws) (tv_x P2)) (ev (asg ws) (tv_y P2)))) /\
      (te_can zval q B w P0 -> te_can zval q B w P1 -> te_room ez q B NL d X0 Y0 X1 Y1 X2 Y2 ->
       forall pub, accepts c (witness c) pub -> accepts c' (witness c') pub /\
        el (asg (witness c')) (tv_x P2) = X2 /\ el (asg (witness c')) (tv_y P2) = Y2).
  Proof.
    intros w X0 Y0 X1 Y1 t X2 Y2 G Ht H0 H1 N1 N2. pose proof (gd_wf _ G) as W.
    assert (Sm : te_sum d X0 Y0 X1 Y1 X2 Y2).
    { unfold te_sum. fold t. split; [unfold X2|unfold Y2].
      - transitivity ((X0 * Y1 + X1 * Y0) * (finv (1 + t) * (1 + t))); [ring|]. rewrite finv_l by exact N1. ring.
      - transitivity ((X0 * X1 + Y0 * Y1) * (finv (1 - t) * (1 - t))); [ring|]. rewrite finv_l by exact N2. ring. }
    set (Ag := fun v : nat -> K => te_can zval q B w P0 /\ te_can zval q B w P1 /\ te_room ez q B NL d X0 Y0 X1 Y1 X2 Y2 /\
      forall i, (i < num_vars c)%nat -> v i = w i).
    set (So := fun (v : nat -> K) (R : te_var) => te_rng zval B v R /\ (te_rng zval B v P0 -> te_rng zval B v P1 ->
      te_equations (M p q T) (A q T) (ez d) (ev v (tv_x P0)) (ev v (tv_y P0)) (ev v (tv_x P1)) (ev v (tv_y P1)) (ev v (tv_x R)) (ev v (tv_y R)))).
    assert (Hd : forall u v : E, v <> 0 -> forall d : circuit K, ediv u v d = (Ok (u * finv v), d)).
    { intros u v Hv e. unfold ediv. rewrite (proj2 (feqb_neq E v 0) Hv). reflexivity. }
    pose proof H0 as [[LX0 BX0] [LY0 BY0]]. pose proof H1 as [[LX1 BX1] [LY1 BY1]].
    assert (HC : hspec (emulated_te_ecc_add zval p nb L ez q T B NL P0 P1 d) c So Ag
      (fun v R => is v (tv_x R) X2 /\ is v (tv_y R) Y2) (fun R n => te_ok n R)).
    { unfold emulated_te_ecc_add.
      eapply hs_pure; [apply (emulated_witness_eq zval T B NL HB HNL HT); auto|].
      eapply hs_pure; [apply (emulated_witness_eq zval T B NL HB HNL HT); auto|].
      eapply hs_pure; [apply (emulated_witness_eq zval T B NL HB HNL HT); auto|].
      eapply hs_pure; [apply (emulated_witness_eq zval T B NL HB HNL HT); auto|].
      cbv zeta. eapply hs_pure; [apply Hd; exact N1|]. eapply hs_pure; [apply Hd; exact N2|].
      unfold create_te_variable. apply hs_assoc.
      eapply (hspec_seq zval); [exact W|apply create_h; auto|intros; exact I|]. intros x c1 L1 O1 _.
      assert (W1 : wf c1) by apply L1. assert (T1 : rok (ptype c1)) by (destruct L1 as (_ & _ & X & _); rewrite X; exact Ht).
      apply hs_assoc.
      eapply (hspec_seq zval); [exact W1|apply create_h; auto|intros; exact I|]. intros y c2 L2 O2 _.
      assert (W2 : wf c2) by apply L2. assert (T2 : rok (ptype c2)) by (destruct L2 as (_ & _ & X & _); rewrite X; exact T1).
      assert (M1 : (num_vars c <= num_vars c1)%nat) by apply L1. assert (M2 : (num_vars c1 <= num_vars c2)%nat) by apply L2.
      assert (Hm : forall n m P, (n <= m)%nat -> te_ok n P -> te_ok m P).
      { intros n m P Hn [Hx Hy]. split; eapply (lim_mono T B NL HB HNL HT); eauto. }
      apply hs_ret. set (R := mk_tev x y).
      assert (HR : te_ok (num_vars c2) R).
      { split; cbn [R tv_x tv_y]; [eapply (lim_mono T B NL HB HNL HT); [|exact O1]; lia|exact O2]. }
      eapply (hspec_seq zval); [exact W2|apply gspec_hspec, (te_gate_spec zval p nb L HF ez q HE T B NL HB HNL HT Hq Hroom P0 P1 R d c2 W2 T2); auto;
        (eapply Hm; [|eassumption]; lia)| |].
      - cbn beta. intros v _ (((C0 & C1 & Rm & Av) & _ & V1) & _ & V2).
        assert (Av' : forall i, (i < num_vars c)%nat -> w i = v i) by (intros i Hi; symmetry; auto).
        destruct C0 as [Cx0 Cy0], C1 as [Cx1 Cy1]. unfold te_can, elx, ely.
        rewrite (el_local (num_vars c) _ v w BX0 Av), (el_local (num_vars c) _ v w BY0 Av), (el_local (num_vars c) _ v w BX1 Av), (el_local (num_vars c) _ v w BY1 Av).
        assert (EXR : el v (tv_x R) = X2) by (unfold EmulatedEcc.el; cbn [R tv_x]; rewrite (proj2 V1); apply (zf_fZ _ _ _ HE)).
        assert (EYR : el v (tv_y R) = Y2) by (unfold EmulatedEcc.el; cbn [R tv_y]; rewrite (proj2 V2); apply (zf_fZ _ _ _ HE)).
        rewrite EXR, EYR.
        split; [split; eapply can_local; eauto|]. split; [split; eapply can_local; eauto|].
        split; [split; [exact (is_can zval ez q HE B v _ _ V1)|exact (is_can zval ez q HE B v _ _ V2)]|]. split; [exact Rm|exact Sm].
      - intros [] c3 L3 _ _. apply hspec_ret.
        + eapply Hm; [|exact HR]. apply L3.
        + cbn beta. intros v _ S3 S2 S1. split; [split; [exact S1|exact S2]|]. intros R0 R1. apply S3; [exact R0|exact R1|split; [exact S1|exact S2]].
        + cbn beta. intros v _ _ V2 V1. split; [exact V1|exact V2]. }
    destruct (honest_sat zval _ c _ G HC) as (R & c' & Em & G' & e & E' & (_ & _ & Vd & Rd) & Hacc).
    assert (HG : gadget_ok (emulated_te_ecc_add zval p nb L ez q T B NL P0 P1 d) c So Ag (fun R n => te_ok n R)).
    { apply gspec_gadget; auto; [|eapply hspec_gspec; exact HC].
      intros v v' Hv (A1 & A2 & A3 & A4). split; [exact A1|split; [exact A2|split; [exact A3|]]]. intros i Hi. rewrite <- Hv by auto. apply A4; auto. }
    destruct HG as (R' & c1 & Em' & _ & _ & _ & _ & Snd & _ & Cmp). rewrite Em in Em'. injection Em' as <- <-.
    exists R, c'. split; [exact Em|]. split; [exact G'|]. split; [rewrite E'; exact Rd|]. split; [exact Snd|]. intros C0 C1 Rm pub Ha.
    assert (Ha' : accepts c' (witness c') pub).
    { apply Cmp; [exact Ha|]. split; [exact C0|split; [exact C1|split; [exact Rm|intros i _; reflexivity]]]. }
    split; [exact Ha'|]. destruct (Hacc pub Ha') as (Hb & _ & He). rewrite E' in *. destruct (Vd _ Hb He) as (V1 & V2).
    unfold EmulatedEcc.el. rewrite (proj2 V1), (proj2 V2), !(zf_fZ _ _ _ HE). split; reflexivity.
  Qed.
  Lemma create_sw_good v c : good c -> rok (ptype c) ->
    good (snd (create_sw_variable zval p nb L ez B NL v c)) /\ rok (ptype (snd (create_sw_variable zval p nb L ez B NL v c))).
  Proof.
    intros G Ht. pose proof (gd_wf _ G) as W.
    assert (H : hspec (create_sw_variable zval p nb L ez B NL v) c (fun _ _ => True) (fun _ => True) (fun _ _ => True) (fun _ _ => True)).
    { unfold create_sw_variable.
      eapply (hspec_seq zval); [exact W|eapply hspec_weaken; [| | | |apply create_h; auto]; cbn beta; auto; intros; exact I|intros; exact I|].
      intros x c1 L1 O1 _.
      assert (W1 : wf c1) by apply L1. assert (T1 : rok (ptype c1)) by (destruct L1 as (_ & _ & X & _); rewrite X; exact Ht).
      eapply (hspec_seq zval); [exact W1|eapply hspec_weaken; [| | | |apply create_h; auto]; cbn beta; auto; intros; exact I|intros; exact I|].
      intros y c2 L2 O2 _. assert (W2 : wf c2) by apply L2.
      eapply (hspec_seq zval); [exact W2|apply (bool_hspec zval c2 (sw_inf v) W2)|intros; exact I|]. intros i c3 L3 O3 _.
      apply hspec_ret; cbn beta; auto. }
    destruct (honest_sat zval _ c _ G H) as (R & c' & Em & G' & d & E' & _). rewrite Em. cbn [snd]. split; [exact G'|]. rewrite E'. exact Ht.
  Qed.
End Props.

(** Concrete instances: curves modulo 61 over the field of 3079 elements, three limbs
    of 2 bits.  A circuit with three points. *)
Notation pt x y i := (mk_sw (zmk 61 x : F61) (zmk 61 y : F61) i).
Notation csw v := (create_sw_variable z79 3079 12 64 e61 2 3 v).
Definition pts61 (v0 v1 v2 : @sw_point F61) : circuit F3079 := snd (csw v2 (snd (csw v1 (snd (csw v0 (new_circuit F3079 Turbo)))))).
Lemma pts61_good v0 v1 v2 : good (pts61 v0 v1 v2) /\ rok 12 (ptype (pts61 v0 v1 v2)).
Proof.
  assert (H : forall v c, good c -> rok 12 (ptype c) -> good (snd (csw v c)) /\ rok 12 (ptype (snd (csw v c)))).
  { intros v c G Ht. apply (create_sw_good z79 3079 12 64 F3079_pfield e61 61 (Zp_zfield 61 prime_61) 6 2 3 ltac:(lia) ltac:(lia) eq_refl
      ltac:(cbn; lia) ltac:(cbn; lia)); auto. }
  unfold pts61. destruct (H v0 (new_circuit F3079 Turbo) (good_new _) I) as [G0 T0]. destruct (H v1 _ G0 T0) as [G1 T1]. apply (H v2 _ G1 T1).
Qed.
Definition Q0 : sw_var := mk_swv [2; 3; 4]%nat [11; 12; 13]%nat 20.
Definition Q1 : sw_var := mk_swv [21; 22; 23]%nat [30; 31; 32]%nat 39.
Definition Q2 : sw_var := mk_swv [40; 41; 42]%nat [49; 50; 51]%nat 58.
Lemma Q_ok v0 v1 v2 : num_vars (pts61 v0 v1 v2) = 59%nat -> sw_ok 3 (num_vars (pts61 v0 v1 v2)) Q0 /\ sw_ok 3 (num_vars (pts61 v0 v1 v2)) Q1 /\ sw_ok 3 (num_vars (pts61 v0 v1 v2)) Q2.
Proof.
  intros ->. split; [|split]; (split; [|split]); cbn [Q0 Q1 Q2 sv_x sv_y sv_inf]; try (split; [reflexivity|]); repeat constructor; lia.
Qed.
Notation gate61 P0 P1 P2 a c := (emulated_sw_ecc_add_gate z79 3079 12 64 e61 61 6 2 3 P0 P1 P2 (zmk 61 a : F61) c).
Notation el61 c x := (zv 61 (@el F3079 z79 F61 2 (asg (witness c)) x : F61)).
Ltac canq := vm_compute; split; split; repeat constructor; discriminate.
Ltac roomq := vm_compute; repeat split; repeat constructor; discriminate.
(** On [y^2 = x^3 + x + 2]: [(1, 2)] is accepted as the sum of [(8, 20)] and [(8, 41)]. *)
Theorem C88_opposite_instance : let c := pts61 (pt 8 20 false) (pt 8 41 false) (pt 1 2 false) in
  accepts z79 c (witness c) [] /\ opposite (asg (witness c)) Q0 Q1 /\ asg (witness c) (sv_inf Q2) = 0 /\
  exists c', gate61 Q0 Q1 Q2 1 c = (Ok tt, c') /\ accepts z79 c' (witness c') [].
Proof.
  intros c. destruct (pts61_good (pt 8 20 false) (pt 8 41 false) (pt 1 2 false)) as [G Ht]. fold c in G, Ht.
  assert (Ha : accepts z79 c (witness c) []) by (clear G Ht; vm_compute; repeat (split; auto)).
  assert (Op : opposite (asg (witness c)) Q0 Q1).
  { split; [vm_compute; reflexivity|]. split; [vm_compute; reflexivity|]. split; [vm_compute; reflexivity|left; vm_compute; discriminate]. }
  assert (F2 : asg (witness c) (sv_inf Q2) = 0) by (vm_compute; reflexivity).
  split; [exact Ha|]. split; [exact Op|]. split; [exact F2|].
  destruct (Q_ok (pt 8 20 false) (pt 8 41 false) (pt 1 2 false)) as (K0 & K1 & K2); [vm_compute; reflexivity|]. fold c in K0, K1, K2.
  destruct (C88_opposite_any_refuted z79 3079 12 64 F3079_pfield e61 61 (Zp_zfield 61 prime_61) 6 2 3 ltac:(lia) ltac:(lia) eq_refl
      ltac:(cbn; lia) ltac:(cbn; lia) Q0 Q1 Q2 (zmk 61 1) c G Ht K0 K1 K2) as (c' & Em & Hc).
  1,2,3: canq. 1: roomq.
  1: exact Op. 1: exact F2. 1,2: intros [H _]; vm_compute in H; discriminate.
  exists c'. split; [exact Em|]. apply Hc. exact Ha.
Qed.
(** [(41, 20) + (60, 0) = (2, 16)], declared to be the point at infinity. *)
Theorem C88_infinity_instance : let c := pts61 (pt 41 20 false) (pt 60 0 false) (pt 2 16 true) in
  accepts z79 c (witness c) [] /\ asg (witness c) (sv_inf Q0) = 0 /\ asg (witness c) (sv_inf Q1) = 0 /\ asg (witness c) (sv_inf Q2) = 1 /\
  exists c', gate61 Q0 Q1 Q2 1 c = (Ok tt, c') /\ accepts z79 c' (witness c') [].
Proof.
  intros c. destruct (pts61_good (pt 41 20 false) (pt 60 0 false) (pt 2 16 true)) as [G Ht]. fold c in G, Ht.
  assert (Ha : accepts z79 c (witness c) []) by (clear G Ht; vm_compute; repeat (split; auto)).
  split; [exact Ha|]. split; [vm_compute; reflexivity|]. split; [vm_compute; reflexivity|]. split; [vm_compute; reflexivity|].
  destruct (Q_ok (pt 41 20 false) (pt 60 0 false) (pt 2 16 true)) as (K0 & K1 & K2); [vm_compute; reflexivity|]. fold c in K0, K1, K2.
  destruct (C88_infinity_claimed_refuted z79 3079 12 64 F3079_pfield e61 61 (Zp_zfield 61 prime_61) 6 2 3 ltac:(lia) ltac:(lia) eq_refl
      ltac:(cbn; lia) ltac:(cbn; lia) Q0 Q1 Q2 (zmk 61 1) c G Ht K0 K1 K2) as (c' & Em & Hc).
  1,2,3: canq. 1: roomq.
  1,2: vm_compute; reflexivity. 1: vm_compute; discriminate. 1: vm_compute; reflexivity.
  1: split; apply feqb_eq; vm_compute; reflexivity.
  exists c'. split; [exact Em|]. apply Hc. exact Ha.
Qed.
(** [(41, 20) + (60, 0) = (2, 16)] by [emulated_sw_ecc_add]. *)
Theorem C88_sw_instance : let c := pts61 (pt 41 20 false) (pt 60 0 false) (pt 0 0 true) in
  exists P2 c', emulated_sw_ecc_add z79 3079 12 64 e61 61 6 2 3 Q0 Q1 (zmk 61 1 : F61) c = (Ok P2, c') /\
    accepts z79 c' (witness c') [] /\ el61 c' (sv_x P2) = 2%Z /\ el61 c' (sv_y P2) = 16%Z /\ asg (witness c') (sv_inf P2) = 0.
Proof.
  intros c. destruct (pts61_good (pt 41 20 false) (pt 60 0 false) (pt 0 0 true)) as [G Ht]. fold c in G, Ht.
  assert (Ha : accepts z79 c (witness c) []) by (clear G Ht; vm_compute; repeat (split; auto)).
  destruct (Q_ok (pt 41 20 false) (pt 60 0 false) (pt 0 0 true)) as (K0 & K1 & _); [vm_compute; reflexivity|]. fold c in K0, K1.
  destruct (C88_sw_ecc_add z79 3079 12 64 F3079_pfield e61 61 (Zp_zfield 61 prime_61) 6 2 3 ltac:(lia) ltac:(lia) eq_refl
      ltac:(cbn; lia) ltac:(cbn; lia) Q0 Q1 (zmk 61 1) c G Ht) as (P2 & c' & Em & _ & _ & Hc); [..|exact K0|exact K1| | | | | | | | |].
  1: apply feqb_neq; vm_compute; reflexivity. 1,2: canq. 1,2: vm_compute; reflexivity.
  1: intros (_ & _ & H & _); vm_compute in H; discriminate.
  1,2: intros H; apply (f_equal (fun x => zv 61 (fst x))) in H; vm_compute in H; discriminate.
  1: roomq.
  destruct (Hc [] Ha) as (Ha' & Es & Fi). exists P2, c'. split; [exact Em|]. split; [exact Ha'|].
  pose proof (f_equal (fun x => zv 61 (fst x)) Es) as E1. pose proof (f_equal (fun x => zv 61 (snd x)) Es) as E2.
  cbn [fst snd] in E1. cbn [snd] in E2. rewrite E1, E2. split; [vm_compute; reflexivity|]. split; [vm_compute; reflexivity|exact Fi].
Qed.
(** [2 (20, 4) = (60, 30)] on [y^2 = x^3 + x + 48]. *)
Theorem C88_sw_double_instance : let c := pts61 (pt 20 4 false) (pt 20 4 false) (pt 0 0 true) in
  exists P2 c', emulated_sw_ecc_add z79 3079 12 64 e61 61 6 2 3 Q0 Q1 (zmk 61 1 : F61) c = (Ok P2, c') /\
    accepts z79 c' (witness c') [] /\ el61 c' (sv_x P2) = 60%Z /\ el61 c' (sv_y P2) = 30%Z /\ asg (witness c') (sv_inf P2) = 0.
Proof.
  intros c. destruct (pts61_good (pt 20 4 false) (pt 20 4 false) (pt 0 0 true)) as [G Ht]. fold c in G, Ht.
  assert (Ha : accepts z79 c (witness c) []) by (clear G Ht; vm_compute; repeat (split; auto)).
  destruct (Q_ok (pt 20 4 false) (pt 20 4 false) (pt 0 0 true)) as (K0 & K1 & _); [vm_compute; reflexivity|]. fold c in K0, K1.
  destruct (C88_sw_ecc_add z79 3079 12 64 F3079_pfield e61 61 (Zp_zfield 61 prime_61) 6 2 3 ltac:(lia) ltac:(lia) eq_refl
      ltac:(cbn; lia) ltac:(cbn; lia) Q0 Q1 (zmk 61 1) c G Ht) as (P2 & c' & Em & _ & _ & Hc); [..|exact K0|exact K1| | | | | | | | |].
  1: apply feqb_neq; vm_compute; reflexivity. 1,2: canq. 1,2: vm_compute; reflexivity.
  1: intros (_ & _ & _ & [H|H]); [apply H; vm_compute; reflexivity|apply (proj1 (Forall_forall _ _)) with (x := 12%nat) in H; [apply (f_equal (zv 3079)) in H; vm_compute in H; discriminate|right; left; reflexivity]].
  1,2: intros H; apply (f_equal (fun x => zv 61 (fst x))) in H; vm_compute in H; discriminate.
  1: roomq.
  destruct (Hc [] Ha) as (Ha' & Es & Fi). exists P2, c'. split; [exact Em|]. split; [exact Ha'|].
  pose proof (f_equal (fun x => zv 61 (fst x)) Es) as E1. pose proof (f_equal (fun x => zv 61 (snd x)) Es) as E2.
  cbn [fst snd] in E1. cbn [snd] in E2. rewrite E1, E2. split; [vm_compute; reflexivity|]. split; [vm_compute; reflexivity|exact Fi].
Qed.
(** The run on the opposite points [(8, 20)] and [(8, 41)] is refused. *)
Theorem C88_sw_opposite_instance : let c := pts61 (pt 8 20 false) (pt 8 41 false) (pt 0 0 true) in
  exists P2 c', emulated_sw_ecc_add z79 3079 12 64 e61 61 6 2 3 Q0 Q1 (zmk 61 1 : F61) c = (Ok P2, c') /\
    forall pub, ~ accepts z79 c' (witness c') pub.
Proof.
  intros c. destruct (pts61_good (pt 8 20 false) (pt 8 41 false) (pt 0 0 true)) as [G Ht]. fold c in G, Ht.
  destruct (Q_ok (pt 8 20 false) (pt 8 41 false) (pt 0 0 true)) as (K0 & K1 & _); [vm_compute; reflexivity|]. fold c in K0, K1.
  apply (C88_sw_ecc_add_opposite_refuted z79 3079 12 64 F3079_pfield e61 61 (Zp_zfield 61 prime_61) 6 2 3 ltac:(lia) ltac:(lia) eq_refl
      ltac:(cbn; lia) ltac:(cbn; lia) Q0 Q1 (zmk 61 1) c G Ht K0 K1).
  1,2: canq. split; [vm_compute; reflexivity|]. split; [vm_compute; reflexivity|]. split; [vm_compute; reflexivity|left; vm_compute; discriminate].
Qed.
(** [(3, 8) + (39, 52) = (24, 41)] on [y^2 - x^2 = 1 + 2 x^2 y^2]. *)
Theorem C88_te_instance : let c := pts61 (pt 3 8 false) (pt 39 52 false) (pt 0 0 true) in
  exists P2 c', emulated_te_ecc_add z79 3079 12 64 e61 61 6 2 3 (mk_tev (sv_x Q0) (sv_y Q0)) (mk_tev (sv_x Q1) (sv_y Q1)) (zmk 61 2 : F61) c = (Ok P2, c') /\
    accepts z79 c' (witness c') [] /\ el61 c' (tv_x P2) = 24%Z /\ el61 c' (tv_y P2) = 41%Z.
Proof.
  intros c. destruct (pts61_good (pt 3 8 false) (pt 39 52 false) (pt 0 0 true)) as [G Ht]. fold c in G, Ht.
  assert (Ha : accepts z79 c (witness c) []) by (clear G Ht; vm_compute; repeat (split; auto)).
  destruct (Q_ok (pt 3 8 false) (pt 39 52 false) (pt 0 0 true)) as ((X0 & Y0 & _) & (X1 & Y1 & _) & _); [vm_compute; reflexivity|]. fold c in X0, Y0, X1, Y1.
  destruct (C88_te_ecc_add z79 3079 12 64 F3079_pfield e61 61 (Zp_zfield 61 prime_61) 6 2 3 ltac:(lia) ltac:(lia) eq_refl
      ltac:(cbn; lia) ltac:(cbn; lia) (mk_tev (sv_x Q0) (sv_y Q0)) (mk_tev (sv_x Q1) (sv_y Q1)) (zmk 61 2) c G Ht (conj X0 Y0) (conj X1 Y1))
    as (P2 & c' & Em & _ & _ & _ & Hc).
  1,2: apply feqb_neq; vm_compute; reflexivity.
  destruct (Hc ltac:(canq) ltac:(canq) ltac:(roomq) [] Ha) as (Ha' & E1 & E2). exists P2, c'. split; [exact Em|]. split; [exact Ha'|].
  apply (f_equal (zv 61)) in E1, E2. rewrite E1, E2. split; vm_compute; reflexivity.
Qed.

Print Assumptions C88_is_equal.
Print Assumptions C88_is_zero.
Print Assumptions C88_enforce_equal.
Print Assumptions C88_select.
Print Assumptions C88_canonical_equal.
Print Assumptions C88_sw_is_equal.
Print Assumptions C88_sw_enforce_equal.
Print Assumptions C88_sw_select.
Print Assumptions C88_te_add_gate.
Print Assumptions C88_sw_add_gate.
Print Assumptions C88_te_meaning.
Print Assumptions C88_sw_meaning.
Print Assumptions C88_opposite_refused_refuted.
Print Assumptions C88_sw_ecc_add_opposite_refuted.
Print Assumptions C88_opposite_any_refuted.
Print Assumptions C88_infinity_claimed_refuted.
Print Assumptions C88_sw_ecc_add.
Print Assumptions C88_te_ecc_add.
Print Assumptions C88_opposite_instance.
Print Assumptions C88_infinity_instance.
Print Assumptions C88_sw_instance.
Print Assumptions C88_sw_double_instance.
Print Assumptions C88_sw_opposite_instance.
Print Assumptions C88_te_instance.
