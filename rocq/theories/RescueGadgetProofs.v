(** Specifications of the Rescue gadgets: every gadget computes, in every accepted
    assignment, the function of the off-circuit code. *)

From Coq Require Import List Arith NArith ZArith Bool Lia Ring Field.
From Verif Require Import Base ListAux Alg FiniteField ConvModel RescueModel RescueProofs CircuitModel CircuitProofs GadgetModel GadgetProofs RescueGadgetModel.
Import ListNotations.
Local Open Scope fld_scope.
Local Open Scope circ_scope.

(** ** Gadgets that compute a function *)
Section Functional.
  Context {K : fld}.
  Variable zval : K -> Z.
  (** In every assignment, [rd] of the result is [F]; the values the code chooses are
      accepted. *)
  Definition fg {A B} (m : circ K A) (c : circuit K) (rd : (nat -> K) -> A -> B) (F : (nat -> K) -> B) (bd : A -> nat -> Prop) : Prop :=
    gspec zval m c (fun w o => rd w o = F w) (fun _ => True) bd.

  Lemma fg_ext {A B} (m : circ K A) c (rd : (nat -> K) -> A -> B) F F' bd :
    (forall w, base w -> F w = F' w) -> fg m c rd F bd -> fg m c rd F' bd.
  Proof.
    intros E H. unfold fg, CircuitProofs.gspec in *. eapply wpc_mono; [exact H|]. intros a d _ (S1 & C1 & R1).
    split; [|split; auto]. intros w Hb Hs. rewrite <- E by auto. auto.
  Qed.
  Lemma fg_imp {A B B'} (m : circ K A) c (rd : (nat -> K) -> A -> B) F (bd : A -> nat -> Prop) (rd' : (nat -> K) -> A -> B') F' (bd' : A -> nat -> Prop) :
    (forall a w, base w -> rd w a = F w -> rd' w a = F' w) -> (forall a n, bd a n -> bd' a n) -> fg m c rd F bd -> fg m c rd' F' bd'.
  Proof.
    intros E Eb H. unfold fg, CircuitProofs.gspec in *. eapply wpc_mono; [exact H|]. intros a d _ (S1 & C1 & R1).
    split; [|split]; auto.
  Qed.
  Lemma fg_ret {A B} (a : A) c (rd : (nat -> K) -> A -> B) F (bd : A -> nat -> Prop) :
    bd a (num_vars c) -> (forall w, base w -> rd w a = F w) -> fg (ret a) c rd F bd.
  Proof.
    intros Hb E. unfold fg, CircuitProofs.gspec. apply wpc_ret. split; [auto|]. split; [intros; apply dsat_nil|]. cbn. now rewrite Nat.add_0_r.
  Qed.
  Lemma fg_bind {A B A' B'} (m : circ K A) (f : A -> circ K A') c (rd : (nat -> K) -> A -> B) F bd (rd' : (nat -> K) -> A' -> B') G H bd' :
    wf c -> fg m c rd F bd ->
    (forall a c', wf c' -> (num_vars c <= num_vars c')%nat -> ptype c' = ptype c -> bd a (num_vars c') -> fg (f a) c' rd' (G a) bd') ->
    (forall a w, base w -> rd w a = F w -> G a w = H w) ->
    fg (cbind m f) c rd' H bd'.
  Proof.
    intros Hw H1 H2 E. unfold fg, CircuitProofs.gspec in *. apply wpc_bind. eapply wpc_mono; [exact H1|]. intros a d _ (S1 & C1 & R1).
    eapply wpc_mono; [apply (H2 a (capp c d)); [wfs|cbn; lia|reflexivity|exact R1]|]. intros b d' _ (S2 & C2 & R2).
    change (ptype (capp c d)) with (ptype c) in *. split; [|split].
    - intros w Hb Hs. rewrite dsat_cat in Hs. destruct Hs as [D1 D2]. rewrite <- (E a w Hb); auto.
    - intros w Hb Hh _. rewrite <- capp_cat in Hh. rewrite dsat_cat. split; [|auto]. apply C1; auto. apply (hext_app1 (capp c d) d'); [wfs|exact Hh].
    - cbn [dcat d_vals capp num_vars] in *. rewrite app_length, Nat.add_assoc. exact R2.
  Qed.
  Lemma fg_lift {A A' B'} (f0 : circuit K -> outcome cerr A) (f : A -> circ K A') c a (rd' : (nat -> K) -> A' -> B') G bd' :
    f0 c = Ok a -> fg (f a) c rd' G bd' -> fg (cbind (lift f0) f) c rd' G bd'.
  Proof. intros E H. unfold fg, CircuitProofs.gspec in *. apply wpc_bind_lift with a; auto. Qed.
  Lemma fg_wit {A' B'} v (f : K -> circ K A') c (rd' : (nat -> K) -> A' -> B') G bd' : wf c -> (v < num_vars c)%nat ->
    fg (f (hon c v)) c rd' G bd' -> fg (cbind (get_witness v) f) c rd' G bd'.
  Proof. intros Hw Hv H. unfold fg, CircuitProofs.gspec in *. apply wpc_wit; auto. Qed.
  Lemma fg_chk {A' B'} v (f : circ K A') c (rd' : (nat -> K) -> A' -> B') G bd' : (v < num_vars c)%nat ->
    fg f c rd' G bd' -> fg (check_var_bound v >> f) c rd' G bd'.
  Proof. intros Hv H. unfold fg, CircuitProofs.gspec in *. apply wpc_chk; auto. Qed.
  Lemma fg_chks {A' B'} vs (f : circ K A') c (rd' : (nat -> K) -> A' -> B') G bd' : Forall (fun v => v < num_vars c)%nat vs ->
    fg f c rd' G bd' -> fg (check_vars_bound vs >> f) c rd' G bd'.
  Proof. intros Hv H. unfold fg, CircuitProofs.gspec in *. apply wpc_chks; auto. Qed.
  (** The continuation may use what the first gadget computed. *)
  Lemma fg_then {A B A' B'} (m : circ K A) (f : A -> circ K A') c (rd : (nat -> K) -> A -> B) F bd (rd' : (nat -> K) -> A' -> B') (G : (nat -> K) -> B -> B') bd' :
    wf c -> fg m c rd F bd ->
    (forall a c', wf c' -> (num_vars c <= num_vars c')%nat -> bd a (num_vars c') -> fg (f a) c' rd' (fun w => G w (rd w a)) bd') ->
    fg (cbind m f) c rd' (fun w => G w (F w)) bd'.
  Proof.
    intros Hw H1 H2. apply fg_bind with (1 := Hw) (2 := H1) (G := fun a w => G w (rd w a)); auto.
    intros a w _ ->. reflexivity.
  Qed.
  (** Reading a variable. *)
  Definition rd1 (w : nat -> K) (v : nat) : K := w v.
  Definition rdl (w : nat -> K) (vs : list nat) : list K := map w vs.
  Definition bdl (vs : list nat) (n : nat) : Prop := Forall (fun v => v < n)%nat vs.
  Lemma fg_out m c (F : (nat -> K) -> K) : gspec zval m c (fun w o => w o = F w) (fun _ => True) out -> fg m c rd1 F out.
  Proof. intros H. exact H. Qed.
  Lemma bdl_le vs n n' : bdl vs n -> (n <= n')%nat -> bdl vs n'.
  Proof. intros H L. eapply Forall_impl; [|exact H]. cbn. lia. Qed.
  Lemma bdl_app vs vs' n : bdl vs n -> bdl vs' n -> bdl (vs ++ vs') n.
  Proof. intros. apply Forall_app; auto. Qed.
End Functional.

Section RescueSpec.
  Context {K : fld}.
  Variable zval : K -> Z.
  Variable P : rescue_params K.
  Variable q : nat.
  Hypothesis Hq : has_card K q.
  Hypothesis Ha : ((rp_a P * limbs_N (rp_a_inv P)) mod N.of_nat (q - 1) = 1)%N.
  Hypothesis Ha5 : rp_a P = 5%N \/ rp_a P = 11%N.
  Add Field Krg : (fth K).
  Notation fg := (fg zval).
  Definition rv (w : nat -> K) (s : svar) : vec4 K := V4 (w (s0 s)) (w (s1 s)) (w (s2 s)) (w (s3 s)).
  Definition sb (s : svar) (n : nat) : Prop := (s0 s < n)%nat /\ (s1 s < n)%nat /\ (s2 s < n)%nat /\ (s3 s < n)%nat.
  Lemma sb_le s n n' : sb s n -> (n <= n')%nat -> sb s n'.
  Proof. unfold sb. lia. Qed.
  Ltac sbt := unfold sb, out in *; cbn [s0 s1 s2 s3] in *; lia.

  (** Four gadgets in a row. *)
  Lemma four_spec (f0 f1 f2 f3 : circ K nat) (F0 F1 F2 F3 : (nat -> K) -> K) c : wf c ->
    (forall c', wf c' -> (num_vars c <= num_vars c')%nat -> fg f0 c' rd1 F0 out) ->
    (forall c', wf c' -> (num_vars c <= num_vars c')%nat -> fg f1 c' rd1 F1 out) ->
    (forall c', wf c' -> (num_vars c <= num_vars c')%nat -> fg f2 c' rd1 F2 out) ->
    (forall c', wf c' -> (num_vars c <= num_vars c')%nat -> fg f3 c' rd1 F3 out) ->
    fg (a <- f0 ;; b <- f1 ;; x <- f2 ;; d <- f3 ;; ret (SV a b x d)) c rv (fun w => V4 (F0 w) (F1 w) (F2 w) (F3 w)) sb.
  Proof.
    intros Hw H0 H1 H2 H3.
    apply fg_bind with (1 := Hw) (2 := H0 c Hw ltac:(lia)) (G := fun a w => V4 (w a) (F1 w) (F2 w) (F3 w)).
    2:{ intros a w _ E. unfold rd1 in E. rewrite <- E. reflexivity. }
    intros a c1 W1 L1 _ O1. cbn beta.
    apply fg_bind with (1 := W1) (2 := H1 c1 W1 ltac:(lia)) (G := fun b w => V4 (w a) (w b) (F2 w) (F3 w)).
    2:{ intros b w _ E. unfold rd1 in E. rewrite <- E. reflexivity. }
    intros b c2 W2 L2 _ O2. cbn beta.
    apply fg_bind with (1 := W2) (2 := H2 c2 W2 ltac:(lia)) (G := fun x w => V4 (w a) (w b) (w x) (F3 w)).
    2:{ intros x w _ E. unfold rd1 in E. rewrite <- E. reflexivity. }
    intros x c3 W3 L3 _ O3. cbn beta.
    apply fg_bind with (1 := W3) (2 := H3 c3 W3 ltac:(lia)) (G := fun d w => V4 (w a) (w b) (w x) (w d)).
    2:{ intros d w _ E. unfold rd1 in E. rewrite <- E. reflexivity. }
    intros d c4 W4 L4 _ O4. cbn beta. apply fg_ret; [sbt|reflexivity].
  Qed.
  Lemma check_state_fg {A B} s (f : circ K A) c (rd : (nat -> K) -> A -> B) G bd : sb s (num_vars c) -> fg f c rd G bd -> fg (check_state s >> f) c rd G bd.
  Proof. intros (B0 & B1 & B2 & B3) H. apply fg_chks; auto. Qed.

  Lemma add_constant_state_spec s k c : wf c -> sb s (num_vars c) ->
    fg (add_constant_state s k) c rv (fun w => v4_add (rv w s) k) sb.
  Proof.
    intros Hw Hs. apply check_state_fg; auto. apply (four_spec _ _ _ _ (fun w => w (s0 s) + w0 k) (fun w => w (s1 s) + w1 k) (fun w => w (s2 s) + w2 k) (fun w => w (s3 s) + w3 k)); auto;
    intros c' W' L'; apply fg_out; apply add_constant_spec; auto; sbt.
  Qed.
  Lemma add_state_spec s t c : wf c -> sb s (num_vars c) -> sb t (num_vars c) ->
    fg (add_state s t) c rv (fun w => v4_add (rv w s) (rv w t)) sb.
  Proof.
    intros Hw Hs Ht. apply (four_spec _ _ _ _ (fun w => w (s0 s) + w (s0 t)) (fun w => w (s1 s) + w (s1 t)) (fun w => w (s2 s) + w (s2 t)) (fun w => w (s3 s) + w (s3 t))); auto;
    intros c' W' L'; apply fg_out; apply add_spec; auto; sbt.
  Qed.

  (** The two exponents are inverse to each other. *)
  Lemma inv_l (x : K) : fpow_N (fpow_N x (rp_a P)) (limbs_N (rp_a_inv P)) = x.
  Proof. apply (fpow_N_inverse K q); auto. Qed.
  Lemma inv_r (x : K) : fpow_N (fpow_N x (limbs_N (rp_a_inv P))) (rp_a P) = x.
  Proof. apply (fpow_N_inverse K q); auto. rewrite N.mul_comm. exact Ha. Qed.
  Lemma inv_iff (x y : K) : x = fpow_N y (rp_a P) <-> y = fpow_N x (limbs_N (rp_a_inv P)).
  Proof. split; intros ->; [symmetry; apply inv_l|symmetry; apply inv_r]. Qed.
  Lemma pow5_N (x : K) : pow5 x = fpow_N x 5.
  Proof. unfold pow5. cbn. ring. Qed.
  Lemma pow11_N (x : K) : fpow x 11 = fpow_N x 11.
  Proof. cbn. ring. Qed.

  Lemma pow_alpha_inv_spec v c : wf c -> (v < num_vars c)%nat ->
    fg (pow_alpha_inv P v) c rd1 (fun w => fpow_N (w v) (limbs_N (rp_a_inv P))) out.
  Proof.
    intros Hw Hv. unfold fg, RescueGadgetProofs.fg, CircuitProofs.gspec, pow_alpha_inv, out, rd1. pose proof (wf_two _ Hw) as H2.
    repeat wstep. destruct Ha5 as [E5|E5]; rewrite E5; cbn [N.eqb Pos.eqb].
    - repeat wstep. leaf; auto.
      + apply inv_iff. rewrite E5, <- pow5_N. exact H0.
      + rewrite pow5_N, E, <- E5. symmetry. apply inv_r.
    - use (power_11_gate_spec (K := K) zval). repeat wstep. leaf; auto.
      + apply inv_iff. rewrite E5, <- pow11_N. exact F.
      + apply Cmp; auto. rewrite pow11_N, E, <- E5. symmetry. apply inv_r.
  Qed.

  Lemma gsat_affine (w : nat -> K) v k a b c d o : gsat w 0 (rescue_affine_gate v k) (mk_row a b c d o)
    <-> w o = v4_dot v (V4 (w a) (w b) (w c) (w d)) + k.
  Proof. unfold gsat, gate_expected, gate_output, v4_dot; cbn; unfold pow5; cbn; apply eq_iff_opp; ring. Qed.
  Lemma gsat_power5 (w : nat -> K) v k a b c d o : gsat w 0 (power5_gate v k) (mk_row a b c d o)
    <-> w o = v4_dot v (V4 (fpow_N (w a) 5) (fpow_N (w b) 5) (fpow_N (w c) 5) (fpow_N (w d) 5)) + k.
  Proof. unfold gsat, gate_expected, gate_output, v4_dot; cbn; unfold pow5; cbn; apply eq_iff_opp; ring. Qed.

  Lemma output_rows_spec g s m k v c (L : vec4 K -> vec4 K) : wf c -> sb s (num_vars c) ->
    v = linear (L (rv (hon c) s)) m k ->
    (forall row k, is_io (g row k) = false /\ q_lookup (g row k) = 0) ->
    (forall (w : nat -> K) row k a b c d o, gsat w 0 (g row k) (mk_row a b c d o) <-> w o = v4_dot row (L (V4 (w a) (w b) (w c) (w d))) + k) ->
    fg (output_rows g s m k v) c rv (fun w => linear (L (rv w s)) m k) sb.
  Proof.
    intros Hw (B0 & B1 & B2 & B3) Hv Hio Hg. unfold fg, RescueGadgetProofs.fg, CircuitProofs.gspec, output_rows. pose proof (wf_two _ Hw) as H2.
    repeat first [wstep | apply wpc_bind_insert;
      [wfs|split; [apply Hio|split; [apply Hio|unfold row_lt; cbn [fst snd r0 r1 r2 r3 r4]; repeat split; bnd]]|]]. split; [|split].
    - intros w Hb Hs. rewrite ?dsat_cat, ?dsat_val in Hs. rewrite !dsat_gate in Hs by apply Hio. rewrite !Hg in Hs.
      destruct Hs as (_ & E0 & _ & E1 & _ & E2 & _ & E3 & _). unfold rv; cbn. unfold linear, mul_vec, v4_add; cbn. now f_equal.
    - intros w Hb Hh _. rewrite <- ?capp_cat in Hh. rewrite ?dsat_cat, ?dsat_val. rewrite !dsat_gate by apply Hio. rewrite !Hg. hx.
      assert (HV : v = linear (L (rv w s)) m k).
      { rewrite Hv. do 2 f_equal. unfold rv. repeat match goal with H : hext c w |- _ => rewrite !H by auto; clear H end. reflexivity. }
      repeat match goal with |- _ /\ _ => split | |- True => exact I | |- dsat _ _ _ dnil => apply dsat_nil end;
      match goal with H : w ?x = _ v |- w ?x = _ => rewrite H, HV; reflexivity end.
    - unfold sb; cbn; repeat split; bnd.
  Qed.

  Lemma fg_ws {A' B'} s (f : vec4 K -> circ K A') c (rd' : (nat -> K) -> A' -> B') G bd' : wf c -> sb s (num_vars c) ->
    fg (f (rv (hon c) s)) c rd' G bd' -> fg (cbind (witness_state s) f) c rd' G bd'.
  Proof.
    intros Hw (B0 & B1 & B2 & B3) H. unfold fg, RescueGadgetProofs.fg, CircuitProofs.gspec in *. unfold witness_state.
    repeat (apply wpc_assoc; apply wpc_wit; [auto|auto|]). exact H.
  Qed.
  Lemma affine_spec s m k c : wf c -> sb s (num_vars c) ->
    fg (affine_transform s m k) c rv (fun w => linear (rv w s) m k) sb.
  Proof.
    intros Hw Hs. apply check_state_fg; auto. apply fg_ws; auto.
    apply (output_rows_spec _ _ _ _ _ _ (fun v => v)); auto. intros. apply gsat_affine.
  Qed.
  Lemma pow_11_spec v c : wf c -> (v < num_vars c)%nat -> fg (pow_11 v) c rd1 (fun w => fpow_N (w v) 11) out.
  Proof.
    intros Hw Hv. unfold fg, RescueGadgetProofs.fg, CircuitProofs.gspec, pow_11, out, rd1. pose proof (wf_two _ Hw) as H2.
    repeat wstep. use (power_11_gate_spec (K := K) zval). repeat wstep. leaf; auto.
    - now rewrite <- pow11_N.
    - apply Cmp; auto. now rewrite pow11_N.
  Qed.
  Lemma pow_alpha_inv_state_spec s c : wf c -> sb s (num_vars c) ->
    fg (pow_alpha_inv_state P s) c rv (fun w => v4_pow (rv w s) (limbs_N (rp_a_inv P))) sb.
  Proof.
    intros Hw Hs. apply check_state_fg; auto.
    apply (four_spec _ _ _ _ (fun w => fpow_N (w (s0 s)) _) (fun w => fpow_N (w (s1 s)) _) (fun w => fpow_N (w (s2 s)) _) (fun w => fpow_N (w (s3 s)) _)); auto;
    intros c' W' L'; apply pow_alpha_inv_spec; auto; sbt.
  Qed.
  Lemma non_linear_spec s m k c : wf c -> sb s (num_vars c) ->
    fg (non_linear_transform P s m k) c rv (fun w => linear (v4_pow (rv w s) (rp_a P)) m k) sb.
  Proof.
    intros Hw Hs. apply check_state_fg; auto. apply fg_ws; auto. unfold non_linear. destruct Ha5 as [E|E]; rewrite E; cbn [N.eqb Pos.eqb].
    - apply (output_rows_spec _ _ _ _ _ _ (fun v => v4_pow v 5)); auto. intros. apply gsat_power5.
    - assert (H := four_spec (pow_11 (s0 s)) (pow_11 (s1 s)) (pow_11 (s2 s)) (pow_11 (s3 s)) (fun w => fpow_N (w (s0 s)) 11) (fun w => fpow_N (w (s1 s)) 11) (fun w => fpow_N (w (s2 s)) 11) (fun w => fpow_N (w (s3 s)) 11) c Hw
        ltac:(intros; apply pow_11_spec; auto; sbt) ltac:(intros; apply pow_11_spec; auto; sbt) ltac:(intros; apply pow_11_spec; auto; sbt) ltac:(intros; apply pow_11_spec; auto; sbt)).
      assert (E2 : fg (cbind (a <- pow_11 (s0 s) ;; b <- pow_11 (s1 s) ;; x <- pow_11 (s2 s) ;; d <- pow_11 (s3 s) ;; ret (SV a b x d)) (fun t => affine_transform t m k)) c rv
        (fun w => linear (v4_pow (rv w s) 11) m k) sb).
      { apply fg_then with (1 := Hw) (2 := H) (G := fun _ v => linear v m k). intros t c1 W1 L1 B1. apply affine_spec; auto. }
      unfold fg, RescueGadgetProofs.fg, CircuitProofs.gspec in E2 |- *. destruct E2 as (a & d & E2 & R). exists a, d. split; [|exact R].
      rewrite <- E2. clear. rewrite !cbind_assoc. unfold cbind. destruct (pow_11 (s0 s) c) as [[x0| |] c1]; auto.
      destruct (pow_11 (s1 s) c1) as [[x1| |] c2]; auto. destruct (pow_11 (s2 s) c2) as [[x2| |] c3]; auto.
      destruct (pow_11 (s3 s) c3) as [[x3| |] c4]; auto.
  Qed.

  (** One round of the permutation. *)
  Lemma round_spec r s k c : wf c -> sb s (num_vars c) ->
    fg (if (r mod 2 =? 0)%nat then t <- pow_alpha_inv_state P s ;; affine_transform t (rp_mds P) k
        else non_linear_transform P s (rp_mds P) k) c rv (fun w => linear (v4_pow (rv w s) (round_exp P r)) (rp_mds P) k) sb.
  Proof.
    intros Hw Hs. unfold round_exp. destruct (r mod 2 =? 0)%nat; [|now apply non_linear_spec].
    apply fg_then with (1 := Hw) (2 := pow_alpha_inv_state_spec s c Hw Hs) (G := fun _ v => linear v (rp_mds P) k).
    intros t c1 W1 L1 B1. now apply affine_spec.
  Qed.
  Lemma const_rounds_spec keys : forall r s c, wf c -> sb s (num_vars c) ->
    fg (const_rounds P r keys s) c rv (fun w => prp_rounds P r keys (rv w s)) sb.
  Proof.
    induction keys as [|k keys IH]; intros r s c Hw Hs; cbn [const_rounds prp_rounds].
    - apply fg_ret; auto.
    - apply fg_then with (1 := Hw) (2 := round_spec r s k c Hw Hs) (G := fun _ v => prp_rounds P (S r) keys v).
      intros t c1 W1 L1 B1. now apply IH.
  Qed.

  Hypothesis Hkeys : length (rp_keys P) = 25%nat.
  Lemma permutation_spec s c : wf c -> sb s (num_vars c) ->
    fg (rescue_permutation P s) c rv (fun w => peval_v K P (rv w s)) sb.
  Proof.
    intros Hw Hs. unfold rescue_permutation, permutation_with_const_round_keys. rewrite Hkeys. cbn [negb Nat.eqb Nat.mul Nat.add ROUNDS].
    destruct (rp_keys P) as [|k0 ks] eqn:Ek; [discriminate Hkeys|].
    apply fg_lift with k0; [reflexivity|]. cbn [tl].
    eapply fg_ext; [|apply fg_then with (1 := Hw) (2 := add_constant_state_spec s k0 c Hw Hs) (G := fun _ v => prp_rounds P 0 ks v)].
    - intros w _. unfold peval_v, perm_eval, prp_with_round_keys. rewrite Ek, Hkeys. reflexivity.
    - intros t c1 W1 L1 B1. now apply const_rounds_spec.
  Qed.

  (** *** The keyed permutation *)
  Definition rsl (w : nat -> K) (l : list svar) : list (vec4 K) := map (rv w) l.
  Definition sbl (l : list svar) (n : nat) : Prop := Forall (fun s => sb s n) l.
  Lemma sbl_le l n n' : sbl l n -> (n <= n')%nat -> sbl l n'.
  Proof. intros H L. eapply Forall_impl; [|exact H]. cbn. intros a Hs. eapply sb_le; eauto. Qed.
  Fixpoint sched_v (r : nat) (inj : list (vec4 K)) (s : vec4 K) : list (vec4 K) :=
    match inj with
    | [] => []
    | k :: inj' => let s' := linear (v4_pow s (round_exp P r)) (rp_mds P) k in s' :: sched_v (S r) inj' s'
    end.
  Lemma sched_len inj : forall r s, length (sched_v r inj s) = length inj.
  Proof. induction inj; intros; cbn; auto. Qed.
  Lemma skipn_nth {A} (l : list A) : forall i x, nth_error l i = Some x -> skipn i l = x :: skipn (S i) l.
  Proof. clear. induction l as [|y l IH]; intros [|i] x E; try discriminate E; cbn in *; [congruence|]. now apply IH. Qed.
  Lemma schedule_sched n : forall i s, (i + n = length (rp_inject P))%nat ->
    schedule_loop P i n s = Ok (sched_v i (skipn i (rp_inject P)) s).
  Proof.
    clear. induction n as [|n IH]; intros i s E; cbn [schedule_loop].
    - rewrite skipn_all2 by lia. reflexivity.
    - unfold index. destruct (nth_error (rp_inject P) i) as [k|] eqn:Ek; [|apply nth_error_None in Ek; lia].
      cbn [bind]. rewrite IH by lia. rewrite (skipn_nth _ _ _ Ek). reflexivity.
  Qed.
  Lemma schedule_rounds_spec inj : forall r s c, wf c -> sb s (num_vars c) ->
    fg (schedule_rounds P r inj s) c rsl (fun w => sched_v r inj (rv w s)) (fun l n => sbl l n /\ length l = length inj).
  Proof.
    induction inj as [|k inj IH]; intros r s c Hw Hs; cbn [schedule_rounds sched_v].
    - apply fg_ret; [split; [constructor|reflexivity]|reflexivity].
    - apply fg_then with (1 := Hw) (2 := round_spec r s k c Hw Hs) (G := fun _ v => v :: sched_v (S r) inj v).
      intros t c1 W1 L1 B1.
      apply fg_then with (1 := W1) (2 := IH (S r) t c1 W1 B1) (G := fun w l => rv w t :: l).
      intros l c2 W2 L2 [B2 El]. apply fg_ret; [|reflexivity]. split; [constructor; [eapply sb_le; eauto|exact B2]|cbn [length]; now rewrite El].
  Qed.
  Lemma key_schedule_spec key c : wf c -> sb key (num_vars c) ->
    fg (key_schedule_g P key) c rsl (fun w => let a := v4_add (rv w key) (rp_init P) in a :: sched_v 0 (rp_inject P) a) (fun l n => sbl l n /\ length l = S (length (rp_inject P))).
  Proof.
    intros Hw Hs. apply fg_then with (1 := Hw) (2 := add_constant_state_spec key (rp_init P) c Hw Hs) (G := fun _ a => a :: sched_v 0 (rp_inject P) a).
    intros t c1 W1 L1 B1.
    apply fg_then with (1 := W1) (2 := schedule_rounds_spec (rp_inject P) 0 t c1 W1 B1) (G := fun w l => rv w t :: l).
    intros l c2 W2 L2 [B2 El]. apply fg_ret; [|reflexivity]. split; [constructor; [eapply sb_le; eauto|exact B2]|cbn [length]; now rewrite El].
  Qed.
  Lemma linear_zero (v : vec4 K) m k : v4_add (linear v m v4_zero) k = linear v m k.
  Proof. unfold linear, v4_add, v4_zero; cbn. f_equal; ring. Qed.
  Lemma var_rounds_spec keys : forall r s c, wf c -> sb s (num_vars c) -> sbl keys (num_vars c) ->
    fg (var_rounds P r keys s) c rv (fun w => prp_rounds P r (rsl w keys) (rv w s)) sb.
  Proof.
    induction keys as [|k keys IH]; intros r s c Hw Hs Hk; cbn [var_rounds prp_rounds rsl map].
    - apply fg_ret; auto.
    - inversion_clear Hk as [|? ? Hk0 Hks].
      eapply fg_ext; [|apply fg_then with (1 := Hw) (2 := round_spec r s v4_zero c Hw Hs) (G := fun w v => prp_rounds P (S r) (rsl w keys) (v4_add v (rv w k)))].
      + intros w _. cbn beta. rewrite linear_zero. reflexivity.
      + intros t c1 W1 L1 B1. apply fg_then with (1 := W1) (2 := add_state_spec t k c1 W1 B1 (sb_le _ _ _ Hk0 L1)) (G := fun w v => prp_rounds P (S r) (rsl w keys) v).
        intros u c2 W2 L2 B2. apply IH; auto. eapply sbl_le; [exact Hks|lia].
  Qed.
  Lemma prp_with_round_keys_spec s keys c : wf c -> sb s (num_vars c) -> sbl keys (num_vars c) -> length keys = 25%nat ->
    fg (prp_with_round_keys_g P s keys) c (fun w o => Ok (rv w o)) (fun w => prp_with_round_keys P (rsl w keys) (rv w s)) sb.
  Proof.
    intros Hw Hs Hk El. unfold prp_with_round_keys_g. rewrite El. cbn [negb Nat.eqb Nat.mul Nat.add ROUNDS].
    destruct keys as [|k0 ks]; [discriminate El|]. inversion_clear Hk as [|? ? Hk0 Hks]. apply fg_lift with k0; [reflexivity|]. cbn [tl].
    eapply fg_ext; [|apply fg_then with (1 := Hw) (2 := add_state_spec s k0 c Hw Hs Hk0) (G := fun w v => Ok (prp_rounds P 0 (rsl w ks) v))].
    - intros w _. unfold prp_with_round_keys. unfold rsl at 2. rewrite map_length, El. reflexivity.
    - intros t c1 W1 L1 B1. eapply fg_imp; [| |apply (var_rounds_spec ks 0 t c1); auto; eapply sbl_le; eauto]; auto.
      cbn beta. intros a w _ E. now rewrite E.
  Qed.
  Hypothesis Hinj : length (rp_inject P) = 24%nat.
  Lemma prp_spec key s c : wf c -> sb key (num_vars c) -> sb s (num_vars c) ->
    fg (prp_g P key s) c (fun w o => Ok (rv w o)) (fun w => prp P (rv w key) (rv w s)) sb.
  Proof.
    intros Hw Hk Hs. eapply fg_ext; [|apply fg_then with (1 := Hw) (2 := key_schedule_spec key c Hw Hk) (G := fun w l => prp_with_round_keys P l (rv w s))].
    - intros w _. unfold prp, key_schedule. rewrite schedule_sched by (rewrite Hinj; reflexivity). reflexivity.
    - intros l c1 W1 L1 [B1 El]. apply prp_with_round_keys_spec; auto; [eapply sb_le; eauto|]. now rewrite El, Hinj.
  Qed.

  (** *** Sponges *)
  Lemma add_elems_split (s : vec4 K) es : v4_add s (v4_add_elems v4_zero es) = v4_add_elems s es.
  Proof. unfold v4_add, v4_add_elems, v4_zero; cbn. f_equal; ring. Qed.
  Lemma block3_spec b c : length b = 3%nat -> bdl b (num_vars c) -> wf c ->
    fg (block3 b) c rv (fun w => v4_add_elems v4_zero (map w b)) sb.
  Proof.
    intros El Hb Hw. destruct b as [|x [|y [|z [|? ?]]]]; try discriminate El. pose proof (wf_two _ Hw) as H2.
    inversion_clear Hb as [|? ? Bx Hb1]. inversion_clear Hb1 as [|? ? By Hb2]. inversion_clear Hb2 as [|? ? Bz _].
    do 3 (eapply fg_lift; [reflexivity|]). apply fg_ret; [sbt|]. intros w [E0 _].
    unfold rv, v4_add_elems; cbn. rewrite E0. f_equal; ring.
  Qed.
  Lemma block4_spec b c : length b = 4%nat -> bdl b (num_vars c) -> wf c ->
    fg (block4 b) c rv (fun w => v4_add_elems v4_zero (map w b)) sb.
  Proof.
    intros El Hb Hw. destruct b as [|x [|y [|z [|t [|? ?]]]]]; try discriminate El.
    inversion_clear Hb as [|? ? Bx Hb1]. inversion_clear Hb1 as [|? ? By Hb2]. inversion_clear Hb2 as [|? ? Bz Hb3]. inversion_clear Hb3 as [|? ? Bt _].
    do 4 (eapply fg_lift; [reflexivity|]). apply fg_ret; [sbt|]. intros w _.
    unfold rv, v4_add_elems; cbn. f_equal; ring.
  Qed.
  Lemma absorb_blocks_spec rate (blk : list nat -> circ K svar) :
    (forall b c, length b = rate -> bdl b (num_vars c) -> wf c -> fg (blk b) c rv (fun w => v4_add_elems v4_zero (map w b)) sb) ->
    forall cs s c, wf c -> sb s (num_vars c) -> Forall (fun b => length b = rate /\ bdl b (num_vars c)) cs ->
    fg (absorb_blocks P blk s cs) c rv (fun w => absorb_v K P (map (map w) cs) (rv w s)) sb.
  Proof.
    intros Hblk. induction cs as [|b cs IH]; intros s c Hw Hs Hc; unfold absorb_blocks; cbn [foldM map].
    - apply fg_ret; auto.
    - inversion_clear Hc as [|? ? Hc0 Hcs]. destruct Hc0 as [El Hb].
      eapply fg_ext with (F := fun w => (fun w v => absorb_v K P (map (map w) cs) v) w (peval_v K P (v4_add_elems (rv w s) (map w b)))); [reflexivity|].
      apply fg_then with (1 := Hw) (rd := rv) (bd := sb) (G := fun w v => absorb_v K P (map (map w) cs) v).
      + eapply fg_ext; [|apply fg_then with (1 := Hw) (2 := Hblk b c El Hb Hw) (G := fun w v => peval_v K P (v4_add (rv w s) v))].
        * intros w _. cbn beta. now rewrite add_elems_split.
        * intros t c1 W1 L1 B1. apply fg_then with (1 := W1) (2 := add_state_spec s t c1 W1 (sb_le _ _ _ Hs L1) B1) (G := fun _ v => peval_v K P v).
          intros u c2 W2 L2 B2. now apply permutation_spec.
      + intros t c1 W1 L1 B1. apply IH; auto. eapply Forall_impl; [|exact Hcs]. cbn. intros a [? ?]. split; auto. eapply bdl_le; eauto.
  Qed.
  Lemma Forall_firstn {A} (Q : A -> Prop) n l : Forall Q l -> Forall Q (firstn n l).
  Proof. clear. intros H. revert n. induction H; intros [|n]; cbn; constructor; auto. Qed.
  Lemma Forall_skipn {A} (Q : A -> Prop) n l : Forall Q l -> Forall Q (skipn n l).
  Proof. clear. intros H. revert n. induction H; intros [|n]; cbn; auto; constructor; auto. Qed.
  Lemma chunks_all {A} n (l : list A) (Q : A -> Prop) : (1 <= n)%nat -> (length l mod n = 0)%nat -> Forall Q l ->
    Forall (fun b => length b = n /\ Forall Q b) (chunks n l).
  Proof.
    clear. intros Hn. remember (length l) as k eqn:Ek. revert l Ek. induction k as [k IH] using lt_wf_ind. intros l Ek Hm Hl.
    destruct l as [|x l']; [rewrite chunks_nil; constructor|]. set (l := x :: l') in *.
    assert (Hk : (n <= k)%nat). { destruct (Nat.lt_ge_cases k n) as [H|H]; auto. rewrite Nat.mod_small in Hm by auto. subst k. discriminate Hm. }
    rewrite chunks_cons by (auto; discriminate). constructor.
    - split; [rewrite firstn_length; lia|]. apply Forall_firstn; auto.
    - apply (IH (k - n)%nat); [lia|rewrite skipn_length; lia| |apply Forall_skipn; auto].
      replace k with ((k - n) + 1 * n)%nat in Hm by lia. now rewrite Nat.mod_add in Hm by lia.
  Qed.
  Lemma chunks_map' {A B} (f : A -> B) n (l : list A) : (1 <= n)%nat -> chunks n (map f l) = map (map f) (chunks n l).
  Proof.
    clear. intros Hn. remember (length l) as k eqn:Ek. revert l Ek. induction k as [k IH] using lt_wf_ind. intros l Ek.
    destruct l as [|x l']; [now rewrite !chunks_nil|].
    rewrite (chunks_cons n (x :: l')), (chunks_cons n (map f (x :: l'))) by (auto; discriminate).
    rewrite firstn_map, skipn_map. cbn [map]. f_equal. eapply IH; [|reflexivity]. rewrite skipn_length. cbn [length] in *. lia.
  Qed.
  Lemma state_vars_bdl s n k : sb s n -> bdl (firstn k (state_vars s)) n.
  Proof. intros (B0 & B1 & B2 & B3). apply Forall_firstn. repeat constructor; auto. Qed.
  Fixpoint sq_v (fuel n : nat) (s : vec4 K) : list K :=
    match fuel with
    | O => []
    | S f =>
        let e := Nat.min n CRHF_RATE in
        let o := firstn e (v4_elems s) in
        if (n - e =? 0)%nat then o else o ++ sq_v f (n - e) (peval_v K P s)
    end.
  Lemma squeeze_sq fuel : forall n s, (n < fuel)%nat -> exists s', squeeze_loop P fuel CRHF_RATE n s = Ok (sq_v fuel n s, s').
  Proof.
    induction fuel as [|fuel IH]; intros n s Hn; [lia|]. cbn [squeeze_loop sq_v].
    destruct (Nat.ltb_spec STATE_SIZE (Nat.min n CRHF_RATE)) as [H|_]; [unfold STATE_SIZE, CRHF_RATE in H; lia|].
    destruct (Nat.eqb_spec (n - Nat.min n CRHF_RATE) 0) as [H0|H0]; [eauto|].
    rewrite (perm_eval_ok K P Hkeys). cbn [bind]. destruct (IH (n - Nat.min n CRHF_RATE)%nat (peval_v K P s)) as (s' & E); [unfold CRHF_RATE; lia|].
    rewrite E. cbn [bind]. eauto.
  Qed.
  Lemma squeeze_spec fuel : forall n s c, (n < fuel)%nat -> wf c -> sb s (num_vars c) ->
    fg (squeeze_loop_g P fuel n s) c rdl (fun w => sq_v fuel n (rv w s)) (fun l m => bdl l m /\ length l = n).
  Proof.
    induction fuel as [|fuel IH]; intros n s c Hn Hw Hs; [lia|]. cbn [squeeze_loop_g sq_v].
    assert (El : length (firstn (Nat.min n CRHF_RATE) (state_vars s)) = Nat.min n CRHF_RATE).
    { rewrite firstn_length. unfold state_vars, CRHF_RATE. cbn [length]. lia. }
    destruct (Nat.eqb_spec (n - Nat.min n CRHF_RATE) 0) as [H0|H0].
    - apply fg_ret; [split; [now apply state_vars_bdl|rewrite El; lia]|]. intros w _. unfold rdl. now rewrite <- firstn_map.
    - apply fg_then with (1 := Hw) (2 := permutation_spec s c Hw Hs)
        (G := fun w v => firstn (Nat.min n CRHF_RATE) (v4_elems (rv w s)) ++ sq_v fuel (n - Nat.min n CRHF_RATE) v).
      intros t c1 W1 L1 B1. assert (Hn' : (n - Nat.min n CRHF_RATE < fuel)%nat) by (unfold CRHF_RATE in *; lia).
      apply fg_then with (1 := W1) (2 := IH _ t c1 Hn' W1 B1) (G := fun w v => firstn (Nat.min n CRHF_RATE) (v4_elems (rv w s)) ++ v).
      intros more c2 W2 L2 [B2 E2]. apply fg_ret.
      + split; [apply bdl_app; auto; apply state_vars_bdl; eapply sb_le; [exact Hs|lia]|]. rewrite app_length, El, E2. lia.
      + intros w _. unfold rdl. rewrite map_app, <- firstn_map. reflexivity.
  Qed.
  Definition rok (w : nat -> K) (l : list nat) : outcome unit (list K) := Ok (map w l).
  Lemma fg_rok m c F bd : fg m c rdl F bd -> fg m c rok (fun w => Ok (F w)) bd.
  Proof. apply fg_imp; auto. intros a w _ E. unfold rok. f_equal. exact E. Qed.
  Lemma sponge_no_padding_spec data num c : wf c -> bdl data (num_vars c) -> data <> [] -> (length data mod 3 = 0)%nat ->
    fg (rescue_sponge_no_padding P data num) c rok (fun w => sponge_no_padding P (map w data) num) (fun l m => bdl l m /\ length l = num).
  Proof.
    intros Hw Hb Hne Hm. unfold rescue_sponge_no_padding.
    destruct (Nat.eqb_spec (length data) 0) as [E|_]; [destruct data; [congruence|discriminate E]|].
    change (length data mod CRHF_RATE)%nat with (length data mod 3)%nat. rewrite Hm. cbn [orb negb Nat.eqb].
    pose proof (chunks_all 3 data _ ltac:(lia) Hm Hb) as Hc. rewrite chunks_cons in Hc by (auto; lia). inversion_clear Hc as [|? ? Hc0 Hcs]. destruct Hc0 as [E3 B3].
    assert (Eb : block3 (K := K) data = block3 (firstn 3 data)).
    { destruct data as [|x [|y [|z data]]]; try discriminate E3. reflexivity. }
    rewrite Eb.
    eapply fg_ext with (F := fun w => (fun w v => Ok (sq_v (S num) num (absorb_v K P (map (map w) (chunks CRHF_RATE (skipn CRHF_RATE data))) (peval_v K P v)))) w (v4_add_elems v4_zero (map w (firstn 3 data)))).
    - intros w _. unfold sponge_no_padding. rewrite map_length. change (length data mod CRHF_RATE)%nat with (length data mod 3)%nat. rewrite Hm. cbn [negb Nat.eqb].
      rewrite (absorb_ok K P Hkeys) by (unfold CRHF_RATE; lia). cbn [bind]. rewrite chunks_map' by (unfold CRHF_RATE; lia). rewrite (chunks_cons CRHF_RATE data) by (auto; unfold CRHF_RATE; lia).
      cbn [map]. unfold absorb_v at 2. cbn [fold_left]. unfold squeeze.
      edestruct (squeeze_sq (S num) num) as (s' & E); [lia|]. rewrite E. cbn [bind]. reflexivity.
    - apply fg_then with (1 := Hw) (2 := block3_spec (firstn 3 data) c E3 B3 Hw)
        (G := fun w v => Ok (sq_v (S num) num (absorb_v K P (map (map w) (chunks CRHF_RATE (skipn CRHF_RATE data))) (peval_v K P v)))).
      intros b c1 W1 L1 B1.
      apply fg_then with (1 := W1) (2 := permutation_spec b c1 W1 B1)
        (G := fun w v => Ok (sq_v (S num) num (absorb_v K P (map (map w) (chunks CRHF_RATE (skipn CRHF_RATE data))) v))).
      intros s c2 W2 L2 B2.
      assert (Hcs' : Forall (fun b => length b = 3%nat /\ bdl b (num_vars c2)) (chunks CRHF_RATE (skipn CRHF_RATE data))).
      { eapply Forall_impl; [|exact Hcs]. cbn. intros a [? ?]. split; auto. eapply bdl_le; [eassumption|lia]. }
      apply fg_then with (1 := W2) (2 := absorb_blocks_spec 3 block3 block3_spec _ s c2 W2 B2 Hcs') (G := fun w v => Ok (sq_v (S num) num v)).
      intros t c3 W3 L3 B4. apply fg_rok. apply squeeze_spec; auto.
  Qed.
  Lemma next_len_ok len mult : (0 < mult)%nat -> (exists k, compute_len_to_next_multiple len mult = Ok (len + k)%nat /\ (len + k) mod mult = 0)%nat.
  Proof.
    clear. intros Hm. unfold compute_len_to_next_multiple. destruct (Nat.eqb_spec mult 0); [lia|].
    destruct (Nat.eqb_spec (len mod mult) 0) as [E|E].
    - exists 0%nat. now rewrite Nat.add_0_r.
    - pose proof (Nat.mod_upper_bound len mult ltac:(lia)). exists (mult - len mod mult)%nat. split; [f_equal; lia|].
      rewrite (Nat.div_mod_eq len mult) at 1. replace (mult * (len / mult) + len mod mult + (mult - len mod mult))%nat with ((len / mult + 1) * mult)%nat by nia.
      apply Nat.mod_mul. lia.
  Qed.
  Lemma fg_next_len {A' B'} len mult n (f : nat -> circ K A') c (rd' : (nat -> K) -> A' -> B') G bd' :
    compute_len_to_next_multiple len mult = Ok n -> fg (f n) c rd' G bd' -> fg (cbind (next_len len mult) f) c rd' G bd'.
  Proof. intros E H. apply fg_lift with n; auto. now rewrite E. Qed.
  Lemma map_repeat {A B} (f : A -> B) x n : map f (repeat x n) = repeat (f x) n.
  Proof. clear. induction n; cbn; congruence. Qed.
  Lemma bdl_repeat v k n : (v < n)%nat -> bdl (repeat v k) n.
  Proof. clear. intros H. apply Forall_forall. intros x Hx. apply repeat_spec in Hx. now subst. Qed.
  Lemma expect_ok {A} (x : A) (r : outcome unit A) : Ok x = r -> Ok x = expect r.
  Proof. now intros <-. Qed.
  Lemma sponge_with_padding_spec data num c : wf c -> bdl data (num_vars c) -> data <> [] ->
    fg (rescue_sponge_with_padding P data num) c rok (fun w => sponge_with_bit_padding P (map w data) num) (fun l m => bdl l m /\ length l = num).
  Proof.
    intros Hw Hb Hne. unfold rescue_sponge_with_padding. pose proof (wf_two _ Hw) as H2.
    destruct (Nat.eqb_spec (length data) 0) as [E|_]; [destruct data; [congruence|discriminate E]|].
    destruct (next_len_ok (length data + 1) CRHF_RATE ltac:(unfold CRHF_RATE; lia)) as (k & Ek & Em). apply fg_next_len with (1 := Ek).
    replace (length data + 1 + k - length data - 1)%nat with k by lia.
    eapply fg_imp; [| |apply sponge_no_padding_spec; auto].
    - cbn beta. intros l w [E0 E1] E. unfold sponge_with_bit_padding, pad_with_zeros. rewrite app_length, map_length. cbn [length].
      rewrite Ek. cbn [bind]. rewrite firstn_all2 by (rewrite app_length, map_length; cbn; lia).
      replace (length data + 1 + k - (length data + 1))%nat with k by lia. apply expect_ok. unfold rok in E. rewrite E. f_equal.
      rewrite !map_app, map_repeat. cbn [map]. rewrite E0, E1, <- app_assoc. reflexivity.
    - auto.
    - repeat apply bdl_app; auto; [repeat constructor; lia|apply bdl_repeat; lia].
    - intros E. apply app_eq_nil in E as [E _]. contradiction.
    - rewrite !app_length, repeat_length. cbn [length]. rewrite Nat.add_assoc. exact Em.
  Qed.

  (** *** The keyed sponge and the commitment *)
  Lemma keyed_no_padding_spec key data c : wf c -> bdl data (num_vars c) -> (key < num_vars c)%nat -> (length data mod 4 = 0)%nat ->
    fg (keyed_sponge_no_padding P key data) c (fun w o => Ok [w o]) (fun w => prf_no_padding P (w key) (map w data) 1) out.
  Proof.
    intros Hw Hb Hk Hm. pose proof (wf_two _ Hw) as H2. unfold keyed_sponge_no_padding.
    change (length data mod STATE_SIZE)%nat with (length data mod 4)%nat. rewrite Hm. cbn [negb Nat.eqb].
    pose proof (chunks_all 4 data _ ltac:(lia) Hm Hb) as Hc.
    assert (Hs : sb (SV 0 0 0 key) (num_vars c)) by sbt.
    eapply fg_ext with (F := fun w => Ok [w0 (absorb_v K P (map (map w) (chunks STATE_SIZE data)) (rv w (SV 0 0 0 key)))]).
    - intros w [E0 _]. unfold prf_no_padding. rewrite map_length. change (length data mod STATE_SIZE)%nat with (length data mod 4)%nat. rewrite Hm. cbn [negb Nat.eqb].
      rewrite (absorb_ok K P Hkeys) by (unfold STATE_SIZE; lia). cbn [bind]. rewrite (squeeze_small K P) by (unfold STATE_SIZE; lia). cbn [bind].
      rewrite chunks_map' by (unfold STATE_SIZE; lia). unfold rv. cbn [s0 s1 s2 s3]. rewrite E0. reflexivity.
    - apply fg_then with (1 := Hw) (2 := absorb_blocks_spec 4 block4 block4_spec _ _ c Hw Hs Hc) (G := fun _ v => Ok [w0 v]).
      intros s c1 W1 L1 B1. apply fg_ret; [sbt|]. reflexivity.
  Qed.
  Lemma keyed_zero_padding_spec key data c : wf c -> bdl data (num_vars c) -> (key < num_vars c)%nat -> data <> [] ->
    fg (keyed_sponge_zero_padding P key data) c (fun w o => Ok [w o]) (fun w => prf_zero_padding P (w key) (map w data) 1) out.
  Proof.
    intros Hw Hb Hk Hne. unfold keyed_sponge_zero_padding. pose proof (wf_two _ Hw) as H2.
    destruct (Nat.eqb_spec (length data) 0) as [E|_]; [destruct data; [congruence|discriminate E]|].
    destruct (next_len_ok (length data) STATE_SIZE ltac:(unfold STATE_SIZE; lia)) as (k & Ek & Em). apply fg_next_len with (1 := Ek).
    replace (length data + k - length data)%nat with k by lia.
    eapply fg_imp; [| |apply keyed_no_padding_spec; auto].
    - cbn beta. intros l w [E0 _] E. unfold prf_zero_padding, pad_with_zeros. rewrite map_length. rewrite Ek. cbn [bind].
      rewrite firstn_all2 by (rewrite map_length; lia). replace (length data + k - length data)%nat with k by lia. rewrite E. f_equal.
      rewrite map_app, map_repeat, E0. reflexivity.
    - auto.
    - apply bdl_app; auto. apply bdl_repeat; lia.
    - rewrite app_length, repeat_length. exact Em.
  Qed.
  Lemma sponge_len xs n r : Ok r = sponge_no_padding P xs n -> length r = n.
  Proof.
    unfold sponge_no_padding. destruct (negb _); [discriminate|]. rewrite (absorb_ok K P Hkeys) by (unfold CRHF_RATE; lia). cbn [bind].
    destruct (squeeze_ok K P Hkeys CRHF_RATE n (absorb_v K P (chunks CRHF_RATE xs) v4_zero)) as (o & s' & -> & E); [unfold CRHF_RATE; lia|].
    cbn [bind]. now intros [= ->].
  Qed.
  Lemma commit_spec data r c : wf c -> bdl data (num_vars c) -> (r < num_vars c)%nat ->
    fg (commit_g P data r) c (fun w o => Ok (w o)) (fun w => RescueModel.commit P (map w data) (Some (w r))) out.
  Proof.
    intros Hw Hb Hr. unfold commit_g, pad_vars. pose proof (wf_two _ Hw) as H2. set (l := r :: data) in *.
    destruct (next_len_ok (length l) CRHF_RATE ltac:(unfold CRHF_RATE; lia)) as (k & Ek & Em).
    assert (En : (if (length l mod CRHF_RATE =? 0)%nat then length l else length l + CRHF_RATE - length l mod CRHF_RATE)%nat = (length l + k)%nat).
    { unfold compute_len_to_next_multiple in Ek. cbn [CRHF_RATE Nat.eqb] in Ek. now injection Ek. }
    rewrite En, firstn_all2 by lia. replace (length l + k - length l)%nat with k by lia.
    assert (Hl : bdl (l ++ repeat 0%nat k) (num_vars c)) by (apply bdl_app; [constructor; auto|apply bdl_repeat; lia]).
    eapply fg_bind with (1 := Hw) (2 := sponge_no_padding_spec (l ++ repeat 0%nat k) 1 c Hw Hl ltac:(unfold l; discriminate) ltac:(rewrite app_length, repeat_length; exact Em))
      (G := fun a w => match a with v :: _ => Ok (w v) | [] => Panic end).
    - intros a c1 W1 L1 _ [B1 E1]. destruct a as [|v [|? ?]]; try discriminate E1. inversion_clear B1.
      unfold idx, lift. unfold fg, RescueGadgetProofs.fg, CircuitProofs.gspec. cbn. exists v, dnil. rewrite capp_nil.
      split; [reflexivity|]. split; [apply plain_nil|]. repeat split; auto; try constructor. cbn. unfold out. now rewrite Nat.add_0_r.
    - intros a w [E0 _] E. unfold RescueModel.commit, fixed_crhf, sponge_with_zero_padding, pad_with_zeros.
      change (w r :: map w data) with (map w l). rewrite map_length, Ek. cbn [bind].
      rewrite firstn_all2 by (rewrite map_length; lia). replace (length l + k - length l)%nat with k by lia.
      rewrite map_app, map_repeat, E0 in E. rewrite <- E.
      assert (Ha1 : length a = 1%nat) by (rewrite <- (map_length w); eapply sponge_len; exact E).
      destruct (Nat.eqb_spec (length l mod CRHF_RATE) 0) as [Hz|Hz].
      + assert (k = 0)%nat by (injection En; lia). subst k. cbn [repeat] in E. rewrite app_nil_r in E. rewrite <- E. unfold rok. cbn [bind]. rewrite map_length, Ha1.
        destruct a as [|v [|? ?]]; try discriminate Ha1. reflexivity.
      + unfold rok. cbn [bind expect]. rewrite map_length, Ha1.
        destruct a as [|v [|? ?]]; try discriminate Ha1. reflexivity.
  Qed.
End RescueSpec.
