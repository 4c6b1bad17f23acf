(** Properties of the verifier circuit (C80): what the part of the Plonk verifier that
    runs inside a circuit computes, against the verifier that runs outside. *)

From Coq Require Import String List Arith ZArith Znumtheory Bool Lia Ring Field.
From Verif Require Import Base ListAux Alg Poly KzgModel KzgFft PlonkModel PlonkPoly LagrangeProofs CircuitModel CircuitProofs GadgetModel GadgetProofs
  BitProofs SatProofs SatGadget BuiltProofs FinalProps IndepProofs EccModel ModArithModel ModArithProofs CircuitProps ModArithProps RescueModel PlonkVerifierModel PlonkVerifierOps PlonkVerifierEval.
Import ListNotations.
Local Open Scope fld_scope.
Local Open Scope circ_scope.

Section C80.
  Context {K Fr : fld}.
  Variable zval : K -> Z.
  Variable q : Z.
  Variable nb L m rb : nat.
  Hypothesis HN : nn_params K zval q nb L m rb.
  Notation M := (2 ^ Z.of_nat m)%Z.
  Notation B := (2 ^ Z.of_nat rb)%Z.
  (** The scalar field, of the prime [P]. *)
  Variable P : Z.
  Hypothesis HP : (0 < P < M * M)%Z.
  Variable zr : Fr -> Z.
  Variables tb tL : nat.
  Hypothesis HFr : BitProofs.pfield Fr zr P tb tL.
  Hypothesis Htb : (tb < nb)%nat.
  Variable two : option K.
  Hypothesis Htwo : two_pow m two = fZ M.
  Notation fv := (fvar (K := K)).
  Notation accepts := (accepts zval).
  Notation in_range := (in_range zval m).
  Notation value := (value zval m).
  (** The groups of the commitments, and the element that two coordinates stand for; the
      inverse of a point negates its first coordinate. *)
  Variables V1 V2 : vsp Fr.
  Variable dec : K -> K -> V1.
  Hypothesis Hdec : forall x y, dec (- x) y = Alg.vopp (dec x y).
  Variable okey : vparam Fr V1 V2.
  (** The domain, of a size that is a power of two. *)
  Variable radix2 : nat -> option (dom Fr).
  Variable d : dom Fr.
  Variable k : nat.
  Notation n := (dsize d).
  Hypothesis Hd : dom_ok Fr d.
  Hypothesis Hn : n = (2 ^ k)%nat.
  Hypothesis Hn2 : (2 <= n)%nat.
  Hypothesis HnP : (Z.of_nat n < P)%Z.
  Hypothesis Hr2 : radix2 n = Some d.
  (** The record that [partial_verify_circuit] builds. *)
  Definition vinfo : nninfo := mk_nn m two (fZ P) (pelem m P).

  (** The value of an element in the scalar field. *)
  Definition sv (ws : list K) (x : fv) : Fr := fZ (value ws x).
  Definition pt (ws : list K) (p : pvar) : V1 := dec (asg ws (fst p)) (asg ws (snd p)).
  (** A challenge is the integer value of a native variable, read in the scalar field. *)
  Definition chal (ws : list K) (v : nat) : Fr := fZ (zval (asg ws v)).

  (** What the verifier outside is given for an assignment of the circuit. *)
  Definition evals_of (ws : list K) (pe : pevar (K := K)) : proof_evals Fr :=
    mk_pe Fr (map (sv ws) (ev_wires pe)) (map (sv ws) (ev_sigmas pe)) (sv ws (ev_next pe)).
  Definition key_of (ws : list K) (vk : vkvar (Fr := Fr)) : vkey Fr V1 V2 :=
    mk_vkey Fr V1 V2 (kv_n vk) (kv_inputs vk) (map (pt ws) (kv_sigmas vk)) (map (pt ws) (kv_sels vk)) (kv_k vk) okey (kv_merged vk) None.
  Definition proof_of (ws : list K) (b : bproofvar (K := K)) : batch_proof Fr V1 :=
    mk_bp Fr V1 (map (map (pt ws)) (bv_wires b)) (map (pt ws) (bv_perms b)) (map (evals_of ws) (bv_evals b)) (repeat None (length (bv_evals b)))
      (map (pt ws) (bv_quots b)) (pt ws (bv_open b)) (pt ws (bv_shifted b)).
  Definition challenges_of (ws : list K) (r : rawch) : challenges Fr :=
    mk_ch Fr None (chal ws (rc_alpha r)) (chal ws (rc_beta r)) (chal ws (rc_gamma r)) (chal ws (rc_zeta r)) (chal ws (rc_v r)) (chal ws (rc_u r)).

  (** *** Inputs that the honest run is made with *)
  Definition canonical (c : circuit K) (x : fv) : Prop := elem_of m c x /\ in_range (witness c) x /\ (value (witness c) x < P)%Z.
  Definition point_in (c : circuit K) (p : pvar) : Prop := (fst p < num_vars c)%nat /\ (snd p < num_vars c)%nat.
  Definition all_evals (b : bproofvar (K := K)) : list fv := concat (map (fun pe => ev_wires pe ++ ev_sigmas pe ++ [ev_next pe]) (bv_evals b)).
  Record inputs_ok (c : circuit K) (N : nat) (vks : list (vkvar (Fr := Fr))) (pi : list fv) (b : bproofvar (K := K)) (r : rawch) : Prop := {
    io_n : (1 <= N)%nat; io_nb : (Z.of_nat N <= B)%Z;
    io_vks : length vks = N; io_perms : length (bv_perms b) = N; io_evals : length (bv_evals b) = N; io_wires : length (bv_wires b) = N;
    io_quots : bv_quots b <> [];
    io_five : Forall (fun pe => 5 <= length (ev_wires pe))%nat (bv_evals b);
    io_inst : forall i vk pe wcs, nth_error vks i = Some vk -> nth_error (bv_evals b) i = Some pe -> nth_error (bv_wires b) i = Some wcs ->
      length (ev_wires pe) = length wcs /\ length (ev_sigmas pe) = Nat.min (length wcs - 1) (length (kv_sigmas vk));
    io_keys : Forall (fun vk => kv_merged vk = true /\ kv_n vk = n /\ kv_inputs vk = length pi /\ kv_sigmas vk <> []) vks;
    io_pub : (length pi / 2 <= n)%nat; io_pubb : (Z.of_nat (2 * (length pi / 2)) <= B)%Z;
    io_cpi : Forall (canonical c) pi;
    io_cev : Forall (canonical c) (all_evals b);
    io_pts : Forall (point_in c) (bv_perms b ++ bv_quots b ++ concat (bv_wires b));
    io_kpts : Forall (point_in c) (concat (map (fun vk => kv_sigmas vk ++ kv_sels vk) vks));
    io_ch : Forall (fun v => (v < num_vars c)%nat /\ (zval (asg (witness c) v) < P)%Z) [rc_alpha r; rc_beta r; rc_gamma r; rc_zeta r; rc_u r; rc_v r] }.

  (** *** What the result says *)
  Definition combined (ws : list K) (l : list (fv * pvar)) : V1 := Alg.vsum (map (fun sb => Alg.vmul (sv ws (fst sb)) (pt ws (snd sb))) l).
  Definition matches (ws : list K) (o : pcsvar (K := K)) (info : pcs_info Fr V1) : Prop :=
    in_u Fr V1 info = sv ws (pc_u o) /\ in_point Fr V1 info = sv ws (pc_point o) /\ in_next Fr V1 info = sv ws (pc_next o) /\
    in_eval Fr V1 info = sv ws (pc_eval o) /\ sb_msm Fr V1 (in_comm Fr V1 info) = combined ws (pc_comm o) /\
    in_open Fr V1 info = pt ws (pc_open o) /\ in_shifted Fr V1 info = pt ws (pc_shifted o).

  (** The points of the keys and of the proof, and a property of their coordinates. *)
  Definition base_points (vks : list (vkvar (Fr := Fr))) (b : bproofvar (K := K)) : list pvar :=
    bv_perms b ++ bv_quots b ++ concat (bv_wires b) ++ concat (map (fun vk => kv_sigmas vk ++ kv_sels vk) vks).
  Definition point_on (on : K -> K -> Prop) (ws : list K) (p : pvar) : Prop := on (asg ws (fst p)) (asg ws (snd p)).

  (** The gates after the transcript: challenges to elements, then everything else. *)
  Definition verifier_tail (N : nat) (vks : list (vkvar (Fr := Fr))) (pi : list fv) (b : bproofvar (K := K)) (r : rawch) : circ K (pcsvar (K := K)) :=
    ch <- challenge_var_to_fp_elem_var zval q nb L vinfo r ;;
    pcs_info_from_challenges zval q nb L zr P tb radix2 vinfo d vks (repeat pi N) b ch.

  Lemma uspec_gadget {A} (mm : circ K A) c (S : (nat -> K) -> A -> Prop) (R : A -> circuit K -> Prop) : good c -> ptype c = Ultra rb ->
    uspec zval m rb mm c S R ->
    exists o c' us, mm c = (Ok o, c') /\ good c' /\ extends c c' /\ (forall Tb, reached c Tb -> reached c' Tb) /\ R o c' /\ (exists l, witness c' = witness c ++ l) /\ Forall (elem_of m c') us /\ Forall (in_range (witness c')) us /\
      (forall pub, accepts c (witness c) pub -> accepts c' (witness c') pub) /\
      (forall c'' ws pub, extends c' c'' -> bounded c'' -> accepts c'' ws pub -> Forall (in_range ws) us -> S (asg ws) o).
  Proof.
    intros G Ht (o & dl & E & Pl & us & U1 & U2 & U3 & U4).
    assert (Hg : gspec zval mm c (fun w o => Forall (ModArithProofs.small zval m w) us -> S w o) (fun _ => True) (fun _ _ => True)).
    { exists o, dl. split; auto. split; auto. rewrite Ht. split; [auto|]. split; [intros w Hb Hh _; apply U3; auto|exact I]. }
    destruct (gspec_gadget zval mm c _ (fun _ => True) _ G (fun _ _ _ H => H) Hg) as (o' & c' & E' & G' & Ex & _ & Wl & Hsnd & _ & Hcmp).
    rewrite E in E'. injection E' as <- <-. exists o, (capp c dl), us. do 3 (split; [auto|]). split; [intros Tb Rc; exact (r_gadget c Tb A zval mm _ _ _ o _ Rc Hg E)|]. do 2 (split; [auto|]).
    split. { eapply Forall_impl; [|exact U1]. intros x ((X1 & X2) & (X3 & X4) & _). repeat split; auto. }
    split. { eapply Forall_impl; [|exact U1]. intros x (_ & _ & X). exact X. }
    split; [intros pub Ha; apply Hcmp; auto|]. intros c'' ws pub X Bd Ac Hus. exact (Hsnd c'' ws pub X Bd Ac Hus).
  Qed.

  Lemma canonical_can c x : canonical c x -> can zval m (P mod M) (P / M) c x.
  Proof.
    destruct (P_split zval q nb L m rb HN P HP) as (_ & _ & EP). intros ((E1 & E2 & E3 & E4) & Hr & Hv). split; [|rewrite EP; exact Hv].
    split; [split; auto|]. split; [split; auto|exact Hr].
  Qed.
  Lemma inputs_setup c N vks pi b r : inputs_ok c N vks pi b r -> setup zval m rb (P mod M) (P / M) d c N vks pi b.
  Proof.
    intros [I1 I2 I3 I4 I5 I6 I7 I8 I9 I10 I11 I12 I13 I14 I15 I16 _]. unfold setup. split; [auto|]. split; [auto|].
    split. { unfold shape. do 5 (split; [auto|]). split.
      - apply Forall_forall. intros wcs Hin. apply In_nth_error in Hin as (i & Ei).
        assert (Hi : (i < N)%nat) by (rewrite <- I6; apply nth_error_Some; congruence).
        destruct (nth_error vks i) as [vk|] eqn:Ev; [|apply nth_error_None in Ev; lia].
        destruct (nth_error (bv_evals b) i) as [pe|] eqn:Ee; [|apply nth_error_None in Ee; lia].
        destruct (I9 i vk pe wcs Ev Ee Ei) as [L1 _]. rewrite Forall_forall in I8. pose proof (I8 pe (nth_error_In _ _ Ee)). lia.
      - eapply Forall_impl; [|exact I10]. intros vk (_ & _ & _ & H). exact H. }
    split; [exact I9|]. split; [auto|]. split. { eapply Forall_impl; [|exact I10]. intros vk (H1 & H2 & H3 & _). auto. }
    do 2 (split; [auto|]). split; [eapply Forall_impl; [apply canonical_can|exact I13]|]. split; [eapply Forall_impl; [apply canonical_can|exact I14]|].
    split; [exact I15|exact I16].
  Qed.

  (** For all keys, inputs, proofs and challenges of the right shape, the gates succeed, an
      honest run is accepted, and every accepted assignment whose unchecked elements have
      limbs in range carries the opening claim of the verifier outside for the same
      challenges.  The unchecked elements are listed by [us]; the honest run keeps them in
      range, and the results of sums, negations and challenges are among them. *)
  Theorem C80_opening_claim_partial c N vks pi b r : good c -> ptype c = Ultra rb -> base (asg (witness c)) -> inputs_ok c N vks pi b r ->
    fpow (chal (witness c) (rc_zeta r)) n <> 1 ->
    exists o c' us, verifier_tail N vks pi b r c = (Ok o, c') /\ good c' /\ extends c c' /\ (forall Tb, reached c Tb -> reached c' Tb) /\
      (exists l, witness c' = witness c ++ l) /\ Forall (elem_of m c') us /\ Forall (in_range (witness c')) us /\
      (Forall (canonical c') (pc_u o :: pc_point o :: pc_next o :: pc_eval o :: map fst (pc_comm o)) /\ Forall (point_in c') (map snd (pc_comm o)) /\
        pc_open o = bv_open b /\ pc_shifted o = bv_shifted b) /\
      (forall pub, accepts c (witness c) pub -> accepts c' (witness c') pub) /\
      (forall c'' ws pub, extends c' c'' -> bounded c'' -> accepts c'' ws pub -> Forall (in_range ws) (us ++ pi ++ all_evals b) ->
        fpow (chal ws (rc_zeta r)) n <> 1 ->
        Forall (in_range ws) (pc_u o :: pc_point o :: pc_next o :: pc_eval o :: map fst (pc_comm o)) /\
        (forall on : K -> K -> Prop, (forall x y, on x y -> on (- x) y) -> Forall (point_on on ws) (base_points vks b) -> Forall (point_on on ws) (map snd (pc_comm o))) /\
        forall T extra,
          compute_challenges Fr V1 V2 T (map (key_of ws) vks) (repeat (map (sv ws) pi) N) (proof_of ws b) extra = Ok (challenges_of ws r) ->
          exists info, prepare_pcs_info Fr V1 V2 T d (map (key_of ws) vks) (repeat (map (sv ws) pi) N) (proof_of ws b) extra = Ok info /\
            matches ws o info).
  Proof.
    intros G Ht Hb Hi Hz. destruct (np_hyps zval q nb L m rb HN P HP) as (H1 & H2 & H3 & H4 & H5 & H6 & H7 & H8).
    destruct (P_split zval q nb L m rb HN P HP) as (E0 & E1 & EP).
    assert (Hst : st rb c) by (split; [apply (gd_wf _ G)|split; [exact Ht|exact Hb]]).
    pose proof (u_verify (Fr := Fr) zval q nb L (np_field _ _ _ _ _ _ _ HN) m rb H1 H2 H3 H4 H5 H6 (P mod M) (P / M) E0 E1) as U. rewrite EP in U.
    pose (I := base_points vks b). pose (onp := fun (w : nat -> K) (p : pvar) => forall on : K -> K -> Prop, (forall x y, on x y -> on (- x) y) -> Forall (fun p => on (w (fst p)) (w (snd p))) I -> on (w (fst p)) (w (snd p))).
    assert (Hon : forall w p o, negp w p o -> onp w p -> onp w o).
    { intros w p o [X1 X2] Y on Hc Hi0. rewrite X1, X2. apply Hc. apply Y; assumption. }
    assert (HI : forall w l, incl l I -> Forall (onp w) l).
    { intros w l Hl. apply Forall_forall. intros p Hp on _ Hi0. rewrite Forall_forall in Hi0. apply (Hi0 p). apply Hl, Hp. }
    assert (I1 : incl (bv_perms b ++ bv_quots b ++ concat (bv_wires b)) I).
    { unfold I, base_points. intros p Hp. rewrite !in_app_iff in *. tauto. }
    assert (I2 : incl (concat (map (fun vk => kv_sigmas vk ++ kv_sels vk) vks)) I).
    { unfold I, base_points. intros p Hp. rewrite !in_app_iff. tauto. }
    specialize (U ltac:(lia) H7 H8 zr tb tL HFr two Htwo V1 V2 dec okey radix2 d k Hd Hn HnP Hr2 Hdec Htb onp Hon Hn2 c vks pi b r N Hst).
    assert (Hraw : Forall (rawok zval m (P mod M) (P / M) c) [rc_alpha r; rc_beta r; rc_gamma r; rc_zeta r; rc_u r; rc_v r]).
    { pose proof (io_ch _ _ _ _ _ _ Hi) as Hch; eapply Forall_impl; [|exact Hch]. intros v [A1 A2]. split; [exact A1|]. rewrite EP. exact A2. }
    specialize (U Hraw (inputs_setup _ _ _ _ _ _ Hi) Hz).
    destruct (uspec_gadget _ c _ _ G Ht U) as (o & c' & us & E & G' & X & Rch & R & Wl & U1 & U2 & Hc & Hs).
    exists o, c', us. split; [exact E|]. do 6 (split; [auto|]). split; [|split; [exact Hc|]].
    { assert (Cc : forall x, can zval m (P mod M) (P / M) c' x -> canonical c' x).
      { intros x ((X1 & X2 & X3) & X4). rewrite EP in X4. destruct X1, X2. split; [repeat split; auto|]. split; [exact X3|exact X4]. }
      destruct R as (R1 & R2 & R3 & R4 & R5 & R6 & R7). split; [|split; [|split; assumption]].
      - do 4 (constructor; [apply Cc; assumption|]). rewrite Forall_map. eapply Forall_impl; [|exact R5]. intros p [A _]. apply Cc, A.
      - rewrite Forall_map. eapply Forall_impl; [|exact R5]. intros p [_ A]. exact A. }
    intros c'' ws pub X' Bd Ac Hr Hz'. apply Forall_app in Hr as [Hr Hr2']. apply Forall_app in Hr2' as [Hr2' Hr3].
    destruct (Hs c'' ws pub X' Bd Ac Hr Hr2' Hr3 (HI _ _ I1) (HI _ _ I2) Hz') as [(S1 & S2 & S3 & S4 & S5) Hf]. split; [|split].
    - do 4 (constructor; [assumption|]). rewrite Forall_map. eapply Forall_impl; [|exact S5]. intros p [A _]. exact A.
    - intros on Hc0 Hi0. rewrite Forall_map. eapply Forall_impl; [|exact S5]. intros p [_ A]. exact (A on Hc0 Hi0).
    - intros T extra Hcc. apply (Hf T extra Hcc).
  Qed.

  (** [prepare_pcs_info_var] is the transcript followed by these gates. *)
  Theorem C80_prepare c N vks pi b r c1 RP : inputs_ok c1 N vks pi b r ->
    raw_challenges zval q nb L tb RP vks (repeat pi N) b c = (Ok r, c1) ->
    prepare_pcs_info_var zval q nb L zr P tb radix2 vinfo RP d vks (repeat pi N) b c = verifier_tail N vks pi b r c1.
  Proof.
    intros Hi E. unfold prepare_pcs_info_var, bv_len. rewrite (io_vks _ _ _ _ _ _ Hi), (io_perms _ _ _ _ _ _ Hi), repeat_length, Nat.eqb_refl. cbn [negb orb].
    assert (Hck : forall l, Forall (fun vk => kv_merged vk = true /\ kv_n vk = n /\ kv_inputs vk = length pi /\ kv_sigmas vk <> []) l -> forall N' c0,
      check_instances d l (repeat pi N') c0 = (Ok tt, c0)).
    { induction 1 as [|vk l (_ & A1 & A2 & _) _ IH]; intros N' c0; [destruct N'; reflexivity|]. destruct N' as [|N']; [reflexivity|].
      unfold check_instances. cbn [repeat combine iterM]. unfold cbind. cbn [fst snd]. rewrite A1, A2, !Nat.eqb_refl. cbn [negb]. unfold ret at 1. apply IH. }
    unfold compute_challenges_vars, verifier_tail. unfold cbind. rewrite (Hck vks (io_keys _ _ _ _ _ _ Hi)), E. reflexivity.
  Qed.
End C80.

(** *** A concrete case
    Scalars modulo 13 inside a circuit over the field of 131 elements, the domain of four
    elements generated by 5, one key with four sigmas and thirteen selectors. *)
Lemma prime_13 : prime 13. Proof. apply primeb_prime. vm_compute. reflexivity. Qed.
Definition F13 : fld := Zp 13 prime_13.
Definition z13 : F13 -> Z := zv 13.
Definition e13 (z : Z) : F13 := zmk 13 z.
Lemma F13_pfield : BitProofs.pfield F13 z13 13 4 64.
Proof. apply Zp_pfield; cbn; lia. Qed.
Definition d13 : dom F13 := mk_dom F13 4 (e13 5).
Definition radix13 (n : nat) : option (dom F13) := if (n =? 4)%nat then Some d13 else None.
Lemma d13_ok : dom_ok F13 d13.
Proof.
  assert (EF : forall x y : F13, feqb x y = true -> x = y) by (intros x y; apply feqb_eq).
  assert (NF : forall x y : F13, feqb x y = false -> x <> y) by (intros x y H ->; rewrite (proj2 (feqb_eq F13 y y)) in H; congruence).
  split; [cbn; lia|apply EF; vm_compute; reflexivity| |apply NF; vm_compute; reflexivity].
  cbn [d13 dsize]. intros [|[|[|[|i]]]] Hi; try lia; apply NF; vm_compute; reflexivity.
Qed.
Section Signs.
  Variable K : fld.
  Add Field Kc80s : (fth K).
  Lemma sub0 (x : K) : 0 - x = - x. Proof. ring. Qed.
  Lemma opp2 (x : K) : x = - - x. Proof. ring. Qed.
End Signs.
(** A group of order 13, and an odd reading of the first coordinate. *)
Definition dec13 (x y : F131) : self_vsp F13 := if (z131 x <=? 65)%Z then e13 (z131 x) else (- e13 (131 - z131 x))%F.
Lemma dec13_opp x y : dec13 (- x) y = Alg.vopp (dec13 x y).
Proof.
  unfold dec13. assert (Hr : (0 <= z131 x < 131)%Z) by apply (pf_range _ _ _ _ _ F131_pfield x).
  assert (E : z131 (- x)%F = ((131 - z131 x) mod 131)%Z).
  { replace (- x)%F with (fZ (131 - z131 x) : F131); [apply (pf_zval _ _ _ _ _ F131_pfield)|].
    rewrite fZ_sub. rewrite (pf_fZ _ _ _ _ _ F131_pfield x). replace (fZ 131 : F131) with (0 : F131) by (apply feqb_eq; vm_compute; reflexivity).
    apply sub0. }
  rewrite E. destruct (Z.eq_dec (z131 x) 0) as [E0|E0].
  - rewrite E0. change ((131 - 0) mod 131)%Z with 0%Z. cbn [Z.leb Z.compare]. apply feqb_eq. vm_compute. reflexivity.
  - rewrite Z.mod_small by lia. destruct (Z.leb_spec (131 - z131 x) 65), (Z.leb_spec (z131 x) 65); try lia.
    + exact (opp2 F13 (e13 (131 - z131 x))).
    + replace (131 - (131 - z131 x))%Z with (z131 x) by ring. reflexivity.
Qed.
Definition xpt : pvar := (2, 3)%nat.
Definition ypt : pvar := (6, 7)%nat.
Definition vk13 : vkvar (Fr := F13) := mk_kv [xpt; ypt; xpt; ypt; ypt] (repeat xpt 6 ++ repeat ypt 7) true 4 2 (map e13 [1; 2; 3; 4; 5]%Z).
Definition bp13 : bproofvar (K := F131) := mk_bpv [[xpt; ypt; ypt; xpt; xpt]] [ypt] [mk_pev [fx; fy; fx; fy; fy] [fy; fx; fy; fx] fx] [xpt; ypt; ypt] xpt ypt.
(** The challenges are the variables of the values 1 and 3; [zeta] is 3. *)
Definition raw13 : rawch := mk_raw 6 2 6 6 2 6.
Definition vinfo13 : nninfo (K := F131) := vinfo 2 13 None.
(** A transcript that gives a list of challenges. *)
Definition list_transcript (l : list F13) : transcript F13 (self_vsp F13) (self_vsp F13) :=
  mk_transcript F13 (self_vsp F13) (self_vsp F13) (list F13) (fun _ => l) (fun s _ _ => Ok s) (fun s _ _ => Ok s) (fun s _ _ => Ok s) (fun s _ _ => Ok s)
    (fun s _ => match s with x :: s => Ok (x, s) | [] => Panic end).
Definition ok13 : vparam F13 (self_vsp F13) (self_vsp F13) := mk_vparam F13 (self_vsp F13) (self_vsp F13) (e13 1) (e13 1) (e13 2) [] [].

Theorem C80_instance :
  nn_params F131 z131 131 8 64 2 2 /\ (0 < 13 < 2 ^ Z.of_nat 2 * 2 ^ Z.of_nat 2)%Z /\ BitProofs.pfield F13 z13 13 4 64 /\
  two_pow 2 None = (fZ (2 ^ Z.of_nat 2) : F131) /\ dom_ok F13 d13 /\ radix13 4 = Some d13 /\
  good nn_circuit /\ ptype nn_circuit = Ultra 2 /\ base (asg (witness nn_circuit)) /\ accepts z131 nn_circuit (witness nn_circuit) [] /\
  inputs_ok z131 2 2 13 d13 nn_circuit 1 [vk13] [fx; fy] bp13 raw13 /\
  fpow (chal z131 (witness nn_circuit) (rc_zeta raw13) : F13) 4 <> 1 /\
  exists T, compute_challenges F13 _ _ T (map (key_of (self_vsp F13) (self_vsp F13) dec13 ok13 (witness nn_circuit)) [vk13])
    (repeat (map (sv z131 2 (witness nn_circuit)) [fx; fy]) 1) (proof_of z131 2 (self_vsp F13) dec13 (witness nn_circuit) bp13) None =
    Ok (challenges_of z131 (witness nn_circuit) raw13).
Proof.
  destruct C34_instance_params as [HN HP]. destruct C34_instance as (G & T & Hb & Ex & Ey & Rx & Ry & Vx & Vy & _ & _ & Ac).
  assert (EF : forall x y : F131, feqb x y = true -> x = y) by (intros x y; apply feqb_eq).
  assert (NF : forall x y : F13, feqb x y = false -> x <> y) by (intros x y H ->; rewrite (proj2 (feqb_eq F13 y y)) in H; congruence).
  do 2 (split; [assumption|]). split; [apply F13_pfield|]. split; [apply EF; vm_compute; reflexivity|]. split; [apply d13_ok|]. split; [reflexivity|].
  do 4 (split; [assumption|]).
  assert (Cx : canonical z131 2 13 nn_circuit fx) by (split; [exact Ex|split; [exact Rx|rewrite Vx; lia]]).
  assert (Cy : canonical z131 2 13 nn_circuit fy) by (split; [exact Ey|split; [exact Ry|rewrite Vy; lia]]).
  assert (Nv : num_vars nn_circuit = 10%nat) by (vm_compute; reflexivity).
  assert (Px : point_in nn_circuit xpt) by (split; rewrite Nv; cbn; lia).
  assert (Py : point_in nn_circuit ypt) by (split; rewrite Nv; cbn; lia).
  split; [|split; [apply NF; vm_compute; reflexivity|]].
  - split; cbn [length bv_perms bv_evals bv_wires bp13 bv_quots ev_wires d13 dsize]; try reflexivity; try (cbn; lia); try discriminate.
    + repeat constructor.
    + intros [|[|i]] vk pe wcs; cbn [nth_error]; try discriminate. intros [= <-] [= <-] [= <-]. split; reflexivity.
    + constructor; [|constructor]. do 3 (split; [reflexivity|]). discriminate.
    + auto.
    + unfold all_evals. cbn [bp13 bv_evals map concat app ev_wires ev_sigmas ev_next]. repeat (constructor; [assumption|]). constructor.
    + cbn [app concat]. repeat (constructor; [assumption|]). constructor.
    + cbn [map concat app vk13 kv_sigmas kv_sels repeat]. repeat (constructor; [assumption|]). constructor.
    + rewrite Nv. repeat (constructor; [split; [cbn; lia|vm_compute; reflexivity]|]). constructor.
  - exists (list_transcript [chal z131 (witness nn_circuit) 2; chal z131 (witness nn_circuit) 6; chal z131 (witness nn_circuit) 6; chal z131 (witness nn_circuit) 6;
      chal z131 (witness nn_circuit) 2; chal z131 (witness nn_circuit) 6]). reflexivity.
Qed.
(** The theorem applies: the gates accept the honest run, whose result is what the
    verifier outside computes. *)
Theorem C80_instance_run : exists o c' info T, verifier_tail z131 131 8 64 2 13 z13 4 None radix13 d13 1 [vk13] [fx; fy] bp13 raw13 nn_circuit = (Ok o, c') /\
  accepts z131 c' (witness c') [] /\
  prepare_pcs_info F13 _ _ T d13 (map (key_of (self_vsp F13) (self_vsp F13) dec13 ok13 (witness c')) [vk13])
    (repeat (map (sv z131 2 (witness c')) [fx; fy]) 1) (proof_of z131 2 (self_vsp F13) dec13 (witness c') bp13) None = Ok info /\
  matches z131 2 (self_vsp F13) dec13 (witness c') o info.
Proof.
  destruct C80_instance as (HN & HP & HF & H2 & Hd & Hr & G & T & Hb & Ac & Hi & Hz & _).
  destruct (C80_opening_claim_partial z131 131 8 64 2 2 HN 13 HP z13 4 64 HF ltac:(lia) None H2 (self_vsp F13) (self_vsp F13) dec13 dec13_opp ok13 radix13 d13 2 Hd
    ltac:(reflexivity) ltac:(cbn; lia) ltac:(cbn; lia) Hr nn_circuit 1 [vk13] [fx; fy] bp13 raw13 G T Hb Hi Hz) as (o & c' & us & E & G' & X & _ & Wx & U1 & U2 & _ & Hc & Hs).
  assert (Nv : num_vars nn_circuit = 10%nat) by (vm_compute; reflexivity).
  assert (Wl : forall v, (v < 10)%nat -> asg (witness c') v = asg (witness nn_circuit) v).
  { intros v Hv. destruct Wx as [l ->]. unfold asg. rewrite app_nth1; [reflexivity|]. rewrite (wf_wit _ (gd_wf _ G)), Nv. exact Hv. }
  assert (Rg : Forall (ModArithProps.in_range z131 2 (witness c')) [fx; fy; fx; fy; fx; fy; fy; fy; fx; fy; fx; fx]).
  { assert (A : ModArithProps.in_range z131 2 (witness c') fx) by (split; rewrite Wl by (cbn; lia); vm_compute; reflexivity).
    assert (A' : ModArithProps.in_range z131 2 (witness c') fy) by (split; rewrite Wl by (cbn; lia); vm_compute; reflexivity).
    repeat (constructor; [assumption|]). constructor. }
  destruct (Hs c' (witness c') [] (extends_refl _) (gd_bd _ G') (Hc [] Ac)) as (_ & _ & Hf).
  { apply Forall_app. split; [exact U2|exact Rg]. }
  { unfold chal. rewrite Wl by (cbn; lia). exact Hz. }
  set (ws := witness c') in *.
  destruct (Hf (list_transcript [chal z131 ws 2; chal z131 ws 6; chal z131 ws 6; chal z131 ws 6; chal z131 ws 2; chal z131 ws 6]) None eq_refl) as (info & Ei & Hm).
  eexists o, c', info, _. split; [exact E|]. split; [exact (Hc [] Ac)|]. split; [exact Ei|exact Hm].
Qed.

(** *** Challenges are not forced
    The limbs of the challenges are not range checked.  A circuit for the challenge 5 is
    accepted with a square of 0 where the square is 12 modulo 13. *)
Definition ch_circuit : circuit F131 := snd (create_variable (e131 5) (new_circuit F131 (Ultra 2))).
Definition raw5 : rawch := mk_raw 2 2 2 2 2 2.
Definition ch_forged : list F131 := map e131
  [0; 1; 5; 56; 20; 0; 3; 0; 0; 6; 6; 0; 3; 0; 0; 2; 1; 2; 1; 13; 3; 0; 0; 0; 0; 4; 8; 0; 0; 0; 0; 0; 1; 0; 2; 0; 0; 1; 1; 1; 1; 1; 1; 1; 1; 1; 1]%Z.
Definition ch_dummy : chvar (K := F131) := mk_chv fx fx fx fx fx fx fx fx.
Theorem C80_challenge_square_refuted : exists ch c', challenge_var_to_fp_elem_var z131 131 8 64 vinfo13 raw5 ch_circuit = (Ok ch, c') /\
  accepts z131 c' ch_forged [] /\ chal z131 ch_forged (rc_alpha raw5) = e13 5 /\
  in_range z131 2 ch_forged (cv_a2 ch) /\ sv z131 2 ch_forged (cv_a2 ch) = e13 0 /\ (e13 5 * e13 5 <> e13 0)%F.
Proof.
  exists (okv ch_dummy (fst (challenge_var_to_fp_elem_var z131 131 8 64 vinfo13 raw5 ch_circuit))), (snd (challenge_var_to_fp_elem_var z131 131 8 64 vinfo13 raw5 ch_circuit)).
  split. { apply okv_eq. vm_compute. reflexivity. }
  split; [split; vm_compute; reflexivity|]. split; [apply feqb_eq; vm_compute; reflexivity|]. split; [split; vm_compute; reflexivity|].
  split; [apply feqb_eq; vm_compute; reflexivity|]. intros H. apply feqb_eq in H. vm_compute in H. discriminate.
Qed.
(** *** A challenge in the domain
    With [zeta] equal to 1 the gates panic: the division by [zeta - 1] is not guarded. *)
Definition is_panicb {X A} (r : outcome X A) : bool := match r with Panic => true | _ => false end.
Lemma is_panic_eq {X A} (r : outcome X A) : is_panicb r = true -> r = Panic.
Proof. destruct r; cbn; congruence. Qed.
Theorem C80_zeta_one_panics : fst (verifier_tail z131 131 8 64 2 13 z13 4 None radix13 d13 1 [vk13] [fx; fy] bp13 (mk_raw 6 2 6 2 2 6) nn_circuit) = Panic.
Proof. apply is_panic_eq. vm_compute. reflexivity. Qed.

Print Assumptions C80_opening_claim_partial.
Print Assumptions C80_prepare.
Print Assumptions C80_instance_run.
Print Assumptions C80_challenge_square_refuted.
Print Assumptions C80_zeta_one_panics.
