(** Properties of the Rescue gadgets over a non-native field (C86). *)

From Coq Require Import List Arith NArith ZArith Znumtheory Bool Lia Ring Field.
From Verif Require Import Base ListAux Alg FiniteField Poly KzgModel ConvModel RescueModel RescueProofs CircuitModel CircuitProofs GadgetModel GadgetProofs
  BitProofs SatProofs SatGadget IndepProofs ModArithModel ModArithProofs CircuitProps ModArithProps RescueGadgetProps PlonkVerifierModel PlonkVerifierOps PlonkVerifierProps
  NonNativeRescueModel NonNativeRescueProofs.
Import ListNotations.
Local Open Scope fld_scope.
Local Open Scope circ_scope.

Section C86.
  Context {K Fr : fld}.
  Variable zval : K -> Z.
  Variable q : Z.
  Variable nb L m rb : nat.
  (** Limbs of [m] bits and a range table of [rb] bits, with room in the circuit's field
      for the sums of a linear layer. *)
  Hypothesis HN : nn_params K zval q nb L m rb.
  Notation M := (2 ^ Z.of_nat m)%Z.
  Notation B := (2 ^ Z.of_nat rb)%Z.
  Hypothesis Hrb3 : (3 <= rb)%nat.
  Hypothesis Hroom : (M * M * (2 * B + 8) <= q)%Z.
  (** The field of the hash, of the prime [P]. *)
  Variable P : Z.
  Hypothesis HP : (0 < P < M * M)%Z.
  Variable zr : Fr -> Z.
  Variables tb tL : nat.
  Hypothesis HFr : BitProofs.pfield Fr zr P tb tL.
  Hypothesis Htb : (tb < nb)%nat.
  (** The parameters of the permutation. *)
  Variable R : rescue_params Fr.
  Hypothesis HR : rescue_ok R.
  Hypothesis Ha : rp_a R = 11%N.
  Notation fv := (fvar (K := K)).
  Notation accepts := (accepts zval).
  Notation in_range := (in_range zval m).
  Notation value := (value zval m).
  Notation canonical := (canonical zval m P).
  Notation sv := (sv (Fr := Fr) zval m).

  (** A state of the circuit [c], its four values, and that its limbs are in range. *)
  Definition state_in (c : circuit K) (s : nns K) : Prop :=
    canonical c (q0 (nst s)) /\ canonical c (q1 (nst s)) /\ canonical c (q2 (nst s)) /\ canonical c (q3 (nst s)) /\ nmod s = pelem m P.
  Definition state_of (ws : list K) (s : nns K) : vec4 Fr := V4 (sv ws (q0 (nst s))) (sv ws (q1 (nst s))) (sv ws (q2 (nst s))) (sv ws (q3 (nst s))).
  Definition state_range (ws : list K) (s : nns K) : Prop :=
    in_range ws (q0 (nst s)) /\ in_range ws (q1 (nst s)) /\ in_range ws (q2 (nst s)) /\ in_range ws (q3 (nst s)).
  (** An element whose limbs are not range-checked: their weighted sum in the circuit's
      field is that of an integer near the range, of the value [v]. *)
  Definition stands_for (ws : list K) (x : fv) (v : Fr) : Prop :=
    exists z : Z, asg ws (v0 x) + fZ M * asg ws (v1 x) = fZ z /\ fZ z = v /\ (- (B * P) <= z < 2 * (M * M))%Z.
  Definition state_stands (ws : list K) (s : nns K) (v : vec4 Fr) : Prop :=
    stands_for ws (q0 (nst s)) (w0 v) /\ stands_for ws (q1 (nst s)) (w1 v) /\ stands_for ws (q2 (nst s)) (w2 v) /\ stands_for ws (q3 (nst s)) (w3 v).

  (** A gadget: it succeeds, an honest run stays accepted, its output is well formed, and
      every accepted assignment of the circuit or of an extension of it satisfies [S]. *)
  Definition gadget {A} (mm : circ K A) (c : circuit K) (W : circuit K -> A -> Prop) (S : list K -> A -> Prop) : Prop :=
    exists o c', mm c = (Ok o, c') /\ good c' /\ ptype c' = Ultra rb /\ base (asg (witness c')) /\ extends c c' /\ (exists l, witness c' = witness c ++ l) /\ W c' o /\
      (forall pub, accepts c (witness c) pub -> accepts c' (witness c') pub) /\
      (forall c'' ws pub, extends c' c'' -> bounded c'' -> accepts c'' ws pub -> S ws o).

  Lemma pspec_gadget {A} (mm : circ K A) c (S : (nat -> K) -> A -> Prop) (Q : A -> circuit K -> Prop) (W : circuit K -> A -> Prop) (S' : list K -> A -> Prop) : good c -> st rb c ->
    pspec zval rb mm c S Q -> (forall o c', Q o c' -> W c' o) -> (forall o ws, S (asg ws) o -> S' ws o) -> gadget mm c W S'.
  Proof.
    intros G Hst (o & dl & E & Pl & U1 & U2 & U3) HW HS. pose proof Hst as (Hw & Ht & Hb).
    assert (Hl : le c (capp c dl)) by (apply le_capp; auto). destruct (st_le _ _ _ Hst Hl) as (Hw' & Ht' & Hb').
    assert (Hg : gspec zval mm c S (fun _ => True) (fun _ _ => True)).
    { exists o, dl. split; auto. split; auto. rewrite Ht. split; [auto|]. split; [intros w Hbw Hh _; apply U2; auto|exact I]. }
    destruct (gspec_gadget zval mm c _ (fun _ => True) _ G (fun _ _ _ H => H) Hg) as (o' & c' & E' & G' & Ex & _ & Wl & Hsnd & _ & Hcmp).
    rewrite E in E'. injection E' as <- <-. exists o, (capp c dl). do 6 (split; [assumption|]). split; [apply HW, U3|].
    split; [intros pub Hacc; apply Hcmp; auto|]. intros c'' ws pub X Bd Ac. apply HS. exact (Hsnd c'' ws pub X Bd Ac).
  Qed.
  Local Lemma st_of (c : circuit K) : good c -> ptype c = Ultra rb -> base (asg (witness c)) -> st rb c.
  Proof. intros G Ht Hb. split; [apply (gd_wf _ G)|split; [exact Ht|exact Hb]]. Qed.
  Local Lemma can_of c x : canonical c x -> can zval m (P mod M) (P / M) c x.
  Proof. apply (canonical_can zval q nb L m rb HN P HP). Qed.
  Local Lemma of_can c x : can zval m (P mod M) (P / M) c x -> canonical c x.
  Proof.
    destruct (P_split zval q nb L m rb HN P HP) as (_ & _ & EP). intros ((X1 & X2 & X3) & X4). rewrite EP in X4. destruct X1, X2. split; [repeat split; auto|]. split; [exact X3|exact X4].
  Qed.
  Local Lemma nin_of c s : state_in c s -> nin zval m (P mod M) (P / M) c s.
  Proof. intros (C0 & C1 & C2 & C3 & E). split; [|exact E]. split; [|split; [|split]]; now apply can_of. Qed.
  Local Lemma of_nin c s : nin zval m (P mod M) (P / M) c s -> state_in c s.
  Proof. intros ((C0 & C1 & C2 & C3) & E). split; [|split; [|split; [|split; [|exact E]]]]; now apply of_can. Qed.
  Ltac setup := let H := fresh in
    pose proof HN as [? ? ? ? ? ?]; destruct (np_hyps zval q nb L m rb HN P HP) as (? & ? & ? & ? & ? & ? & ? & ?);
    destruct (P_split zval q nb L m rb HN P HP) as (? & ? & EP); destruct HR as ((card & ? & ?) & ? & ? & ?).
  Ltac side EP := first [eassumption|rewrite EP; eassumption|rewrite EP; reflexivity|rewrite EP; lia].

  (** *** Creating a state *)
  Theorem C86_create_state c v : good c -> ptype c = Ultra rb -> base (asg (witness c)) -> m = ((tb / 2 / rb + 1) * rb)%nat ->
    gadget (nn_create_state zval q nb L zr P tb v) c (fun c' s => state_in c' s /\ state_of (witness c') s = v) (fun ws s => state_range ws s).
  Proof.
    intros G Ht Hb Em. setup. pose proof (st_of c G Ht Hb) as Hst.
    eapply pspec_gadget; [exact G|exact Hst|eapply x_create with (p0 := (P mod M)%Z) (p1 := (P / M)%Z) (tL := tL); side EP| |].
    - cbn beta. intros o c' [Hn Hv]. split; [now apply of_nin|]. apply (Hv _ (hext_hon c')).
    - intros o ws H'. exact H'.
  Qed.

  (** *** The permutation and the sponges *)
  Theorem C86_permutation c s : good c -> ptype c = Ultra rb -> base (asg (witness c)) -> state_in c s ->
    gadget (nn_permutation zval q nb L zr P tb R s) c state_in
      (fun ws o => state_range ws s -> state_range ws o /\ Ok (state_of ws o) = perm_eval R (state_of ws s)).
  Proof.
    intros G Ht Hb Hi. setup. pose proof (st_of c G Ht Hb) as Hst.
    eapply pspec_gadget; [exact G|exact Hst|eapply x_permutation with (p0 := (P mod M)%Z) (p1 := (P / M)%Z) (tL := tL); try side EP; now apply nin_of| |].
    - intros o c' Hn. now apply of_nin.
    - cbn beta. intros o ws HS Hr. destruct (HS (state_of ws s)) as [S1 S2].
      + eapply reps_small; side EP.
      + split; [exact S1|]. rewrite (perm_eval_ok Fr R) by assumption. f_equal. exact S2.
  Qed.

  Definition all_in (c : circuit K) (l : list fv) : Prop := Forall (canonical c) l.
  Definition all_range (ws : list K) (l : list fv) : Prop := Forall (in_range ws) l.
  Local Lemma all_can c l : all_in c l -> Forall (can zval m (P mod M) (P / M) c) l.
  Proof. apply Forall_impl. exact (can_of c). Qed.
  Local Lemma can_all c l : Forall (can zval m (P mod M) (P / M) c) l -> all_in c l.
  Proof. apply Forall_impl. exact (of_can c). Qed.
  Theorem C86_sponge c data num : good c -> ptype c = Ultra rb -> base (asg (witness c)) -> all_in c data -> data <> [] -> (length data mod 3 = 0)%nat ->
    gadget (nn_sponge_no_padding zval q nb L zr P tb R data num) c (fun c' o => all_in c' o /\ length o = num)
      (fun ws o => all_range ws data -> all_range ws o /\ Ok (map (sv ws) o) = sponge_no_padding R (map (sv ws) data) num).
  Proof.
    intros G Ht Hb Hi Hne Hmod. setup. pose proof (st_of c G Ht Hb) as Hst. pose proof (all_can _ _ Hi).
    eapply pspec_gadget; [exact G|exact Hst|eapply x_sponge with (p0 := (P mod M)%Z) (p1 := (P / M)%Z) (tL := tL); side EP| |].
    - cbn beta. intros o c' [Hn E]. split; [now apply can_all|exact E].
    - intros o ws HS. exact HS.
  Qed.
  Theorem C86_sponge_padded c data num : good c -> ptype c = Ultra rb -> base (asg (witness c)) -> all_in c data -> data <> [] ->
    gadget (nn_sponge_with_padding zval q nb L zr P tb R data num) c (fun c' o => all_in c' o /\ length o = num)
      (fun ws o => all_range ws data -> all_range ws o /\ Ok (map (sv ws) o) = sponge_with_bit_padding R (map (sv ws) data) num).
  Proof.
    intros G Ht Hb Hi Hne. setup. pose proof (st_of c G Ht Hb) as Hst. pose proof (all_can _ _ Hi).
    eapply pspec_gadget; [exact G|exact Hst|eapply x_sponge_padded with (p0 := (P mod M)%Z) (p1 := (P / M)%Z) (tL := tL); side EP| |].
    - cbn beta. intros o c' [Hn E]. split; [now apply can_all|exact E].
    - intros o ws HS. exact HS.
  Qed.
  Theorem C86_keyed_sponge c key data : good c -> ptype c = Ultra rb -> base (asg (witness c)) -> canonical c key -> all_in c data -> data <> [] -> (length data mod 4 = 0)%nat ->
    gadget (nn_keyed_no_padding zval q nb L zr P tb R key data) c canonical
      (fun ws o => in_range ws key -> all_range ws data -> in_range ws o /\ Ok [sv ws o] = prf_no_padding R (sv ws key) (map (sv ws) data) 1).
  Proof.
    intros G Ht Hb Hk Hi Hne Hmod. setup. pose proof (st_of c G Ht Hb) as Hst. pose proof (all_can _ _ Hi). pose proof (can_of _ _ Hk).
    eapply pspec_gadget; [exact G|exact Hst|eapply x_keyed with (p0 := (P mod M)%Z) (p1 := (P / M)%Z) (tL := tL); side EP| |].
    - cbn beta. intros o c' Hn. now apply of_can.
    - intros o ws HS. exact HS.
  Qed.
  Theorem C86_prf c key data : good c -> ptype c = Ultra rb -> base (asg (witness c)) -> canonical c key -> all_in c data -> data <> [] ->
    gadget (nn_keyed_zero_padding zval q nb L zr P tb R key data) c canonical
      (fun ws o => in_range ws key -> all_range ws data -> in_range ws o /\ Ok [sv ws o] = prf_zero_padding R (sv ws key) (map (sv ws) data) 1).
  Proof.
    intros G Ht Hb Hk Hi Hne. setup. pose proof (st_of c G Ht Hb) as Hst. pose proof (all_can _ _ Hi). pose proof (can_of _ _ Hk).
    eapply pspec_gadget; [exact G|exact Hst|eapply x_keyed_padded with (p0 := (P mod M)%Z) (p1 := (P / M)%Z) (tL := tL); side EP| |].
    - cbn beta. intros o c' Hn. now apply of_can.
    - intros o ws HS. exact HS.
  Qed.

  (** *** The keyed permutation
      The sums of states and round keys that enter the rounds of odd number have limbs that
      no gate checks; [us] lists them.  When they are in range, the output stands for the
      keyed permutation.  The limbs of the output itself are not checked either. *)
  Theorem C86_keyed_permutation_partial c key s : good c -> ptype c = Ultra rb -> base (asg (witness c)) -> state_in c key -> state_in c s ->
    exists o c' us, nn_prp zval q nb L zr P tb R key s c = (Ok o, c') /\ good c' /\ extends c c' /\ state_in c' o /\
      Forall (elem_of m c') us /\ Forall (in_range (witness c')) us /\
      (forall pub, accepts c (witness c) pub -> accepts c' (witness c') pub) /\
      (forall c'' ws pub, extends c' c'' -> bounded c'' -> accepts c'' ws pub -> Forall (in_range ws) us -> state_range ws key -> state_range ws s ->
        exists v, prp R (state_of ws key) (state_of ws s) = Ok v /\ state_stands ws o v).
  Proof.
    intros G Ht Hb Hk Hi. setup. pose proof (st_of c G Ht Hb) as Hst. pose proof (nin_of _ _ Hk). pose proof (nin_of _ _ Hi).
    assert (U : uspec zval m rb (nn_prp zval q nb L zr P tb R key s) c
      (fun w o => sm zval m w (nst key) -> sm zval m w (nst s) -> exists v, prp R (vl zval m w (nst key)) (vl zval m w (nst s)) = Ok v /\ reps m rb (P mod M) (P / M) w (nst o) v)
      (fun o c' => nin zval m (P mod M) (P / M) c' o)).
    { eapply u_prp with (p0 := (P mod M)%Z) (p1 := (P / M)%Z) (tL := tL); side EP. }
    destruct (uspec_gadget zval m rb _ c _ _ G Ht U) as (o & c' & us & E & G' & X & _ & Q & _ & U1 & U2 & Hc & Hs).
    exists o, c', us. do 3 (split; [assumption|]). split; [now apply of_nin|]. do 3 (split; [assumption|]).
    intros c'' ws pub X' Bd Ac Hus Rk Rs. destruct (Hs c'' ws pub X' Bd Ac Hus Rk Rs) as (v & Ev & Hv). exists v. split; [exact Ev|].
    unfold reps, rep in Hv. rewrite EP in Hv. exact Hv.
  Qed.
  (** An output in range has the values of the keyed permutation. *)
  Theorem C86_stands_in_range ws s v : state_stands ws s v -> state_range ws s -> state_of ws s = v.
  Proof.
    intros Hv Hr. setup. eapply (reps_val zval q nb L) with (p0 := (P mod M)%Z) (p1 := (P / M)%Z) (rb := rb) (w := asg ws) (x := nst s); try side EP.
    unfold reps, rep. rewrite EP. exact Hv.
  Qed.

  (** *** Refusals *)
  Theorem C86_refused c (data : list fv) key num :
    nn_sponge_no_padding zval q nb L zr P tb R [] num c = (Err ParameterError, c) /\
    nn_sponge_with_padding zval q nb L zr P tb R [] num c = (Err ParameterError, c) /\
    nn_keyed_no_padding zval q nb L zr P tb R key [] c = (Err ParameterError, c) /\
    nn_keyed_zero_padding zval q nb L zr P tb R key [] c = (Err ParameterError, c) /\
    ((length data mod 3 <> 0)%nat -> nn_sponge_no_padding zval q nb L zr P tb R data num c = (Err ParameterError, c)) /\
    ((length data mod 4 <> 0)%nat -> nn_keyed_no_padding zval q nb L zr P tb R key data c = (Err ParameterError, c)).
  Proof.
    do 4 (split; [reflexivity|]). split; intros H.
    - unfold nn_sponge_no_padding, CRHF_RATE. rewrite (proj2 (Nat.eqb_neq _ _) H), orb_true_r. reflexivity.
    - unfold nn_keyed_no_padding, STATE_SIZE. rewrite (proj2 (Nat.eqb_neq _ _) H). reflexivity.
  Qed.
  Theorem C86_moduli_differ c s t : state_in c s -> state_in c (NNS (nst t) (nmod s)) -> felem_eqb (nmod s) (nmod t) = false ->
    nn_add_state zval q nb L s t c = (Err ParameterError, c).
  Proof.
    intros (C0 & C1 & C2 & C3 & _) (D0 & D1 & D2 & D3 & _) E. unfold nn_add_state, check_nns.
    assert (Q : forall x : nns K, canonical c (q0 (nst x)) -> canonical c (q1 (nst x)) -> canonical c (q2 (nst x)) -> canonical c (q3 (nst x)) ->
      check_vars_bound (flat_map (fun x => [v0 x; v1 x]) (qlist (nst x))) c = (Ok tt, c)).
    { intros x ((X0 & X1 & _) & _) ((Y0 & Y1 & _) & _) ((Z0 & Z1 & _) & _) ((T0 & T1 & _) & _). apply chks_ok. cbn [qlist flat_map app]. repeat constructor; assumption. }
    unfold cbind. rewrite (Q s C0 C1 C2 C3), (Q t D0 D1 D2 D3), E. reflexivity.
  Qed.
  (** Only parameter sets with the exponent 11 are supported. *)
  Theorem C86_other_exponent c (R' : rescue_params Fr) s : good c -> ptype c = Ultra rb -> base (asg (witness c)) -> state_in c s ->
    rescue_ok R' -> rp_a R' <> 11%N ->
    fst (nn_permutation zval q nb L zr P tb R' s c) = Err ParameterError.
  Proof.
    intros G Ht Hb Hi (_ & _ & Hk & _) Hne. setup. pose proof (st_of c G Ht Hb) as Hst. pose proof (nin_of _ _ Hi).
    eapply x_perm_other with (p0 := (P mod M)%Z) (p1 := (P / M)%Z) (tL := tL); side EP.
  Qed.
End C86.

(** *** A concrete case
    Rescue with the exponent 11 modulo 29, in a circuit over the field of 1543
    elements with limbs of three bits and a table of three bits. *)
Lemma prime_1543 : prime 1543. Proof. apply primeb_prime. vm_compute. reflexivity. Qed.
Lemma prime_29 : prime 29. Proof. apply primeb_prime. vm_compute. reflexivity. Qed.
Definition KQ : fld := Zp 1543 prime_1543.
Definition FP : fld := Zp 29 prime_29.
Definition zq : KQ -> Z := zv 1543.
Definition zp : FP -> Z := zv 29.
Definition v29 (a b c d : Z) : vec4 FP := @V4 FP (zmk 29 a) (zmk 29 b) (zmk 29 c) (zmk 29 d).
Definition R29 : rescue_params FP :=
  mk_rescue 11 [23%N] (M4 (v29 2 3 1 1) (v29 1 2 3 1) (v29 1 1 2 3) (v29 3 1 1 2)) (v29 1 2 3 4)
    (repeat (v29 5 6 7 8) 24) (repeat (v29 9 10 11 12) 25).
Theorem C86_instance_params : nn_params KQ zq 1543 11 64 3 3 /\ BitProofs.pfield FP zp 29 5 64 /\ rescue_ok R29 /\ rp_a R29 = 11%N /\
  (0 < 29 < 2 ^ Z.of_nat 3 * 2 ^ Z.of_nat 3)%Z /\ (2 ^ Z.of_nat 3 * 2 ^ Z.of_nat 3 * (2 * 2 ^ Z.of_nat 3 + 8) <= 1543)%Z /\
  3%nat = ((5 / 2 / 3 + 1) * 3)%nat.
Proof.
  split. { split; [apply Zp_pfield; cbn; lia|cbn; lia|cbn; lia|cbn; lia|reflexivity|cbn; lia]. }
  split; [apply Zp_pfield; cbn; lia|]. split.
  { split; [exists (Z.to_nat 29); split; [exact (zp_card 29 prime_29)|vm_compute; reflexivity]|split; [auto|split; reflexivity]]. }
  split; [reflexivity|]. split; [cbn; lia|]. split; [cbn; lia|reflexivity].
Qed.
(** A state, its permutation and a hash of its values: the honest run is accepted and has
    the values computed outside. *)
Theorem C86_instance : exists s c1 o c2 h c3,
  nn_create_state zq 1543 11 64 zp 29 5 (v29 1 20 3 28) (new_circuit KQ (Ultra 3)) = (Ok s, c1) /\
  nn_permutation zq 1543 11 64 zp 29 5 R29 s c1 = (Ok o, c2) /\
  nn_sponge_with_padding zq 1543 11 64 zp 29 5 R29 (qlist (nst o)) 2 c2 = (Ok h, c3) /\
  accepts zq c3 (witness c3) [] /\ length h = 2%nat /\
  exists v, perm_eval R29 (v29 1 20 3 28) = Ok v /\ state_of zq 3 (witness c3) o = v /\
    Ok (map (sv (Fr := FP) zq 3 (witness c3)) h) = sponge_with_bit_padding R29 (v4_elems v) 2.
Proof.
  destruct C86_instance_params as (HN & HF & HR & Ha & HP & Hq & Hm).
  set (c0 := new_circuit KQ (Ultra 3)).
  assert (G0 : good c0) by apply good_new. assert (B0 : base (asg (witness c0))) by (split; reflexivity).
  assert (A0 : accepts zq c0 (witness c0) []) by (split; reflexivity).
  destruct (C86_create_state zq 1543 11 64 3 3 HN ltac:(lia) 29 HP zp 5 64 HF ltac:(lia) R29 HR Ha c0 (v29 1 20 3 28) G0 eq_refl B0 Hm)
    as (s & c1 & E1 & G1 & T1 & B1 & X1 & W1 & [I1 V1] & C1 & S1).
  destruct (C86_permutation zq 1543 11 64 3 3 HN ltac:(lia) Hq 29 HP zp 5 64 HF ltac:(lia) R29 HR Ha c1 s G1 T1 B1 I1)
    as (o & c2 & E2 & G2 & T2 & B2 & X2 & W2 & I2 & C2 & S2).
  assert (Ho : all_in zq 3 29 c2 (qlist (nst o))) by (destruct I2 as (? & ? & ? & ? & _); unfold all_in, qlist; auto).
  destruct (C86_sponge_padded zq 1543 11 64 3 3 HN ltac:(lia) Hq 29 HP zp 5 64 HF ltac:(lia) R29 HR Ha c2 (qlist (nst o)) 2 G2 T2 B2 Ho ltac:(discriminate))
    as (h & c3 & E3 & G3 & T3 & B3 & X3 & W3 & [I3 L3] & C3 & S3).
  exists s, c1, o, c2, h, c3. do 3 (split; [assumption|]). pose proof (C3 [] (C2 [] (C1 [] A0))) as A3. split; [exact A3|]. split; [exact L3|].
  pose proof (gd_bd _ G3) as Bd. pose proof (extends_trans _ _ _ X2 X3) as X23.
  pose proof (S1 c3 (witness c3) [] X23 Bd A3) as Rs. destruct (S2 c3 (witness c3) [] X3 Bd A3 Rs) as [Ro Eo].
  assert (Ra : all_range zq 3 (witness c3) (qlist (nst o))) by (destruct Ro as (? & ? & ? & ?); unfold all_range, qlist; auto).
  destruct (S3 c3 (witness c3) [] (extends_refl _) Bd A3 Ra) as [Rh Eh].
  assert (Vs : state_of zq 3 (witness c3) s = v29 1 20 3 28).
  { rewrite <- V1. destruct W2 as [l2 W2], W3 as [l3 W3]. pose proof (wf_wit _ (gd_wf _ G1)) as Wl.
    assert (Q : forall x, elem_of 3 c1 x -> sv (Fr := FP) zq 3 (witness c3) x = sv zq 3 (witness c1) x).
    { intros x (X0 & X1' & _). unfold PlonkVerifierProps.sv, ModArithProps.value, asg. rewrite W3, W2, <- app_assoc, !app_nth1 by lia. reflexivity. }
    destruct I1 as ((? & _) & (? & _) & (? & _) & (? & _) & _). unfold state_of. rewrite !Q by assumption. reflexivity. }
  rewrite Vs in Eo. eexists. split; [symmetry; exact Eo|]. split; [reflexivity|]. exact Eh.
Qed.
Print Assumptions C86_permutation.
Print Assumptions C86_prf.
Print Assumptions C86_keyed_permutation_partial.
Print Assumptions C86_instance.
