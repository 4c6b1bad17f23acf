(** C59: proofs as vectors of base field elements. *)
From Coq Require Import String List Arith ZArith Lia Bool Znumtheory.
From Verif Require Import Base ListAux Alg Proth ConvModel ConvProofs UtilProps RescueModel KzgModel PlonkModel PlonkLin PlonkPoly PlonkCases TranscriptModel TranscriptProofs TranscriptProps TranscriptCases.
Import ListNotations.

Section Codec.
  Variables (r q : Z) (Hr : prime r) (Hq : prime q).
  Notation Fr := (Zp r Hr).
  Notation Fq := (Zp q Hq).
  Notation PR := {| modulus := r |}.
  Notation PQ := {| modulus := q |}.
  Variables V1 : vsp Fr.
  Notation proof := (proof Fr V1).
  Notation pf_wires := (pf_wires Fr V1).
  Notation pf_quots := (pf_quots Fr V1).
  Notation pf_perm := (pf_perm Fr V1).
  Notation pf_open := (pf_open Fr V1).
  Notation pf_shifted := (pf_shifted Fr V1).
  Notation pf_evals := (pf_evals Fr V1).
  Notation pf_plookup := (pf_plookup Fr V1).
  Variable xy : V1 -> option (Fq * Fq).
  Variable aff : Fq -> Fq -> option V1.
  (** [Affine::new] returns the finite point with the given coordinates, if there is one. *)
  Hypothesis aff_xy : forall x y c, aff x y = Some c <-> xy c = Some (x, y).
  Hypothesis Hrq : (r <= q)%Z.
  Notation to_fields := (fields_of_proof r q Hr Hq V1 xy).
  Notation of_fields := (proof_of_fields r q Hr Hq V1 aff).

  (** The shape of a TurboPlonk proof, all of whose commitments are finite points. *)
  Definition turbo_shape (p : proof) : Prop :=
    length (pf_wires p) = 5%nat /\ length (pf_quots p) = 5%nat /\ length (wires_evals Fr (pf_evals p)) = 5%nat /\
    length (sigma_evals Fr (pf_evals p)) = 4%nat /\ pf_plookup p = None.
  Definition comms (p : proof) : list V1 := pf_wires p ++ pf_quots p ++ [pf_perm p; pf_open p; pf_shifted p].
  Definition finite (c : V1) : Prop := xy c <> None.

  Lemma aff_of c : finite c -> exists x y, xy c = Some (x, y) /\ group1_to_fields r q Hr Hq V1 xy c = [x; y] /\ affine_new r q Hr Hq V1 aff x y = Ok c.
  Proof.
    unfold finite, group1_to_fields, affine_new. destruct (xy c) as [[x y]|] eqn:E; [|tauto]. intros _. exists x, y. split; auto. split; auto.
    apply aff_xy in E. now rewrite E.
  Qed.
  Lemma points_ok cs : (forall c, In c cs -> finite c) -> points_of r q Hr Hq V1 aff (flat_map (group1_to_fields r q Hr Hq V1 xy) cs) = Ok cs /\
    length (flat_map (group1_to_fields r q Hr Hq V1 xy) cs) = (2 * length cs)%nat.
  Proof.
    induction cs as [|c cs IH]; intro H; cbn [flat_map points_of length]; [auto|]. destruct (aff_of c) as (x & y & _ & -> & Ea); [apply H; now left|].
    destruct IH as [IH1 IH2]; [intros; apply H; now right|]. cbn [app points_of length]. rewrite Ea, IH1, IH2. cbn [bind]. split; [reflexivity|lia].
  Qed.
  Lemma scalars_back l : map (fun x => zmk r (fq_to_fr PQ PR (zv q x)) : Fr) (map (fun x => zmk q (fr_to_fq PR PQ (zv r x)) : Fq) l) = l.
  Proof.
    rewrite map_map. rewrite <- (map_id l) at 2. apply map_ext. intro x. apply zp_ext. pose proof (zv_bound r x Hr) as B. pose proof (prime_gt_1 r Hr).
    destruct (C20_scalar_round_trip PR PQ (zv r x)) as [E1 E2]; cbn [modulus]; auto.
    change (zv q (zmk q (fr_to_fq PR PQ (zv r x)))) with (fr_to_fq PR PQ (zv r x) mod q)%Z.
    assert (E3 : (fr_to_fq PR PQ (zv r x) mod q = fr_to_fq PR PQ (zv r x))%Z) by (rewrite E1; apply Z.mod_small; lia). rewrite E3.
    change (zv r (zmk r (fq_to_fr PQ PR (fr_to_fq PR PQ (zv r x))))) with (fq_to_fr PQ PR (fr_to_fq PR PQ (zv r x)) mod r)%Z.
    rewrite E2. apply Z.mod_small. exact B.
  Qed.
  Lemma evals_back ev : length (wires_evals Fr ev) = 5%nat -> length (sigma_evals Fr ev) = 4%nat -> evals_of_vec r Hr (vec_of_evals r Hr ev) = Ok ev.
  Proof.
    destruct ev as [ws ss pn]. cbn [wires_evals sigma_evals vec_of_evals perm_next_eval]. intros L1 L2.
    destruct ws as [|w1 [|w2 [|w3 [|w4 [|w5 [|]]]]]]; try discriminate. destruct ss as [|s1 [|s2 [|s3 [|s4 [|]]]]]; try discriminate. reflexivity.
  Qed.

  (** *** C59: a TurboPlonk proof with finite commitments survives the round trip. *)
  Theorem C59_round_trip (p : proof) : turbo_shape p -> (forall c, In c (comms p) -> finite c) ->
    exists v, to_fields p = Ok v /\ length v = 36%nat /\ of_fields v = Ok p.
  Proof.
    intros (L1 & L2 & L3 & L4 & Hlk) Hf. unfold comms in Hf. unfold TranscriptModel.fields_of_proof. rewrite Hlk. cbn [is_some].
    destruct (points_ok (pf_wires p)) as [Ew Lw]; [intros; apply Hf; rewrite !in_app_iff; auto|].
    destruct (points_ok (pf_quots p)) as [Eq Lq]; [intros; apply Hf; rewrite !in_app_iff; auto|].
    destruct (aff_of (pf_perm p)) as (x1 & y1 & _ & F1 & A1); [apply Hf; rewrite !in_app_iff; cbn; tauto|].
    destruct (aff_of (pf_open p)) as (x2 & y2 & _ & F2 & A2); [apply Hf; rewrite !in_app_iff; cbn; tauto|].
    destruct (aff_of (pf_shifted p)) as (x3 & y3 & _ & F3 & A3); [apply Hf; rewrite !in_app_iff; cbn; tauto|].
    rewrite F1, F2, F3. eexists. split; [reflexivity|].
    set (W := flat_map _ (pf_wires p)) in *. set (Q := flat_map _ (pf_quots p)) in *. match goal with |- context [@map ?A ?B ?f (vec_of_evals r Hr (pf_evals p))] => set (S := @map A B f (vec_of_evals r Hr (pf_evals p))) end.
    assert (LS : @length Fq S = 10%nat) by (unfold S, vec_of_evals; rewrite map_length, !app_length, L3, L4; reflexivity).
    rewrite L1 in Lw. rewrite L2 in Lq.
    split; [rewrite !app_length, Lw, Lq, LS; reflexivity|].
    unfold proof_of_fields. rewrite !app_length, Lw, Lq, LS. change (2 * 5 + (2 * 5 + (length [x1; y1] + (length [x2; y2] + (length [x3; y3] + 10)))) =? 36)%nat with true. cbv iota.
    assert (N : forall i, nth_error (W ++ Q ++ [x1; y1] ++ [x2; y2] ++ [x3; y3] ++ S) (20 + i) = nth_error ([x1; y1] ++ [x2; y2] ++ [x3; y3] ++ S) i).
    { intro i. rewrite nth_error_app2 by lia. rewrite nth_error_app2 by lia. f_equal. lia. }
    assert (K : forall i, skipn (20 + i) (W ++ Q ++ [x1; y1] ++ [x2; y2] ++ [x3; y3] ++ S) = skipn i ([x1; y1] ++ [x2; y2] ++ [x3; y3] ++ S)).
    { intro i. rewrite (skipn_app _ W), (skipn_app _ Q), (skipn_all2 W), (skipn_all2 Q) by lia. cbn [app]. replace (20 + i - length W - length Q)%nat with i by lia. reflexivity. }
    replace (firstn 10 (W ++ _)) with W by (rewrite firstn_app, Lw, firstn_all2 by lia; cbn [Nat.sub Nat.mul firstn]; now rewrite app_nil_r).
    rewrite Ew. cbn [bind].
    replace (firstn 10 (skipn 10 _)) with Q.
    2:{ rewrite skipn_app, (skipn_all2 W) by lia. cbn [app]. rewrite Lw. cbn [Nat.sub Nat.mul Nat.add skipn]. rewrite firstn_app, Lq, firstn_all2 by lia. cbn [Nat.sub Nat.mul firstn]. now rewrite app_nil_r. }
    rewrite Eq. cbn [bind]. unfold index.
    assert (N0 : nth_error (W ++ Q ++ [x1; y1] ++ [x2; y2] ++ [x3; y3] ++ S) 20 = Some x1) by exact (N 0%nat).
    assert (N1 : nth_error (W ++ Q ++ [x1; y1] ++ [x2; y2] ++ [x3; y3] ++ S) 21 = Some y1) by exact (N 1%nat).
    assert (N2 : nth_error (W ++ Q ++ [x1; y1] ++ [x2; y2] ++ [x3; y3] ++ S) 22 = Some x2) by exact (N 2%nat).
    assert (N3 : nth_error (W ++ Q ++ [x1; y1] ++ [x2; y2] ++ [x3; y3] ++ S) 23 = Some y2) by exact (N 3%nat).
    assert (N4 : nth_error (W ++ Q ++ [x1; y1] ++ [x2; y2] ++ [x3; y3] ++ S) 24 = Some x3) by exact (N 4%nat).
    assert (N5 : nth_error (W ++ Q ++ [x1; y1] ++ [x2; y2] ++ [x3; y3] ++ S) 25 = Some y3) by exact (N 5%nat).
    assert (K6 : skipn 26 (W ++ Q ++ [x1; y1] ++ [x2; y2] ++ [x3; y3] ++ S) = S) by exact (K 6%nat).
    rewrite N0, N1, N2, N3, N4, N5. cbn [bind]. rewrite A1, A2, A3. cbn [bind]. rewrite K6. unfold S. rewrite scalars_back, evals_back by auto. cbn [bind].
    destruct p. cbn in *. now subst.
  Qed.
  (** Distinct proofs have distinct vectors. *)
  Theorem C59_injective (p p' : proof) v : turbo_shape p -> turbo_shape p' -> (forall c, In c (comms p ++ comms p') -> finite c) ->
    to_fields p = Ok v -> to_fields p' = Ok v -> p = p'.
  Proof.
    intros T T' F E E'. destruct (C59_round_trip p T) as (v1 & E1 & _ & R); [intros; apply F, in_or_app; auto|].
    destruct (C59_round_trip p' T') as (v2 & E2 & _ & R'); [intros; apply F, in_or_app; auto|]. congruence.
  Qed.
  (** A vector of another length is refused. *)
  Theorem C59_wrong_length v : length v <> 36%nat -> exists x, of_fields v = Err x.
  Proof. intro H. unfold proof_of_fields. apply Nat.eqb_neq in H. rewrite H. eauto. Qed.

  Lemma affine_ok x y c : affine_new r q Hr Hq V1 aff x y = Ok c -> xy c = Some (x, y).
  Proof. unfold affine_new. destruct (aff x y) as [c'|] eqn:E; [|discriminate]. intro H. apply Ok_inj in H. subst. now apply aff_xy. Qed.
  Lemma points_fields k : forall v cs, length v = (2 * k)%nat -> points_of r q Hr Hq V1 aff v = Ok cs ->
    length cs = k /\ (forall c, In c cs -> finite c) /\ flat_map (group1_to_fields r q Hr Hq V1 xy) cs = v.
  Proof.
    induction k as [|k IH]; intros v cs L E; [destruct v; [|discriminate]; cbn in E; apply Ok_inj in E; subst; cbn; split; [auto|split; [tauto|auto]]|].
    destruct v as [|x [|y v]]; cbn [length] in L; try lia. cbn [points_of] in E. apply bind_ok in E as (c & Ec & E). apply bind_ok in E as (cs' & Es & E). apply Ok_inj in E. subst cs.
    destruct (IH v cs') as (L' & Hf & Ev); [lia|exact Es|]. apply affine_ok in Ec. cbn [length flat_map]. split; [lia|]. split.
    - intros c' [<-|H]; auto. unfold finite. congruence.
    - unfold group1_to_fields at 1. now rewrite Ec, Ev.
  Qed.
  (** Whatever is decoded has the TurboPlonk shape and finite commitments, and encodes to the
      same vector but for the evaluations, which are reduced modulo the scalar field. *)
  Theorem C59_decoded v p : of_fields v = Ok p ->
    turbo_shape p /\ (forall c, In c (comms p) -> finite c) /\
    to_fields p = Ok (firstn 26 v ++ map (fun x => zmk q (zv q x mod r) : Fq) (skipn 26 v)).
  Proof.
    unfold proof_of_fields. destruct (Nat.eqb_spec (length v) 36) as [L|]; [|discriminate]. intro E.
    destruct v as [|a0 [|a1 [|a2 [|a3 [|a4 [|a5 [|a6 [|a7 [|a8 [|a9 v]]]]]]]]]]; try discriminate.
    destruct v as [|b0 [|b1 [|b2 [|b3 [|b4 [|b5 [|b6 [|b7 [|b8 [|b9 v]]]]]]]]]]; try discriminate.
    destruct v as [|x1 [|y1 [|x2 [|y2 [|x3 [|y3 v]]]]]]; try discriminate. cbn [firstn skipn] in E.
    apply bind_ok in E as (ws & Ew & E). apply bind_ok in E as (qs & Eq & E). cbn [index nth_error bind] in E.
    apply bind_ok in E as (c1 & E1 & E). apply bind_ok in E as (c2 & E2 & E). apply bind_ok in E as (c3 & E3 & E).
    apply bind_ok in E as (ev & Ee & E). apply Ok_inj in E.
    apply (points_fields 5) in Ew as (Lw & Fw & Vw); [|reflexivity]. apply (points_fields 5) in Eq as (Lq & Fq' & Vq); [|reflexivity].
    apply affine_ok in E1, E2, E3. assert (Lv : length v = 10%nat) by (cbn [length] in L; lia).
    assert (Hev : length (wires_evals Fr ev) = 5%nat /\ length (sigma_evals Fr ev) = 4%nat /\ vec_of_evals r Hr ev = map (fun x => zmk r (fq_to_fr PQ PR (zv q x))) v).
    { unfold evals_of_vec in Ee.
      destruct v as [|v0 [|v1 [|v2 [|v3 [|v4 [|v5 [|v6 [|v7 [|v8 [|v9 [|]]]]]]]]]]]; try discriminate. cbn [map length Nat.eqb orb Nat.sub index nth_error bind] in Ee. apply Ok_inj in Ee. subst ev. auto. }
    destruct Hev as (Lwe & Lse & Hv). subst p. split; [|split].
    - split; [exact Lw|]. split; [exact Lq|]. split; [exact Lwe|]. split; [exact Lse|]. reflexivity.
    - unfold comms. cbn [PlonkModel.pf_wires PlonkModel.pf_quots PlonkModel.pf_perm PlonkModel.pf_open PlonkModel.pf_shifted]. intros c Hin. rewrite !in_app_iff in Hin.
      destruct Hin as [H|[H|[<-|[<-|[<-|[]]]]]]; auto; unfold finite; congruence.
    - unfold TranscriptModel.fields_of_proof. cbn [is_some PlonkModel.pf_wires PlonkModel.pf_quots PlonkModel.pf_perm PlonkModel.pf_open PlonkModel.pf_shifted PlonkModel.pf_evals PlonkModel.pf_plookup].
      rewrite Vw, Vq, Hv. unfold group1_to_fields. rewrite E1, E2, E3. cbn [app firstn skipn]. do 30 f_equal.
      rewrite map_map. apply map_ext. intro x. pose proof (zv_bound q x Hq) as B. pose proof (prime_gt_1 q Hq). pose proof (prime_gt_1 r Hr).
      rewrite (C20_base_to_scalar PQ PR (zv q x)) by (cbn [modulus]; lia). cbn [modulus].
      change (zv r (zmk r (zv q x mod r))) with ((zv q x mod r) mod r)%Z. rewrite Z.mod_mod by lia.
      destruct (C20_scalar_round_trip PR PQ (zv q x mod r)) as [-> _]; cbn [modulus]; auto. apply Z.mod_pos_bound. lia.
  Qed.

  (** *** Where the codec fails *)
  (** A commitment at infinity encodes to (0, 0), on which decoding panics. *)
  Theorem C59_infinity_refuted (p : proof) : turbo_shape p -> xy (pf_perm p) = None -> (forall c, In c (pf_wires p ++ pf_quots p) -> finite c) -> aff f0 f0 = None ->
    exists v, to_fields p = Ok v /\ of_fields v = Panic.
  Proof.
    intros (L1 & L2 & L3 & L4 & Hlk) Hinf Hf Ha. unfold TranscriptModel.fields_of_proof. rewrite Hlk. cbn [is_some]. eexists. split; [reflexivity|].
    destruct (points_ok (pf_wires p)) as [Ew Lw]; [intros; apply Hf; rewrite !in_app_iff; auto|].
    destruct (points_ok (pf_quots p)) as [Eq Lq]; [intros; apply Hf; rewrite !in_app_iff; auto|].
    set (W := flat_map _ (pf_wires p)) in *. set (Q := flat_map _ (pf_quots p)) in *.
    assert (F1 : group1_to_fields r q Hr Hq V1 xy (pf_perm p) = [f0; f0]) by (unfold group1_to_fields; now rewrite Hinf).
    assert (Lg : forall c, length (group1_to_fields r q Hr Hq V1 xy c) = 2%nat) by (intro c; unfold group1_to_fields; destruct (xy c) as [[? ?]|]; reflexivity).
    unfold proof_of_fields. rewrite !app_length, Lw, Lq, !Lg, map_length. unfold vec_of_evals at 1. rewrite !app_length, L1, L2, L3, L4. cbn [length Nat.add Nat.mul Nat.eqb].
    replace (firstn 10 (W ++ _)) with W by (rewrite firstn_app, Lw, L1, firstn_all2 by lia; cbn [Nat.sub Nat.mul firstn]; now rewrite app_nil_r).
    rewrite Ew. cbn [bind].
    replace (firstn 10 (skipn 10 _)) with Q.
    2:{ rewrite skipn_app, (skipn_all2 W) by lia. cbn [app]. rewrite Lw, L1. cbn [Nat.sub Nat.mul Nat.add skipn]. rewrite firstn_app, Lq, L2, firstn_all2 by lia. cbn [Nat.sub Nat.mul firstn]. now rewrite app_nil_r. }
    rewrite Eq. cbn [bind]. unfold index. rewrite F1.
    assert (N : forall R i, nth_error (W ++ Q ++ R) (20 + i) = nth_error R i). { intros R i. rewrite nth_error_app2 by lia. rewrite nth_error_app2 by lia. f_equal. lia. }
    assert (N0 : forall R, nth_error (W ++ Q ++ [f0; f0] ++ R) 20 = Some f0) by (intro R; exact (N ([f0; f0] ++ R) 0%nat)).
    assert (N1 : forall R, nth_error (W ++ Q ++ [f0; f0] ++ R) 21 = Some f0) by (intro R; exact (N ([f0; f0] ++ R) 1%nat)).
    rewrite N0, N1. cbn [bind]. unfold affine_new at 1. now rewrite Ha.
  Qed.
  (** Proofs with lookups cannot be encoded: the conversion panics. *)
  Theorem C59_lookup_refuted (p : proof) : pf_plookup p <> None -> to_fields p = Panic.
  Proof. intro H. unfold TranscriptModel.fields_of_proof. now destruct (pf_plookup p). Qed.
  (** Coordinates that are not those of a point are met with a panic, not an error. *)
  Theorem C59_off_curve_refuted v x y v' : v = x :: y :: v' -> length v = 36%nat -> aff x y = None -> of_fields v = Panic.
  Proof. intros -> L H. unfold proof_of_fields. rewrite L. cbn [Nat.eqb firstn points_of]. unfold affine_new. now rewrite H. Qed.
End Codec.

(** ** A concrete proof: the one of [C57_case_solidity], with the field standing in for the
    curve group and 1 for every second coordinate. *)
Definition aff193 (x y : F193) : option F193 := if feqb y f1 then Some x else None.
Example C59_case : (forall x y c, aff193 x y = Some c <-> xy193 c = Some (x, y)) /\ turbo_shape 193 prime_193 S193 solp /\
  (forall c, In c (comms 193 prime_193 S193 solp) -> finite 193 193 prime_193 prime_193 S193 xy193 c).
Proof.
  split; [|split].
  - intros x y c. unfold aff193, xy193. split.
    + destruct (feqb y f1) eqn:E; [|discriminate]. apply feqb_eq in E. intro H. injection H as <-. now subst.
    + intro H. assert (E1 : x = c) by congruence. assert (E2 : y = f1) by congruence. rewrite E1, E2. now rewrite feqb_refl.
  - repeat split; vm_compute; reflexivity.
  - intros c _. discriminate.
Qed.

(** The same proof with its permutation commitment at infinity, for coordinates that send 0
    to infinity. *)
Definition xyi (c : F193) : option (F193 * F193) := if feqb c f0 then None else Some (c, f1).
Definition infp : proof F193 S193 :=
  mk_proof F193 S193 (repeat (e193 3) 5) (e193 0) (repeat (e193 4) 5) (e193 5) (e193 6) (mk_pe F193 (repeat (e193 7) 5) (repeat (e193 8) 4) (e193 9)) None.
Example C59_infinity_case : turbo_shape 193 prime_193 S193 infp /\ xyi (pf_perm F193 S193 infp) = None /\
  (forall c, In c (pf_wires F193 S193 infp ++ pf_quots F193 S193 infp) -> finite 193 193 prime_193 prime_193 S193 xyi c) /\ aff193 f0 f0 = @None F193.
Proof.
  split; [repeat split; reflexivity|]. split; [reflexivity|]. split; [|reflexivity].
  intros c H. cbn [pf_wires pf_quots infp] in H. apply in_app_iff in H as [H|H]; apply repeat_spec in H; subst c; discriminate.
Qed.

Print Assumptions C59_round_trip.
Print Assumptions C59_injective.
Print Assumptions C59_wrong_length.
Print Assumptions C59_decoded.
Print Assumptions C59_infinity_refuted.
Print Assumptions C59_lookup_refuted.
Print Assumptions C59_off_curve_refuted.
Print Assumptions C59_case.
