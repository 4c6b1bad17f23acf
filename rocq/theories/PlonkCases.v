(** The hypotheses of C57 and C58 are met: proofs computed by the model over the field of
    193 elements, for a circuit without and a circuit with lookups; and cases where the
    unrestricted claims fail. *)
From Coq Require Import String List Arith ZArith Lia Bool.
From Verif Require Import Base ListAux Alg Poly KzgModel KzgProofs KzgFft CircuitModel CircuitProofs GadgetModel SatProofs SatGadget FinalModel FinalProofs CircuitProps FinalProps
  PcsProps PlonkModel PlonkHelpProps PlonkAccepted PlonkRun PlonkProps.
Import ListNotations.

Lemma prime_193 : Znumtheory.prime 193.
Proof. apply primeb_prime. vm_compute. reflexivity. Qed.
Definition F193 : fld := Zp 193 prime_193.
Definition e193 (z : Z) : F193 := zmk 193 z.
Definition z193 : F193 -> Z := zv 193.
Notation S193 := (self_vsp F193).
Notation g193 := (e193 11).
Notation e193p := (self_pairing F193).
Lemma root193 : root_ok F193 6 g193.
Proof.
  assert (C : forallb (fun i => negb (feqb (fpow g193 i) f1)) (seq 1 63) = true) by (vm_compute; reflexivity).
  split; [apply zp_ext; vm_compute; reflexivity|]. intros i Hi. rewrite forallb_forall in C.
  specialize (C i). rewrite in_seq in C. change (2 ^ 6)%nat with 64%nat in Hi. specialize (C ltac:(lia)). intro E. rewrite E, feqb_refl in C. discriminate.
Qed.
Lemma l193_ext (a b : list F193) : map z193 a = map z193 b -> a = b.
Proof.
  revert b. induction a as [|x a IH]; intros [|y b] H; cbn in H; try discriminate; auto. injection H as H1 H2. f_equal; [now apply (zp_ext 193)|auto].
Qed.
Definition okd {X A} (d : A) (o : outcome X A) : A := match o with Ok x => x | _ => d end.
Definition isok {X A} (o : outcome X A) : bool := match o with Ok _ => true | _ => false end.
Lemma okd_eq {X A} (d : A) (o : outcome X A) : isok o = true -> o = Ok (okd d o).
Proof. destruct o; [reflexivity|discriminate|discriminate]. Qed.

(** A toy transcript: the state is one field element. *)
Definition T193 : transcript F193 S193 S193 :=
  let ab (s x : F193) : F193 := fadd (fadd (fmul (e193 5) s) x) (e193 7) in
  mk_transcript F193 S193 S193 F193 (fun _ => e193 1) (fun s _ l => Ok (fold_left (fun s x => ab s (e193 (Z.of_nat x))) l s))
    (fun s vk l => Ok (fold_left ab (vk_sigmas _ _ _ vk ++ vk_selectors _ _ _ vk ++ l) s))
    (fun s _ x => Ok (ab s x)) (fun s _ x => Ok (ab s x))
    (fun s _ => let s' := fadd (fmul (e193 11) (fmul s (fmul s s))) (e193 3) in Ok (s', s')).
Lemma T193_total : t_total F193 S193 S193 T193.
Proof. split; cbn; eauto. Qed.
Definition srs193 (b : Z) := gen_srs F193 S193 S193 (e193 b) (e193 3) (e193 7) 6 1.
Definition cr193 := map e193 [5; 2; 6; 7; 3; 11; 13]%Z.
Definition rnd193 (k : Z) : randomness F193 :=
  mk_rnd F193 (fun i j l => e193 (k + Z.of_nat (i * 17 + j * 5 + l))) (fun i j => e193 (k + Z.of_nat (3 * i + j)))
    (fun i j => e193 (k * 2 + Z.of_nat (3 * i + j))) (fun i j => e193 (k * 3 + Z.of_nat (7 * i + j)))
    (fun i j => e193 (k * 5 + Z.of_nat (3 * i + j))) (fun i => e193 (k * 7 + Z.of_nat (i * i))).

(** Knowledge of a square root: the public variable is the square of the other one. *)
Definition sq193 (x : Z) : circuit F193 :=
  snd (insert_gate (mk_row 2 2 0 0 3) (multiplication_gate F193)
    (snd (set_variable_public 3 (snd (create_variable (e193 (x * x)) (snd (create_variable (e193 x) (new_circuit F193 Turbo)))))))).
(** A table, a lookup in it, a range check and a public input. *)
Definition lk193 (x : Z) : circuit F193 :=
  snd (create_table_and_lookup_variables [(0, 2, 2)%nat] [(2, 2)%nat]
    (snd (add_range_check_variable 1 (snd (set_variable_public 2 (snd (create_variable (e193 x) (new_circuit F193 (Ultra 1))))))))).
Definition fin193 c := snd (finalize_for_arithmetization F193 6 c).
Lemma sq193_reached x : exists t, reached (sq193 x) t.
Proof.
  exists []. unfold sq193.
  eapply r_gate; [| | |now apply ok_tt]; [|repeat split; cbn; lia|reflexivity].
  eapply r_public; [| |now apply ok_tt]; [|cbn; lia].
  eapply r_variable; [|now apply (okv_eq 0%nat)]. eapply r_variable; [|now apply (okv_eq 0%nat)]. apply r_new.
Qed.
Lemma lk193_reached x : exists t, reached (lk193 x) t.
Proof.
  eexists. unfold lk193.
  eapply r_table; [|now apply ok_tt]. eapply r_range; [|now apply ok_tt]. eapply r_public; [| |now apply ok_tt]; [|cbn; lia].
  eapply r_variable; [|now apply (okv_eq 0%nat)]. apply r_new.
Qed.

Definition keys193 b (c : circuit F193) := preprocess F193 S193 S193 6 g193 cr193 (srs193 b) c.
Definition pk0 : pkey F193 S193 S193 := mk_pkey _ _ _ [] [] [] (mk_vkey _ _ _ 0 0 [] [] [] (mk_vparam F193 S193 S193 f0 f0 f0 [] []) false None) None.
Definition pk193 b c := fst (okd (pk0, pk_vk _ _ _ pk0) (keys193 b c)).
Definition vk193 b c := snd (okd (pk0, pk_vk _ _ _ pk0) (keys193 b c)).
Notation prove193 := (prove F193 S193 S193 T193 6 g193 (e193 5) cr193).
Notation batch_prove193 := (batch_prove F193 S193 S193 T193 6 g193 (e193 5) cr193).
Notation verify193 := (verify_proof F193 S193 S193 S193 e193p T193 6 g193).
Notation instance193 := (instance F193 S193 S193 6 g193 cr193 z193).


Lemma io_registered_dec (c : circuit F193) :
  forallb (fun j => negb (is_io (nth j (gates c) (io_gate F193))) || existsb (Nat.eqb j) (pub_ids c)) (seq 0 (length (gates c))) = true -> io_registered F193 c.
Proof.
  intros H j g Hj Hg. rewrite forallb_forall in H. assert (Lj : (j < length (gates c))%nat) by (apply nth_error_Some; congruence).
  specialize (H j). rewrite in_seq in H. specialize (H ltac:(lia)). rewrite (nth_error_nth _ _ _ Hj), Hg in H. cbn [negb orb] in H.
  apply existsb_exists in H as (k & Hk & E). apply Nat.eqb_eq in E. now subst.
Qed.
Lemma instance193_ok b c tabs ws pub : reached c tabs -> tables_clear c -> io_registered F193 c ->
  is_okb (fst (finalize_for_arithmetization F193 6 c)) = true ->
  isok (keys193 b (fin193 c)) = true ->
  length ws = num_vars (fin193 c) ->
  check_circuit_satisfiability z193 (with_witness (fin193 c) ws) pub = Ok tt ->
  public_input (with_witness (fin193 c) ws) = Ok pub ->
  instance193 (srs193 b) (with_witness (fin193 c) ws) (pk193 b (fin193 c)) (vk193 b (fin193 c)) pub.
Proof.
  intros R TC Hio Hf Hk Lw Hc Hp. split; [|exact Hp]. exists c, tabs, (fin193 c), ws, (witness (fin193 c)).
  split; [exact R|]. split; [exact TC|]. split; [exact Hio|]. split; [now apply ok_tt|]. split; [|split; [split; [exact Lw|exact Hc]|reflexivity]].
  replace (with_witness (fin193 c) (witness (fin193 c))) with (fin193 c) by (destruct (fin193 c); reflexivity).
  apply (okd_eq (pk0, pk_vk _ _ _ pk0)) in Hk. unfold pk193, vk193. change (keys193 b (fin193 c) = Ok (fst (okd (pk0, pk_vk _ _ _ pk0) (keys193 b (fin193 c))), snd (okd (pk0, pk_vk _ _ _ pk0) (keys193 b (fin193 c))))).
  rewrite Hk at 1. f_equal. apply surjective_pairing.
Qed.
(** Keys made from the circuit of 5, proofs for the square root 7 of 49. *)
Definition sqc : circuit F193 := with_witness (fin193 (sq193 5)) (witness (sq193 7)).
Definition lkc : circuit F193 := fin193 (lk193 5).
Lemma sqc_instance b : (b =? 5)%Z || (b =? 6)%Z = true -> instance193 (srs193 b) sqc (pk193 b (fin193 (sq193 5))) (vk193 b (fin193 (sq193 5))) [e193 49].
Proof.
  intro Hb. destruct (sq193_reached 5) as [t R]. eapply (instance193_ok _ _ t); [exact R| | | | | | |].
  - now left.
  - apply io_registered_dec. vm_compute. reflexivity.
  - vm_compute. reflexivity.
  - apply orb_prop in Hb as [Hb|Hb]; apply Z.eqb_eq in Hb; subst b; vm_compute; reflexivity.
  - vm_compute. reflexivity.
  - vm_compute. reflexivity.
  - vm_compute. reflexivity.
Qed.
Lemma lkc_instance : instance193 (srs193 5) lkc (pk193 5 lkc) (vk193 5 lkc) [e193 5].
Proof.
  destruct (lk193_reached 5) as [t R].
  replace lkc with (with_witness (fin193 (lk193 5)) (witness (fin193 (lk193 5)))) at 1 by (unfold lkc; destruct (fin193 (lk193 5)); reflexivity).
  eapply (instance193_ok _ _ t); [exact R| | | | | | |].
  - right. vm_compute. repeat constructor.
  - apply io_registered_dec. vm_compute. reflexivity.
  - vm_compute. reflexivity.
  - vm_compute. reflexivity.
  - vm_compute. reflexivity.
  - vm_compute. reflexivity.
  - vm_compute. reflexivity.
Qed.
Notation sqpk b := (pk193 b (fin193 (sq193 5))).
Notation sqvk b := (vk193 b (fin193 (sq193 5))).

(** *** C57 *)
Print Assumptions C57_batch_prove_verifies.
Print Assumptions C57_prove_verifies.
Lemma five_neq_0 : e193 5 <> f0.
Proof. intro H. apply (f_equal z193) in H. vm_compute in H. discriminate. Qed.
Definition p0 : proof F193 S193 := mk_proof F193 S193 [] (f0 : F193) [] (f0 : F193) (f0 : F193) (mk_pe F193 [] [] f0) None.
Definition b0 : batch_proof F193 S193 := batch_of_proof F193 S193 p0.
Definition sqp b k : proof F193 S193 := okd p0 (prove193 (rnd193 k) sqc (sqpk b) None).
Example C57_case_turbo : prove193 (rnd193 1) sqc (sqpk 5) None = Ok (sqp 5 1)
  /\ verify193 (sqvk 5) [e193 49] (sqp 5 1) None = Ok tt /\ verify193 (sqvk 5) [e193 50] (sqp 5 1) None = Err WrongProof.
Proof.
  assert (E : prove193 (rnd193 1) sqc (sqpk 5) None = Ok (sqp 5 1)) by (unfold sqp; apply okd_eq; vm_compute; reflexivity).
  split; [exact E|]. split; [|vm_compute; reflexivity].
  eapply (C57_prove_verifies F193 S193 S193 S193 e193p T193); [exact root193|exact five_neq_0|exact T193_total|now apply (sqc_instance 5)|exact E].
Qed.
Definition lkp k : proof F193 S193 := okd p0 (prove193 (rnd193 k) lkc (pk193 5 lkc) None).
Example C57_case_ultra : prove193 (rnd193 1) lkc (pk193 5 lkc) None = Ok (lkp 1)
  /\ verify193 (vk193 5 lkc) [e193 5] (lkp 1) None = Ok tt /\ verify193 (vk193 5 lkc) [e193 6] (lkp 1) None = Err WrongProof
  /\ is_some (pf_plookup _ _ (lkp 1)) = true.
Proof.
  assert (E : prove193 (rnd193 1) lkc (pk193 5 lkc) None = Ok (lkp 1)) by (unfold lkp; apply okd_eq; vm_compute; reflexivity).
  split; [exact E|]. split; [|split; vm_compute; reflexivity].
  eapply (C57_prove_verifies F193 S193 S193 S193 e193p T193); [exact root193|exact five_neq_0|exact T193_total|exact lkc_instance|exact E].
Qed.
Notation verify_batch193 := (verify_batch_proof F193 S193 S193 S193 e193p T193 6 g193).
Definition sqb k : batch_proof F193 S193 := okd b0 (batch_prove193 (rnd193 k) [sqc; sqc] [sqpk 5; sqpk 5]).
Lemma instances_two s c pk vk pub : instance193 s c pk vk pub ->
  instances F193 S193 S193 6 g193 cr193 z193 s [c; c] [pk; pk] [vk; vk] [pub; pub].
Proof.
  intro H. split; [reflexivity|]. split; [reflexivity|]. split; [reflexivity|]. intros i c' pk' vk' pub'.
  destruct i as [|[|i]]; cbn [nth_error]; intros E1 E2 E3 E4; [| |destruct i; discriminate];
    injection E1 as <-; injection E2 as <-; injection E3 as <-; injection E4 as <-; exact H.
Qed.
Example C57_case_batch : batch_prove193 (rnd193 1) [sqc; sqc] [sqpk 5; sqpk 5] = Ok (sqb 1)
  /\ verify_batch193 [sqvk 5; sqvk 5] [[e193 49]; [e193 49]] (sqb 1) = Ok tt
  /\ verify_batch193 [sqvk 5; sqvk 5] [[e193 49]; [e193 50]] (sqb 1) = Err WrongProof.
Proof.
  assert (E : batch_prove193 (rnd193 1) [sqc; sqc] [sqpk 5; sqpk 5] = Ok (sqb 1)) by (unfold sqb; apply okd_eq; vm_compute; reflexivity).
  split; [exact E|]. split; [|vm_compute; reflexivity].
  eapply (C57_batch_prove_verifies F193 S193 S193 S193 e193p T193); [exact root193|exact five_neq_0|exact T193_total| |exact E].
  apply instances_two. now apply (sqc_instance 5).
Qed.

(** *** C58 *)
Print Assumptions C58_batch_complete.
Print Assumptions C58_bad_proof_bound.
Notation job193 := (job F193 S193 S193).
Notation batch193 := (batch F193 S193 S193 S193 e193p 6 g193).
Notation single193 := (single F193 S193 S193 S193 e193p T193 6 g193).
Definition j1 : job193 := (sqvk 5, sqp 5 1, [e193 49], None).
Definition j2 : job193 := (vk193 5 lkc, lkp 1, [e193 5], None).
Definition jbad : job193 := (sqvk 5, sqp 5 1, [e193 50], None).
Definition jother : job193 := (sqvk 6, sqp 6 1, [e193 49], None).
Lemma j1_ok : single193 j1 = Ok tt. Proof. exact (proj1 (proj2 C57_case_turbo)). Qed.
Lemma j2_ok : single193 j2 = Ok tt. Proof. exact (proj1 (proj2 C57_case_ultra)). Qed.
Definition vpz (v : vparam F193 S193 S193) : list (list Z) :=
  [[z193 (vg v); z193 (vh v); z193 (vbeta_h v)]; map z193 (vpowers_of_h v); map z193 (vpowers_of_g v)].
Lemma vpz_inj v w : vpz v = vpz w -> v = w.
Proof.
  destruct v as [a b c d f], w as [a' b' c' d' f']. unfold vpz. cbn [vg vh vbeta_h vpowers_of_h vpowers_of_g]. intro H. injection H as H1 H2 H3 H4 H5.
  f_equal; try (now apply (zp_ext 193)); now apply l193_ext.
Qed.
Lemma open_j2 : vk_open F193 S193 S193 (vk193 5 lkc) = vk_open F193 S193 S193 (sqvk 5).
Proof. apply vpz_inj. vm_compute. reflexivity. Qed.
Example C58_case : batch193 T193 [j1; j2; j1] = Ok tt.
Proof.
  eapply (C58_batch_complete F193 S193 S193 S193 e193p T193 6 g193 (vk_open _ _ _ (sqvk 5))); [exact T193_total|cbn; eauto|discriminate|].
  intros j [<-|[<-|[<-|[]]]]; [split; [reflexivity|exact j1_ok]|split; [exact open_j2|exact j2_ok]|split; [reflexivity|exact j1_ok]].
Qed.
(** Of the 193 possible answers, at most two make the batch with a bad proof pass. *)
Example C58_case_bad : single193 jbad <> Ok tt /\ batch193 T193 [j1; j2; jbad] = Err WrongProof
  /\ forall rs, NoDup rs -> (forall r, In r rs -> batch193 (answer_r F193 S193 S193 T193 r) [j1; jbad; j2] = Ok tt) -> (length rs <= 2)%nat.
Proof.
  assert (E : single193 jbad = Err WrongProof) by (vm_compute; reflexivity).
  split; [rewrite E; discriminate|]. split; [vm_compute; reflexivity|]. intros rs Nd H.
  apply Nat.lt_succ_r. change 3%nat with (length [j1; jbad; j2]).
  apply (C58_bad_proof_bound F193 S193 S193 S193 e193p T193 6 g193 (vk_open _ _ _ (sqvk 5)) _ jbad).
  - right. left. reflexivity.
  - rewrite E. discriminate.
  - intros j [<-|[<-|[<-|[]]]]; [reflexivity|reflexivity|exact open_j2].
  - exact Nd.
  - exact H.
Qed.

(** Findings.  The opening key of the first verifying key is used for all proofs: valid
    proofs under keys of two reference strings are rejected together. *)
Theorem C58_open_keys_refuted : exists js : list job193, (forall j, In j js -> single193 j = Ok tt) /\ batch193 T193 js = Err WrongProof.
Proof.
  exists [j1; jother]. split; [|vm_compute; reflexivity]. intros j [<-|[<-|[]]]; [exact j1_ok|].
  assert (E : prove193 (rnd193 1) sqc (sqpk 6) None = Ok (sqp 6 1)) by (unfold sqp; apply okd_eq; vm_compute; reflexivity).
  eapply (C57_prove_verifies F193 S193 S193 S193 e193p T193); [exact root193|exact five_neq_0|exact T193_total|now apply (sqc_instance 6)|exact E].
Qed.
(** A proof with the wrong number of evaluations makes the verifier panic instead of
    returning an error, alone and in a batch with valid proofs. *)
Definition pshort : proof F193 S193 :=
  let p := sqp 5 1 in mk_proof F193 S193 (pf_wires _ _ p) (pf_perm _ _ p) (pf_quots _ _ p) (pf_open _ _ p) (pf_shifted _ _ p) (mk_pe F193 [] [] f0) (pf_plookup _ _ p).
Theorem C71_malformed_proof_refuted : exists vk pub p, instance193 (srs193 5) sqc (sqpk 5) vk pub
  /\ verify193 vk pub p None = Panic /\ batch193 T193 [j1; (vk, p, pub, None)] = Panic.
Proof.
  exists (sqvk 5), [e193 49], pshort. split; [now apply (sqc_instance 5)|]. split; vm_compute; reflexivity.
Qed.
