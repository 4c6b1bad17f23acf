(** The transcripts meet what the completeness theorems ask of them; concrete sessions; and
    cases where the unrestricted binding claims fail. *)
From Coq Require Import String List Arith ZArith Lia Bool Znumtheory.
From Verif Require Import Base ListAux Alg Proth ConvModel ConvProofs UtilProps RescueModel RescueProps KzgModel KzgProofs KzgFft CircuitModel PcsProps PlonkModel PlonkLin PlonkPoly PlonkRun PlonkProps PlonkCases
  TranscriptModel TranscriptProofs TranscriptProps.
Import ListNotations.

Section Total.
  Variables (r q : Z) (Hr : prime r) (Hq : prime q).
  Notation Fr := (Zp r Hr).
  Notation Fq := (Zp q Hq).
  Variables V1 V2 VT : vsp Fr.
  Variable e : pairing Fr V1 V2 VT.
  Variable xy : V1 -> option (Fq * Fq).
  Variable g1b : V1 -> list Z.
  Variable g2b : V2 -> list Z.
  Variable frb : Fr -> list Z.
  Variable keccak : list Z -> list Z.
  Variable RP : rescue_params Fq.
  Variables te_s te_nalpha te_beta : Fq.
  Variable mst : Type.
  Variable m_new : string -> mst.
  Variable m_append : mst -> string -> list Z -> mst.
  Variable m_challenge : mst -> string -> nat -> list Z * mst.
  Notation solT := (solidity r q Hr Hq V1 V2 xy g2b keccak).
  Notation resT := (rescue r q Hr Hq V1 V2 xy RP te_s te_nalpha te_beta).
  Notation stdT := (standard r Hr V1 V2 g1b g2b frb mst m_new m_append m_challenge).

  Lemma solidity_total : t_total Fr V1 V2 solT.
  Proof. split; cbn; eauto. Qed.
  Lemma standard_total : t_total Fr V1 V2 stdT.
  Proof. split; cbn; eauto. Qed.
  (** The Rescue transcript does not fail when every commitment converts to Edwards form and
      the scalar field is narrower than the base field. *)
  Lemma rescue_total : length (rp_keys RP) = 25%nat ->
    (forall c x y, xy c = Some (x, y) -> fmul te_s y <> f0 /\ fadd (fmul te_s (fadd x te_nalpha)) f1 <> f0) ->
    (bit_size {| modulus := r |} < bit_size {| modulus := q |})%Z -> (bit_size {| modulus := r |} mod 8 <> 0)%Z ->
    t_total Fr V1 V2 resT.
  Proof.
    intros Hk Hc Hbits Hm. split.
    - intros s l c. cbn [t_commitment rescue]. unfold res_commitment. destruct (xy c) as [[x y]|] eqn:E; [|cbn; eauto].
      destruct (Hc c x y E) as [H1 H2]. unfold sw_to_te, fdivp. apply feqb_neq in H1, H2. rewrite H1, H2. cbn. eauto.
    - intros s l. cbn [t_challenge rescue]. unfold res_challenge. destruct (C38_output_length Fq RP Hk (res_st q Hq s ++ res_tr q Hq s) STATE_SIZE) as [(res & E & L) _].
      rewrite E. cbn [lift_u bind]. destruct res as [|t0 res]; [discriminate|]. cbn [index nth_error bind].
      rewrite C20_mask_exact; cbn [modulus]; auto using prime_gt_1, zv_bound. apply Z.ltb_lt in Hbits. rewrite Hbits. cbn. eauto.
  Qed.

  (** *** C57 with the transcripts the crate ships *)
  Variables (ta : nat) (root fgen : Fr) (coset_rnd : list Fr).
  Hypothesis Hroot : root_ok Fr ta root.
  Hypothesis Hfgen : fgen <> f0.
  Variable zval : Fr -> Z.
  Notation instance := (instance Fr V1 V2 ta root coset_rnd zval).
  Notation prove T := (prove Fr V1 V2 T ta root fgen coset_rnd).
  Notation verify_proof T := (verify_proof Fr V1 V2 VT e T ta root).
  Theorem C57_solidity b gg h pd vd rnd c pk vk pub extra p :
    instance (gen_srs Fr V1 V2 b gg h pd vd) c pk vk pub -> prove solT rnd c pk extra = Ok p -> verify_proof solT vk pub p extra = Ok tt.
  Proof. intros Hi Hp. eapply C57_prove_verifies; eauto using solidity_total. Qed.
  Theorem C57_standard b gg h pd vd rnd c pk vk pub extra p :
    instance (gen_srs Fr V1 V2 b gg h pd vd) c pk vk pub -> prove stdT rnd c pk extra = Ok p -> verify_proof stdT vk pub p extra = Ok tt.
  Proof. intros Hi Hp. eapply C57_prove_verifies; eauto using standard_total. Qed.
  Theorem C57_rescue b gg h pd vd rnd c pk vk pub extra p : length (rp_keys RP) = 25%nat ->
    (forall c x y, xy c = Some (x, y) -> fmul te_s y <> f0 /\ fadd (fmul te_s (fadd x te_nalpha)) f1 <> f0) ->
    (bit_size {| modulus := r |} < bit_size {| modulus := q |})%Z -> (bit_size {| modulus := r |} mod 8 <> 0)%Z ->
    instance (gen_srs Fr V1 V2 b gg h pd vd) c pk vk pub -> prove resT rnd c pk extra = Ok p -> verify_proof resT vk pub p extra = Ok tt.
  Proof. intros H1 H2 H3 H4 Hi Hp. eapply C57_prove_verifies; eauto using rescue_total. Qed.

  (** *** Where binding fails *)
  (** An absent and an empty message are the same to the Solidity and Rescue transcripts:
      the verdicts are equal. *)
  Theorem C60_absent_message_refuted vk pub p :
    verify_proof solT vk pub p None = verify_proof solT vk pub p (Some []) /\
    (forall pl d fl, compile_time_checks {| modulus := q |} 1 = Ok (pl, d, fl) -> verify_proof resT vk pub p None = verify_proof resT vk pub p (Some [])).
  Proof.
    assert (G : forall T, (forall l l', t_message Fr V1 V2 T (t_new Fr V1 V2 T l) l' [] = Ok (t_new Fr V1 V2 T l)) -> verify_proof T vk pub p None = verify_proof T vk pub p (Some [])).
    { intros T H. unfold PlonkModel.verify_proof, batch_verify. cbn [length Nat.eqb negb orb combine map_res].
      assert (E : forall d, prepare_pcs_info Fr V1 V2 T d [vk] [pub] (batch_of_proof Fr V1 p) None = prepare_pcs_info Fr V1 V2 T d [vk] [pub] (batch_of_proof Fr V1 p) (Some [])).
      { intro d. unfold prepare_pcs_info, compute_challenges, t_start. rewrite H. reflexivity. }
      destruct (verifier_new Fr ta root (vk_n Fr V1 V2 vk)) as [d| |]; cbn [bind]; auto. now rewrite E. }
    split; [|intros pl d fl Hct]; apply G; intros l l'.
    - reflexivity.
    - cbn [t_message t_new rescue]. unfold res_message, bytes_to_field_elements. rewrite Hct. cbn. reflexivity.
  Qed.
  (** The bytes of two messages run together. *)
  Theorem C60_message_boundary_refuted l l' m m' s :
    t_run r Hr V1 V2 solT [OMessage r Hr V1 V2 l m; OMessage r Hr V1 V2 l m'] s = t_run r Hr V1 V2 solT [OMessage r Hr V1 V2 l' (m ++ m')] s.
  Proof. cbn. unfold sol_message. cbn. unfold zbytes. now rewrite map_app, app_assoc. Qed.

  Definition with_lookup (vk : vkey Fr V1 V2) (lk : option (plookup_vk Fr V1)) : vkey Fr V1 V2 :=
    mk_vkey Fr V1 V2 (vk_n _ _ _ vk) (vk_inputs _ _ _ vk) (vk_sigmas _ _ _ vk) (vk_selectors _ _ _ vk) (vk_k _ _ _ vk) (vk_open _ _ _ vk) (vk_merged _ _ _ vk) lk.
  (** No transcript binds the lookup part of a verifying key: keys for different tables get
      the same challenges for every proof. *)
  Theorem C60_lookup_key_refuted T vk lk lk' pub p extra : In T [solT; resT; stdT] ->
    compute_challenges Fr V1 V2 T [with_lookup vk (Some lk)] [pub] p extra = compute_challenges Fr V1 V2 T [with_lookup vk (Some lk')] [pub] p extra.
  Proof.
    intro HT. assert (E : forall s, t_vk_pi Fr V1 V2 T s (with_lookup vk (Some lk)) pub = t_vk_pi Fr V1 V2 T s (with_lookup vk (Some lk')) pub).
    { destruct HT as [<-|[<-|[<-|[]]]]; reflexivity. }
    unfold compute_challenges, t_start. cbn [length combine fold_res existsb is_some with_lookup vk_plookup fst snd].
    destruct extra as [m|].
    - destruct (t_message Fr V1 V2 T _ _ m) as [s| |]; cbn [bind]; auto. now rewrite E.
    - cbn [bind]. now rewrite E.
  Qed.
  (** The Rescue transcript binds of a key only the selector and sigma commitments. *)
  Theorem C60_rescue_key_refuted vk vk' pub s : vk_selectors Fr V1 V2 vk = vk_selectors Fr V1 V2 vk' -> vk_sigmas Fr V1 V2 vk = vk_sigmas Fr V1 V2 vk' ->
    t_vk_pi Fr V1 V2 resT s vk pub = t_vk_pi Fr V1 V2 resT s vk' pub.
  Proof. intros E1 E2. cbn [t_vk_pi rescue]. unfold res_vk_pi. now rewrite E1, E2. Qed.
End Total.
(** With the dummy conversion constants (BN254, BLS12-381, BW6-761) the Rescue transcript
    panics on every commitment but the one at infinity. *)
Theorem C60_rescue_dummy_refuted r q Hr Hq V1 V2 xy RP s l c x y : xy c = Some (x, y) ->
  t_commitment (Zp r Hr) V1 V2 (rescue r q Hr Hq V1 V2 xy RP (f0 : Zp q Hq) f0 f0) s l c = Panic.
Proof.
  intro E. cbn [t_commitment rescue]. unfold res_commitment, sw_to_te, fdivp. rewrite E.
  replace (fmul (f0 : Zp q Hq) y) with (f0 : Zp q Hq) by (apply zp_ext; reflexivity). rewrite feqb_refl. reflexivity.
Qed.

(** ** Concrete sessions *)
(** A toy hash to 32 bytes in the place of Keccak, coordinates for the field standing in for
    the curve group. *)
Definition toy_hash (x : list Z) : list Z :=
  let h := fold_left (fun a b => (a * 263 + b * 31 + 7) mod 65521)%Z x 1%Z in
  map (fun i => (h * (2 * Z.of_nat i + 1) / 7) mod 256)%Z (seq 0 32).
Definition xy193 (c : F193) : option (F193 * F193) := Some (c, f1).
Definition sol193 : transcript F193 S193 S193 := solidity 193 193 prime_193 prime_193 S193 S193 xy193 (fun h => [z193 h]) toy_hash.
Definition std193 : transcript F193 S193 S193 :=
  standard 193 prime_193 S193 S193 (fun c => [z193 c]) (fun h => [z193 h]) (fun x => [z193 x])
    (list (string * list Z)) (fun l => [(l, [])]) (fun s l b => s ++ [(l, b)]) (fun s l n => (toy_hash (concat (map snd s)), s ++ [(l, [0]%Z)])).
Notation proveT T := (prove F193 S193 S193 T 6 g193 (e193 5) cr193).
Notation verifyT T := (verify_proof F193 S193 S193 S193 e193p T 6 g193).
Lemma five193 : e193 5 <> f0.
Proof. intro H. apply (f_equal z193) in H. vm_compute in H. discriminate H. Qed.
Lemma sol193_total : t_total F193 S193 S193 sol193.
Proof. exact (solidity_total 193 193 prime_193 prime_193 S193 S193 xy193 (fun h => [z193 h]) toy_hash). Qed.
Lemma std193_total : t_total F193 S193 S193 std193.
Proof. split; cbn; eauto. Qed.
Definition solp : proof F193 S193 := okd p0 (proveT sol193 (rnd193 3) sqc (sqpk 5) (Some [1; 2; 3]%nat)).
Example C57_case_solidity : proveT sol193 (rnd193 3) sqc (sqpk 5) (Some [1; 2; 3]%nat) = Ok solp /\
  verifyT sol193 (sqvk 5) [e193 49] solp (Some [1; 2; 3]%nat) = Ok tt /\ verifyT sol193 (sqvk 5) [e193 49] solp None = Err WrongProof.
Proof.
  assert (E : proveT sol193 (rnd193 3) sqc (sqpk 5) (Some [1; 2; 3]%nat) = Ok solp) by (unfold solp; apply okd_eq; vm_compute; reflexivity).
  split; [exact E|]. split; [|vm_compute; reflexivity].
  eapply (C57_prove_verifies F193 S193 S193 S193 e193p sol193); [exact root193|exact five193|exact sol193_total|now apply (sqc_instance 5)|exact E].
Qed.
Definition stdp : proof F193 S193 := okd p0 (proveT std193 (rnd193 3) sqc (sqpk 5) (Some [1; 2; 3]%nat)).
Example C57_case_standard : proveT std193 (rnd193 3) sqc (sqpk 5) (Some [1; 2; 3]%nat) = Ok stdp /\
  verifyT std193 (sqvk 5) [e193 49] stdp (Some [1; 2; 3]%nat) = Ok tt /\ verifyT std193 (sqvk 5) [e193 49] stdp None = Err WrongProof.
Proof.
  assert (E : proveT std193 (rnd193 3) sqc (sqpk 5) (Some [1; 2; 3]%nat) = Ok stdp) by (unfold stdp; apply okd_eq; vm_compute; reflexivity).
  split; [exact E|]. split; [|vm_compute; reflexivity].
  eapply (C57_prove_verifies F193 S193 S193 S193 e193p std193); [exact root193|exact five193|exact std193_total|now apply (sqc_instance 5)|exact E].
Qed.
(** The hypotheses of the Solidity theorems. *)
Example C60_case_solidity :
  (forall x, length (toy_hash x) = 32%nat) /\ (forall c c', xy193 c = xy193 c' -> c = c') /\ (forall c, xy193 c <> Some (f0, f0)) /\
  (forall h h' : F193, [z193 h] = [z193 h'] -> h = h') /\ (forall h h' : F193, length [z193 h] = length [z193 h']) /\
  isok (t_run 193 prime_193 S193 S193 sol193
    [OMessage 193 prime_193 S193 S193 "m" [1; 2]%nat; OKey 193 prime_193 S193 S193 (vk193 5 (fin193 (sq193 5))) [e193 49];
     OCommitment 193 prime_193 S193 S193 "c" (e193 7); OChallenge 193 prime_193 S193 S193 "x"; OField 193 prime_193 S193 S193 "f" (e193 9); OChallenge 193 prime_193 S193 S193 "y"]
    (t_new _ _ _ sol193 "l")) = true.
Proof.
  split; [intro x; unfold toy_hash; now rewrite map_length, seq_length|]. split; [intros c c' E; unfold xy193 in E; now injection E|].
  split; [intros c E; unfold xy193 in E; injection E as _ E; vm_compute in E; discriminate E|].
  split; [intros h h' E; injection E as E; now apply (zp_ext 193)|]. split; [reflexivity|]. vm_compute. reflexivity.
Qed.

(** Scalars modulo 257, coordinates modulo a prime of 124 bits. *)
Definition q124 : Z := 10633823966279333753185531533648199681.
Lemma prime_q124 : prime q124.
Proof.
  apply (proth q124 11 576460752303423855 63); [reflexivity|reflexivity|vm_cast_no_check (eq_refl (q124 - 1)%Z)|lia].
Qed.
Lemma prime_257 : prime 257.
Proof. apply primeb_prime. vm_compute. reflexivity. Qed.
Definition F257 := Zp 257 prime_257.
Definition F124 := Zp q124 prime_q124.
Notation S257 := (self_vsp F257).
Definition e124 (z : Z) : F124 := zmk q124 z.
(** points [(t^2, t^3)] *)
Definition xy257 (c : F257) : option (F124 * F124) :=
  let t := zv 257 c in if (t =? 0)%Z then None else Some (e124 (t * t), e124 (t * t * t)).
Definition v124 (a b c d : Z) : vec4 F124 := V4 (e124 a) (e124 b) (e124 c) (e124 d).
Definition R124 : rescue_params F124 :=
  mk_rescue 5 [3%N] (M4 (v124 2 3 1 1) (v124 1 2 3 1) (v124 1 1 2 3) (v124 3 1 1 2)) (v124 1 2 3 4)
    (repeat (v124 5 6 7 8) 24) (repeat (v124 9 10 11 12) 25).
Definition res257 : transcript F257 S257 S257 := rescue 257 q124 prime_257 prime_q124 S257 S257 xy257 R124 (e124 1) (e124 0) (e124 1).
Lemma zv257 (c : F257) : (0 <= zv 257 c < 257)%Z.
Proof. apply zv_bound. exact prime_257. Qed.
Lemma e124_inj a b : (0 <= a < 257 * 257 * 257)%Z -> (0 <= b < 257 * 257 * 257)%Z -> e124 a = e124 b -> a = b.
Proof. intros Ha Hb E. apply (f_equal (zv q124)) in E. change (a mod q124 = b mod q124)%Z in E. rewrite !Z.mod_small in E by (unfold q124; lia). exact E. Qed.
Example C60_case_rescue :
  (forall c c', xy257 c = xy257 c' -> c = c') /\ (forall c x y, xy257 c = Some (x, y) -> on_curve F124 f0 f0 x y) /\
  on_curve F124 f0 f0 (fopp (e124 0)) f0 /\ e124 1 <> f0 /\ fadd (f1 : F124) f1 <> f0 /\ length (rp_keys R124) = 25%nat /\ Z.odd q124 = true /\ (257 <= q124)%Z /\
  codec_field {| modulus := q124 |} 1 /\
  (forall c x y, xy257 c = Some (x, y) -> fmul (e124 1) y <> f0 /\ fadd (fmul (e124 1) (fadd x (e124 0))) f1 <> f0) /\
  isok (t_run 257 prime_257 S257 S257 res257
    [OMessage 257 prime_257 S257 S257 "m" [1; 2]%nat;
     OCommitment 257 prime_257 S257 S257 "c" (zmk 257 0); OChallenge 257 prime_257 S257 S257 "x"; OField 257 prime_257 S257 S257 "f" (zmk 257 9); OChallenge 257 prime_257 S257 S257 "y"]
    (t_new _ _ _ res257 "l")) = true.
Proof.
  assert (N1 : e124 1 <> f0) by (intro E; apply (f_equal (zv q124)) in E; vm_compute in E; discriminate E).
  assert (XY : forall c x y, xy257 c = Some (x, y) -> exists t, (0 < t < 257)%Z /\ x = e124 (t * t) /\ y = e124 (t * t * t)).
  { intros c x y E. unfold xy257 in E. destruct (Z.eqb_spec (zv 257 c) 0); [discriminate|]. injection E as <- <-. exists (zv 257 c). pose proof (zv257 c). split; [lia|auto]. }
  split; [|split; [|split; [|split; [|split; [|split; [|split; [|split; [|split; [|split]]]]]]]]].
  - intros c c' E. apply (zp_ext 257). unfold xy257 in E. pose proof (zv257 c). pose proof (zv257 c'). destruct (Z.eqb_spec (zv 257 c) 0), (Z.eqb_spec (zv 257 c') 0); try discriminate; [lia|].
    assert (E1 : e124 (zv 257 c * zv 257 c) = e124 (zv 257 c' * zv 257 c')) by congruence. apply e124_inj in E1; nia.
  - intros c x y E. apply XY in E as (t & Ht & -> & ->). apply (zp_ext q124). change (?a = ?b) with (a = b).
    transitivity ((t * t * t * (t * t * t)) mod q124)%Z.
    + transitivity (((t * t * t) mod q124 * ((t * t * t) mod q124)) mod q124)%Z; [reflexivity|]. now rewrite <- Zmult_mod.
    + transitivity ((((t * t) mod q124 * ((t * t) mod q124)) mod q124 * ((t * t) mod q124)) mod q124)%Z.
      * rewrite <- (Zmult_mod (t * t) (t * t)), <- (Zmult_mod (t * t * (t * t)) (t * t)). f_equal. ring.
      * set (A := (((t * t) mod q124 * ((t * t) mod q124)) mod q124 * ((t * t) mod q124) mod q124)%Z).
        assert (HA : (0 <= A < q124)%Z) by (apply Z.mod_pos_bound; reflexivity).
        transitivity (((A + (0 * ((t * t) mod q124)) mod q124) mod q124 + 0) mod q124)%Z; [|reflexivity].
        rewrite Z.mul_0_l, Z.mod_0_l by discriminate. rewrite !Z.add_0_r. repeat rewrite (Z.mod_small A) by exact HA. reflexivity.
  - apply (zp_ext q124). vm_compute. reflexivity.
  - exact N1.
  - intro E. apply (f_equal (zv q124)) in E. vm_compute in E. discriminate E.
  - reflexivity.
  - reflexivity.
  - discriminate.
  - split; [reflexivity|]. split; [reflexivity|]. split; [reflexivity|]. lia.
  - intros c x y E. apply XY in E as (t & Ht & -> & ->). split; intro E; apply (f_equal (zv q124)) in E.
    + change ((1 mod q124 * ((t * t * t) mod q124)) mod q124 = 0)%Z in E. rewrite <- Zmult_mod, Z.mul_1_l, Z.mod_small in E by (unfold q124; nia). nia.
    + change (((1 mod q124 * (((t * t) mod q124 + 0 mod q124) mod q124)) mod q124 + 1 mod q124) mod q124 = 0)%Z in E.
      rewrite <- (Zplus_mod (t * t)), Z.add_0_r, <- Zmult_mod, Z.mul_1_l, <- Zplus_mod, Z.mod_small in E by (unfold q124; nia). nia.
  - vm_compute. reflexivity.
Qed.

Print Assumptions C60_solidity_binding.
Print Assumptions C60_solidity_fresh.
Print Assumptions C60_rescue_binding.
Print Assumptions C60_rescue_fresh.
Print Assumptions C60_standard_binding.
Print Assumptions C57_solidity.
Print Assumptions C57_standard.
Print Assumptions C57_rescue.
Print Assumptions C60_absent_message_refuted.
Print Assumptions C60_message_boundary_refuted.
Print Assumptions C60_lookup_key_refuted.
Print Assumptions C60_rescue_key_refuted.
Print Assumptions C60_rescue_dummy_refuted.
Print Assumptions C60_case_rescue.
