(** Properties C42 (Schnorr signatures) and C44 (ElGamal encryption) about the
    model of SigModel.v. *)

From Coq Require Import List Arith ZArith Lia Ring Field Znumtheory Bool.
From Verif Require Import Base ListAux Alg ConvModel ConvProofs RescueModel FiniteField RescueProofs
  RescueProps PoseidonProofs Group SigModel.
Import ListNotations.
Local Open Scope fld_scope.

Lemma zv_range p (Hp : (1 < p)%Z) (x : zp p) : (0 <= zv p x < p)%Z.
Proof. rewrite <- zv_mod. apply Z.mod_pos_bound. lia. Qed.

Section Curve.
  Variables (l q : Z) (Hl : prime l) (Hq : prime q).
  Notation Fr := (Zp l Hl).
  Notation Fq := (Zp q Hq).
  Notation PR := {| modulus := l |}.
  Notation PQ := {| modulus := q |}.
  Add Field Frf : (fth Fr).
  Add Field Fqf : (fth Fq).
  Variable RP : rescue_params Fq.
  Hypothesis Hkeys : length (rp_keys RP) = 25%nat.
  Variable G : agrp.
  Variable coords : G -> Fq * Fq.
  Variable gen : G.
  Variable cofactor : Z.
  (** The generator has order [l], the cofactor is not a multiple of it, and the
      scalar field is shorter than the base field. *)
  Hypothesis Hgen : gmul l gen = g0.
  Hypothesis Hgen0 : gen <> g0.
  Hypothesis Hcof : ~ (l | cofactor).
  Hypothesis Hbits : (bit_size PR < bit_size PQ)%Z.

  Notation smul := (smul l Hl G).
  Notation sign := (sign l q Hl Hq RP G coords gen).
  Notation verify := (verify l q Hl Hq RP G coords gen cofactor).
  Notation challenge := (challenge l q Hl Hq RP G coords).
  Notation challenge_input := (challenge_input q Hq G coords).
  Notation nonce_input := (nonce_input l q Hl Hq).
  Notation hash1 := (hash1 q Hq RP).
  Notation generate_with_sign_key := (generate_with_sign_key l Hl G gen).
  Notation randomize_with := (randomize_with l Hl G gen).
  Notation mk_sig := (mk_sig l Hl G).
  Notation sig_s := (sig_s l Hl G).
  Notation sig_R := (sig_R l Hl G).

  Lemma l_gt_1 : (1 < l)%Z.
  Proof. pose proof (prime_ge_2 _ Hl). lia. Qed.
  Lemma q_gt_1 : (1 < q)%Z.
  Proof. pose proof (prime_ge_2 _ Hq). lia. Qed.

  (** Multiplication of points in the subgroup by scalars. *)
  Lemma smul_add (a b : Fr) x : gmul l x = g0 -> smul (a + b) x = gadd (smul a x) (smul b x).
  Proof.
    intro H. unfold SigModel.smul. change (zv l (a + b)) with ((zv l a + zv l b) mod l)%Z.
    rewrite gmul_mod by exact H. apply gmul_add.
  Qed.
  Lemma smul_mul (a b : Fr) x : gmul l x = g0 -> smul (a * b) x = smul a (smul b x).
  Proof.
    intro H. unfold SigModel.smul. change (zv l (a * b)) with ((zv l a * zv l b) mod l)%Z.
    rewrite gmul_mod by exact H. apply gmul_mul.
  Qed.
  Lemma smul_sub (s : Fr) x : gmul l x = g0 -> gmul l (smul s x) = g0.
  Proof.
    intro H. unfold SigModel.smul. rewrite <- gmul_mul, Z.mul_comm, gmul_mul, H. apply gmul_0_r.
  Qed.
  Lemma smul_gen_inj (a b : Fr) : smul a gen = smul b gen -> a = b.
  Proof.
    intro E. apply zp_ext. unfold SigModel.smul in E.
    assert (D : (l | zv l a - zv l b)%Z).
    { apply (gmul_prime_0 G l _ gen Hl Hgen Hgen0). rewrite <- Z.add_opp_r, gmul_add, gmul_opp, E. apply gadd_opp. }
    destruct D as [k Hk]. pose proof (zv_range l l_gt_1 a). pose proof (zv_range l l_gt_1 b).
    assert (k = 0)%Z by nia. subst k. lia.
  Qed.

  Lemma hash1_ok input : exists h, hash1 input = Ok h.
  Proof.
    unfold SigModel.hash1. destruct (proj1 (C38_output_length Fq RP Hkeys input 1)) as (res & -> & Hr).
    cbn [expect bind]. destruct res as [|h res]; [discriminate Hr|]. eauto.
  Qed.
  Lemma mask_ok (x : Fq) : exists c, to_fr_with_mask l q Hl Hq x = Ok c.
  Proof.
    unfold to_fr_with_mask, fq_to_fr_with_mask. destruct (Z.ltb_spec (bit_size PR) (bit_size PQ)) as [_|]; [|lia].
    cbn [negb]. unfold bigint_bytes. rewrite length_le_bytes.
    pose proof (limbs_bounds PQ q_gt_1). pose proof (bit_size_pos PR l_gt_1).
    rewrite Z.shiftr_div_pow2 by lia. change (2 ^ 3)%Z with 8%Z.
    pose proof (Z.mul_div_le (bit_size PR) 8 ltac:(lia)).
    destruct (Nat.ltb_spec (Z.to_nat (8 * limbs PQ)) (Z.to_nat (bit_size PR / 8))); [lia|].
    cbn [bind]. eauto.
  Qed.
  Lemma challenge_ok vk R msg csid : exists c, challenge vk R msg csid = Ok c.
  Proof.
    unfold SigModel.challenge. destruct (hash1_ok (challenge_input vk R msg csid)) as (h & ->).
    cbn [bind]. apply mask_ok.
  Qed.
  Lemma cofactor_check (x : Fr) : x <> 0 -> geqb (smul (zmk l cofactor) (smul x gen)) g0 = false.
  Proof.
    intro Hx. destruct (geqb _ _) eqn:E; [|reflexivity]. exfalso. apply geqb_eq in E.
    rewrite <- smul_mul in E by exact Hgen. change (g0 : G) with (smul 0 gen) in E.
    apply smul_gen_inj in E. apply fmul_eq_0 in E as [E|E]; [|contradiction].
    apply Hcof. apply (f_equal (zv l)) in E. cbn [zv zmk] in E. change (zv l (0 : Fr)) with (0 mod l)%Z in E.
    rewrite Z.mod_0_l in E by (pose proof l_gt_1; lia). apply Z.mod_divide; [pose proof l_gt_1; lia|exact E].
  Qed.

  (** ** C42 *)

  (** What verification means, for any key, message and signature: the key is not
      of small order and the signature equation holds. *)
  Theorem C42_verify_exact vk msg sig csid : exists c, challenge vk (sig_R sig) msg csid = Ok c /\
    (verify vk msg sig csid = Ok tt <->
       smul (zmk l cofactor) vk <> g0 /\ smul (sig_s sig) gen = gadd (sig_R sig) (smul c vk)) /\
    (verify vk msg sig csid = Ok tt \/ verify vk msg sig csid = Err tt).
  Proof.
    destruct (challenge_ok vk (sig_R sig) msg csid) as (c & Hc). exists c. split; [exact Hc|].
    unfold SigModel.verify. rewrite Hc. cbn [bind].
    destruct (geqb _ g0) eqn:E0.
    - split; [|auto]. apply geqb_eq in E0. split; [discriminate|]. intros [H _]. contradiction.
    - destruct (geqb _ (smul (sig_s sig) gen)) eqn:E1.
      + apply geqb_eq in E1. split; [|auto]. split; [|auto]. intros _. split; [|congruence].
        intro H. apply geqb_eq in H. congruence.
      + split; [|auto]. split; [discriminate|]. intros [_ H]. symmetry in H. apply geqb_eq in H. congruence.
  Qed.

  (** Every message signed with a nonzero key verifies. *)
  Theorem C42_sign_verify (sk : Fr) msg csid : sk <> 0 ->
    let kp := generate_with_sign_key sk in
    exists sig, sign kp msg csid = Ok sig /\ verify (kp_vk l Hl G kp) msg sig csid = Ok tt.
  Proof.
    intros Hsk kp. unfold SigModel.sign. destruct (hash1_ok (nonce_input (kp_sk l Hl G kp) msg csid)) as (h & ->).
    cbn [bind]. set (r := to_fr l q Hl Hq h). set (R := smul r gen).
    destruct (challenge_ok (kp_vk l Hl G kp) R msg csid) as (c & Hc). rewrite Hc. cbn [bind].
    eexists. split; [reflexivity|].
    destruct (C42_verify_exact (kp_vk l Hl G kp) msg (mk_sig (c * kp_sk l Hl G kp + r) R) csid) as (c' & Hc' & Hv & _).
    cbn [SigModel.sig_R SigModel.sig_s] in *. rewrite Hc in Hc'. injection Hc' as <-.
    apply Hv. split.
    - intro E. apply geqb_eq in E. unfold kp in E. cbn [kp_vk SigModel.generate_with_sign_key] in E.
      unfold ver_key_of in E. rewrite cofactor_check in E by exact Hsk. discriminate E.
    - cbn [kp_sk kp_vk kp SigModel.generate_with_sign_key]. unfold ver_key_of.
      rewrite smul_add, smul_mul by exact Hgen. apply gadd_comm.
  Qed.

  (** Randomizing a key pair gives the key pair of the randomized signing key, so
      that its signatures verify too. *)
  Theorem C42_randomized_key (sk r : Fr) :
    randomize_with (generate_with_sign_key sk) r = generate_with_sign_key (sk + r) /\
    kp_vk l Hl G (randomize_with (generate_with_sign_key sk) r) =
      vk_randomize_with l Hl G gen (kp_vk l Hl G (generate_with_sign_key sk)) r.
  Proof.
    split; [|reflexivity]. unfold SigModel.randomize_with, SigModel.generate_with_sign_key. cbn [kp_sk kp_vk].
    unfold sk_randomize_with, vk_randomize_with, ver_key_of. f_equal.
    rewrite smul_add by exact Hgen. apply gadd_comm.
  Qed.

  (** The zero signing key, which key generation can return and deserialization
      accepts, signs, but no signature under it verifies. *)
  Theorem C42_zero_key_refuted msg csid :
    let kp := generate_with_sign_key 0 in
    (exists sig, sign kp msg csid = Ok sig) /\
    (forall sig, verify (kp_vk l Hl G kp) msg sig csid = Err tt).
  Proof.
    intro kp. split.
    - unfold SigModel.sign. destruct (hash1_ok (nonce_input (kp_sk l Hl G kp) msg csid)) as (h & ->). cbn [bind].
      destruct (challenge_ok (kp_vk l Hl G kp) (smul (to_fr l q Hl Hq h) gen) msg csid) as (c & ->). cbn [bind]. eauto.
    - intro sig. unfold SigModel.verify.
      replace (geqb (smul (zmk l cofactor) (kp_vk l Hl G kp)) g0) with true; [reflexivity|].
      symmetry. apply geqb_eq. unfold kp. cbn [kp_vk SigModel.generate_with_sign_key]. unfold ver_key_of.
      change (smul 0 gen) with (g0 : G). apply gmul_0_r.
  Qed.

  (** A signature is determined by its commitment point: no second response
      verifies for the same key, message and point. *)
  Theorem C42_unique_response vk msg csid s s' R :
    verify vk msg (mk_sig s R) csid = Ok tt -> verify vk msg (mk_sig s' R) csid = Ok tt -> s = s'.
  Proof.
    intros H H'.
    destruct (C42_verify_exact vk msg (mk_sig s R) csid) as (c & Hc & Hv & _).
    destruct (C42_verify_exact vk msg (mk_sig s' R) csid) as (c' & Hc' & Hv' & _).
    cbn [SigModel.sig_R SigModel.sig_s] in *. rewrite Hc in Hc'. injection Hc' as <-.
    apply Hv in H as [_ H]. apply Hv' in H' as [_ H']. apply smul_gen_inj. congruence.
  Qed.

  (** Two accepted signatures with the same point and different challenges reveal
      the signing key. *)
  Theorem C42_nonce_reuse_reveals_key (x : Fr) msg msg' csid csid' s s' R c c' :
    let vk := smul x gen in
    verify vk msg (mk_sig s R) csid = Ok tt -> verify vk msg' (mk_sig s' R) csid' = Ok tt ->
    challenge vk R msg csid = Ok c -> challenge vk R msg' csid' = Ok c' -> c <> c' ->
    x = (s - s') / (c - c').
  Proof.
    intros vk H H' Hc Hc' Hne.
    destruct (C42_verify_exact vk msg (mk_sig s R) csid) as (c1 & Hc1 & Hv & _).
    destruct (C42_verify_exact vk msg' (mk_sig s' R) csid') as (c2 & Hc2 & Hv' & _).
    cbn [SigModel.sig_R SigModel.sig_s] in *. rewrite Hc in Hc1. injection Hc1 as <-.
    rewrite Hc' in Hc2. injection Hc2 as <-.
    apply Hv in H as [_ H]. apply Hv' in H' as [_ H']. unfold vk in H, H'.
    rewrite <- smul_mul in H, H' by exact Hgen.
    assert (E : smul (s + c' * x) gen = smul (s' + c * x) gen).
    { rewrite !smul_add, H, H' by exact Hgen. rewrite <- !gadd_assoc. f_equal. apply gadd_comm. }
    apply smul_gen_inj in E. assert (Hd : c - c' <> 0) by (intro; apply Hne, fsub_0_eq; auto).
    apply (fmul_cancel_l Fr (c - c')); [exact Hd|]. replace ((c - c') * ((s - s') / (c - c'))) with (s - s') by (field; auto).
    transitivity (s' + c * x - c' * x - s'); [ring|]. rewrite <- E. ring.
  Qed.

  (** The challenge commits to the scheme identifier, the key, the point and the
      message: if two statements that differ have the same challenge, two distinct
      hash inputs have outputs equal after truncation.  The nonce, likewise,
      commits to the key and the message. *)
  Hypothesis coords_inj : forall x y, coords x = coords y -> x = y.
  Theorem C42_challenge_binds vk R msg csid vk' R' msg' csid' c :
    (vk, R, msg) <> (vk', R', msg') ->
    challenge vk R msg csid = Ok c -> challenge vk' R' msg' csid' = Ok c ->
    exists i i' h h', i <> i' /\ hash1 i = Ok h /\ hash1 i' = Ok h' /\
      to_fr_with_mask l q Hl Hq h = to_fr_with_mask l q Hl Hq h' /\
      (exists e, i = [e; fst (coords vk); snd (coords vk); fst (coords R); snd (coords R)] ++ msg) /\
      (exists e, i' = [e; fst (coords vk'); snd (coords vk'); fst (coords R'); snd (coords R')] ++ msg').
  Proof.
    intros Hne H H'. unfold SigModel.challenge in H, H'.
    destruct (hash1_ok (challenge_input vk R msg csid)) as (h & Eh). rewrite Eh in H. cbn [bind] in H.
    destruct (hash1_ok (challenge_input vk' R' msg' csid')) as (h' & Eh'). rewrite Eh' in H'. cbn [bind] in H'.
    exists (challenge_input vk R msg csid), (challenge_input vk' R' msg' csid'), h, h'.
    split; [|split; [exact Eh|split; [exact Eh'|split; [congruence|]]]].
    - intro E. apply Hne. unfold SigModel.challenge_input in E. injection E as _ E1 E2 E3 E4 E5.
      assert (vk = vk') by (apply coords_inj; destruct (coords vk), (coords vk'); cbn [fst snd] in *; congruence).
      assert (R = R') by (apply coords_inj; destruct (coords R), (coords R'); cbn [fst snd] in *; congruence).
      congruence.
    - split; eexists; reflexivity.
  Qed.
  Theorem C42_nonce_input_injective (sk sk' : Fr) msg msg' csid csid' :
    (l <= q)%Z -> nonce_input sk msg csid = nonce_input sk' msg' csid' -> sk = sk' /\ msg = msg'.
  Proof.
    intros Hlq E. unfold SigModel.nonce_input in E. injection E as _ E1 E2. split; [|exact E2].
    apply zp_ext. unfold to_fq, fr_to_fq, from_le_bytes_mod_order in E1.
    cbn [modulus] in E1. rewrite !bigint_val in E1 by (cbn [modulus]; try apply zv_range; apply l_gt_1).
    unfold zmk in E1. rewrite !Zmod_mod in E1.
    pose proof (zv_range l l_gt_1 sk). pose proof (zv_range l l_gt_1 sk').
    rewrite !Z.mod_small in E1 by lia. exact E1.
  Qed.

  (** The identifier is read as a number: leading zero bytes do not count, and
      signatures made under one identifier verify under the other. *)
  Theorem C42_identifier_zero_bytes_refuted kp msg csid :
    sign kp msg (0%Z :: csid) = sign kp msg csid /\
    (forall vk sig, verify vk msg sig (0%Z :: csid) = verify vk msg sig csid).
  Proof.
    assert (E : from_be_bytes_mod_order q Hq (0%Z :: csid) = from_be_bytes_mod_order q Hq csid).
    { unfold from_be_bytes_mod_order. f_equal. cbn [rev]. induction (rev csid) as [|b bs IH]; [reflexivity|].
      cbn [app le_val]. rewrite IH. reflexivity. }
    assert (EC : forall vk R, challenge vk R msg (0%Z :: csid) = challenge vk R msg csid).
    { intros. unfold SigModel.challenge, SigModel.challenge_input. rewrite E. reflexivity. }
    split.
    - unfold SigModel.sign, SigModel.nonce_input. rewrite E. destruct (hash1 _); cbn [bind]; [|reflexivity..].
      rewrite EC. reflexivity.
    - intros. unfold SigModel.verify. rewrite EC. reflexivity.
  Qed.

  (** Only keys of small order are refused.  A key outside the prime-order
      subgroup, [x G + T] with [T] of small order, passes the check, and the usual
      signature under it is accepted exactly when the challenge kills [T]. *)
  Theorem C42_mixed_order_key_refuted (x r : Fr) T msg csid :
    (0 < cofactor < l)%Z -> gmul cofactor T = g0 -> T <> g0 -> x <> 0 ->
    let vk := gadd (smul x gen) T in
    gmul l vk <> g0 /\
    exists c, challenge vk (smul r gen) msg csid = Ok c /\
      (verify vk msg (mk_sig (c * x + r) (smul r gen)) csid = Ok tt <-> smul c T = g0).
  Proof.
    intros Hcl HT HT0 Hx vk. split.
    - intro E. unfold vk in E. rewrite gmul_add_r, smul_sub, gadd_0_l in E by exact Hgen.
      assert (D : (l | cofactor)%Z) by (apply (gmul_prime_0 G l cofactor T); auto). contradiction.
    - destruct (C42_verify_exact vk msg (mk_sig 0 (smul r gen)) csid) as (c & Hc & _).
      exists c. cbn [SigModel.sig_R] in Hc. split; [exact Hc|].
      destruct (C42_verify_exact vk msg (mk_sig (c * x + r) (smul r gen)) csid) as (c' & Hc' & Hv & _).
      cbn [SigModel.sig_R SigModel.sig_s] in *. rewrite Hc in Hc'. injection Hc' as <-. rewrite Hv. clear Hv.
      assert (A : smul (zmk l cofactor) vk <> g0).
      { unfold vk, SigModel.smul at 1. rewrite gmul_add_r.
        assert (HT' : gmul (zv l (zmk l cofactor)) T = g0).
        { cbn [zv zmk]. rewrite Z.mod_small by lia. exact HT. }
        rewrite HT', gadd_0_r. intro E.
        pose proof (cofactor_check x Hx) as F. unfold SigModel.smul at 1 in F. apply geqb_eq in E. congruence. }
      assert (B : gadd (smul r gen) (smul c vk) = gadd (smul (c * x + r) gen) (smul c T)).
      { unfold vk, SigModel.smul at 2. rewrite gmul_add_r. rewrite smul_add, smul_mul by exact Hgen.
        unfold SigModel.smul at 4. rewrite gadd_assoc. f_equal. apply gadd_comm. }
      rewrite B. split.
      + intros [_ E]. apply (gadd_cancel_l G (smul (c * x + r) gen)). rewrite <- E, gadd_0_r. reflexivity.
      + intro E. split; [exact A|]. rewrite E, gadd_0_r. reflexivity.
  Qed.

  (** Keys survive serialization. *)
  Theorem C42_key_bytes (sk : Fr) :
    sk_from_bytes l Hl (sk_to_bytes l Hl sk) = sk /\
    kp_from_bytes l Hl G gen (kp_to_bytes l Hl G (generate_with_sign_key sk)) = generate_with_sign_key sk.
  Proof.
    assert (E : sk_from_bytes l Hl (sk_to_bytes l Hl sk) = sk).
    { unfold sk_from_bytes, sk_to_bytes, from_le_bytes_mod_order. cbn [modulus].
      rewrite bigint_val by (cbn [modulus]; try apply zv_range; apply l_gt_1).
      apply zp_ext. cbn [zv zmk]. rewrite Zmod_mod. apply zv_mod. }
    split; [exact E|]. unfold kp_from_bytes, kp_to_bytes. cbn [kp_sk SigModel.generate_with_sign_key]. rewrite E. reflexivity.
  Qed.

  (** ** C44 *)
  Section ElGamal.
    Hypothesis Hinj : length (rp_inject RP) = 24%nat.
    Variable of_coords : Fq -> Fq -> option G.
    Notation stream_mode := (apply_counter_mode_stream q Hq RP).
    Notation encrypt := (deterministic_encrypt l q Hl Hq RP G coords gen).
    Notation decrypt := (decrypt l q Hl Hq RP G coords).
    Notation enc_key_of := (enc_key_of l Hl G gen).
    Notation stream_op := (stream_op q Hq).
    Notation mk_ct := (mk_ct q Hq G).
    Notation ct_data := (ct_data q Hq G).
    Notation ct_ephemeral := (ct_ephemeral q Hq G).

    (** [f] applied to the elements with their positions. *)
    Definition mapi (f : nat -> Fq -> Fq) (s : nat) (data : list Fq) : list Fq :=
      map (fun ix => f (fst ix) (snd ix)) (combine (seq s (length data)) data).
    Lemma mapi_cons f s x data : mapi f s (x :: data) = f s x :: mapi f (S s) data.
    Proof. reflexivity. Qed.
    Lemma mapi_app f data data' : forall s,
      mapi f s (data ++ data') = mapi f s data ++ mapi f (s + length data) data'.
    Proof.
      induction data as [|x data IH]; intro s; [cbn [app length]; rewrite Nat.add_0_r; reflexivity|].
      cbn [app length]. rewrite !mapi_cons, IH. cbn [app]. do 3 f_equal. lia.
    Qed.
    Lemma length_mapi f s data : length (mapi f s data) = length data.
    Proof. unfold mapi. rewrite map_length, combine_length, seq_length. lia. Qed.
    Lemma mapi_mapi f g s data : mapi g s (mapi f s data) = mapi (fun i x => g i (f i x)) s data.
    Proof. revert s. induction data as [|x data IH]; intro s; [reflexivity|]. rewrite !mapi_cons, IH. reflexivity. Qed.
    Lemma mapi_id f s data : (forall i x, f i x = x) -> mapi f s data = data.
    Proof. intro H. revert s. induction data as [|x data IH]; intro s; [reflexivity|]. rewrite mapi_cons, IH, H. reflexivity. Qed.

    (** The stream is a fixed sequence per key and nonce, added or subtracted
        element by element whatever the data. *)
    Lemma stream_spec key nonce : exists (blk : nat -> vec4 Fq) ks, key_schedule RP key = Ok ks /\
      length ks = 25%nat /\
      (forall i, prp_with_round_keys RP ks (V4 (nonce + fnat i) 0 0 0) = Ok (blk i)) /\
      forall d data, stream_mode key data nonce d =
        Ok (mapi (fun i x => stream_op d x (nth (i mod 4) (v4_elems (blk (i / 4)%nat)) 0)) 0 data).
    Proof.
      destruct (key_schedule_ok Fq RP key ltac:(lia)) as (ks & Hks & Hlen).
      assert (HF : exists f, forall x, prp_with_round_keys RP ks x = Ok (f x)).
      { unfold prp_with_round_keys. rewrite Hlen. cbn [Nat.eqb Nat.add Nat.mul ROUNDS].
        destruct ks as [|k0 ks]; [discriminate Hlen|]. eexists. reflexivity. }
      destruct HF as (f & Hf). set (blk := fun i => f (V4 (nonce + fnat i) 0 0 0)).
      exists blk, ks. split; [exact Hks|]. split; [exact Hlen|]. split; [intro i; apply Hf|].
      intros d data. unfold apply_counter_mode_stream. rewrite Hks. cbn [bind].
      destruct (pad_ok Fq data 4 ltac:(lia)) as (k & Hp & Hm & _). unfold STATE_SIZE. rewrite Hp. cbn [bind].
      set (F := fun i x => stream_op d x (nth (i mod 4) (v4_elems (blk (i / 4)%nat)) 0)).
      assert (A : forall qs idx, apply_blocks q Hq RP d ks nonce idx (map v4_elems qs) = Ok (mapi F (4 * idx) (flat Fq qs))).
      { induction qs as [|[a b c e] qs IH]; intro idx; [reflexivity|]. cbn [map apply_blocks]. rewrite Hf. cbn [bind].
        rewrite IH. cbn [bind]. f_equal.
        change (flat Fq (V4 a b c e :: qs)) with ([a; b; c; e] ++ flat Fq qs).
        rewrite mapi_app. f_equal.
        - fold (blk idx). rewrite !mapi_cons. unfold F.
          replace (S (S (S (4 * idx)))) with (3 + idx * 4)%nat by lia.
          replace (S (S (4 * idx))) with (2 + idx * 4)%nat by lia.
          replace (S (4 * idx)) with (1 + idx * 4)%nat by lia.
          replace (4 * idx)%nat with (0 + idx * 4)%nat by lia.
          rewrite !Nat.mod_add, !Nat.div_add by lia. change (0 / 4 + idx)%nat with idx. change (1 / 4 + idx)%nat with idx.
          change (2 / 4 + idx)%nat with idx. change (3 / 4 + idx)%nat with idx.
          destruct (blk idx) as [s0 s1 s2 s3]. reflexivity.
        - f_equal. cbn [length]. lia. }
      assert (Hdiv : exists n, length (data ++ repeat 0 k) = (4 * n)%nat).
      { rewrite app_length, repeat_length. apply Nat.mod_divides in Hm; [exact Hm|lia]. }
      destruct Hdiv as (n & Hn). destruct (flat_quads Fq n (data ++ repeat 0 k) Hn) as [F1 F2].
      rewrite <- F1 at 1. rewrite chunks_flat, (A _ 0%nat), F1. cbn [bind]. f_equal.
      rewrite mapi_app. rewrite firstn_app, firstn_all2 by (rewrite length_mapi; lia).
      rewrite length_mapi, Nat.sub_diag. cbn [firstn]. apply app_nil_r.
    Qed.

    Lemma op_enc x s : stream_op Encrypt x s = x + s. Proof. reflexivity. Qed.
    Lemma op_dec x s : stream_op Decrypt x s = x - s. Proof. reflexivity. Qed.
    Lemma stream_fun key nonce : exists stream : nat -> Fq, forall d data,
      stream_mode key data nonce d = Ok (mapi (fun i x => stream_op d x (stream i)) 0 data).
    Proof.
      destruct (stream_spec key nonce) as (blk & _ & _ & _ & _ & S).
      exists (fun i => nth (i mod 4) (v4_elems (blk (i / 4)%nat)) 0). exact S.
    Qed.

    (** Encryption followed by decryption is the identity on every message of every
        length, for every key and randomness; ciphertext data is as long as the
        message. *)
    Theorem C44_decrypt_encrypt (sk r : Fr) (msg : list Fq) :
      exists ct, encrypt (enc_key_of sk) r msg = Ok ct /\ length (ct_data ct) = length msg /\
        decrypt sk ct = Ok msg.
    Proof.
      assert (Hsh : smul r (enc_key_of sk) = smul sk (enc_key_of r)).
      { unfold SigModel.enc_key_of. rewrite <- !smul_mul by exact Hgen. f_equal. ring. }
      unfold deterministic_encrypt, SigModel.decrypt. rewrite Hsh.
      assert (HK : exists key, symmetric_key q Hq RP G coords (smul sk (enc_key_of r)) = Ok key).
      { unfold symmetric_key, perm_eval, prp_with_round_keys. rewrite Hkeys. cbn [Nat.eqb Nat.add Nat.mul ROUNDS].
        destruct (rp_keys RP) as [|k0 ks]; [discriminate Hkeys|]. eauto. }
      destruct HK as (key & HK). rewrite HK. cbn [bind].
      destruct (stream_fun key 0) as (stream & S). rewrite S. cbn [bind].
      eexists. split; [reflexivity|]. cbn [SigModel.ct_data SigModel.ct_ephemeral].
      split; [apply length_mapi|]. rewrite HK. cbn [bind]. rewrite S. f_equal.
      rewrite mapi_mapi. apply mapi_id. intros i x. cbv beta. rewrite ?op_enc, ?op_dec. ring.
    Qed.

    (** The stream does not depend on the message.  So (a) two messages encrypted
        with the same randomness reveal their difference, and (b) whoever adds an
        offset to ciphertext data adds it to the plaintext: there is no
        integrity. *)
    Theorem C44_malleable (pk : G) (sk r : Fr) (m m' : list Fq) ct ct' i :
      encrypt pk r m = Ok ct -> encrypt pk r m' = Ok ct' ->
      (i < length m)%nat -> (i < length m')%nat ->
      ct_ephemeral ct = ct_ephemeral ct' /\
      nth i (ct_data ct) 0 - nth i (ct_data ct') 0 = nth i m 0 - nth i m' 0.
    Proof.
      unfold deterministic_encrypt. destruct (symmetric_key _ _ _ _ _ _) as [key| |]; cbn [bind]; try discriminate.
      destruct (stream_fun key 0) as (stream & S). rewrite !S. cbn [bind].
      intros E E' Hi Hi'.
      assert (OI : forall a b : ciphertext q Hq G, Ok (X := unit) a = Ok b -> a = b) by congruence.
      apply OI in E, E'. subst ct ct'. cbn [SigModel.ct_data SigModel.ct_ephemeral]. split; [reflexivity|].
      assert (N : forall f data s j, (j < length data)%nat -> nth j (mapi f s data) 0 = f (s + j)%nat (nth j data 0)).
      { intros f. induction data as [|x data IH]; intros s j Hj; cbn [length] in Hj; [lia|].
        rewrite mapi_cons. destruct j as [|j]; cbn [nth]; [rewrite Nat.add_0_r; reflexivity|].
        rewrite IH by lia. f_equal. lia. }
      rewrite !N by assumption. cbv beta. rewrite ?op_enc, ?op_dec. ring.
    Qed.
    Theorem C44_no_integrity (sk : Fr) e data delta : length delta = length data ->
      exists m, decrypt sk (mk_ct e data) = Ok m /\ length m = length data /\
        decrypt sk (mk_ct e (map (fun xy => fst xy + snd xy) (combine data delta))) =
          Ok (map (fun xy => fst xy + snd xy) (combine m delta)).
    Proof.
      intro Hd. unfold SigModel.decrypt. cbn [SigModel.ct_data SigModel.ct_ephemeral].
      assert (HK : exists key, symmetric_key q Hq RP G coords (smul sk e) = Ok key).
      { unfold symmetric_key, perm_eval, prp_with_round_keys. rewrite Hkeys. cbn [Nat.eqb Nat.add Nat.mul ROUNDS].
        destruct (rp_keys RP) as [|k0 ks]; [discriminate Hkeys|]. eauto. }
      destruct HK as (key & ->). cbn [bind]. destruct (stream_fun key 0) as (stream & S). rewrite !S.
      eexists. split; [reflexivity|]. split; [apply length_mapi|]. f_equal. clear S. generalize 0%nat.
      revert delta Hd. induction data as [|x data IH]; intros [|y delta] Hd s; try discriminate Hd; [reflexivity|].
      injection Hd as Hd. cbn [combine map]. rewrite !mapi_cons. cbn [combine map]. rewrite IH by exact Hd. f_equal.
      cbn [fst snd]. cbv beta. rewrite ?op_enc, ?op_dec. ring.
    Qed.

    (** Under valid cipher parameters the blocks of one stream are pairwise
        different, for any message shorter than the field is large. *)
    Theorem C44_stream_blocks_distinct key :
      good_exps RP (Z.to_nat q) -> mdet Fq (rp_mds RP) <> 0 ->
      exists (blk : nat -> vec4 Fq),
        (forall data, stream_mode key data 0 Encrypt =
          Ok (map (fun ix => snd ix + nth (fst ix mod 4) (v4_elems (blk (fst ix / 4)%nat)) 0)
                (combine (seq 0 (length data)) data))) /\
        forall i j, (i < Z.to_nat q)%nat -> (j < Z.to_nat q)%nat -> i <> j -> blk i <> blk j.
    Proof.
      intros He Hm. destruct (stream_spec key 0) as (blk & ks & Hks & Hlen & Hb & S). exists blk.
      split; [intro data; exact (S Encrypt data)|]. intros i j Hi Hj Hij E.
      destruct (proj2 (C37_round_keys_bijection Fq RP _ ks (zp_card q Hq) He Hm) Hlen (blk i)) as (x & _ & Hu).
      pose proof (Hu _ (Hb i)) as Ei. rewrite E in Hu. pose proof (Hu _ (Hb j)) as Ej.
      rewrite Ei in Ej. apply (f_equal w0) in Ej. cbn [w0] in Ej. apply Hij.
      assert (En : fnat i = fnat j :> Fq).
      { transitivity (0 + fnat i : Fq); [ring|]. rewrite Ej. ring. }
      apply (f_equal (zv q)) in En.
      assert (ZF : forall n, zv q (fnat (K := Fq) n) = (Z.of_nat n mod q)%Z).
      { induction n as [|n IH]; [reflexivity|].
        change (zv q (fnat (K := Fq) (Datatypes.S n))) with ((1 mod q + zv q (fnat (K := Fq) n)) mod q)%Z.
        rewrite IH, <- Zplus_mod. f_equal. lia. }
      rewrite (ZF i), (ZF j) in En. rewrite (Z.mod_small (Z.of_nat i)), (Z.mod_small (Z.of_nat j)) in En by lia. lia.
    Qed.

    (** A ciphertext survives flattening; too short a list is refused, and one whose
        first two elements are not a valid point panics. *)
    Theorem C44_scalars ct scalars :
      of_coords (fst (coords (ct_ephemeral ct))) (snd (coords (ct_ephemeral ct))) = Some (ct_ephemeral ct) ->
      from_scalars q Hq G of_coords (to_scalars q Hq G coords ct) = Ok ct /\
      length (to_scalars q Hq G coords ct) = (2 + length (ct_data ct))%nat /\
      ((length scalars < 2)%nat -> from_scalars q Hq G of_coords scalars = Err tt).
    Proof.
      intro H. split; [|split; [reflexivity|]].
      - unfold from_scalars, to_scalars. rewrite H. destruct ct. reflexivity.
      - destruct scalars as [|a [|b scalars]]; cbn [length]; intro; try reflexivity. lia.
    Qed.
    Theorem C44_invalid_point_panics_refuted x y data :
      of_coords x y = None -> from_scalars q Hq G of_coords (x :: y :: data) = Panic.
    Proof. intro H. unfold from_scalars. rewrite H. reflexivity. Qed.
  End ElGamal.
End Curve.

(** ** A concrete curve: the integers modulo 4 * 257 with generator 4, coordinates
    in the field of 1033 elements. *)
Lemma prime_257 : prime 257.
Proof. apply primeb_prime. vm_compute. reflexivity. Qed.
Lemma prime_1033 : prime 1033.
Proof. apply primeb_prime. vm_compute. reflexivity. Qed.
Definition FQ : fld := Zp 1033 prime_1033.
Definition fq1 (z : Z) : FQ := zmk 1033 z.
Definition vq (a b c d : Z) : vec4 FQ := V4 (fq1 a) (fq1 b) (fq1 c) (fq1 d).
Definition RQ : rescue_params FQ :=
  mk_rescue 5 [413%N] (M4 (vq 2 3 1 1) (vq 1 2 3 1) (vq 1 1 2 3) (vq 3 1 1 2)) (vq 1 2 3 4)
    (repeat (vq 5 6 7 8) 24) (repeat (vq 9 10 11 12) 25).
Definition GQ : agrp := Zgrp 1028 eq_refl.
Definition cQ (x : GQ) : FQ * FQ := (fq1 (zv 1028 x), fq1 (zv 1028 x + 1)).
Definition genQ : GQ := zmk 1028 4.
Definition fr257 (z : Z) : Zp 257 prime_257 := zmk 257 z.

Example C42_case :
  length (rp_keys RQ) = 25%nat /\ length (rp_inject RQ) = 24%nat /\
  gmul 257 genQ = g0 /\ genQ <> g0 /\ ~ (257 | 4)%Z /\
  (bit_size {| modulus := 257 |} < bit_size {| modulus := 1033 |})%Z /\
  (forall x y, cQ x = cQ y -> x = y) /\ good_exps RQ (Z.to_nat 1033) /\ mdet FQ (rp_mds RQ) <> 0.
Proof.
  split; [reflexivity|]. split; [reflexivity|]. split; [apply (zp_ext 1028); vm_compute; reflexivity|].
  split; [intro E; apply (f_equal (zv 1028)) in E; vm_compute in E; discriminate E|].
  split; [intros [k Hk]; lia|]. split; [reflexivity|]. split; [|split; [vm_compute; reflexivity|]].
  - intros x y E. unfold cQ in E. apply (f_equal fst) in E. cbn [fst] in E.
    apply (f_equal (zv 1033)) in E. unfold fq1 in E. cbn [zv zmk] in E.
    pose proof (zv_range 1028 eq_refl x). pose proof (zv_range 1028 eq_refl y).
    rewrite !Z.mod_small in E by lia. apply (zp_ext 1028). exact E.
  - intro E. apply (f_equal (zv 1033)) in E. vm_compute in E. discriminate E.
Qed.
(** A signature of a two-element message by key 7 verifies, and not for another
    message. *)
Example C42_run :
  let kp := generate_with_sign_key 257 prime_257 GQ genQ (fr257 7) in
  match sign 257 1033 prime_257 prime_1033 RQ GQ cQ genQ kp [fq1 10; fq1 20] [83; 49]%Z with
  | Ok sig =>
      verify 257 1033 prime_257 prime_1033 RQ GQ cQ genQ 4 (kp_vk 257 prime_257 GQ kp) [fq1 10; fq1 20] sig [83; 49]%Z = Ok tt /\
      verify 257 1033 prime_257 prime_1033 RQ GQ cQ genQ 4 (kp_vk 257 prime_257 GQ kp) [fq1 10; fq1 21] sig [83; 49]%Z = Err tt
  | _ => False
  end.
Proof. vm_compute. split; reflexivity. Qed.
(** A key outside the subgroup under which the signature is accepted. *)
Example C42_mixed_case : exists msg,
  let T : GQ := zmk 1028 514 in let x := fr257 7 in let r := fr257 9 in
  let vk := gadd (smul 257 prime_257 GQ x genQ) T in
  gmul 4 T = g0 /\ T <> g0 /\
  exists c, challenge 257 1033 prime_257 prime_1033 RQ GQ cQ vk (smul 257 prime_257 GQ r genQ) msg [] = Ok c /\
    zv 1028 (smul 257 prime_257 GQ c T) = 0%Z.
Proof.
  exists [fq1 6].
  split; [apply (zp_ext 1028); vm_compute; reflexivity|].
  split; [intro E; apply (f_equal (zv 1028)) in E; vm_compute in E; discriminate E|].
  eexists. split; [vm_compute; reflexivity|]. vm_compute. reflexivity.
Qed.
Example C44_run :
  match deterministic_encrypt 257 1033 prime_257 prime_1033 RQ GQ cQ genQ
          (enc_key_of 257 prime_257 GQ genQ (fr257 5)) (fr257 6) (map fq1 [1; 2; 3; 4; 5]%Z) with
  | Ok ct =>
      match decrypt 257 1033 prime_257 prime_1033 RQ GQ cQ (fr257 5) ct with
      | Ok m => map (zv 1033) m = [1; 2; 3; 4; 5]%Z /\ map (zv 1033) (ct_data 1033 prime_1033 GQ ct) <> [1; 2; 3; 4; 5]%Z
      | _ => False
      end
  | _ => False
  end.
Proof. vm_compute. split; [reflexivity|discriminate]. Qed.

Print Assumptions C42_verify_exact.
Print Assumptions C42_sign_verify.
Print Assumptions C42_randomized_key.
Print Assumptions C42_zero_key_refuted.
Print Assumptions C42_unique_response.
Print Assumptions C42_nonce_reuse_reveals_key.
Print Assumptions C42_challenge_binds.
Print Assumptions C42_nonce_input_injective.
Print Assumptions C42_identifier_zero_bytes_refuted.
Print Assumptions C42_mixed_order_key_refuted.
Print Assumptions C42_key_bytes.
Print Assumptions C44_decrypt_encrypt.
Print Assumptions C44_malleable.
Print Assumptions C44_no_integrity.
Print Assumptions C44_stream_blocks_distinct.
Print Assumptions C44_scalars.
Print Assumptions C44_invalid_point_panics_refuted.
