(** Model of the BLS signature schemes (signature/src/bls_over_bn254.rs,
    signature/src/bls_over_bls12381.rs) and of the BLS-based VRF
    (vrf/src/blsvrf.rs).

    The groups and the pairing (arkworks, blst) are parameters: vector spaces over
    the scalar field with a bilinear map.  A point that is not on its curve or not
    in the prime-order subgroup is [Invalid]; what the libraries compute on such
    points is an arbitrary function. *)

From Coq Require Import List Arith ZArith Lia Bool Znumtheory.
From Verif Require Import Base Alg ConvModel.
Import ListNotations.
Local Open Scope fld_scope.

(** A group element as stored in a key or signature. *)
Inductive pt (V : Type) := Valid (v : V) | Invalid (tag : nat).
Arguments Valid {V}. Arguments Invalid {V}.

(** signature/src/lib.rs:38-50 *)
Inductive sig_error := ParameterError | FailedOnCurveCheck | FailedValidityCheck | VerificationError.

(** ** Hashing to the BN254 curve: bls_over_bn254.rs:454-486 *)
Section HashToCurve.
  Variable q : Z.
  Hypothesis Hq : prime q.
  Notation K := (Zp q Hq).
  (** [hasher.hash_to_field::<1>(msg)[0]], [legendre().is_qnr()], [sqrt()]. *)
  Variable hash_to_field : list Z -> K.
  Variable is_qnr : K -> bool.
  Variable sqrt : K -> option K.

  (** lines 462-466 *)
  Definition coeff_b : K := 1 + 1 + 1.
  Definition curve_rhs (x : K) : K := x * x * x + coeff_b.
  (** lines 468-473: the loop; [None] when [fuel] iterations do not suffice. *)
  Fixpoint search (fuel : nat) (x : K) : option K :=
    if is_qnr (curve_rhs x) then
      match fuel with O => None | S n => search n (x + 1) end
    else Some x.
  (** lines 476-486; [y.into_bigint().mul2()] does not overflow, the modulus having
      254 of 256 bits.  [Panic]: the [unwrap], or the loop not ending. *)
  Definition hash_to_curve (fuel : nat) (msg : list Z) : outcome sig_error (K * K) :=
    match search fuel (hash_to_field msg) with
    | None => Panic
    | Some x =>
        match sqrt (curve_rhs x) with
        | None => Panic
        | Some y => Ok (x, if (2 * zv q y >? q)%Z then - y else y)
        end
    end.
End HashToCurve.

Section Bls.
  Variable K : fld.
  Variables V1 V2 VT : vsp K.
  (** [Pairing::pairing], point addition and negation on whatever is stored. *)
  Variable raw_pairing : pt V1 -> pt V2 -> VT.
  Variable raw_add1 : pt V1 -> pt V1 -> pt V1.
  Variable raw_neg1 : pt V1 -> pt V1.
  Variable raw_add2 : pt V2 -> pt V2 -> pt V2.
  (** [G2Projective::generator()] *)
  Variable g2 : V2.
  (** [hash_to_curve::<Keccak256>], as a group element. *)
  Variable h2c : list Z -> V1.
  (** [Self::CS_ID] *)
  Variable cs_id : list Z.

  (** bls_over_bn254.rs:576-580 *)
  Definition ver_key_of (sk : K) : pt V2 := Valid (vmul sk g2).
  (** bls_over_bn254.rs:524-529 *)
  Definition sign (sk : K) (msg csid : list Z) : pt V1 := Valid (vmul sk (h2c (msg ++ csid))).
  (** bls_over_bn254.rs:589-604 [verify_internal], and 627-634 [verify_unchecked], which is the same. *)
  Definition verify_internal (vk : pt V2) (msg : list Z) (sig : pt V1) (csid : list Z) : outcome sig_error unit :=
    if veqb (raw_pairing sig (Valid g2)) (raw_pairing (Valid (h2c (msg ++ csid))) vk)
    then Ok tt else Err VerificationError.
  (** bls_over_bn254.rs:607-620: only the signature is checked. *)
  Definition verify (vk : pt V2) (msg : list Z) (sig : pt V1) (csid : list Z) : outcome sig_error unit :=
    match sig with
    | Invalid _ => Err FailedOnCurveCheck
    | Valid _ => verify_internal vk msg sig csid
    end.
  (** bls_over_bn254.rs:137-150 *)
  Definition aggregate (sigs : list (pt V1)) : outcome sig_error (pt V1) :=
    match sigs with
    | [] => Err ParameterError
    | s :: rest => Ok (fold_left raw_add1 rest s)
    end.
  (** bls_over_bn254.rs:215-241 *)
  Definition aggregate_verify_internal (vks : list (pt V2)) (msgs : list (list Z)) (sig : pt V1)
      : outcome sig_error unit :=
    let m_points := map (fun m => Valid (h2c (m ++ cs_id))) msgs ++ [raw_neg1 sig] in
    let vk_points := vks ++ [Valid g2] in
    if veqb (vsum (map (fun mv => raw_pairing (fst mv) (snd mv)) (combine m_points vk_points))) v0
    then Ok tt else Err VerificationError.
  Definition valid2 (vk : pt V2) : bool := match vk with Valid _ => true | Invalid _ => false end.
  (** bls_over_bn254.rs:156-184 *)
  Definition aggregate_verify (vks : list (pt V2)) (msgs : list (list Z)) (sig : pt V1)
      : outcome sig_error unit :=
    match vks with
    | [] => Err ParameterError
    | _ =>
        if negb (length vks =? length msgs)%nat then Err ParameterError
        else if negb (forallb valid2 vks) then Err FailedValidityCheck
        else match sig with
             | Invalid _ => Err FailedOnCurveCheck
             | Valid _ => aggregate_verify_internal vks msgs sig
             end
    end.
  (** bls_over_bn254.rs:244-251 *)
  Definition multi_sig_verify_internal (vks : list (pt V2)) (msg : list Z) (sig : pt V1) : outcome sig_error unit :=
    verify_internal (fold_left raw_add2 vks (Valid v0)) msg sig cs_id.
  (** bls_over_bn254.rs:190-211 *)
  Definition multi_sig_verify (vks : list (pt V2)) (msg : list Z) (sig : pt V1) : outcome sig_error unit :=
    match vks with
    | [] => Err ParameterError
    | _ =>
        if negb (forallb valid2 vks) then Err FailedValidityCheck
        else match sig with
             | Invalid _ => Err FailedOnCurveCheck
             | Valid _ => multi_sig_verify_internal vks msg sig
             end
    end.

  (** ** BLS over BLS12-381 (blst) and the VRF built on it *)

  (** blst [PublicKey::validate] / [Signature::validate(true)]: valid and not the
      identity. *)
  Definition check2 (vk : pt V2) : bool := match vk with Valid v => negb (veqb v v0) | Invalid _ => false end.
  Definition check1 (sig : pt V1) : bool := match sig with Valid v => negb (veqb v v0) | Invalid _ => false end.
  (** bls_over_bls12381.rs:369-381 [sign], with blst's [sign] under the domain
      separation tag [CS_ID]; [h2c] here is blst's hash to G1 under that tag. *)
  Definition sign381 (sk : K) (msg : list Z) : pt V1 := Valid (vmul sk (h2c msg)).
  (** bls_over_bls12381.rs:384-398 [verify]; blst's core check is the pairing
      equation. *)
  Definition verify381 (vk : pt V2) (msg : list Z) (sig : pt V1) : outcome sig_error unit :=
    if negb (check2 vk) then Err FailedValidityCheck
    else if negb (check1 sig) then Err FailedValidityCheck
    else if veqb (raw_pairing sig (Valid g2)) (raw_pairing (Valid (h2c msg)) vk)
         then Ok tt else Err VerificationError.

  Section Vrf.
    (** The digest of the chosen cipher suite, and blst's uncompressed encoding of a
        signature. *)
    Variable digest : list Z -> list Z.
    Variable serialize : pt V1 -> list Z.
    (** vrf/src/blsvrf.rs:35-38: the state is what the hasher has absorbed. *)
    Definition vrf_state := list Z.
    Definition vrf_new : vrf_state := [].
    (** blsvrf.rs:102-111 *)
    Definition vrf_prove (sk : K) (input : list Z) : pt V1 := sign381 sk input.
    (** blsvrf.rs:114-124: works on a clone of the hasher. *)
    Definition proof_to_hash (st : vrf_state) (proof : pt V1) : vrf_state * list Z :=
      (st, digest (st ++ serialize proof)).
    (** vrf/src/lib.rs:90-99 *)
    Definition vrf_evaluate (st : vrf_state) (sk : K) (input : list Z) : vrf_state * list Z :=
      proof_to_hash st (vrf_prove sk input).
    (** blsvrf.rs:127-139 *)
    Definition vrf_verify (st : vrf_state) (proof : pt V1) (vk : pt V2) (input : list Z)
        : vrf_state * (bool * option (list Z)) :=
      match verify381 vk input proof with
      | Ok tt => let (st', out) := proof_to_hash st proof in (st', (true, Some out))
      | _ => (st, (false, None))
      end.
  End Vrf.
End Bls.

(** ** Serialization of BLS12-381 keys and signatures: bls_over_bls12381.rs:174-327.
    One model for both types: [small] and [large] are the compressed and the
    uncompressed length (96 and 192 for keys, 48 and 96 for signatures). *)
Section Codec.
  Variable T : Type.
  Variables small large : nat.
  (** blst: encodings, decodings, [validate]. *)
  Variables (compress serialize : T -> list Z) (uncompress deserialize : list Z -> option T).
  Variable valid : T -> bool.

  (** ark-serialize: a byte slice is its length as a u64, then its bytes. *)
  Definition slice_bytes (bs : list Z) : list Z := le_bytes 8 (Z.of_nat (length bs)) ++ bs.
  (** lines 175-185, 258-267 *)
  Definition encode (compressed : bool) (x : T) : list Z :=
    slice_bytes (if compressed then compress x else serialize x).
  (** lines 187-193 and 269-275: what the size methods announce. *)
  Definition vk_serialized_size (compressed : bool) : nat := small.
  Definition vk_uncompressed_size : nat := large.
  Definition sig_serialized_size (compressed : bool) : nat := if compressed then small else large.
  (** lines 196-236, 278-314; the reader is the list of bytes, returned advanced. *)
  Definition read_exact (n : nat) (bs : list Z) : outcome unit (list Z * list Z) :=
    if (length bs <? n)%nat then Err tt else Ok (firstn n bs, skipn n bs).
  Definition decode (compressed validate : bool) (bs : list Z) : outcome unit (T * list Z) :=
    let* (lb, bs1) := read_exact 8 bs in
    let len := le_val lb in
    if negb ((len =? Z.of_nat small)%Z && compressed || (len =? Z.of_nat large)%Z && negb compressed) then Err tt
    else
      let* (payload, bs2) := read_exact (if compressed then small else large) bs1 in
      match (if compressed then uncompress payload else deserialize payload) with
      | None => Err tt
      | Some x => if validate && negb (valid x) then Err tt else Ok (x, bs2)
      end.
End Codec.
