(** Model of the Schnorr signature scheme (signature/src/schnorr.rs) and of the
    hybrid ElGamal encryption scheme (elgamal/src/lib.rs).

    A curve is a commutative group of points (cofactor included) with affine
    coordinates; its arithmetic (arkworks) is a parameter.  Scalars and base field
    elements are elements of prime fields; multiplying a point by a scalar is
    multiplying by its canonical integer, as arkworks does. *)

From Coq Require Import List Arith ZArith Lia Bool Znumtheory.
From Verif Require Import Base Alg ConvModel RescueModel Group.
Import ListNotations.
Local Open Scope fld_scope.

Section Curve.
  (** [P::ScalarField] and [P::BaseField]. *)
  Variables (l q : Z) (Hl : prime l) (Hq : prime q).
  Notation Fr := (Zp l Hl).
  Notation Fq := (Zp q Hq).
  Notation PR := {| modulus := l |}.
  Notation PQ := {| modulus := q |}.
  (** The Rescue parameters of the base field. *)
  Variable RP : rescue_params Fq.
  (** The points, the affine coordinates of a point ([into_affine]), and the point
      with given coordinates: [None] when [Affine::new] fails its assertions (on
      the curve, in the prime-order subgroup). *)
  Variable G : agrp.
  Variable coords : G -> Fq * Fq.
  Variable of_coords : Fq -> Fq -> option G.
  (** [Projective::<P>::generator()]; [P::COFACTOR[0]], a u64. *)
  Variable gen : G.
  Variable cofactor : Z.

  Definition smul (s : Fr) (x : G) : G := gmul (zv l s) x.

  (** [PrimeField::from_be_bytes_mod_order] *)
  Definition from_be_bytes_mod_order (bs : list Z) : Fq := zmk q (le_val (rev bs)).

  (** ** Keys: signature/src/schnorr.rs:120-360 *)

  (** schnorr.rs:217-226 [KeyPair] *)
  Record keypair := mk_kp { kp_sk : Fr; kp_vk : G }.
  (** schnorr.rs:424-432 [VerKey::from(&SignKey)] *)
  Definition ver_key_of (sk : Fr) : G := smul sk gen.
  (** schnorr.rs:296-300 *)
  Definition generate_with_sign_key (sk : Fr) : keypair := mk_kp sk (ver_key_of sk).
  (** schnorr.rs:130-132 *)
  Definition sk_randomize_with (sk r : Fr) : Fr := sk + r.
  (** schnorr.rs:186-193 *)
  Definition vk_randomize_with (vk : G) (r : Fr) : G := gadd (smul r gen) vk.
  (** schnorr.rs:357-365 *)
  Definition randomize_with (kp : keypair) (r : Fr) : keypair :=
    mk_kp (sk_randomize_with (kp_sk kp) r) (vk_randomize_with (kp_vk kp) r).
  (** schnorr.rs:134-142, 367-376: the bytes of a signing key or key pair. *)
  Definition sk_to_bytes (sk : Fr) : list Z := bigint_bytes PR (zv l sk).
  Definition sk_from_bytes (bs : list Z) : Fr := zmk l (from_le_bytes_mod_order PR bs).
  Definition kp_to_bytes (kp : keypair) : list Z := sk_to_bytes (kp_sk kp).
  Definition kp_from_bytes (bs : list Z) : keypair := generate_with_sign_key (sk_from_bytes bs).

  (** ** Signing and verification *)

  (** schnorr.rs:237-245 [Signature] *)
  Record signature := mk_sig { sig_s : Fr; sig_R : G }.

  (** [VariableLengthRescueCRHF::<F, 1>::evaluate(..).unwrap()[0]] *)
  Definition hash1 (input : list Fq) : outcome unit Fq :=
    let* out := expect (variable_crhf RP 1 input) in
    match out with h :: _ => Ok h | [] => Panic end.
  (** [fq_to_fr] and [fq_to_fr_with_mask] (utilities, modelled in ConvModel) on
      field elements. *)
  Definition to_fr (x : Fq) : Fr := zmk l (ConvModel.fq_to_fr PQ PR (zv q x)).
  Definition to_fr_with_mask (x : Fq) : outcome unit Fr :=
    let* v := ConvModel.fq_to_fr_with_mask PQ PR (zv q x) in Ok (zmk l v).
  Definition to_fq (s : Fr) : Fq := zmk q (ConvModel.fr_to_fq PR PQ (zv l s)).

  (** schnorr.rs:489-510 *)
  Definition challenge_input (vk R : G) (msg : list Fq) (csid : list Z) : list Fq :=
    from_be_bytes_mod_order csid ::
    fst (coords vk) :: snd (coords vk) :: fst (coords R) :: snd (coords R) :: msg.
  Definition challenge (vk R : G) (msg : list Fq) (csid : list Z) : outcome unit Fr :=
    let* h := hash1 (challenge_input vk R msg csid) in to_fr_with_mask h.
  (** schnorr.rs:341-346 *)
  Definition nonce_input (sk : Fr) (msg : list Fq) (csid : list Z) : list Fq :=
    from_be_bytes_mod_order csid :: to_fq sk :: msg.
  (** schnorr.rs:338-353 *)
  Definition sign (kp : keypair) (msg : list Fq) (csid : list Z) : outcome unit signature :=
    let* h := hash1 (nonce_input (kp_sk kp) msg csid) in
    let r := to_fr h in
    let R := smul r gen in
    let* c := challenge (kp_vk kp) R msg csid in
    Ok (mk_sig (c * kp_sk kp + r) R).
  (** schnorr.rs:449-478 *)
  Definition verify (vk : G) (msg : list Fq) (sig : signature) (csid : list Z) : outcome unit unit :=
    if geqb (smul (zmk l cofactor) vk) g0 then Err tt
    else
      let* c := challenge vk (sig_R sig) msg csid in
      let x := smul (sig_s sig) gen in
      let y := gadd (sig_R sig) (smul c vk) in
      if geqb y x then Ok tt else Err tt.

  (** ** ElGamal: elgamal/src/lib.rs *)

  (** lib.rs:119-127 [Ciphertext] *)
  Record ciphertext := mk_ct { ct_ephemeral : G; ct_data : list Fq }.

  (** lib.rs:306-307 *)
  Inductive direction := Encrypt | Decrypt.
  (** lib.rs:336-341: [zip] of one exact chunk with the stream block. *)
  Definition stream_op (d : direction) (x s : Fq) : Fq :=
    match d with Encrypt => x + s | Decrypt => x - s end.
  Definition apply_block (d : direction) (chunk : list Fq) (stream : vec4 Fq) : list Fq :=
    map (fun xs => stream_op d (fst xs) (snd xs)) (combine chunk (v4_elems stream)).
  (** lib.rs:326-343, over the exact chunks in order from counter [idx]. *)
  Fixpoint apply_blocks (d : direction) (keys : list (vec4 Fq)) (nonce : Fq) (idx : nat)
      (cs : list (list Fq)) : outcome unit (list Fq) :=
    match cs with
    | [] => Ok []
    | c :: cs' =>
        let* s := prp_with_round_keys RP keys (V4 (nonce + fnat idx) 0 0 0) in
        let* rest := apply_blocks d keys nonce (S idx) cs' in
        Ok (apply_block d c s ++ rest)
    end.
  (** lib.rs:309-361 *)
  Definition apply_counter_mode_stream (key : vec4 Fq) (data : list Fq) (nonce : Fq) (d : direction)
      : outcome unit (list Fq) :=
    let* keys := key_schedule RP key in
    let* padded := pad_with_zeros 0 data STATE_SIZE in
    let* out := apply_blocks d keys nonce 0 (chunks STATE_SIZE padded) in
    Ok (firstn (length data) out).

  (** lib.rs:225-234 and 269-277: the symmetric key of a shared point. *)
  Definition symmetric_key (shared : G) : outcome unit (vec4 Fq) :=
    perm_eval RP (V4 (fst (coords shared)) (snd (coords shared)) 0 0).
  (** lib.rs:282-291 [EncKey::from(&DecKey)] *)
  Definition enc_key_of (dec : Fr) : G := smul dec gen.
  (** lib.rs:216-240 with lib.rs:246-249: encryption under explicit randomness. *)
  Definition deterministic_encrypt (pk : G) (r : Fr) (msg : list Fq) : outcome unit ciphertext :=
    let* key := symmetric_key (smul r pk) in
    let* data := apply_counter_mode_stream key msg 0 Encrypt in
    Ok (mk_ct (enc_key_of r) data).
  (** lib.rs:267-279 *)
  Definition decrypt (dec : Fr) (ct : ciphertext) : outcome unit (list Fq) :=
    let* key := symmetric_key (smul dec (ct_ephemeral ct)) in
    apply_counter_mode_stream key (ct_data ct) 0 Decrypt.

  (** lib.rs:133-140 *)
  Definition to_scalars (ct : ciphertext) : list Fq :=
    fst (coords (ct_ephemeral ct)) :: snd (coords (ct_ephemeral ct)) :: ct_data ct.
  (** lib.rs:143-158 *)
  Definition from_scalars (s : list Fq) : outcome unit ciphertext :=
    match s with
    | x :: y :: data =>
        match of_coords x y with
        | Some e => Ok (mk_ct e data)
        | None => Panic
        end
    | _ => Err tt
    end.
End Curve.
