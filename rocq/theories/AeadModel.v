(** Model of authenticated encryption with associated data (aead/src/lib.rs). *)

From Coq Require Import List ZArith Bool.
From Verif Require Import Base ConvModel.
Import ListNotations.
Local Open Scope Z_scope.

(** aead/src/lib.rs:71-73; [CodecError] stands for every error of the (de)serializers. *)
Inductive aead_error := AEADError | CodecError.

(** A byte is a [Z] below 256.  aead/src/lib.rs:37, 113, 192: keys are 32 byte strings, nonces 24 byte
    strings; the lengths are part of the Rust types, here of [wf_keypair], [wf_ciphertext]. *)
Record keypair := mk_keypair { kp_enc : list Z; kp_dec : list Z }.
Record ciphertext := mk_ciphertext { ct_nonce : list Z; ct_body : list Z; ct_epk : list Z }.

Section Aead.
  (** [crypto_kx]: the public key of a secret key, the Diffie-Hellman value and the two
      halves of the hash of that value followed by the client's and the server's key
      (libsodium's key exchange, as the comment of lib.rs:90-92 says). *)
  Variable pub : list Z -> list Z.
  Variable dh : list Z -> list Z -> list Z.
  Variable kdf : list Z -> list Z * list Z.
  (** [XChaCha20Poly1305]: key, nonce, associated data, text. *)
  Variable seal : list Z -> list Z -> list Z -> list Z -> option (list Z).
  Variable unseal : list Z -> list Z -> list Z -> list Z -> option (list Z).

  (** [Keypair::session_keys_to(server_pk).tx] of a client and
      [Keypair::session_keys_from(client_pk).rx] of a server *)
  Definition client_tx (sk pk : list Z) : list Z := snd (kdf (dh sk pk ++ pub sk ++ pk)).
  Definition server_rx (sk pk : list Z) : list Z := snd (kdf (dh sk pk ++ pk ++ pub sk)).

  (** lib.rs:84-108; the ephemeral secret key and the nonce drawn from the generator are
      arguments. *)
  Definition encrypt (pk esk nonce msg aad : list Z) : outcome aead_error ciphertext :=
    match seal (client_tx esk pk) nonce aad msg with
    | Some ct => Ok (mk_ciphertext nonce ct (pub esk))
    | None => Err AEADError
    end.

  (** lib.rs:155-161, the secret key drawn being an argument; lib.rs:48-53 *)
  Definition generate (sk : list Z) : keypair := mk_keypair (pub sk) sk.
  Definition enc_of_dec (sk : list Z) : list Z := pub sk.
  (** lib.rs:54-60, 128-132, 141-143 *)
  Definition default_keypair : keypair := mk_keypair (repeat 0 32) (repeat 0 32).
  (** lib.rs:147-151: only the public halves are compared *)
  Definition keypair_eqb (a b : keypair) : bool := if list_eq_dec Z.eq_dec (kp_enc a) (kp_enc b) then true else false.

  (** lib.rs:176-190 *)
  Definition decrypt (kp : keypair) (c : ciphertext) (aad : list Z) : outcome aead_error (list Z) :=
    match unseal (server_rx (kp_dec kp) (ct_epk c)) (ct_nonce c) aad (ct_body c) with
    | Some m => Ok m
    | None => Err AEADError
    end.
End Aead.

(** ** Serialization *)

(** [Read::read_exact] *)
Definition read_exact (n : nat) (bs : list Z) : outcome aead_error (list Z * list Z) :=
  if (length bs <? n)%nat then Err CodecError else Ok (firstn n bs, skipn n bs).
(** A [u64] and a vector of bytes, with the length first: ark-serialize and bincode write
    both alike.  A length that does not fit the reader is an error (the allocation it causes
    is not modelled). *)
Definition write_u64 (n : Z) : list Z := le_bytes 8 n.
Definition read_u64 (bs : list Z) : outcome aead_error (Z * list Z) :=
  let* (b, r) := read_exact 8 bs in Ok (le_val b, r).
Definition write_vec (v : list Z) : list Z := write_u64 (Z.of_nat (length v)) ++ v.
Definition read_vec (bs : list Z) : outcome aead_error (list Z * list Z) :=
  let* (n, r) := read_u64 bs in
  if Z.of_nat (length r) <? n then Err CodecError else read_exact (Z.to_nat n) r.

(** lib.rs:285-340 with the derived code of lib.rs:141-146: the 32 bytes of each key.  The
    derived serde code writes a fixed array, that is the same bytes under bincode. *)
Definition keypair_bytes (kp : keypair) : list Z := kp_enc kp ++ kp_dec kp.
Definition read_keypair (bs : list Z) : outcome aead_error (keypair * list Z) :=
  let* (a, r) := read_exact 32 bs in
  let* (b, r') := read_exact 32 r in Ok (mk_keypair a b, r').

(** lib.rs:342-372 with the derived code of lib.rs:253-268 *)
Definition ciphertext_bytes (c : ciphertext) : list Z := ct_nonce c ++ write_vec (ct_body c) ++ ct_epk c.
Definition read_ciphertext (bs : list Z) : outcome aead_error (ciphertext * list Z) :=
  let* (n, r) := read_exact 24 bs in
  let* (v, r') := read_vec r in
  let* (p, r'') := read_exact 32 r' in Ok (mk_ciphertext n v p, r'').

(** [XNonce::from_slice] panics on another length than 24. *)
Definition nonce_from_slice (bs : list Z) : outcome aead_error (list Z) :=
  if (length bs =? 24)%nat then Ok bs else Panic.

(** lib.rs:194-239 under bincode: the nonce is written with [serialize_bytes], that is as a
    vector, and read with [visit_byte_buf]. *)
Definition bincode_ciphertext (c : ciphertext) : list Z :=
  write_vec (ct_nonce c) ++ write_vec (ct_body c) ++ ct_epk c.
Definition read_bincode_ciphertext (bs : list Z) : outcome aead_error (ciphertext * list Z) :=
  let* (n, r) := read_vec bs in
  let* nonce := nonce_from_slice n in
  let* (v, r') := read_vec r in
  let* (p, r'') := read_exact 32 r' in Ok (mk_ciphertext nonce v p, r'').

(** lib.rs:194-239 under JSON, which has no byte strings: [serialize_bytes] writes an array
    of numbers, [deserialize_byte_buf] on an array calls [visit_seq]. *)
Inductive json := JNum (n : Z) | JArr (l : list json).
Definition json_byte (j : json) : outcome aead_error Z :=
  match j with JNum n => if (0 <=? n) && (n <? 256) then Ok n else Err CodecError | JArr _ => Err CodecError end.
Definition json_vec (j : json) : outcome aead_error (list Z) :=
  match j with JNum _ => Err CodecError | JArr l => map_res json_byte l end.
Definition json_nonce (nonce : list Z) : json := JArr (map JNum nonce).
(** lib.rs:225-234; an array with further elements is an error of the JSON reader, raised
    after the visitor returned. *)
Definition read_json_nonce (j : json) : outcome aead_error (list Z) :=
  match j with
  | JNum _ | JArr [] => Err CodecError
  | JArr (e :: l) =>
      let* bs := json_vec e in
      let* n := nonce_from_slice bs in
      match l with [] => Ok n | _ => Err CodecError end
  end.
