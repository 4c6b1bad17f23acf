(** C79: authenticated encryption with associated data. *)

From Coq Require Import List Arith ZArith Bool Lia.
From Verif Require Import Base ConvModel ConvProofs AeadModel.
Import ListNotations.
Local Open Scope Z_scope.

Lemma last_inj (a b p p' : list Z) : length p = length p' -> a ++ p = b ++ p' -> p = p'.
Proof.
  intros Hl E. assert (Hf : length a = length b) by (apply (f_equal (@length Z)) in E; rewrite !app_length in E; lia).
  apply (f_equal (skipn (length a))) in E. rewrite skipn_app, skipn_all, Nat.sub_diag in E. rewrite Hf, skipn_app, skipn_all, Nat.sub_diag in E. exact E.
Qed.

Section Aead.
  Variable pub : list Z -> list Z.
  Variable dh : list Z -> list Z -> list Z.
  Variable kdf : list Z -> list Z * list Z.
  Variable seal unseal : list Z -> list Z -> list Z -> list Z -> option (list Z).
  Notation encrypt := (encrypt pub dh kdf seal).
  Notation decrypt := (decrypt pub dh kdf unseal).
  Notation generate := (generate pub).

  (** Diffie-Hellman agrees on both sides; decryption accepts exactly what encryption under
      the same key, nonce and associated data produces. *)
  Definition dh_agrees : Prop := forall a b, dh a (pub b) = dh b (pub a).
  Definition cipher_exact : Prop := forall k n a m c, unseal k n a c = Some m <-> seal k n a m = Some c.
  (** The two idealisations used where they are named: a text is bound to its associated
      data, and to its key. *)
  Definition binds_aad : Prop := forall k n a a' m m' c, seal k n a m = Some c -> seal k n a' m' = Some c -> a = a'.
  Definition binds_key : Prop := forall k k' n a m m' c, seal k n a m = Some c -> seal k' n a m' = Some c -> k = k'.

  Hypothesis HD : dh_agrees.
  Hypothesis HC : cipher_exact.

  Lemma session sk esk : server_rx pub dh kdf sk (pub esk) = client_tx pub dh kdf esk (pub sk).
  Proof. unfold server_rx, client_tx. now rewrite HD. Qed.

  (** Whatever key pair, message, associated data and randomness. *)
  Theorem C79_round_trip sk esk nonce msg aad c : encrypt (kp_enc (generate sk)) esk nonce msg aad = Ok c ->
    decrypt (generate sk) c aad = Ok msg.
  Proof.
    unfold AeadModel.encrypt, AeadModel.decrypt, AeadModel.generate. cbn. destruct (seal _ _ _ _) as [b|] eqn:E; [|discriminate].
    intros H. injection H as <-. cbn. rewrite session. now rewrite (proj2 (HC _ _ _ _ _) E).
  Qed.

  (** A ciphertext decrypts to a message exactly if encrypting that message with that
      associated data gives that ciphertext. *)
  Theorem C79_decrypt_exact kp esk nonce body aad msg :
    decrypt kp (mk_ciphertext nonce body (pub esk)) aad = Ok msg <->
    encrypt (pub (kp_dec kp)) esk nonce msg aad = Ok (mk_ciphertext nonce body (pub esk)).
  Proof.
    unfold AeadModel.encrypt, AeadModel.decrypt. cbn. rewrite session. split.
    - destruct (unseal _ _ _ _) as [m|] eqn:E; [|discriminate]. intros H. injection H as <-. apply HC in E. now rewrite E.
    - destruct (seal _ _ _ _) as [b|] eqn:E; [|discriminate]. intros H. injection H as ->. apply HC in E. now rewrite E.
  Qed.

  (** Decryption never depends on the public half the key pair stores. *)
  Theorem C79_enc_key_ignored e e' sk c aad : decrypt (mk_keypair e sk) c aad = decrypt (mk_keypair e' sk) c aad.
  Proof. reflexivity. Qed.

  (** Other associated data: refused, if the cipher binds it. *)
  Theorem C79_wrong_aad (HA : binds_aad) sk esk nonce msg aad aad' c : encrypt (pub sk) esk nonce msg aad = Ok c -> aad' <> aad ->
    decrypt (generate sk) c aad' = Err AEADError.
  Proof.
    unfold AeadModel.encrypt, AeadModel.decrypt. cbn. destruct (seal _ _ _ _) as [b|] eqn:E; [|discriminate].
    intros H Ha. injection H as <-. cbn. rewrite session. destruct (unseal _ _ _ _) as [m|] eqn:E'; [|reflexivity].
    apply HC in E'. destruct Ha. exact (HA _ _ _ _ _ _ _ E' E).
  Qed.

  (** Another key pair: refused, if the cipher binds its key and the hash of the key
      exchange has no collisions. *)
  Theorem C79_wrong_key (HK : binds_key) (HH : forall x y, snd (kdf x) = snd (kdf y) -> x = y)
    (HP : forall a, length (pub a) = 32%nat) sk sk' esk nonce msg aad c : encrypt (pub sk) esk nonce msg aad = Ok c ->
    kp_enc (generate sk') <> kp_enc (generate sk) -> decrypt (generate sk') c aad = Err AEADError.
  Proof.
    unfold AeadModel.encrypt, AeadModel.decrypt. cbn. destruct (seal _ _ _ _) as [b|] eqn:E; [|discriminate].
    intros H Ha. injection H as <-. cbn. destruct (unseal _ _ _ _) as [m|] eqn:E'; [|reflexivity].
    apply HC in E'. destruct Ha. rewrite <- session in E. pose proof (HK _ _ _ _ _ _ _ E' E) as Ek. apply HH in Ek.
    rewrite !app_assoc in Ek. apply last_inj in Ek; [auto|now rewrite !HP].
  Qed.
End Aead.

(** ** Serialization *)
Definition wf_keypair (kp : keypair) : Prop :=
  length (kp_enc kp) = 32%nat /\ length (kp_dec kp) = 32%nat.
Definition wf_ciphertext (c : ciphertext) : Prop :=
  length (ct_nonce c) = 24%nat /\ length (ct_epk c) = 32%nat /\ Z.of_nat (length (ct_body c)) < 2 ^ 64.

Lemma read_exact_ok n a r : length a = n -> read_exact n (a ++ r) = Ok (a, r).
Proof.
  intros <-. unfold read_exact. rewrite app_length. destruct (Nat.ltb_spec (length a + length r) (length a)); [lia|].
  rewrite firstn_app, skipn_app, firstn_all, skipn_all, Nat.sub_diag. cbn. now rewrite app_nil_r.
Qed.
Lemma read_exact_inv n bs a r : read_exact n bs = Ok (a, r) -> bs = a ++ r /\ length a = n.
Proof.
  unfold read_exact. destruct (Nat.ltb_spec (length bs) n); [discriminate|]. intros E. injection E as <- <-.
  rewrite firstn_skipn, firstn_length. split; [auto|lia].
Qed.
Lemma read_exact_short n bs : (length bs < n)%nat -> read_exact n bs = Err CodecError.
Proof. intros H. unfold read_exact. destruct (Nat.ltb_spec (length bs) n); [auto|lia]. Qed.
Lemma u64_length n : length (write_u64 n) = 8%nat.
Proof. reflexivity. Qed.
Lemma read_vec_ok v r : Z.of_nat (length v) < 2 ^ 64 -> read_vec (write_vec v ++ r) = Ok (v, r).
Proof.
  intros H. unfold read_vec, write_vec, read_u64. rewrite <- app_assoc, read_exact_ok by apply u64_length. cbn [bind].
  unfold write_u64. rewrite le_val_bytes_small by (change (256 ^ Z.of_nat 8) with (2 ^ 64); lia).
  rewrite app_length. destruct (Z.ltb_spec (Z.of_nat (length v + length r)) (Z.of_nat (length v))); [lia|].
  apply read_exact_ok. lia.
Qed.
(** The reader of a vector returns a vector and a rest, or an error. *)
Lemma read_vec_inv bs v r : is_bytes bs -> read_vec bs = Ok (v, r) -> bs = write_vec v ++ r /\ Z.of_nat (length v) < 2 ^ 64.
Proof.
  intros Hb. unfold read_vec, read_u64. destruct (read_exact 8 bs) as [[h t]|e|] eqn:E; try discriminate. cbn [bind].
  apply read_exact_inv in E as [-> Hh]. apply Forall_app in Hb as [Hh' Ht]. pose proof (le_val_bound h Hh') as Hv. rewrite Hh in Hv.
  destruct (Z.ltb_spec (Z.of_nat (length t)) (le_val h)); [discriminate|]. intros E. apply read_exact_inv in E as [-> Hl].
  assert (Hz : Z.of_nat (length v) = le_val h) by lia. unfold write_vec, write_u64. rewrite Hz. split; [|change (2 ^ 64) with (256 ^ Z.of_nat 8); lia].
  rewrite <- app_assoc. f_equal. rewrite le_bytes_val by (auto; lia). rewrite Hh. now rewrite app_nil_r.
Qed.

(** A reader that inverts a writer, leaves the rest alone, accepts nothing else, and answers
    every strict prefix of what is written with an error. *)
Definition codec {A} (wf : A -> Prop) (write : A -> list Z) (read : list Z -> outcome aead_error (A * list Z)) : Prop :=
  (forall x r, wf x -> read (write x ++ r) = Ok (x, r)) /\
  (forall bs x r, is_bytes bs -> read bs = Ok (x, r) -> wf x /\ bs = write x ++ r) /\
  (forall bs, is_bytes bs -> read bs <> Panic).

Lemma codec_inj {A} wf write read (x y : A) r r' : codec wf write read -> wf x -> wf y -> write x ++ r = write y ++ r' -> x = y /\ r = r'.
Proof. intros (H & _) Hx Hy E. pose proof (H x r Hx) as E1. rewrite E, (H y r' Hy) in E1. injection E1. auto. Qed.
Lemma codec_prefix {A} wf write read (x : A) n : codec wf write read -> wf x -> is_bytes (write x) -> (n < length (write x))%nat ->
  exists e, read (firstn n (write x)) = Err e.
Proof.
  intros (H1 & H2 & H3) Hx Hb Hn. destruct (read (firstn n (write x))) as [[y r]|e|] eqn:E; [exfalso| eauto |destruct (H3 _ (is_bytes_firstn _ _ Hb) E)].
  destruct (H2 _ _ _ (is_bytes_firstn _ _ Hb) E) as [Hy Ey]. pose proof (H1 y (r ++ skipn n (write x)) Hy) as F.
  rewrite app_assoc, <- Ey, firstn_skipn in F. pose proof (H1 x [] Hx) as G. rewrite app_nil_r, F in G. injection G as _ G.
  apply (f_equal (@length Z)) in G. rewrite app_length, skipn_length in G. cbn in G. lia.
Qed.

Theorem C79_keypair_codec : codec wf_keypair keypair_bytes read_keypair.
Proof.
  split; [|split].
  - intros [e d] r [He Hd]. unfold read_keypair, keypair_bytes. cbn in *. rewrite <- app_assoc, read_exact_ok by auto. cbn [bind].
    rewrite read_exact_ok by auto. reflexivity.
  - intros bs kp r Hb. unfold read_keypair. destruct (read_exact 32 bs) as [[a t]| |] eqn:E; try discriminate. cbn [bind].
    destruct (read_exact 32 t) as [[b t']| |] eqn:E'; try discriminate. cbn [bind]. intros H. injection H as <- <-.
    apply read_exact_inv in E as [-> Ha]. apply read_exact_inv in E' as [-> Hb']. unfold wf_keypair, keypair_bytes. cbn. now rewrite app_assoc.
  - intros bs _. unfold read_keypair, read_exact. destruct (_ <? _)%nat; [discriminate|]. cbn [bind]. destruct (_ <? _)%nat; discriminate.
Qed.
Lemma read_vec_no_panic bs : read_vec bs <> Panic.
Proof. unfold read_vec, read_u64, read_exact. destruct (_ <? _)%nat; [discriminate|]. cbn [bind]. destruct (_ <? _)%Z; [discriminate|]. destruct (_ <? _)%nat; discriminate. Qed.
Lemma read_exact_no_panic n bs : read_exact n bs <> Panic.
Proof. unfold read_exact. destruct (_ <? _)%nat; discriminate. Qed.

Lemma read_tail_inv n t c r : is_bytes t -> length n = 24%nat ->
  (let* (v, r') := read_vec t in let* (p, r'') := read_exact 32 r' in Ok (mk_ciphertext n v p, r'')) = Ok (c, r) ->
  wf_ciphertext c /\ ct_nonce c = n /\ t = write_vec (ct_body c) ++ ct_epk c ++ r.
Proof.
  intros Ht Hn. destruct (read_vec t) as [[v t']| |] eqn:E; try discriminate. cbn [bind].
  destruct (read_exact 32 t') as [[p t'']| |] eqn:E'; try discriminate. cbn [bind]. intros H. injection H as <- <-.
  apply read_vec_inv in E as [-> Hv]; auto. apply read_exact_inv in E' as [-> Hp]. unfold wf_ciphertext. cbn. auto.
Qed.

Theorem C79_ciphertext_codec : codec wf_ciphertext ciphertext_bytes read_ciphertext.
Proof.
  split; [|split].
  - intros [n v p] r (Hn & Hp & Hv). unfold read_ciphertext, ciphertext_bytes. cbn [ct_nonce ct_body ct_epk] in *. rewrite <- app_assoc, read_exact_ok by auto. cbn [bind].
    rewrite <- app_assoc, read_vec_ok by auto. cbn [bind]. rewrite read_exact_ok by auto. reflexivity.
  - intros bs c r Hb. unfold read_ciphertext. destruct (read_exact 24 bs) as [[n t]| |] eqn:E; try discriminate. cbn [bind].
    apply read_exact_inv in E as [-> Hn]. intros H. apply read_tail_inv in H as (Hw & <- & ->); auto; [|now apply Forall_app in Hb].
    split; auto. unfold ciphertext_bytes. now rewrite <- !app_assoc.
  - intros bs _. unfold read_ciphertext. pose proof (read_exact_no_panic 24 bs). destruct (read_exact 24 bs) as [[n t]| |]; try discriminate; auto. cbn [bind].
    pose proof (read_vec_no_panic t). destruct (read_vec t) as [[v t']| |]; try discriminate; auto. cbn [bind].
    pose proof (read_exact_no_panic 32 t'). destruct (read_exact 32 t') as [[p t'']| |]; try discriminate; auto.
Qed.

(** bincode: everything but the absence of panics. *)
Theorem C79_bincode_partial :
  (forall c r, wf_ciphertext c -> read_bincode_ciphertext (bincode_ciphertext c ++ r) = Ok (c, r)) /\
  (forall bs c r, is_bytes bs -> read_bincode_ciphertext bs = Ok (c, r) -> wf_ciphertext c /\ bs = bincode_ciphertext c ++ r) /\
  (forall bs, is_bytes bs -> (read_bincode_ciphertext bs = Panic <->
     exists v r, bs = write_vec v ++ r /\ Z.of_nat (length v) < 2 ^ 64 /\ length v <> 24%nat)).
Proof.
  split; [|split].
  - intros [n v p] r (Hn & Hp & Hv). unfold read_bincode_ciphertext, bincode_ciphertext. cbn [ct_nonce ct_body ct_epk] in *.
    rewrite <- app_assoc, read_vec_ok by (rewrite Hn; reflexivity). cbn [bind]. unfold nonce_from_slice. rewrite Hn. cbn [Nat.eqb bind].
    rewrite <- app_assoc, read_vec_ok by auto. cbn [bind]. rewrite read_exact_ok by auto. reflexivity.
  - intros bs c r Hb. unfold read_bincode_ciphertext. destruct (read_vec bs) as [[n t]| |] eqn:E; try discriminate. cbn [bind].
    apply read_vec_inv in E as [-> Hn']; auto. unfold nonce_from_slice. destruct (Nat.eqb_spec (length n) 24) as [Hn|]; [|discriminate]. cbn [bind].
    intros H. apply read_tail_inv in H as (Hw & <- & ->); auto; [|now apply Forall_app in Hb].
    split; auto. unfold bincode_ciphertext. now rewrite <- !app_assoc.
  - intros bs Hb. split.
    + unfold read_bincode_ciphertext. pose proof (read_vec_no_panic bs). destruct (read_vec bs) as [[n t]| |] eqn:E; try discriminate; [|congruence]. cbn [bind].
      apply read_vec_inv in E as [-> Hn']; auto. unfold nonce_from_slice. destruct (Nat.eqb_spec (length n) 24) as [Hn|]; [|eauto]. cbn [bind].
      pose proof (read_vec_no_panic t). destruct (read_vec t) as [[v t']| |]; try discriminate; [|congruence]. cbn [bind].
      pose proof (read_exact_no_panic 32 t'). destruct (read_exact 32 t') as [[p t'']| |]; try discriminate; congruence.
    + intros (v & r & -> & Hv & Hl). unfold read_bincode_ciphertext. rewrite read_vec_ok by auto. cbn [bind]. unfold nonce_from_slice.
      apply Nat.eqb_neq in Hl. now rewrite Hl.
Qed.

(** The first byte lost (what the crate's own test tries): an error, unless the nonce starts
    with a zero byte. *)
Theorem C79_bincode_shifted_refuted c : wf_ciphertext c -> nth 0 (ct_nonce c) 0 = 0 ->
  read_bincode_ciphertext (skipn 1 (bincode_ciphertext c)) = Panic.
Proof.
  intros (Hn & _) H0. destruct c as [n v p]. cbn [ct_nonce] in *. destruct n as [|b n]; [discriminate|]. cbn [nth] in H0. subst b.
  unfold bincode_ciphertext. cbn [ct_nonce ct_body ct_epk].
  replace (write_vec (0 :: n)) with (24 :: repeat 0 8 ++ n) by (unfold write_vec; rewrite Hn; reflexivity).
  unfold skipn. cbn [app]. clear. rewrite <- !app_assoc.
  unfold read_bincode_ciphertext, read_vec, read_u64. rewrite read_exact_ok by reflexivity. cbn [bind].
  change (le_val (repeat 0 8)) with 0. destruct (Z.ltb_spec (Z.of_nat (length (n ++ write_vec v ++ p))) 0); [lia|]. reflexivity.
Qed.
(** No nonce, hence no ciphertext, survives JSON. *)
Theorem C79_json_refuted nonce : length nonce = 24%nat -> read_json_nonce (json_nonce nonce) = Err CodecError.
Proof. destruct nonce as [|b n]; [discriminate|]. reflexivity. Qed.
(** What the reader of a nonce accepts instead: an array whose only element is an array of
    24 bytes. *)
Lemma json_bytes l n : map_res json_byte l = Ok n <-> l = map JNum n /\ Forall (fun b => 0 <= b < 256) n.
Proof.
  revert n. induction l as [|[b|l'] l IH]; intros n; cbn [map_res json_byte].
  - split; [intros [= <-]; split; [reflexivity|constructor]|]. intros [H _]. destruct n; [reflexivity|discriminate].
  - destruct (Z.leb_spec 0 b); cbn [andb]; [destruct (Z.ltb_spec b 256)|].
    + cbn [bind]. destruct (map_res json_byte l) as [r| |] eqn:E; cbn [bind].
      * pose proof (proj1 (IH r) eq_refl) as [-> F]. split; [intros [= <-]; split; [reflexivity|constructor; [lia|exact F]]|].
        intros [H1 H2]. destruct n as [|b' n]; [discriminate|]. injection H1 as -> H1. apply Forall_inv_tail in H2.
        pose proof (proj2 (IH n) (conj H1 H2)) as H6. injection H6 as ->. reflexivity.
      * split; [discriminate|]. intros [H1 H2]. destruct n as [|b' n]; [discriminate|]. injection H1 as -> H1. apply Forall_inv_tail in H2.
        now pose proof (proj2 (IH n) (conj H1 H2)).
      * split; [discriminate|]. intros [H1 H2]. destruct n as [|b' n]; [discriminate|]. injection H1 as -> H1. apply Forall_inv_tail in H2.
        now pose proof (proj2 (IH n) (conj H1 H2)).
    + split; [discriminate|]. intros [H1 H2]. destruct n as [|b' n]; [discriminate|]. injection H1 as -> H1. apply Forall_inv in H2. lia.
    + split; [discriminate|]. intros [H1 H2]. destruct n as [|b' n]; [discriminate|]. injection H1 as -> H1. apply Forall_inv in H2. lia.
  - split; [discriminate|]. intros [H1 _]. destruct n; discriminate.
Qed.
Theorem C79_json_read_exact j n : read_json_nonce j = Ok n <->
  j = JArr [JArr (map JNum n)] /\ length n = 24%nat /\ Forall (fun b => 0 <= b < 256) n.
Proof.
  split.
  - destruct j as [|[|e l]]; try discriminate. cbn [read_json_nonce]. destruct e as [|l']; [discriminate|]. cbn [json_vec].
    destruct (map_res json_byte l') as [bs| |] eqn:E; [|discriminate|discriminate]. apply json_bytes in E as [-> F]. cbn [bind]. unfold nonce_from_slice.
    destruct (Nat.eqb_spec (length bs) 24) as [Hl|]; [|discriminate]. cbn [bind]. destruct l; [|discriminate]. intros [= <-]. auto.
  - intros (-> & Hl & F). cbn [read_json_nonce json_vec]. rewrite (proj2 (json_bytes (map JNum n) n) (conj eq_refl F)). cbn [bind]. unfold nonce_from_slice.
    rewrite Hl. reflexivity.
Qed.
Theorem C79_json_read_instance : read_json_nonce (JArr [JArr (map JNum (repeat 7 24))]) = Ok (repeat 7 24) /\
  read_json_nonce (JArr [JArr (map JNum (repeat 7 24)); JNum 1]) = Err CodecError.
Proof. split; reflexivity. Qed.

(** ** An instance: keys added byte by byte, a text carrying its key, nonce and associated
    data in the clear. *)
Definition t_pub (s : list Z) : list Z := firstn 32 (s ++ repeat 0 32).
Definition t_dh (s p : list Z) : list Z := map (fun ab => (fst ab + snd ab) mod 256) (combine (t_pub s) (t_pub p)).
Definition t_kdf (x : list Z) : list Z * list Z := (x, x).
Definition t_pre (k n a : list Z) : list Z := map Z.of_nat [length k; length n; length a] ++ k ++ n ++ a.
Definition t_seal (k n a m : list Z) : option (list Z) := if (64 <? length m)%nat then None else Some (t_pre k n a ++ m).
Definition t_unseal (k n a c : list Z) : option (list Z) :=
  let l := length (t_pre k n a) in
  if list_eq_dec Z.eq_dec (firstn l c) (t_pre k n a) then if (64 <? length (skipn l c))%nat then None else Some (skipn l c) else None.

Lemma t_pre_inj k n a m k' n' a' m' : t_pre k n a ++ m = t_pre k' n' a' ++ m' -> k = k' /\ n = n' /\ a = a' /\ m = m'.
Proof.
  assert (Happ : forall (a b c d : list Z), length a = length c -> a ++ b = c ++ d -> a = c /\ b = d).
  { clear. induction a as [|x a IH]; intros b [|y c] d Hl E; try discriminate; [auto|]. cbn in E. injection E as -> E. destruct (IH b c d) as [-> ->]; auto. }
  unfold t_pre. cbn [map app]. intros E. injection E as E1 E2 E3 E. apply Nat2Z.inj in E1, E2, E3. rewrite <- !app_assoc in E.
  apply Happ in E as [-> E]; [|assumption]. apply Happ in E as [-> E]; [|assumption]. apply Happ in E as [-> ->]; auto.
Qed.
Lemma t_pub_length s : length (t_pub s) = 32%nat.
Proof. unfold t_pub. rewrite firstn_length, app_length, repeat_length. lia. Qed.
Lemma t_pub_idem s : t_pub (t_pub s) = t_pub s.
Proof. unfold t_pub at 1. rewrite firstn_app, t_pub_length. cbn [Nat.sub]. rewrite firstn_O, app_nil_r, firstn_all2; [auto|rewrite t_pub_length; auto]. Qed.
Theorem C79_instance_cipher : dh_agrees t_pub t_dh /\ cipher_exact t_seal t_unseal /\ binds_aad t_seal /\ binds_key t_seal /\
  (forall x y, snd (t_kdf x) = snd (t_kdf y) -> x = y) /\ (forall a, length (t_pub a) = 32%nat).
Proof.
  split; [|split; [|split; [|split; [|split]]]].
  - intros a b. unfold t_dh. rewrite !t_pub_idem. generalize (t_pub a) (t_pub b). induction l as [|x l IH]; intros [|y l']; auto. cbn. now rewrite Z.add_comm, IH.
  - intros k n a m c. unfold t_unseal, t_seal. cbv zeta. split.
    + destruct (list_eq_dec _ _ _) as [E|]; [|discriminate]. destruct (_ <? _)%nat eqn:El; [discriminate|]. intros H.
      assert (m = skipn (length (t_pre k n a)) c) as -> by congruence. rewrite El. rewrite <- E at 1. now rewrite firstn_skipn.
    + destruct (_ <? _)%nat eqn:El; [discriminate|]. intros H. assert (c = t_pre k n a ++ m) as -> by congruence. rewrite firstn_app, firstn_all, Nat.sub_diag. cbn [firstn]. rewrite app_nil_r.
      destruct (list_eq_dec _ _ _) as [_|Hx]; [|contradiction]. rewrite skipn_app, skipn_all, Nat.sub_diag. cbn [skipn app]. now rewrite El.
  - intros k n a a' m m' c. unfold t_seal. destruct (_ <? _)%nat; [discriminate|]. destruct (_ <? _)%nat; [discriminate|]. intros H H'.
    assert (t_pre k n a ++ m = t_pre k n a' ++ m') as E by congruence. now apply t_pre_inj in E.
  - intros k k' n a m m' c. unfold t_seal. destruct (_ <? _)%nat; [discriminate|]. destruct (_ <? _)%nat; [discriminate|]. intros H H'.
    assert (t_pre k n a ++ m = t_pre k' n a ++ m') as E by congruence. now apply t_pre_inj in E.
  - intros x y H. exact H.
  - apply t_pub_length.
Qed.

(** A message goes through; other associated data and another key are refused; a message
    that is too long is not encrypted. *)
Definition t_encrypt := encrypt t_pub t_dh t_kdf t_seal.
Definition t_decrypt := decrypt t_pub t_dh t_kdf t_unseal.
Definition t_key : keypair := generate t_pub (repeat 7 32).
Definition t_nonce : list Z := repeat 0 24.
Definition t_ct : ciphertext := mk_ciphertext t_nonce (t_pre (client_tx t_pub t_dh t_kdf (repeat 9 32) (kp_enc t_key)) t_nonce [1; 2] ++ [5; 6]) (repeat 9 32).
Theorem C79_instance : t_encrypt (kp_enc t_key) (repeat 9 32) t_nonce [5; 6] [1; 2] = Ok t_ct /\
  t_decrypt t_key t_ct [1; 2] = Ok [5; 6] /\ t_decrypt t_key t_ct [1; 3] = Err AEADError /\
  t_decrypt (generate t_pub (repeat 8 32)) t_ct [1; 2] = Err AEADError /\
  t_encrypt (kp_enc t_key) (repeat 9 32) t_nonce (repeat 5 65) [1; 2] = Err AEADError /\
  wf_keypair t_key /\ wf_ciphertext t_ct /\ is_bytes (ciphertext_bytes t_ct) /\ nth 0 (ct_nonce t_ct) 0 = 0.
Proof.
  do 5 (split; [vm_compute; reflexivity|]). split; [split; reflexivity|]. split; [split; [reflexivity|split; reflexivity]|].
  split; [|reflexivity]. apply Forall_forall. intros x Hx.
  assert (forallb (fun b => (0 <=? b) && (b <? 256)) (ciphertext_bytes t_ct) = true) as H by (vm_compute; reflexivity).
  rewrite forallb_forall in H. apply H in Hx. lia.
Qed.

(** Two key pairs the crate calls equal, read from bytes without an error: one opens a
    ciphertext made for their common public key, the other does not. *)
Theorem C79_equal_keys_refuted : exists kp, keypair_eqb kp t_key = true /\
  read_keypair (keypair_bytes kp) = Ok (kp, []) /\ read_keypair (keypair_bytes t_key) = Ok (t_key, []) /\
  t_decrypt t_key t_ct [1; 2] = Ok [5; 6] /\ t_decrypt kp t_ct [1; 2] = Err AEADError.
Proof. exists (mk_keypair (repeat 7 32) (repeat 8 32)). do 4 (split; [vm_compute; reflexivity|]). vm_compute. reflexivity. Qed.

(** The default key pair is not a key pair: unless the public key of the zero secret key is
    the zero string, what is encrypted to it is not what it decrypts. *)
Theorem C79_default_refuted pub dh kdf seal unseal (HD : dh_agrees pub dh) (HC : cipher_exact seal unseal) (HK : binds_key seal)
  (HH : forall x y, snd (kdf x) = snd (kdf y) -> x = y) (HP : forall a, length (pub a) = 32%nat) :
  pub (repeat 0 32) <> repeat 0 32 -> forall esk nonce msg aad c,
  encrypt pub dh kdf seal (kp_enc default_keypair) esk nonce msg aad = Ok c ->
  decrypt pub dh kdf unseal default_keypair c aad = Err AEADError.
Proof.
  intros Hz esk nonce msg aad c. unfold encrypt, decrypt. destruct (seal _ _ _ _) as [b|] eqn:E; [|discriminate].
  intros H. injection H as <-. cbn [ct_nonce ct_body ct_epk]. destruct (unseal _ _ _ _) as [m|] eqn:E'; [exfalso|reflexivity].
  apply HC in E'. pose proof (HK _ _ _ _ _ _ _ E' E) as Ek. apply HH in Ek. cbn [kp_enc kp_dec default_keypair] in Ek.
  rewrite !app_assoc in Ek. apply last_inj in Ek; [auto|now rewrite HP].
Qed.
(** The hypotheses are met by public keys that add one to each byte. *)
Definition d_pub (s : list Z) : list Z := map (fun b => (b + 1) mod 256) (t_pub s).
Theorem C79_default_instance : dh_agrees d_pub t_dh /\ (forall a, length (d_pub a) = 32%nat) /\ d_pub (repeat 0 32) <> repeat 0 32 /\
  exists c, encrypt d_pub t_dh t_kdf t_seal (kp_enc default_keypair) (repeat 9 32) t_nonce [5; 6] [1; 2] = Ok c.
Proof.
  assert (L : forall a, length (d_pub a) = 32%nat) by (intros a; unfold d_pub; rewrite map_length; apply t_pub_length).
  split; [|split; [exact L|split; [vm_compute; discriminate|eexists; vm_compute; reflexivity]]].
  intros a b. unfold t_dh. assert (E : forall s, t_pub (d_pub s) = d_pub s).
  { intros s. unfold t_pub at 1. rewrite firstn_app, L. cbn [Nat.sub]. rewrite firstn_O, app_nil_r, firstn_all2; [auto|rewrite L; auto]. }
  rewrite !E. unfold d_pub. generalize (t_pub a) (t_pub b). induction l as [|x l IH]; intros [|y l']; auto. cbn. rewrite IH. f_equal.
  rewrite !Z.add_mod_idemp_r by lia. f_equal. lia.
Qed.

Print Assumptions C79_round_trip. Print Assumptions C79_decrypt_exact. Print Assumptions C79_wrong_aad.
Print Assumptions C79_wrong_key. Print Assumptions C79_ciphertext_codec. Print Assumptions C79_bincode_partial.
Print Assumptions C79_instance. Print Assumptions C79_default_refuted. Print Assumptions C79_json_read_exact.
