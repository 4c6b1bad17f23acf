(** Properties C17-C20: Reed-Solomon codes and conversions between bytes, fields
    and integers. *)
From Coq Require Import List Arith ZArith Lia Bool Field Permutation.
From Verif Require Import Base ListAux Alg Poly RSModel RSProofs ConvModel ConvProofs.
Import ListNotations.

(** * Reed-Solomon *)
Section C17.
  Variable K : fld.
  Local Open Scope fld_scope.

  (** The shares handed to the decoder: the points with those indices (1-based, in
      any order) and the corresponding entries of the codeword. *)
  Definition pick_shares (code : list K) (idx : list nat) : list (K * K) :=
    map (fun i => (fnat i, nth (i - 1) code 0)) idx.

  (** Any [k] or more distinct positions of the codeword decode to the data, as long
      as the positions are distinct as field elements. *)
  Theorem C17_decode_inverts_encode (data : list K) (parity : nat) (idx : list nat) :
    (forall i j, 1 <= i <= length data + parity -> 1 <= j <= length data + parity ->
       @fnat K i = fnat j -> i = j)%nat ->
    NoDup idx -> (length data <= length idx)%nat ->
    (forall i, In i idx -> 1 <= i <= length data + parity)%nat ->
    rs_decode (pick_shares (rs_encode data parity) idx) (length data) = Ok data.
  Proof.
    intros Hinj Hnd Hl Hr. apply rs_decode_evals.
    - unfold pick_shares. rewrite map_length. auto.
    - unfold pick_shares. rewrite firstn_map, map_map. cbn [fst].
      assert (Hnd' : NoDup (firstn (length data) idx)).
      { rewrite <- (firstn_skipn (length data) idx) in Hnd.
        revert Hnd. generalize (skipn (length data) idx). generalize (firstn (length data) idx).
        intros a b. induction a as [|x a IH]; intro H; [constructor|].
        inversion H; subst. constructor; [|auto]. intro G. apply H2. apply in_or_app; auto. }
      assert (Hr' : forall i, In i (firstn (length data) idx) -> (1 <= i <= length data + parity)%nat).
      { intros i Hi. apply Hr. rewrite <- (firstn_skipn (length data) idx). apply in_or_app; auto. }
      revert Hnd' Hr'. generalize (firstn (length data) idx). clear -Hinj. intros l.
      induction l as [|i l IH]; intros Hnd Hr; [constructor|].
      inversion Hnd as [|? ? Hni Hnd']; subst. cbn [map]. constructor.
      + intro Hin. apply in_map_iff in Hin as (j & Hj & Hin).
        apply Hinj in Hj; [congruence|apply Hr; right; auto|apply Hr; left; auto].
      + apply IH; auto. intros; apply Hr; right; auto.
    - intros s Hs. unfold pick_shares in Hs. rewrite firstn_map in Hs.
      apply in_map_iff in Hs as (i & <- & Hi). cbn [fst snd]. apply rs_encode_nth. apply Hr.
      rewrite <- (firstn_skipn (length data) idx). apply in_or_app; auto.
  Qed.

  (** The codeword has [k + parity] symbols and its [i]-th symbol (1-based) is the
      data polynomial at the point [i]. *)
  Theorem C17_codeword (data : list K) (parity i : nat) :
    length (rs_encode data parity) = (length data + parity)%nat /\
    ((1 <= i <= length data + parity)%nat ->
       nth (i - 1) (rs_encode data parity) 0 =
       fsum (map (fun k => nth k data 0 * fpow (fnat i) k) (seq 0 (length data)))).
  Proof.
    split; [apply rs_encode_length|]. intro Hi. rewrite rs_encode_nth by auto. apply peval_sum.
  Qed.

  (** Decoding returns exactly the polynomial through the shares: a successful
      result has the requested length and passes through each used share, and every
      polynomial of that length through at least [n] shares with distinct points is
      found. *)
  Theorem C17_decode_interpolates (shares : list (K * K)) (n : nat) (f : list K) :
    rs_decode shares n = Ok f <->
    (n <= length shares)%nat /\ NoDup (map fst (firstn n shares)) /\ length f = n /\
    (forall x y, In (x, y) (firstn n shares) ->
       y = fsum (map (fun k => nth k f 0 * fpow x k) (seq 0 n))).
  Proof.
    split.
    - intro H. destruct (Nat.le_gt_cases n (length shares)) as [Hn|Hn].
      2: { unfold rs_decode in H. rewrite firstn_length in H.
           destruct (Nat.ltb_spec (Nat.min n (length shares)) n); [discriminate|lia]. }
      split; [auto|].
      destruct (ListDec.NoDup_dec feq_dec (map fst (firstn n shares))) as [Hnd|Hnd].
      2: { destruct (rs_decode_dup K shares n Hn Hnd) as (i & j & E & _). congruence. }
      split; [auto|]. destruct (rs_decode_interp K shares n Hn Hnd) as (g & E & Hl & Hp).
      rewrite H in E. injection E as <-. split; [auto|]. intros x y Hin.
      rewrite <- Hl at 1. change (fun k => nth k f 0 * fpow x k) with (fun k => coef f k * fpow x k).
      rewrite <- peval_sum. rewrite (peval_peq _ _ _ x Hp).
      apply In_nth with (d := (0, 0)) in Hin as (k & Hk & E).
      pose proof (interp_spec K (map fst (firstn n shares)) (map snd (firstn n shares)) k Hnd) as G.
      rewrite map_length in G. specialize (G Hk).
      assert (Ex : nth k (map fst (firstn n shares)) 0 = x).
      { transitivity (fst (nth k (firstn n shares) (0, 0))).
        - apply (map_nth fst (firstn n shares) (0, 0)).
        - rewrite E. reflexivity. }
      assert (Ey : nth k (map snd (firstn n shares)) 0 = y).
      { transitivity (snd (nth k (firstn n shares) (0, 0))).
        - apply (map_nth snd (firstn n shares) (0, 0)).
        - rewrite E. reflexivity. }
      rewrite Ex, Ey in G. symmetry. exact G.
    - intros (Hn & Hnd & Hl & He). rewrite <- Hl in *. apply rs_decode_evals; auto.
      intros [x y] Hin. cbn [fst snd]. rewrite (He x y Hin). symmetry. apply peval_sum.
  Qed.

  (** Decoding from evaluations on an FFT domain given by index. *)
  Theorem C17_decode_domain (data : list K) (domain : list K) (idx : list nat) :
    NoDup domain -> NoDup idx -> (1 <= length data)%nat -> (length data <= length idx)%nat ->
    (forall i, In i idx -> (i < length domain)%nat) ->
    rs_decode_rou (map (fun i => (i, peval data (nth i domain 0))) idx) (length data) domain = Ok data.
  Proof.
    intros Hdom Hnd H1 Hl Hr. unfold rs_decode_rou.
    destruct idx as [|i0 idx0] eqn:E; [simpl in Hl; lia|]. rewrite <- E in *.
    assert (Hne : map (fun i => (i, peval data (nth i domain 0))) idx =
                  (i0, peval data (nth i0 domain 0)) :: map (fun i => (i, peval data (nth i domain 0))) idx0)
      by (rewrite E; reflexivity).
    rewrite Hne. rewrite <- Hne. rewrite map_map. cbn [fst].
    rewrite map_id. destruct (Nat.leb_spec (length domain) (list_max idx)) as [Hm|Hm].
    { exfalso. assert (Hlt : (list_max idx < length domain)%nat); [|lia].
      apply list_max_lt; [congruence|]. apply Forall_forall. auto. }
    rewrite map_map. apply rs_decode_evals.
    - rewrite map_length. auto.
    - rewrite firstn_map, map_map. cbn [fst].
      assert (Hnd' : NoDup (firstn (length data) idx)).
      { rewrite <- (firstn_skipn (length data) idx) in Hnd.
        revert Hnd. generalize (skipn (length data) idx). generalize (firstn (length data) idx).
        intros a b. induction a as [|x a IH]; intro H; [constructor|].
        inversion H; subst. constructor; [|auto]. intro G. apply H3. apply in_or_app; auto. }
      assert (Hr' : forall i, In i (firstn (length data) idx) -> (i < length domain)%nat).
      { intros i Hi. apply Hr. rewrite <- (firstn_skipn (length data) idx). apply in_or_app; auto. }
      revert Hnd' Hr'. generalize (firstn (length data) idx). clear -Hdom. intros l.
      induction l as [|i l IH]; intros Hnd Hr; [constructor|].
      inversion Hnd as [|? ? Hni Hnd']; subst. cbn [map]. constructor.
      + intro Hin. apply in_map_iff in Hin as (j & Hj & Hin).
        apply (proj1 (NoDup_nth domain 0) Hdom) in Hj; [congruence|apply Hr; right; auto|apply Hr; left; auto].
      + apply IH; auto. intros; apply Hr; right; auto.
    - intros s Hs. rewrite firstn_map in Hs. apply in_map_iff in Hs as (i & <- & Hi). reflexivity.
  Qed.

  (** ** C18 *)
  (** Decoding never panics and errs exactly when there are too few shares or two of
      the shares it uses have the same point. *)
  Theorem C18_decode_errs_iff (shares : list (K * K)) (n : nat) :
    ((length shares < n)%nat -> rs_decode shares n = Err Insufficient) /\
    ((n <= length shares)%nat ->
       ((exists e, rs_decode shares n = Err e) <->
        exists i j, (i < j < n)%nat /\ nth i (map fst shares) 0 = nth j (map fst shares) 0)) /\
    rs_decode shares n <> Panic.
  Proof.
    split; [|split].
    - intro H. unfold rs_decode. rewrite firstn_length.
      destruct (Nat.ltb_spec (Nat.min n (length shares)) n); [reflexivity|lia].
    - intro Hn. split.
      + intros [e He]. destruct (ListDec.NoDup_dec feq_dec (map fst (firstn n shares))) as [Hnd|Hnd].
        * destruct (rs_decode_interp K shares n Hn Hnd) as (g & E & _). congruence.
        * destruct (rs_decode_dup K shares n Hn Hnd) as (i & j & _ & Hi & Hj & Hij & E).
          destruct (Nat.lt_ge_cases i j); [exists i, j|exists j, i]; split; auto; lia.
      + intros (i & j & Hij & E).
        destruct (rs_decode_dup K shares n Hn) as (i' & j' & H & _); [|eauto].
        intro Hnd. assert (i = j); [|lia].
        assert (E' : forall m, (m < n)%nat -> nth m (map fst (firstn n shares)) 0 = nth m (map fst shares) 0).
        { intros m Hm'. rewrite <- (firstn_skipn n shares) at 2. rewrite map_app.
          rewrite app_nth1; [reflexivity|]. rewrite map_length, firstn_length. lia. }
        apply (proj1 (NoDup_nth _ 0) Hnd); rewrite ?map_length, ?firstn_length; try lia.
        rewrite !E' by lia. exact E.
    - intro H. destruct (Nat.le_gt_cases n (length shares)) as [Hn|Hn].
      + destruct (ListDec.NoDup_dec feq_dec (map fst (firstn n shares))) as [Hnd|Hnd].
        * destruct (rs_decode_interp K shares n Hn Hnd) as (g & E & _). congruence.
        * destruct (rs_decode_dup K shares n Hn Hnd) as (i & j & E & _). congruence.
      + unfold rs_decode in H. rewrite firstn_length in H.
        destruct (Nat.ltb_spec (Nat.min n (length shares)) n); [discriminate|lia].
  Qed.

  (** Decoding with domain indices refuses an empty share list and an index outside
      the domain, wherever it stands in the list, and never panics. *)
  Theorem C18_domain_refusals (shares : list (nat * K)) (n : nat) (domain : list K) :
    (shares = [] -> rs_decode_rou shares n domain = Err EmptyShares) /\
    ((exists s, In s shares /\ (length domain <= fst s)%nat) ->
       rs_decode_rou shares n domain = Err IndexOutOfBounds) /\
    rs_decode_rou shares n domain <> Panic.
  Proof.
    split; [intros ->; reflexivity|]. split.
    - intros (s & Hs & Hl). unfold rs_decode_rou. destruct shares as [|s0 sh]; [destruct Hs|].
      destruct (Nat.leb_spec (length domain) (list_max (map fst (s0 :: sh)))) as [H|H]; [reflexivity|].
      exfalso. apply list_max_lt in H; [|discriminate]. rewrite Forall_forall in H.
      specialize (H (fst s) (in_map fst _ _ Hs)). lia.
    - unfold rs_decode_rou. destruct shares as [|s0 sh]; [discriminate|].
      destruct (length domain <=? list_max (map fst (s0 :: sh)))%nat; [discriminate|].
      apply C18_decode_errs_iff.
  Qed.
End C17.

(** The distinctness hypothesis of C17 holds in a prime field with more elements
    than shares. *)
Section C17Zp.
  Variable p : Z.
  Hypothesis Hp : Znumtheory.prime p.
  Lemma fnat_zp n : zv p (@fnat (Zp p Hp) n) = (Z.of_nat n mod p)%Z.
  Proof.
    induction n as [|n IH]; [reflexivity|]. cbn [fnat]. cbn [fadd Zp zmk zv].
    rewrite IH. rewrite Nat2Z.inj_succ. unfold Z.succ. cbn [f1 Zp zmk zv].
    rewrite <- Zplus_mod. f_equal. lia.
  Qed.
  Theorem C17_prime_field_points (n : nat) : (Z.of_nat n < p)%Z ->
    forall i j, (1 <= i <= n)%nat -> (1 <= j <= n)%nat -> @fnat (Zp p Hp) i = fnat j -> i = j.
  Proof.
    intros Hn i j Hi Hj E. apply (f_equal (zv p)) in E. rewrite !fnat_zp in E.
    rewrite !Z.mod_small in E by lia. lia.
  Qed.
End C17Zp.

Definition show97 (r : outcome rs_error (list F97)) : option (list Z) :=
  match r with Ok l => Some (map (zv 97) l) | _ => None end.
Example C17_example :
  show97 (rs_decode (pick_shares F97 (rs_encode (map e97 [5; 11; 96]%Z) 4) [6; 2; 7; 1]%nat) 3)
  = Some [5; 11; 96]%Z.
Proof. vm_compute. reflexivity. Qed.
Example C17_hypotheses_met :
  (forall i j, 1 <= i <= 3 + 4 -> 1 <= j <= 3 + 4 -> @fnat F97 i = fnat j -> i = j)%nat.
Proof. apply (C17_prime_field_points 97 prime_97). reflexivity. Qed.
Example C18_example :
  (exists e, rs_decode [(e97 3, e97 1); (e97 4, e97 1); (e97 3, e97 1)] 3 = Err e) /\
  is_ok (rs_decode [(e97 3, e97 1); (e97 4, e97 1); (e97 3, e97 1)] 2) = true.
Proof. vm_compute. split; [eexists|]; reflexivity. Qed.

(** Without the hypothesis the claim fails: once the codeword is longer than the
    field, two distinct positions are the same point and decoding them errs. *)
Theorem C17_long_codeword_refuted :
  exists (data : list F17) (parity : nat) (idx : list nat),
    NoDup idx /\ length idx = length data /\
    (forall i, In i idx -> 1 <= i <= length data + parity)%nat /\
    rs_decode (pick_shares F17 (rs_encode data parity) idx) (length data) = Err (Duplicate 0 1).
Proof.
  exists [e17 3; e17 4], 17%nat, [1; 18]%nat.
  split; [repeat constructor; simpl; lia|]. split; [reflexivity|].
  split; [simpl; intros i [<-|[<-|[]]]; lia|]. vm_compute. reflexivity.
Qed.

(** * Bytes and field elements *)
Local Open Scope Z_scope.

(** The byte length available in one field element. *)
Definition field_bytes (P : pfield) (d : nat) : Z := (bit_size P - 1) / 8 * Z.of_nat d.

(** The codec's usable fields: a modulus of more than 64 bits whose top byte is the
    top byte of its 64-bit limbs, and any extension degree. *)
Definition codec_field (P : pfield) (d : nat) : Prop :=
  1 < modulus P /\ 64 < bit_size P /\ (64 * limbs P - bit_size P < 8) /\ (1 <= d)%nat.

Lemma codec_top P : 1 < modulus P -> 64 * limbs P - bit_size P < 8 -> 8 * limbs P - 1 = (bit_size P - 1) / 8.
Proof.
  intros H1 H2. pose proof (limbs_bounds P H1). apply Z.div_unique with (r := bit_size P - 1 - 8 * (8 * limbs P - 1)); lia.
Qed.
Lemma plen_fb P d : 64 < bit_size P -> Z.of_nat (plen P * d) = field_bytes P d.
Proof. intros. unfold field_bytes. rewrite <- (plen_Z P) by auto. lia. Qed.

(** Every byte string that fits the address space survives the round trip. *)
Theorem C19_round_trip (P : pfield) (d : nat) (bytes : list Z) :
  codec_field P d -> (forall b, In b bytes -> 0 <= b < 256) ->
  4 * field_bytes P d + Z.of_nat (length bytes) < 2 ^ 64 ->
  exists elems, bytes_to_field_elements P d bytes = Ok elems /\
    Forall (fun e => length e = d /\ Forall (fun c => 0 <= c < modulus P) e) elems /\
    bytes_from_field_elements P d elems = Ok bytes.
Proof.
  intros (H1 & H2 & H3 & H4) Hb Hl. pose proof (codec_top P H1 H3) as Ht.
  assert (Hbs : is_bytes bytes) by (apply Forall_forall; auto).
  pose proof (plen_ge P H2) as Hpl. pose proof (plen_fb P d H2) as Hfb.
  exists (encoded P d bytes). split; [|split].
  - apply encode_ok; auto. rewrite Hfb. unfold usize_lim. lia.
  - destruct bytes as [|b bs] eqn:E; [constructor|]. rewrite <- E in *.
    rewrite encoded_ne by congruence. constructor.
    + split; [simpl; rewrite repeat_length; lia|]. constructor.
      * split; [lia|]. pose proof (modulus_bounds P H1).
        assert (2 ^ 64 <= 2 ^ (bit_size P - 1)) by (apply Z.pow_le_mono_r; lia). lia.
      * apply Forall_forall. intros c Hc. apply repeat_spec in Hc. lia.
    + apply Forall_forall. intros e He. apply in_map_iff in He as (c & <- & Hc).
      destruct (chunks_fl_In P d H2 H4 _ _ Hc Hbs) as (Hc1 & Hc2 & Hc3).
      split; [apply length_elem; auto|]. unfold elem_of_bytes. apply Forall_app. split.
      * apply Forall_forall. intros x Hx. apply in_map_iff in Hx as (y & <- & _).
        apply Z.mod_pos_bound. lia.
      * apply Forall_forall. intros x Hx. apply repeat_spec in Hx. lia.
  - rewrite <- (app_nil_r (encoded P d bytes)). apply decode_encoded; auto.
    + rewrite Hfb. unfold usize_lim. lia.
    + rewrite app_nil_r, Hfb. unfold usize_lim.
      destruct bytes as [|b bs] eqn:E; [simpl; lia|]. rewrite <- E in *.
      rewrite encoded_ne by congruence. cbn [length]. rewrite map_length, chunks_pos_len by (nia || congruence).
      rewrite <- Hfb in *. 
      pose proof (Nat.mul_div_le (length bytes - 1) (plen P * d) ltac:(nia)). nia.
Qed.

(** Elements appended after the encoding (such as the zeros left by interpolation)
    do not change what is decoded. *)
Theorem C19_trailing_elements_ignored (P : pfield) (d : nat) (bytes : list Z) (elems extra : list (list Z)) :
  codec_field P d -> (forall b, In b bytes -> 0 <= b < 256) -> bytes <> [] ->
  field_bytes P d + Z.of_nat (length bytes) < 2 ^ 64 ->
  bytes_to_field_elements P d bytes = Ok elems ->
  Forall (fun e => length e = d) extra ->
  field_bytes P d * Z.of_nat (length (elems ++ extra)) < 2 ^ 64 ->
  bytes_from_field_elements P d (elems ++ extra) = Ok bytes.
Proof.
  intros (H1 & H2 & H3 & H4) Hb Hne Hl He Hex Hl2. pose proof (codec_top P H1 H3) as Ht.
  pose proof (plen_fb P d H2) as Hfb.
  assert (Hbs : is_bytes bytes) by (apply Forall_forall; auto).
  rewrite encode_ok in He by (auto; rewrite Hfb; unfold usize_lim; lia). injection He as <-.
  apply decode_encoded; auto; rewrite ?Hfb; unfold usize_lim; lia.
Qed.

(** Distinct byte strings have distinct encodings. *)
Theorem C19_injective (P : pfield) (d : nat) (b1 b2 : list Z) (es : list (list Z)) :
  codec_field P d -> (forall b, In b (b1 ++ b2) -> 0 <= b < 256) ->
  4 * field_bytes P d + Z.of_nat (length b1) < 2 ^ 64 ->
  4 * field_bytes P d + Z.of_nat (length b2) < 2 ^ 64 ->
  bytes_to_field_elements P d b1 = Ok es -> bytes_to_field_elements P d b2 = Ok es -> b1 = b2.
Proof.
  intros HP Hb H1 H2 E1 E2.
  destruct (C19_round_trip P d b1 HP) as (e1 & F1 & _ & G1); auto.
  { intros; apply Hb; apply in_or_app; auto. }
  destruct (C19_round_trip P d b2 HP) as (e2 & F2 & _ & G2); auto.
  { intros; apply Hb; apply in_or_app; auto. }
  congruence.
Qed.

(** Decoding any well-formed element list succeeds, with at most
    [field_bytes * (number of elements - 1)] bytes. *)
Theorem C19_decode_total (P : pfield) (d : nat) (elems : list (list Z)) :
  codec_field P d -> Forall (fun e => length e = d) elems ->
  field_bytes P d * (Z.of_nat (length elems) + 1) < 2 ^ 64 ->
  exists bytes, bytes_from_field_elements P d elems = Ok bytes /\
    Forall (fun b => 0 <= b < 256) bytes /\
    Z.of_nat (length bytes) <= field_bytes P d * Z.of_nat (length elems - 1).
Proof.
  intros (H1 & H2 & H3 & H4) Hes Hl. pose proof (codec_top P H1 H3) as Ht.
  pose proof (plen_fb P d H2) as Hfb. pose proof (plen_ge P H2) as Hpl.
  assert (Hc : compile_time_checks P d = Ok (plen P, d, (plen P * d)%nat)).
  { apply checks_ok; auto. rewrite <- Nat2Z.inj_mul, Hfb. unfold usize_lim. nia. }
  destruct elems as [|e es].
  { exists []. unfold bytes_from_field_elements. rewrite Hc. split; [reflexivity|].
    split; [constructor|simpl; lia]. }
  unfold bytes_from_field_elements. rewrite Hc. cbn [bind].
  inversion Hes as [|? ? He Hes']; subst. destruct e as [|c0 e]; [simpl in H4; lia|].
  unfold bigint_bytes at 1 2. rewrite length_le_bytes, limb_len by auto.
  destruct (Nat.ltb_spec (S (plen P)) 8); [lia|]. set (d := length (c0 :: e)) in *.
  destruct (Z.leb_spec usize_lim (Z.of_nat (plen P * d) * Z.of_nat (length es))) as [G|G].
  { rewrite Hfb in G. unfold usize_lim in G. cbn [length] in Hl. nia. }
  rewrite (map_res_total (coord_bytes P (plen P)) (le_bytes (plen P))) by (intro; apply coord_bytes_ok; auto).
  cbn [bind]. rewrite concat_map_concat.
  rewrite (length_concat_const (fun l => concat (map (le_bytes (plen P)) l)) (plen P * d) es).
  2: { intros e' He'. rewrite (length_concat_const (le_bytes (plen P)) (plen P)) by (auto using length_le_bytes).
       rewrite Forall_forall in Hes'. rewrite Hes' by auto. reflexivity. }
  rewrite Nat.eqb_refl. eexists. split; [reflexivity|]. split.
  - apply is_bytes_firstn. apply Forall_forall. intros b Hb. apply in_concat in Hb as (l & Hl' & Hb).
    apply in_map_iff in Hl' as (e' & <- & _). apply in_concat in Hb as (l & Hl' & Hb).
    apply in_map_iff in Hl' as (c & <- & _).
    pose proof (le_bytes_is_bytes (plen P) c) as Q. unfold is_bytes in Q. rewrite Forall_forall in Q. auto.
  - rewrite firstn_length, (length_concat_const (fun l => concat (map (le_bytes (plen P)) l)) (plen P * d) es).
    + cbn [length]. rewrite <- Hfb. replace (S (length es) - 1)%nat with (length es) by lia. nia.
    + intros e' He'. rewrite (length_concat_const (le_bytes (plen P)) (plen P)) by (auto using length_le_bytes).
      rewrite Forall_forall in Hes'. rewrite Hes' by auto. reflexivity.
Qed.

(** The BN254 base field modulus (254 bits, 4 limbs) qualifies ... *)
Definition bn254_q : pfield :=
  {| modulus := 21888242871839275222246405745257275088696311157297823662689037894645226208583 |}.
Example C19_bn254_qualifies : codec_field bn254_q 12.
Proof. unfold codec_field. repeat split; vm_compute; try reflexivity; try discriminate. repeat constructor. Qed.
Example C19_example :
  (let* es := bytes_to_field_elements bn254_q 2 (map Z.of_nat (seq 3 100)) in
   bytes_from_field_elements bn254_q 2 es) = Ok (map Z.of_nat (seq 3 100)).
Proof. vm_compute. reflexivity. Qed.

(** ... but any field wider than 64 bits whose limbs leave a whole unused byte does
    not: decoding panics on the encoding of every non-empty byte string, although
    the documentation allows every such field. *)
Theorem C19_spare_byte_refuted (P : pfield) (d : nat) (bytes : list Z) (es : list (list Z)) :
  1 < modulus P -> 64 < bit_size P -> 8 <= 64 * limbs P - bit_size P -> (1 <= d)%nat ->
  bytes <> [] -> bytes_to_field_elements P d bytes = Ok es ->
  bytes_from_field_elements P d es = Panic.
Proof.
  intros H1 H2 H3 H4 Hne He. pose proof (limbs_bounds P H1) as Hlb.
  unfold bytes_to_field_elements in He. unfold bytes_from_field_elements.
  destruct (compile_time_checks P d) as [[[pl d'] fl]| |] eqn:Hc; [|discriminate|discriminate].
  unfold compile_time_checks in Hc. destruct (bit_size P <=? 64); [discriminate|].
  destruct (usize_lim <=? (bit_size P - 1) / 8 * Z.of_nat d); [discriminate|].
  injection Hc as Hpl <- Hfl. cbn [bind] in *.
  destruct bytes as [|b bs] eqn:E; [congruence|]. rewrite <- E in *.
  destruct (usize_lim <=? Z.of_nat fl + Z.of_nat (length bytes)) eqn:Hu; [discriminate|].
  match type of He with (if ?c then _ else _) = _ => destruct c; [|discriminate] end.
  injection He as <-.
  match goal with |- context [(length ?x <? 8)%nat] => destruct (length x <? 8)%nat; [reflexivity|] end.
  match goal with |- (if ?c then _ else _) = _ => destruct c; [reflexivity|] end.
  assert (Hpl1 : (8 <= pl)%nat).
  { assert (64 / 8 <= (bit_size P - 1) / 8) by (apply Z.div_le_mono; lia). change (64 / 8) with 8 in *. lia. }
  assert (Hcb : forall c, coord_bytes P pl c = Panic).
  { intro c. unfold coord_bytes, bigint_bytes.
    destruct (le_bytes (Z.to_nat (8 * limbs P)) c) as [|x xs] eqn:El; [reflexivity|].
    assert (Hl : length (x :: xs) = Z.to_nat (8 * limbs P)) by (rewrite <- El; apply length_le_bytes).
    rewrite removelast_firstn_len, firstn_length, Hl.
    destruct (Nat.eqb_spec (Nat.min (pred (Z.to_nat (8 * limbs P))) (Z.to_nat (8 * limbs P))) pl) as [G|G]; [|reflexivity].
    exfalso. assert ((bit_size P - 1) / 8 < 8 * limbs P - 1).
    { apply Z.div_lt_upper_bound; lia. }
    lia. }
  rewrite chunks_cons; [|subst fl; nia|congruence]. cbn [map concat].
  unfold elem_of_bytes at 1.
  assert (Hch : exists c0 cs, chunks pl (firstn fl bytes) = c0 :: cs).
  { rewrite chunks_cons; [eauto|lia|]. intro G. apply (f_equal (@length Z)) in G. rewrite firstn_length in G.
    rewrite E in G. simpl in G. subst fl. nia. }
  destruct Hch as (c0 & cs & ->). cbn [map app map_res]. rewrite Hcb. reflexivity.
Qed.
(** For instance a 298-bit modulus, the size of the MNT4-298 and MNT6-298 fields. *)
Example C19_spare_byte_case :
  let P := {| modulus := 2 ^ 297 + 1 |} in
  bit_size P = 298 /\ 64 * limbs P - bit_size P = 22 /\
  (let* es := bytes_to_field_elements P 1 [1; 2; 3] in bytes_from_field_elements P 1 es) = Panic.
Proof. vm_compute. repeat split; reflexivity. Qed.

(** * Conversions between fields *)
(** A scalar of the smaller field keeps its integer value in the larger one, and
    comes back unchanged. *)
Theorem C20_scalar_round_trip (R Q : pfield) (x : Z) :
  1 < modulus R -> modulus R <= modulus Q -> 0 <= x < modulus R ->
  fr_to_fq R Q x = x /\ fq_to_fr Q R (fr_to_fq R Q x) = x.
Proof.
  intros H1 H2 Hx. assert (E : fr_to_fq R Q x = x).
  { unfold fr_to_fq, from_le_bytes_mod_order. rewrite bigint_val by auto. apply Z.mod_small. lia. }
  split; [auto|]. rewrite E. unfold fq_to_fr, from_le_bytes_mod_order.
  rewrite bigint_val by lia. apply Z.mod_small. lia.
Qed.
(** The other direction is reduction modulo the scalar field. *)
Theorem C20_base_to_scalar (Q R : pfield) (x : Z) :
  1 < modulus Q -> 0 <= x < modulus Q -> fq_to_fr Q R x = x mod modulus R.
Proof. intros H1 Hx. unfold fq_to_fr, from_le_bytes_mod_order. rewrite bigint_val by lia. reflexivity. Qed.

(** The masked conversion keeps the low [8 * floor(bits / 8)] bits without any
    modular reduction, if the target's bit length is not a multiple of 8; and it
    refuses a target that is not smaller. *)
Theorem C20_mask_exact (F T : pfield) (x : Z) :
  1 < modulus F -> 1 < modulus T -> 0 <= x < modulus F -> bit_size T mod 8 <> 0 ->
  fq_to_fr_with_mask F T x =
    if bit_size T <? bit_size F then Ok (x mod 2 ^ (8 * (bit_size T / 8))) else Panic.
Proof.
  intros H1 H2 Hx Hm. unfold fq_to_fr_with_mask. destruct (Z.ltb_spec (bit_size T) (bit_size F)) as [Hlt|]; [|reflexivity].
  cbn [negb]. rewrite Z.shiftr_div_pow2 by lia. change (2 ^ 3) with 8.
  pose proof (bit_size_pos T H2). pose proof (limbs_bounds F H1).
  pose proof (Z.mul_div_le (bit_size T) 8 ltac:(lia)).
  assert (0 <= bit_size T / 8) by (apply Z.div_pos; lia).
  unfold bigint_bytes. rewrite length_le_bytes.
  destruct (Nat.ltb_spec (Z.to_nat (8 * limbs F)) (Z.to_nat (bit_size T / 8))); [lia|].
  rewrite firstn_le_bytes by lia. unfold from_le_bytes_mod_order. rewrite le_val_bytes by lia.
  rewrite Z2Nat.id, pow256 by lia. f_equal. apply Z.mod_small.
  pose proof (Z.mod_pos_bound x (2 ^ (8 * (bit_size T / 8))) ltac:(apply Z.pow_pos_nonneg; lia)).
  pose proof (modulus_bounds T H2). pose proof (Z.div_mod (bit_size T) 8 ltac:(lia)).
  pose proof (Z.mod_pos_bound (bit_size T) 8 ltac:(lia)).
  assert (2 ^ (8 * (bit_size T / 8)) <= 2 ^ (bit_size T - 1)) by (apply Z.pow_le_mono_r; lia). lia.
Qed.
(** With a target of exactly 8n bits the masked value may exceed the modulus and is
    reduced after all. *)
Theorem C20_mask_multiple_of_8_refuted :
  exists (F T : pfield) (x : Z), 1 < modulus F /\ 1 < modulus T /\ 0 <= x < modulus F /\
    bit_size T < bit_size F /\
    fq_to_fr_with_mask F T x = Ok 0 /\ x mod 2 ^ (8 * (bit_size T / 8)) = modulus T.
Proof.
  exists {| modulus := 2 ^ 380 + 1 |}, {| modulus := 2 ^ 256 - 2 ^ 32 - 977 |}, (2 ^ 256 - 2 ^ 32 - 977).
  repeat split; vm_compute; try reflexivity; discriminate.
Qed.

(** [field_switching] returns the same integer or panics, and it panics exactly when
    the value does not fit, provided the source is not overwhelmingly wider. *)
Theorem C20_switching_exact (F T : pfield) (x : Z) :
  1 < modulus F -> 1 < modulus T -> Z.odd (modulus T) = true -> 0 <= x < modulus F ->
  modulus F <= modulus T * 2 ^ (64 * limbs T) ->
  field_switching F T x = if x <? modulus T then Ok x else Panic.
Proof.
  intros H1 H2 Hodd Hx Hw. unfold field_switching. unfold from_le_bytes_mod_order.
  rewrite (bigint_val F) by auto.
  pose proof (Z.mod_pos_bound x (modulus T) ltac:(lia)) as Ht.
  pose proof (elem_fits F x H1 Hx) as Ef. pose proof (elem_fits T _ H2 Ht) as Et.
  unfold bigint_bytes. rewrite !length_le_bytes, !firstn_le_bytes by lia.
  set (m := Nat.min (Z.to_nat (8 * limbs F)) (Z.to_nat (8 * limbs T))) in *.
  destruct (Z.ltb_spec x (modulus T)) as [Hlt|Hge].
  - rewrite !(Z.mod_small x) by lia. destruct (list_eq_dec Z.eq_dec _ _); [reflexivity|congruence].
  - destruct (list_eq_dec Z.eq_dec _ _) as [E|]; [|reflexivity]. exfalso.
    apply (f_equal le_val) in E. rewrite !le_val_bytes in E by lia.
    pose proof (Z.div_mod x (modulus T) ltac:(lia)) as Hdm.
    set (q := x / modulus T) in *. set (t := x mod modulus T) in *.
    assert (Hq : 1 <= q) by (unfold q; apply Z.div_le_lower_bound; lia).
    destruct (Nat.le_gt_cases (Z.to_nat (8 * limbs F)) (Z.to_nat (8 * limbs T))) as [Hle|Hgt].
    + assert (Em : m = Z.to_nat (8 * limbs F)) by lia. rewrite Em in E.
      rewrite !Z.mod_small in E by nia. nia.
    + assert (Em : m = Z.to_nat (8 * limbs T)) by lia. rewrite Em in E.
      rewrite (Z.mod_small t) in E by lia.
      assert (Hl : 0 <= limbs T).
      { pose proof (limbs_bounds T H2). pose proof (bit_size_pos T H2). lia. }
      rewrite Z2Nat.id, pow256 in E by lia. replace (8 * (8 * limbs T)) with (64 * limbs T) in E by lia.
      set (W := 2 ^ (64 * limbs T)) in *.
      assert (HW : 0 < W) by (apply Z.pow_pos_nonneg; lia).
      pose proof (Z.div_mod x W ltac:(lia)) as Hdw. rewrite <- E in Hdw.
      assert (Hk0 : 0 <= x / W) by (apply Z.div_pos; lia).
      set (k := x / W) in *. assert (Ek : W * k = modulus T * q) by lia.
      assert (Hk1 : k < modulus T) by nia.
      assert (Hdiv : (modulus T | W * k)) by (exists q; lia).
      apply Z.gauss in Hdiv.
      * destruct Hdiv as [c Hc]. assert (c = 0) by nia. nia.
      * apply Znumtheory.Zgcd_1_rel_prime. apply Znumtheory.rel_prime_sym.
        assert (G : forall n, 0 <= n -> Znumtheory.rel_prime (2 ^ n) (modulus T)).
        { intros n Hn. pattern n. apply natlike_ind; auto.
          - apply Znumtheory.rel_prime_1.
          - intros y Hy IH. rewrite Z.pow_succ_r by auto. apply Znumtheory.rel_prime_sym.
            apply Znumtheory.rel_prime_mult; apply Znumtheory.rel_prime_sym; auto.
            apply Znumtheory.prime_rel_prime; [apply Znumtheory.prime_2|].
            intros [c Hc]. rewrite Hc, Z.odd_mul in Hodd. simpl in Hodd. rewrite andb_false_r in Hodd. discriminate. }
        apply G. lia.
Qed.
(** From a much wider field it can silently reduce: a nonzero multiple of
    [modulus * 2^(64 limbs)] is sent to 0. *)
Theorem C20_switching_wide_refuted :
  exists (F T : pfield) (x : Z), 1 < modulus F /\ 1 < modulus T /\ Z.odd (modulus T) = true /\
    0 < x < modulus F /\ bit_size F = 761 /\ bit_size T = 254 /\ field_switching F T x = Ok 0.
Proof.
  exists {| modulus := 2 ^ 760 + 1 |}, bn254_q, (modulus bn254_q * 2 ^ 256).
  repeat split; vm_compute; reflexivity.
Qed.
Example C20_example :
  let J := {| modulus := 6554484396890773809930967563523245729705921265872317281365359162392183254199 |} in
  let B := {| modulus := 52435875175126190479447740508185965837690552500527637822603658699938581184513 |} in
  fr_to_fq J B (modulus J - 1) = modulus J - 1 /\
  fq_to_fr_with_mask B J (modulus B - 1) = Ok ((modulus B - 1) mod 2 ^ 248) /\
  field_switching J B 77 = Ok 77 /\ field_switching B J (modulus B - 1) = Panic.
Proof. vm_compute. repeat split; reflexivity. Qed.

(** * Padding helpers (C64) *)
(** Zero padding keeps the input as a prefix, adds fewer than [multiple] zeros, and
    reaches a multiple; it panics exactly for a multiple of zero. *)
Theorem C64_pad_with_zeros {A} (zero : A) (v : list A) (m : nat) :
  match pad_with_zeros zero v m with
  | Ok r => (m <> 0 /\ exists k, k < m /\ r = v ++ repeat zero k /\ Nat.divide m (length r))%nat
  | Err _ => False
  | Panic => m = 0%nat
  end.
Proof.
  unfold pad_with_zeros, compute_len_to_next_multiple. destruct (Nat.eqb_spec m 0) as [->|Hm]; [reflexivity|].
  cbn [bind]. split; [auto|]. pose proof (Nat.mod_upper_bound (length v) m Hm).
  destruct (Nat.eqb_spec (length v mod m) 0) as [E|E].
  - exists 0%nat. rewrite firstn_all, Nat.sub_diag. split; [lia|]. split; [reflexivity|].
    rewrite app_nil_r. apply Nat.mod_divide; auto.
  - exists (m - length v mod m)%nat. rewrite firstn_all2 by lia.
    replace (length v + m - length v mod m - length v)%nat with (m - length v mod m)%nat by lia.
    split; [lia|]. split; [reflexivity|]. rewrite app_length, repeat_length.
    pose proof (Nat.div_mod (length v) m Hm) as D. exists (length v / m + 1)%nat. nia.
Qed.
(** The Hadamard product is pointwise and refuses vectors of different lengths. *)
Theorem C64_hadamard {A B} (mul : B -> A -> B) (a : list A) (b : list B) :
  match hadamard_product mul a b with
  | Ok r => length a = length b /\ length r = length a /\
      forall i x y, nth_error a i = Some x -> nth_error b i = Some y -> nth_error r i = Some (mul y x)
  | Err _ => length a <> length b
  | Panic => False
  end.
Proof.
  unfold hadamard_product. destruct (Nat.eqb_spec (length a) (length b)) as [E|E]; [|exact E].
  split; [auto|]. split; [rewrite map_length, combine_length; lia|].
  revert b E. induction a as [|x a IH]; intros [|y b] E i u v Hu Hv; try (simpl in E; lia);
    destruct i; simpl in *; try discriminate.
  - congruence.
  - eapply IH; eauto.
Qed.
Example C64_example : pad_with_zeros 0%nat [1; 2; 3; 4]%nat 3 = Ok [1; 2; 3; 4; 0; 0]%nat.
Proof. reflexivity. Qed.

Print Assumptions C17_decode_inverts_encode.
Print Assumptions C17_codeword.
Print Assumptions C17_decode_interpolates.
Print Assumptions C17_decode_domain.
Print Assumptions C17_prime_field_points.
Print Assumptions C18_decode_errs_iff.
Print Assumptions C18_domain_refusals.
Print Assumptions C19_round_trip.
Print Assumptions C19_trailing_elements_ignored.
Print Assumptions C19_injective.
Print Assumptions C19_decode_total.
Print Assumptions C19_spare_byte_refuted.
Print Assumptions C20_scalar_round_trip.
Print Assumptions C20_base_to_scalar.
Print Assumptions C20_mask_exact.
Print Assumptions C20_switching_exact.
Print Assumptions C20_switching_wide_refuted.
Print Assumptions C64_pad_with_zeros.
Print Assumptions C64_hadamard.
