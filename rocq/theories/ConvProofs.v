(** Lemmas about the byte codec and the field conversions. *)
From Coq Require Import List Arith ZArith Lia Bool.
From Verif Require Import Base ListAux ConvModel.
Import ListNotations.
Local Open Scope Z_scope.

Definition is_bytes (bs : list Z) : Prop := Forall (fun b => 0 <= b < 256) bs.

Lemma is_bytes_firstn n bs : is_bytes bs -> is_bytes (firstn n bs).
Proof. intro H. unfold is_bytes in *. rewrite <- (firstn_skipn n bs) in H. apply Forall_app in H. tauto. Qed.
Lemma is_bytes_skipn n bs : is_bytes bs -> is_bytes (skipn n bs).
Proof. intro H. unfold is_bytes in *. rewrite <- (firstn_skipn n bs) in H. apply Forall_app in H. tauto. Qed.

Lemma length_le_bytes n : forall v, length (le_bytes n v) = n.
Proof. induction n; intro v; simpl; auto. Qed.
Lemma le_bytes_is_bytes n : forall v, is_bytes (le_bytes n v).
Proof.
  induction n; intro v; simpl; constructor; [apply Z.mod_pos_bound; lia|apply IHn].
Qed.
Lemma le_bytes_0 n : le_bytes n 0 = repeat 0 n.
Proof. induction n; simpl; [auto|]. change (0 / 256) with 0. rewrite IHn. reflexivity. Qed.
Lemma le_val_bound bs : is_bytes bs -> 0 <= le_val bs < 256 ^ Z.of_nat (length bs).
Proof.
  induction 1 as [|b bs Hb _ IH]; [simpl; lia|].
  cbn [le_val length]. rewrite Nat2Z.inj_succ, Z.pow_succ_r by lia. lia.
Qed.
Lemma le_val_bytes n : forall v, 0 <= v -> le_val (le_bytes n v) = v mod 256 ^ Z.of_nat n.
Proof.
  induction n as [|n IH]; intros v Hv; cbn [le_bytes le_val].
  - rewrite Z.mod_1_r. reflexivity.
  - rewrite IH by (apply Z.div_pos; lia). rewrite Nat2Z.inj_succ, Z.pow_succ_r by lia.
    rewrite (Z.rem_mul_r v 256) by (try lia; apply Z.pow_pos_nonneg; lia). lia.
Qed.
Lemma le_val_bytes_small n v : 0 <= v < 256 ^ Z.of_nat n -> le_val (le_bytes n v) = v.
Proof. intro H. rewrite le_val_bytes by lia. apply Z.mod_small. auto. Qed.
Lemma le_bytes_val bs : forall n, is_bytes bs -> (length bs <= n)%nat ->
  le_bytes n (le_val bs) = bs ++ repeat 0 (n - length bs).
Proof.
  induction bs as [|b bs IH]; intros n Hb Hn; cbn [le_val length].
  - rewrite le_bytes_0, Nat.sub_0_r. reflexivity.
  - inversion Hb as [|? ? H1 H2]; subst. destruct n as [|n]; [simpl in Hn; lia|]. cbn [le_bytes app].
    replace ((b + 256 * le_val bs) mod 256) with b.
    2: { rewrite Z.mul_comm, Z_mod_plus_full, Z.mod_small by lia. reflexivity. }
    replace ((b + 256 * le_val bs) / 256) with (le_val bs).
    2: { rewrite Z.mul_comm, Z.div_add, Z.div_small by lia. reflexivity. }
    rewrite IH by (auto; simpl in Hn; lia). reflexivity.
Qed.
Lemma firstn_le_bytes k : forall n v, (k <= n)%nat -> firstn k (le_bytes n v) = le_bytes k v.
Proof.
  induction k as [|k IH]; intros n v Hk; [reflexivity|]. destruct n; [lia|].
  cbn [le_bytes firstn]. rewrite IH by lia. reflexivity.
Qed.
Lemma le_bytes_inj n v w : 0 <= v < 256 ^ Z.of_nat n -> 0 <= w < 256 ^ Z.of_nat n ->
  le_bytes n v = le_bytes n w -> v = w.
Proof. intros Hv Hw H. rewrite <- (le_val_bytes_small n v), <- (le_val_bytes_small n w), H; auto. Qed.

(** ** The sizes of a prime field *)
Lemma modulus_bounds P : 1 < modulus P -> 2 ^ (bit_size P - 1) <= modulus P < 2 ^ bit_size P.
Proof.
  intro H. unfold bit_size. replace (Z.log2 (modulus P) + 1 - 1) with (Z.log2 (modulus P)) by lia.
  pose proof (Z.log2_spec (modulus P) ltac:(lia)). unfold Z.succ in *. lia.
Qed.
Lemma bit_size_pos P : 1 < modulus P -> 2 <= bit_size P.
Proof. intro H. unfold bit_size. pose proof (Z.log2_pos (modulus P) H). lia. Qed.
Lemma limbs_bounds P : 1 < modulus P -> bit_size P <= 64 * limbs P < bit_size P + 64.
Proof.
  intro H. unfold limbs. pose proof (Z.div_mod (bit_size P + 63) 64 ltac:(lia)).
  pose proof (Z.mod_pos_bound (bit_size P + 63) 64 ltac:(lia)). lia.
Qed.
Lemma pow256 n : 0 <= n -> 256 ^ n = 2 ^ (8 * n).
Proof. intro. change 256 with (2 ^ 8). rewrite <- Z.pow_mul_r by lia. reflexivity. Qed.
Lemma elem_fits P v : 1 < modulus P -> 0 <= v < modulus P ->
  0 <= v < 256 ^ Z.of_nat (Z.to_nat (8 * limbs P)).
Proof.
  intros H Hv. pose proof (limbs_bounds P H). pose proof (bit_size_pos P H).
  pose proof (modulus_bounds P H). split; [lia|].
  rewrite Z2Nat.id, pow256 by lia.
  assert (2 ^ bit_size P <= 2 ^ (8 * (8 * limbs P))) by (apply Z.pow_le_mono_r; lia). lia.
Qed.
Lemma bigint_val P v : 1 < modulus P -> 0 <= v < modulus P -> le_val (bigint_bytes P v) = v.
Proof. intros. unfold bigint_bytes. apply le_val_bytes_small. apply elem_fits; auto. Qed.

(** ** The codec *)
Definition padto (n : nat) (c : list Z) : list Z := c ++ repeat 0 (n - length c).

Lemma chunks_pos_len {A} n (l : list A) : (1 <= n)%nat -> l <> [] ->
  length (chunks n l) = S ((length l - 1) / n).
Proof.
  intros Hn. remember (length l) as m eqn:Hm. revert l Hm.
  induction m as [m IH] using lt_wf_ind. intros l Hm Hl.
  rewrite chunks_cons by auto. cbn [length]. f_equal.
  destruct (Nat.le_gt_cases m n) as [Hc|Hc].
  - rewrite skipn_all2 by lia. rewrite chunks_nil. cbn [length].
    rewrite Nat.div_small; [reflexivity|]. destruct l; [congruence|simpl in *; lia].
  - rewrite (IH (m - n)%nat); [|lia|rewrite skipn_length; lia|].
    2: { intro E. apply (f_equal (@length A)) in E. rewrite skipn_length in E. simpl in E. lia. }
    replace (m - 1)%nat with ((m - n - 1) + 1 * n)%nat by lia. rewrite Nat.div_add by lia. lia.
Qed.
Lemma chunks_In {A} n (l c : list A) : (1 <= n)%nat -> In c (chunks n l) ->
  c <> [] /\ (length c <= n)%nat /\ (forall x, In x c -> In x l).
Proof.
  intros Hn. remember (length l) as m eqn:Hm. revert l Hm.
  induction m as [m IH] using lt_wf_ind. intros l Hm Hc.
  destruct l as [|a l]; [rewrite chunks_nil in Hc; destruct Hc|].
  rewrite chunks_cons in Hc by (auto; congruence). destruct Hc as [<-|Hc].
  - split; [destruct n; [lia|simpl; congruence]|]. split; [rewrite firstn_length; lia|].
    intros x Hx. rewrite <- (firstn_skipn n (a :: l)). apply in_or_app; auto.
  - destruct (IH (length (skipn n (a :: l)))) with (l := skipn n (a :: l)) as (H1 & H2 & H3); auto.
    { rewrite skipn_length. cbn [length] in *. lia. }
    split; [auto|split; [auto|]]. intros x Hx. rewrite <- (firstn_skipn n (a :: l)).
    apply in_or_app; auto.
Qed.
Lemma concat_pad_chunks n (l : list Z) : (1 <= n)%nat ->
  exists k, concat (map (padto n) (chunks n l)) = l ++ repeat 0 k.
Proof.
  intros Hn. remember (length l) as m eqn:Hm. revert l Hm.
  induction m as [m IH] using lt_wf_ind. intros l Hm.
  destruct l as [|a l]; [exists 0%nat; rewrite chunks_nil; reflexivity|].
  rewrite chunks_cons by (auto; congruence). cbn [map concat].
  destruct (Nat.le_gt_cases m n) as [Hc|Hc].
  - rewrite skipn_all2, firstn_all2 by lia. rewrite chunks_nil. cbn [map concat].
    rewrite app_nil_r. unfold padto. eauto.
  - destruct (IH (length (skipn n (a :: l)))) with (l := skipn n (a :: l)) as (k & Hk); auto.
    { rewrite skipn_length. lia. }
    exists k. rewrite Hk. unfold padto.
    replace (n - length (firstn n (a :: l)))%nat with 0%nat by (rewrite firstn_length; lia).
    cbn [repeat]. rewrite app_nil_r, app_assoc, firstn_skipn. reflexivity.
Qed.
Lemma length_padto n c : (length c <= n)%nat -> length (padto n c) = n.
Proof. intro H. unfold padto. rewrite app_length, repeat_length. lia. Qed.
Lemma length_concat_const {A B} (f : A -> list B) n l :
  (forall a, In a l -> length (f a) = n) -> length (concat (map f l)) = (n * length l)%nat.
Proof.
  induction l as [|a l IH]; intro H; simpl; [lia|]. rewrite app_length, H by (simpl; auto).
  rewrite IH by (intros; apply H; simpl; auto). lia.
Qed.

Section Codec.
  Variable P : pfield.
  Variable d : nat.
  Hypothesis Hm : 1 < modulus P.
  Hypothesis Hb : 64 < bit_size P.
  (** The top byte of the modulus is the top byte of its limbs. *)
  Hypothesis Htop : 8 * limbs P - 1 = (bit_size P - 1) / 8.
  Hypothesis Hd : (1 <= d)%nat.

  Definition plen : nat := Z.to_nat ((bit_size P - 1) / 8).
  Lemma plen_Z : Z.of_nat plen = (bit_size P - 1) / 8.
  Proof. clear Hd Htop. unfold plen. rewrite Z2Nat.id; [reflexivity|]. apply Z.div_pos; lia. Qed.
  Lemma plen_ge : (8 <= plen)%nat.
  Proof.
    clear Hd Htop. pose proof plen_Z. assert (64 / 8 <= (bit_size P - 1) / 8) by (apply Z.div_le_mono; lia).
    change (64 / 8) with 8 in *. lia.
  Qed.
  Lemma limb_len : Z.to_nat (8 * limbs P) = S plen.
  Proof. clear Hd. pose proof plen_Z. pose proof plen_ge. lia. Qed.

  Lemma coord_bytes_ok c : coord_bytes P plen c = Ok (le_bytes plen c).
  Proof.
    clear Hd. unfold coord_bytes, bigint_bytes. rewrite limb_len.
    destruct (le_bytes (S plen) c) as [|b bs] eqn:E; [simpl in E; discriminate|].
    rewrite removelast_firstn_len, <- E, length_le_bytes. cbn [pred].
    rewrite firstn_le_bytes, length_le_bytes, Nat.eqb_refl by lia. reflexivity.
  Qed.

  Lemma chunk_val_small c : is_bytes c -> (length c <= plen)%nat -> le_val c < modulus P.
  Proof.
    clear Htop Hd. intros Hc Hl. pose proof (le_val_bound c Hc). pose proof (modulus_bounds P Hm).
    assert (256 ^ Z.of_nat (length c) <= 2 ^ (bit_size P - 1)); [|lia].
    rewrite pow256 by lia. apply Z.pow_le_mono_r; [lia|]. pose proof plen_Z.
    assert (8 * ((bit_size P - 1) / 8) <= bit_size P - 1) by (apply Z.mul_div_le; lia). lia.
  Qed.
  Lemma coord_chunk c : is_bytes c -> (length c <= plen)%nat ->
    le_bytes plen (from_le_bytes_mod_order P c) = padto plen c.
  Proof.
    clear Hd Htop. intros Hc Hl. unfold from_le_bytes_mod_order.
    pose proof (le_val_bound c Hc). pose proof (chunk_val_small c Hc Hl).
    rewrite Z.mod_small by lia. apply le_bytes_val; auto.
  Qed.

  Lemma length_elem c : c <> [] -> (length c <= plen * d)%nat -> length (elem_of_bytes P d plen c) = d.
  Proof.
    clear Htop Hm. intros Hc Hl. pose proof plen_ge. unfold elem_of_bytes.
    rewrite app_length, map_length, repeat_length, chunks_pos_len by (auto; lia).
    assert ((length c - 1) / plen < d)%nat; [|lia].
    apply Nat.div_lt_upper_bound; [lia|]. destruct c; [congruence|simpl in *; lia].
  Qed.
  Lemma is_bytes_In l c : is_bytes l -> (forall x, In x c -> In x l) -> is_bytes c.
  Proof. unfold is_bytes. rewrite !Forall_forall. auto. Qed.

  Lemma concat_elem c : is_bytes c -> c <> [] -> (length c <= plen * d)%nat ->
    concat (map (le_bytes plen) (elem_of_bytes P d plen c)) = padto (plen * d) c.
  Proof.
    intros Hc Hne Hl. pose proof plen_ge.
    assert (Hlen : length (concat (map (le_bytes plen) (elem_of_bytes P d plen c))) = (plen * d)%nat).
    { rewrite (length_concat_const (le_bytes plen) plen), length_elem by (auto using length_le_bytes). reflexivity. }
    assert (exists k, concat (map (le_bytes plen) (elem_of_bytes P d plen c)) = c ++ repeat 0 k) as [k Hk].
    { unfold elem_of_bytes. rewrite map_app, concat_app, map_map.
      rewrite (map_ext_in _ (padto plen)).
      2: { intros x Hx. apply chunks_In in Hx as (H1 & H2 & H3); [|lia].
           apply coord_chunk; [eapply is_bytes_In; eauto|auto]. }
      destruct (concat_pad_chunks plen c ltac:(lia)) as [k ->].
      assert (Hz : forall m, exists j, concat (map (le_bytes plen) (repeat 0 m)) = repeat 0 j).
      { induction m as [|m [j IH]]; [exists 0%nat; reflexivity|]. cbn [repeat map concat].
        rewrite IH, le_bytes_0, <- repeat_app. eauto. }
      destruct (Hz (d - (length c - 1) / plen - 1)%nat) as [j ->].
      rewrite <- app_assoc, <- repeat_app. eauto. }
    rewrite Hk in *. unfold padto. rewrite app_length, repeat_length in Hlen. repeat f_equal. lia.
  Qed.

  Lemma map_res_total {X A B} (f : A -> outcome X B) (g : A -> B) l :
    (forall a, f a = Ok (g a)) -> map_res f l = Ok (map g l).
  Proof.
    intro H. induction l as [|a l IH]; [reflexivity|]. cbn [map_res map].
    rewrite H. cbn [bind]. rewrite IH. reflexivity.
  Qed.

  Lemma checks_ok : Z.of_nat plen * Z.of_nat d < usize_lim ->
    compile_time_checks P d = Ok (plen, d, (plen * d)%nat).
  Proof.
    intro H. unfold compile_time_checks.
    destruct (Z.leb_spec (bit_size P) 64); [lia|]. rewrite plen_Z in H.
    destruct (Z.leb_spec usize_lim ((bit_size P - 1) / 8 * Z.of_nat d)); [lia|]. reflexivity.
  Qed.

  Definition encoded (bytes : list Z) : list (list Z) :=
    match bytes with
    | [] => []
    | _ => (Z.of_nat (length bytes) :: repeat 0 (d - 1))
             :: map (elem_of_bytes P d plen) (chunks (plen * d) bytes)
    end.

  Lemma encoded_ne bytes : bytes <> [] -> encoded bytes =
    (Z.of_nat (length bytes) :: repeat 0 (d - 1)) :: map (elem_of_bytes P d plen) (chunks (plen * d) bytes).
  Proof. destruct bytes; [congruence|reflexivity]. Qed.

  Lemma encode_ok bytes : Z.of_nat (plen * d) + Z.of_nat (length bytes) < usize_lim ->
    bytes_to_field_elements P d bytes = Ok (encoded bytes).
  Proof.
    intro H. pose proof plen_ge. unfold bytes_to_field_elements. rewrite checks_ok by lia. cbn [bind].
    destruct bytes as [|b bs] eqn:E; [reflexivity|]. rewrite <- E in *.
    destruct (Z.leb_spec usize_lim (Z.of_nat (plen * d) + Z.of_nat (length bytes))); [lia|].
    cbn [length]. rewrite map_length, chunks_pos_len; [|nia|congruence].
    replace ((plen * d + length bytes - 1) / (plen * d) + 1)%nat
      with (S (S ((length bytes - 1) / (plen * d)))).
    2: { replace (plen * d + length bytes - 1)%nat with ((length bytes - 1) + 1 * (plen * d))%nat.
         - rewrite Nat.div_add by nia. lia.
         - rewrite E. simpl. lia. }
    rewrite Nat.eqb_refl, encoded_ne by congruence.
    f_equal. f_equal. f_equal. unfold usize_lim in *.
    replace (Z.of_nat (length bytes) mod 2 ^ 64) with (Z.of_nat (length bytes)) by (symmetry; apply Z.mod_small; lia).
    rewrite Z.mod_small; [reflexivity|]. pose proof (modulus_bounds P Hm).
    assert (2 ^ 64 <= 2 ^ (bit_size P - 1)) by (apply Z.pow_le_mono_r; lia). lia.
  Qed.

  Lemma chunks_fl_In bytes c : In c (chunks (plen * d) bytes) -> is_bytes bytes ->
    is_bytes c /\ c <> [] /\ (length c <= plen * d)%nat.
  Proof.
    clear Htop Hm. intros Hc Hbs. pose proof plen_ge. apply chunks_In in Hc as (H1 & H2 & H3); [|nia].
    split; [eapply is_bytes_In; eauto|auto].
  Qed.

  Lemma concat_map_concat {A B} (f : A -> list B) (ls : list (list A)) :
    concat (map f (concat ls)) = concat (map (fun l => concat (map f l)) ls).
  Proof. induction ls as [|l ls IH]; [reflexivity|]. simpl. rewrite map_app, concat_app, IH. reflexivity. Qed.

  (** Decoding the encoding, possibly followed by more elements. *)
  Lemma decode_encoded bytes extra : is_bytes bytes ->
    Forall (fun e => length e = d) extra ->
    bytes <> [] \/ extra = [] ->
    Z.of_nat (plen * d) + Z.of_nat (length bytes) < usize_lim ->
    Z.of_nat (plen * d) * Z.of_nat (length (encoded bytes ++ extra)) < usize_lim ->
    bytes_from_field_elements P d (encoded bytes ++ extra) = Ok bytes.
  Proof.
    intros Hbs Hex Hne Hlim Hlim2. pose proof plen_ge as Hpl.
    unfold bytes_from_field_elements. rewrite checks_ok by lia. cbn [bind].
    destruct bytes as [|b bs] eqn:E.
    { destruct Hne as [Hne| ->]; [congruence|]. reflexivity. }
    rewrite <- E in *. assert (Hnb : bytes <> []) by congruence. clear E b bs.
    rewrite encoded_ne in * by auto. cbn [app] in *.
    assert (Hlenb : 0 <= Z.of_nat (length bytes) < modulus P).
    { pose proof (modulus_bounds P Hm). unfold usize_lim in *.
      assert (2 ^ 64 <= 2 ^ (bit_size P - 1)) by (apply Z.pow_le_mono_r; lia). lia. }
    unfold bigint_bytes at 1 2. rewrite length_le_bytes, limb_len.
    destruct (Nat.ltb_spec (S plen) 8); [lia|].
    rewrite firstn_le_bytes by lia.
    rewrite (le_val_bytes_small 8) by (change (256 ^ Z.of_nat 8) with usize_lim; lia).
    set (es := map (elem_of_bytes P d plen) (chunks (plen * d) bytes) ++ extra) in *.
    destruct (Z.leb_spec usize_lim (Z.of_nat (plen * d) * Z.of_nat (length es))).
    { cbn [length] in Hlim2. rewrite Nat2Z.inj_succ in Hlim2. nia. }
    rewrite (map_res_total (coord_bytes P plen) (le_bytes plen)) by apply coord_bytes_ok.
    cbn [bind]. rewrite concat_map_concat.
    assert (Hes : forall e, In e es -> length e = d).
    { intros e He. unfold es in He. apply in_app_or in He as [He|He].
      - apply in_map_iff in He as (c & <- & Hc). destruct (chunks_fl_In _ _ Hc Hbs) as (? & ? & ?).
        apply length_elem; auto.
      - rewrite Forall_forall in Hex. auto. }
    rewrite (length_concat_const (fun l => concat (map (le_bytes plen) l)) (plen * d) es).
    2: { intros e He. rewrite (length_concat_const (le_bytes plen) plen) by (auto using length_le_bytes).
         rewrite Hes by auto. reflexivity. }
    rewrite Nat.eqb_refl. f_equal.
    assert (exists r, concat (map (fun l => concat (map (le_bytes plen) l)) es) = bytes ++ r) as [r Hr].
    { unfold es. rewrite map_app, concat_app, map_map.
      rewrite (map_ext_in _ (padto (plen * d))).
      2: { intros c Hc. destruct (chunks_fl_In _ _ Hc Hbs) as (? & ? & ?). apply concat_elem; auto. }
      destruct (concat_pad_chunks (plen * d) bytes ltac:(nia)) as [k ->].
      rewrite <- app_assoc. eauto. }
    assert (Hcap : (length bytes <= plen * d * length es)%nat).
    { unfold es. rewrite app_length, map_length, chunks_pos_len by (try nia; congruence).
      pose proof (Nat.mul_succ_div_gt (length bytes - 1) (plen * d) ltac:(nia)). nia. }
    rewrite Z.min_l by lia. rewrite Nat2Z.id, Hr.
    rewrite firstn_app, Nat.sub_diag, firstn_all. cbn [firstn]. apply app_nil_r.
  Qed.
End Codec.
