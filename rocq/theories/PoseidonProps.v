(** Properties C41 and C67 (Poseidon2) about the model of PoseidonModel.v. *)

From Coq Require Import List Arith NArith ZArith Lia Ring Field Znumtheory Bool.
From Verif Require Import Base ListAux Alg ConvModel RescueModel FiniteField RescueProofs RescueConst
  PoseidonModel PoseidonProofs.
Import ListNotations.
Local Open Scope fld_scope.


(** The documented matrices.  External layer: [2 1; 1 2], circ(2,1,1), and for
    size 4k the block matrix with 2 M on the diagonal and M elsewhere, M being
    [2 3 1 1; 1 2 3 1; 1 1 2 3; 3 1 1 2]. *)
Definition m4_rows : list (list nat) := ([[2; 3; 1; 1]; [1; 2; 3; 1]; [1; 1; 2; 3]; [3; 1; 1; 2]])%nat.
Definition ext_entry (T i j : nat) : nat :=
  (if T <? 4 then (if i =? j then 2 else 1)
   else (if i / 4 =? j / 4 then 2 else 1) * nth (j mod 4) (nth (i mod 4) m4_rows []) 0)%nat.
(** Internal layer: ones off the diagonal, [1 + v_i] on it; [v] is (1,2) and
    (1,1,2) at sizes 2 and 3. *)
Definition int_diag {K : fld} (T : nat) (diag : list K) : list K :=
  if (T =? 2)%nat then [1; 1 + 1] else if (T =? 3)%nat then [1; 1; 1 + 1] else diag.
Definition mat_apply {K : fld} (T : nat) (entry : nat -> nat -> K) (st : list K) (i : nat) : K :=
  fsum (map (fun j => entry i j * nth j st 0) (seq 0 T)).

Section Props.
  Variable K : fld.
  Add Field Kpps : (fth K).

  (** ** C41 *)

  (** With a valid parameter set every block has exactly one preimage; an invalid
      set makes the call panic.  The conditions: the S-box exponent is invertible
      modulo [q - 1], the characteristic exceeds the layer determinants' factors,
      and, at sizes that use it, the internal matrix is nonsingular. *)
  Theorem C41_permutation_bijection (P : p2_params K) q e :
    has_card K q -> big_char K -> ((p2_d P * e) mod N.of_nat (q - 1) = 1)%N ->
    (forall rc, In rc (p2_ext_rc P) -> length rc = p2_t P) ->
    diag_ok K (p2_t P) (p2_diag P) ->
    if sanity_check P
    then forall y, length y = p2_t P -> exists! x, length x = p2_t P /\ permute P x = Ok y
    else forall x, permute P x = Panic.
  Proof.
    intros Hq Hc He Hrc Hd. destruct (sanity_check P) eqn:Hs.
    - intros y Hy. destruct (permute_bij K P q e Hs Hq Hc He Hrc Hd) as (f & (F1 & g & G) & E).
      destruct (G y Hy) as (G0 & G1 & G2). exists (g y). split.
      + split; [auto|]. rewrite E by auto. f_equal. auto.
      + intros x [Hx Ex]. rewrite E in Ex by auto. injection Ex as <-.
        apply (G x Hx).
    - intro x. unfold permute. rewrite Hs. reflexivity.
  Qed.

  Lemma fsum_split_if n b (f : nat -> K) : forall s, (s <= b < s + n)%nat ->
    fsum (map (fun i => (if (b =? i)%nat then 1 + 1 else 1) * f i) (seq s n)) =
    f b + fsum (map f (seq s n)).
  Proof.
    induction n as [|n IH]; intros s Hb; [lia|]. cbn [seq map]. rewrite !fsum_cons.
    destruct (Nat.eqb_spec b s) as [->|Hne].
    - assert (E : map (fun i => (if (s =? i)%nat then 1 + 1 else 1) * f i) (seq (S s) n) = map f (seq (S s) n)).
      { apply map_ext_in. intros i Hi. apply in_seq in Hi. destruct (Nat.eqb_spec s i); [lia|]. ring. }
      rewrite E. ring.
    - rewrite (IH (S s)) by lia. ring.
  Qed.

  Theorem C41_external_matrix (st : list K) : In (length st) sizes ->
    exists out, matmul_external st = Ok out /\ length out = length st /\
      forall i, (i < length st)%nat ->
        nth i out 0 = mat_apply (length st) (fun i j => fnat (ext_entry (length st) i j)) st i.
  Proof.
    intro HT.
    destruct (Nat.eq_dec (length st) 2) as [H2|H2]; [|destruct (Nat.eq_dec (length st) 3) as [H3|H3]].
    - destruct st as [|a [|b [|c st]]]; try discriminate H2. eexists. split; [reflexivity|]. split; [reflexivity|].
      intros i Hi. cbn [length] in Hi. do 2 (destruct i as [|i]; [cbn; ring|]). lia.
    - destruct st as [|a [|b [|c [|d st]]]]; try discriminate H3. eexists. split; [reflexivity|]. split; [reflexivity|].
      intros i Hi. cbn [length] in Hi. do 3 (destruct i as [|i]; [cbn; ring|]). lia.
    - assert (Hb : big_size (length st)).
      { unfold sizes in HT. cbn [In] in HT. unfold big_size. cbn [In]. intuition congruence. }
      destruct (big_size_mul _ Hb) as (k & Hk & HTk). destruct (flat_quads K k st HTk) as [F1 F2].
      set (qs := quads K st) in *. clearbody qs. subst st. rewrite length_flat in *.
      assert (Lq : length qs = k) by lia.
      exists (flat K (ext_quads K qs)).
      split; [apply matmul_external_big; rewrite length_flat; exact Hb|].
      split; [rewrite length_flat; unfold ext_quads; rewrite !map_length; reflexivity|].
      intros i Hi.
      set (b := (i / 4)%nat). set (c := (i mod 4)%nat).
      assert (Hc : (c < 4)%nat) by (apply Nat.mod_upper_bound; lia).
      assert (Ei : i = (4 * b + c)%nat) by (apply Nat.div_mod; lia).
      assert (Hbk : (b < k)%nat) by lia.
      rewrite Ei at 1. rewrite nth_flat by auto.
      (* left: the c-th entry of (M q_b) + sum of M q *)
      unfold ext_quads. set (qs1 := map (mul_vec (p2_m4 K)) qs).
      assert (Lq1 : length qs1 = k) by (unfold qs1; rewrite map_length; auto).
      assert (EL : nth c (v4_elems (nth b (map (fun q => v4_add q (vsum4 K qs1)) qs1) v4_zero)) 0 =
                   nth c (v4_elems (nth b qs1 v4_zero)) 0 + nth c (v4_elems (vsum4 K qs1)) 0).
      { rewrite (nth_indep _ v4_zero (v4_add v4_zero (vsum4 K qs1))) by (rewrite map_length, Lq1; auto).
        rewrite (map_nth (fun q => v4_add q (vsum4 K qs1)) qs1 v4_zero).
        do 4 (destruct c as [|c]; [reflexivity|]). lia. }
      rewrite EL. clear EL.
      (* right: split the row by quadruples *)
      unfold mat_apply.
      assert (ER : fsum (map (fun j => fnat (ext_entry (4 * length qs) i j) * nth j (flat K qs) 0) (seq 0 (4 * length qs))) =
        fsum (map (fun j => (if (b =? j)%nat then 1 + 1 else 1) * nth c (v4_elems (nth j qs1 v4_zero)) 0) (seq 0 k))).
      { rewrite Lq. rewrite fsum_quads. f_equal. apply map_ext_in. intros j Hj. apply in_seq in Hj.
        assert (Ej : nth j qs1 v4_zero = mul_vec (p2_m4 K) (nth j qs v4_zero)).
        { unfold qs1. rewrite (nth_indep _ v4_zero (mul_vec (p2_m4 K) v4_zero)) by (rewrite map_length; lia).
          apply map_nth. }
        rewrite Ej. rewrite <- (Nat.add_0_r (4 * j)) at 1 2. rewrite !nth_flat by lia.
        assert (EE : forall t, (t < 4)%nat -> ext_entry (4 * k) i (4 * j + t) =
          ((if (b =? j)%nat then 2 else 1) * nth t (nth c m4_rows []) 0)%nat).
        { intros t Ht. unfold ext_entry. destruct (Nat.ltb_spec (4 * k) 4); [lia|]. fold b c.
          replace (4 * j + t)%nat with (t + j * 4)%nat by lia. rewrite Nat.div_add, Nat.mod_add by lia.
          rewrite Nat.div_small, Nat.mod_small by lia. reflexivity. }
        rewrite !EE by lia. rewrite !fnat_mul.
        replace (fnat (if (b =? j)%nat then 2 else 1)) with (if (b =? j)%nat then 1 + 1 else 1 : K)
          by (destruct (b =? j)%nat; cbn [fnat]; ring).
        destruct (nth j qs v4_zero) as [x y z w]. unfold mul_vec, v4_dot, p2_m4, v4_elems.
        cbn [w0 w1 w2 w3 row0 row1 row2 row3].
        do 4 (destruct c as [|c]; [cbn [nth m4_rows fnat]; ring|]). lia. }
      rewrite ER, fsum_split_if by lia. f_equal.
      (* the sum of the c-th entries *)
      rewrite <- (col_sum_flat K qs1 c Hc). unfold col_sum.
      rewrite length_flat, Lq1, (Nat.mul_comm 4 k), Nat.div_mul by lia. f_equal.
      apply map_ext. intro j. apply nth_flat. exact Hc.
  Qed.

  Lemma mat_apply_ones T (v : list K) st : forall i, length st = T -> length v = T -> (i < T)%nat ->
    mat_apply T (fun i j => if (i =? j)%nat then 1 + nth i v 0 else 1) st i = nth i st 0 * nth i v 0 + fsum st.
  Proof.
    intros i Hst Hv Hi. unfold mat_apply.
    assert (G : forall n (w : K) (f : nat -> K) s, (s <= i < s + n)%nat ->
      fsum (map (fun j => (if (i =? j)%nat then 1 + w else 1) * f j) (seq s n)) = f i * w + fsum (map f (seq s n))).
    { induction n as [|n IH]; intros w f s Hs; [lia|]. cbn [seq map]. rewrite !fsum_cons.
      destruct (Nat.eqb_spec i s) as [->|Hne].
      - assert (E : map (fun j => (if (s =? j)%nat then 1 + w else 1) * f j) (seq (S s) n) = map f (seq (S s) n)).
        { apply map_ext_in. intros j Hj. apply in_seq in Hj. destruct (Nat.eqb_spec s j); [lia|]. ring. }
        rewrite E. ring.
      - rewrite (IH w f (S s)) by lia. ring. }
    rewrite (G T (nth i v 0) (fun j => nth j st 0)) by lia. do 2 f_equal.
    rewrite <- Hst. clear. induction st as [|a st IH]; [reflexivity|]. cbn [length seq map nth].
    f_equal. rewrite <- seq_shift, map_map. exact IH.
  Qed.

  Theorem C41_internal_matrix (st diag : list K) : In (length st) sizes -> length diag = length st ->
    length (matmul_internal st diag) = length st /\
    forall i, (i < length st)%nat ->
      nth i (matmul_internal st diag) 0 =
      mat_apply (length st) (fun i j => if (i =? j)%nat then 1 + nth i (int_diag (length st) diag) 0 else 1) st i.
  Proof.
    intros HT Hd.
    destruct (Nat.eq_dec (length st) 2) as [H2|H2]; [|destruct (Nat.eq_dec (length st) 3) as [H3|H3]].
    - destruct st as [|a [|b [|c st]]]; try discriminate H2. split; [reflexivity|].
      intros i Hi. cbn [length] in Hi. do 2 (destruct i as [|i]; [unfold mat_apply, matmul_internal, double; cbn; ring|]). lia.
    - destruct st as [|a [|b [|c [|d st]]]]; try discriminate H3. split; [reflexivity|].
      intros i Hi. cbn [length] in Hi. do 3 (destruct i as [|i]; [unfold mat_apply, matmul_internal, double; cbn; ring|]). lia.
    - rewrite (matmul_internal_gen K) by auto.
      split; [unfold gen_internal; rewrite map_length, combine_length; lia|]. intros i Hi.
      unfold int_diag. destruct (Nat.eqb_spec (length st) 2); [contradiction|].
      destruct (Nat.eqb_spec (length st) 3); [contradiction|].
      rewrite mat_apply_ones by auto. unfold gen_internal.
      set (g := fun xv : K * K => _).
      rewrite (nth_indep _ 0 (g (0, 0))) by (rewrite map_length, combine_length; lia).
      rewrite map_nth, combine_nth by auto. unfold g. cbn [fst snd]. reflexivity.
  Qed.

  (** At sizes 2 and 3 the diagonal the parameters supply is not used: a
      parameter set whose diagonal is not (1,2), resp. (1,1,2), passes the sanity
      check and silently runs with the hard-coded matrix. *)
  Theorem C41_small_diagonal_ignored_refuted (st d1 d2 : list K) :
    length st = 2%nat \/ length st = 3%nat -> matmul_internal st d1 = matmul_internal st d2.
  Proof.
    intros [H|H]; [destruct st as [|a [|b [|c st]]]|destruct st as [|a [|b [|c [|d st]]]]]; try discriminate H; reflexivity.
  Qed.

  (** The condition on the diagonal is needed: without it two different states
      collide under the internal layer. *)
  Theorem C41_singular_diagonal (diag : list K) : In (length diag) sizes -> (3 < length diag)%nat ->
    (forall v, In v diag -> v <> 0) -> 1 + inv_sum K diag = 0 ->
    exists x y, length x = length diag /\ length y = length diag /\ x <> y /\
      matmul_internal x diag = matmul_internal y diag.
  Proof.
    intros HT H3 Hv Hs. exists (map (fun v => 1 / v) diag), (repeat 0 (length diag)).
    rewrite map_length, repeat_length. split; [auto|]. split; [auto|]. split.
    - destruct diag as [|v diag]; [cbn [length] in H3; lia|]. cbn [map length repeat]. intro E. injection E as E _.
      assert (v * (1 / v) = 0) by (rewrite E; ring). apply (f1_neq_0 K). rewrite <- H. field. apply Hv. left. reflexivity.
    - rewrite !matmul_internal_gen by (rewrite ?map_length, ?repeat_length; lia). unfold gen_internal.
      change (fsum (map (fun v => 1 / v) diag)) with (inv_sum K diag).
      assert (Z : forall n, fsum (repeat (0 : K) n) = 0).
      { induction n as [|n IH]; [reflexivity|]. cbn [repeat]. rewrite fsum_cons, IH. ring. }
      rewrite Z. assert (Es : inv_sum K diag = - (1)).
      { transitivity (1 + inv_sum K diag - 1); [ring|]. rewrite Hs. ring. }
      rewrite Es. clear - Hv. induction diag as [|v diag IH]; [reflexivity|]. cbn [map combine length repeat fst snd].
      rewrite IH by (intros; apply Hv; right; auto). f_equal. field. apply Hv. left. reflexivity.
  Qed.

  (** ** C67: the hash functions' padding, for any sponge *)
  Section Hash.
    Variable duplex : list K -> nat -> list K.

    Lemma p2_pad_ok (v : list K) m : (0 < m)%nat -> exists k,
      p2_zero_padding v m = Ok (v ++ repeat 0 k) /\ ((length v + k) mod m = 0)%nat /\ (k < m)%nat.
    Proof.
      intro Hm. unfold p2_zero_padding, next_multiple_of. destruct (Nat.eqb_spec m 0); [lia|].
      pose proof (Nat.mod_upper_bound (length v) m ltac:(lia)) as Hb.
      destruct (Nat.eqb_spec (length v mod m) 0) as [H0|H0]; cbn [bind].
      - exists 0%nat. rewrite Nat.sub_diag, firstn_all, Nat.add_0_r. auto.
      - exists (m - length v mod m)%nat.
        rewrite (firstn_all2 v) by apply Nat.le_add_r.
        replace (length v + (m - length v mod m) - length v)%nat with (m - length v mod m)%nat
          by (revert Hb; generalize (length v mod m)%nat; intros; lia).
        split; [reflexivity|]. split; [|revert Hb H0; generalize (length v mod m)%nat; intros; lia].
        pose proof (Nat.div_mod (length v) m ltac:(lia)) as E.
        replace (length v + (m - length v mod m))%nat with ((length v / m + 1) * m)%nat
          by (revert Hb E; generalize (length v mod m)%nat, (length v / m)%nat; intros; nia).
        apply Nat.mod_mul. lia.
    Qed.

    (** Distinct inputs of any lengths reach the sponge as distinct inputs of whole
        blocks, so that a hash collision is a sponge collision. *)
    Theorem C67_variable_length_collision rate n (x y : list K) : (0 < rate)%nat -> x <> y ->
      exists x' y', x' <> y' /\ (length x' mod rate = 0)%nat /\ (length y' mod rate = 0)%nat /\
        variable_len_hash duplex rate n x = Ok (duplex x' n) /\
        variable_len_hash duplex rate n y = Ok (duplex y' n) /\
        (exists j, (j < rate)%nat /\ x' = x ++ 1 :: repeat 0 j).
    Proof.
      intros Hr Hxy. unfold variable_len_hash, p2_bit_padding.
      destruct (p2_pad_ok (x ++ [1]) rate Hr) as (j & -> & Hj & Hj').
      destruct (p2_pad_ok (y ++ [1]) rate Hr) as (k & -> & Hk & Hk').
      exists ((x ++ [1]) ++ repeat 0 j), ((y ++ [1]) ++ repeat 0 k). cbn [bind].
      split; [intro E; apply Hxy; exact (bit_pad_inj K x y j k E)|].
      split; [rewrite app_length, repeat_length; exact Hj|]. split; [rewrite app_length, repeat_length; exact Hk|].
      split; [reflexivity|]. split; [reflexivity|]. exists j. split; [auto|]. rewrite <- app_assoc. reflexivity.
    Qed.

    (** Too long an input is refused; a nonempty one is extended with zeros to the
        declared size, so inputs of one length are hashed injectively up to the
        sponge, while an input and its zero-extension share a hash, as
        documented. *)
    Theorem C67_fixed_length (in_size n : nat) (x : list K) :
      ((in_size < length x)%nat -> fixed_len_hash duplex in_size n x = Err tt) /\
      (x <> [] -> (length x <= in_size)%nat ->
         fixed_len_hash duplex in_size n x = Ok (duplex (x ++ repeat 0 (in_size - length x)) n)).
    Proof.
      unfold fixed_len_hash. split.
      - intro H. destruct (Nat.ltb_spec in_size (length x)); [reflexivity|lia].
      - intros Hne H. destruct (Nat.ltb_spec in_size (length x)); [lia|].
        assert (Hx : (0 < length x)%nat) by (destruct x; [congruence|cbn; lia]).
        destruct (p2_pad_ok x in_size ltac:(lia)) as (k & -> & Hk & Hk'). cbn [bind].
        replace k with (in_size - length x)%nat; [reflexivity|].
        apply Nat.mod_divides in Hk as [c Hc]; [|lia]. assert (c = 1%nat) by nia. subst c. lia.
    Qed.

    (** The empty input is the exception to "will internally be zero-padded to
        [INPUT_SIZE]": nothing is absorbed, and at declared size zero the call
        panics instead of returning a hash. *)
    Theorem C67_empty_input_refuted (in_size n : nat) :
      ((0 < in_size)%nat -> fixed_len_hash duplex in_size n [] = Ok (duplex [] n)) /\
      fixed_len_hash duplex 0 n [] = Panic.
    Proof.
      split; [|reflexivity]. intro H. unfold fixed_len_hash, p2_zero_padding, next_multiple_of.
      destruct (Nat.ltb_spec in_size (length (@nil K))); [cbn [length] in *; lia|].
      destruct (Nat.eqb_spec in_size 0); [lia|]. cbn [length]. rewrite Nat.mod_0_l by lia. reflexivity.
    Qed.
  End Hash.
End Props.

(** ** Prime fields *)
Lemma zp_fnat p (Hp : prime p) n : zv p (fnat (K := Zp p Hp) n) = (Z.of_nat n mod p)%Z.
Proof.
  induction n as [|n IH]; [reflexivity|].
  change (zv p (fnat (K := Zp p Hp) (S n))) with ((1 mod p + zv p (fnat (K := Zp p Hp) n)) mod p)%Z.
  rewrite IH, <- Zplus_mod. f_equal. lia.
Qed.
Lemma zp_big_char p (Hp : prime p) : (35 < p)%Z -> big_char (Zp p Hp).
Proof.
  intros H n Hn E. apply (f_equal (zv p)) in E. rewrite zp_fnat in E.
  change (zv p (0 : Zp p Hp)) with (0 mod p)%Z in E. rewrite Z.mod_0_l, Z.mod_small in E by lia. lia.
Qed.

(** The shipped instances: size 2 and 3 over the BLS12-381 scalar field, size 3
    over the BN254 scalar field, exponent 5, for whatever round constants
    (poseidon2/src/constants/{bls12_381,bn254}.rs).  The two fields are those of
    the Rescue parameter files for [ark_ed_on_bls12_381::Fq] and
    [ark_ed_on_bn254::Fq]. *)
Theorem C41_shipped_parameters c (Hp : prime (rc_p c)) (P : p2_params (Zp (rc_p c) Hp)) :
  c = rescue_Ed381Fq \/ c = rescue_Ed254Fq ->
  p2_t P = 2%nat \/ p2_t P = 3%nat -> p2_d P = 5%N -> sanity_check P = true ->
  (forall rc, In rc (p2_ext_rc P) -> length rc = p2_t P) ->
  forall y, length y = p2_t P -> exists! x, length x = p2_t P /\ permute P x = Ok y.
Proof.
  intros Hcs HT Hd Hs Hrc.
  pose proof (C41_permutation_bijection _ P (Z.to_nat (rc_p c)) (limbs_N (rc_a_inv c)) (zp_card _ Hp)) as H.
  rewrite Hs in H. apply H.
  - apply zp_big_char. destruct Hcs as [->| ->]; vm_compute; reflexivity.
  - rewrite Hd, prime_pred_N by exact Hp. destruct Hcs as [->| ->]; vm_compute; reflexivity.
  - exact Hrc.
  - destruct HT; [left|right; left]; auto.
Qed.

(** ** Concrete cases *)
Definition P97 : p2_params F97 :=
  mk_p2 4 5 4 2 (repeat (map e97 [1; 2; 3; 4]%Z) 4) (map e97 [5; 6]%Z) (map e97 [1; 2; 3; 5]%Z).
Example C41_case : sanity_check P97 = true /\ has_card F97 97 /\ big_char F97 /\
  ((p2_d P97 * 77) mod N.of_nat (97 - 1) = 1)%N /\
  (forall rc, In rc (p2_ext_rc P97) -> length rc = p2_t P97) /\ diag_ok F97 (p2_t P97) (p2_diag P97).
Proof.
  split; [reflexivity|]. split; [exact (zp_card 97 prime_97)|]. split; [apply zp_big_char; lia|].
  split; [reflexivity|]. split.
  - intros rc Hrc. apply repeat_spec in Hrc. rewrite Hrc. reflexivity.
  - right. right. split; [reflexivity|]. split.
    + intros v Hv E. cbn in Hv. destruct Hv as [<-|[<-|[<-|[<-|[]]]]]; apply (f_equal (zv 97)) in E; vm_compute in E; discriminate E.
    + intro E. apply (f_equal (zv 97)) in E. vm_compute in E. discriminate E.
Qed.
(** A size-4 diagonal with 1 + 1/v0 + ... + 1/v3 = 0. *)
Example C41_singular_case : let d := map e97 [-1; 1; -2; -2]%Z in
  In (length d) sizes /\ (forall v, In v d -> v <> 0) /\ 1 + inv_sum F97 d = 0.
Proof.
  split; [cbn; auto|]. split.
  - intros v Hv E. cbn in Hv. destruct Hv as [<-|[<-|[<-|[<-|[]]]]]; apply (f_equal (zv 97)) in E; vm_compute in E; discriminate E.
  - apply (zp_ext 97). vm_compute. reflexivity.
Qed.

Print Assumptions C41_permutation_bijection.
Print Assumptions C41_external_matrix.
Print Assumptions C41_internal_matrix.
Print Assumptions C41_small_diagonal_ignored_refuted.
Print Assumptions C41_singular_diagonal.
Print Assumptions C41_shipped_parameters.
Print Assumptions C67_variable_length_collision.
Print Assumptions C67_fixed_length.
Print Assumptions C67_empty_input_refuted.
