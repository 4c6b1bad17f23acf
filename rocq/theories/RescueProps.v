(** Properties C37-C40 (Rescue) about the model of RescueModel.v. *)

From Coq Require Import List Arith NArith ZArith Lia Ring Field Znumtheory Bool.
From Verif Require Import Base ListAux Alg ConvModel RescueModel FiniteField RescueProofs RescueConst.
Import ListNotations.
Local Open Scope fld_scope.

(** The conditions a parameter set has to meet: the two exponents are inverse
    modulo [q - 1] and the matrix is nonsingular (it sends only zero to zero). *)
Definition good_exps {K : fld} (P : rescue_params K) (q : nat) : Prop :=
  ((rp_a P * limbs_N (rp_a_inv P)) mod N.of_nat (q - 1) = 1)%N.

Section Props.
  Variable K : fld.
  Add Field Krpp : (fth K).

  (** ** C37: the keyed and unkeyed permutations are bijections *)

  (** Nothing but the expected number of round keys is needed for the call to
      return; then every output block has exactly one preimage. *)
  Theorem C37_round_keys_bijection (P : rescue_params K) q keys :
    has_card K q -> good_exps P q -> mdet K (rp_mds P) <> 0 ->
    (length keys <> 25%nat -> forall x, prp_with_round_keys P keys x = Panic) /\
    (length keys = 25%nat -> forall y, exists! x, prp_with_round_keys P keys x = Ok y).
  Proof.
    intros Hq Ha Hm. split.
    - intros Hl x. unfold prp_with_round_keys. destruct (Nat.eqb_spec (length keys) (2 * ROUNDS + 1)) as [E|E].
      + exfalso. apply Hl. exact E.
      + reflexivity.
    - intros Hl y. destruct (prp_keys_bij K P q Hq Ha Hm keys Hl) as (f & Hf & E).
      destruct (bij_unique f Hf y) as (x & Hx & Hu). exists x. split.
      + rewrite E, Hx. reflexivity.
      + intros x' Hx'. rewrite E in Hx'. injection Hx' as Hx'. auto.
  Qed.

  Theorem C37_prp_bijection (P : rescue_params K) q :
    has_card K q -> good_exps P q -> mdet K (rp_mds P) <> 0 ->
    length (rp_inject P) = 24%nat ->
    forall key y, exists! x, prp P key x = Ok y.
  Proof.
    intros Hq Ha Hm Hi key y. destruct (key_schedule_ok K P key ltac:(lia)) as (ks & Hks & Hl).
    destruct (proj2 (C37_round_keys_bijection P q ks Hq Ha Hm) Hl y) as (x & Hx & Hu).
    exists x. unfold prp. rewrite Hks. cbn [bind]. split; auto.
  Qed.

  (** The parameters the crate marks as mock (bls12_381_base.rs:17-29 and
      bw6_761_base.rs:17-30): exponent zero, zero matrix, zero keys.  They
      implement the same trait, so every public function accepts them, and every
      block is sent to zero. *)
  Definition mock_params : rescue_params K :=
    mk_rescue 5 [0; 0; 0; 0; 0; 0]%N (M4 v4_zero v4_zero v4_zero v4_zero) v4_zero
      (repeat v4_zero 24) (repeat v4_zero 25).
  Theorem C37_mock_parameters_refuted (x y : vec4 K) :
    perm_eval mock_params x = Ok v4_zero /\ perm_eval mock_params x = perm_eval mock_params y.
  Proof.
    assert (H : forall z, perm_eval mock_params z = Ok v4_zero).
    { intro z. unfold perm_eval, prp_with_round_keys, mock_params. cbn [rp_keys repeat length Nat.eqb Nat.add Nat.mul ROUNDS].
      f_equal.
      assert (L : forall n i s, (0 < n)%nat -> prp_rounds mock_params i (repeat v4_zero n) s = v4_zero).
      { induction n as [|n IH]; intros i s Hn; [lia|]. cbn [repeat prp_rounds].
        assert (E : forall t, linear t (rp_mds mock_params) v4_zero = v4_zero).
        { intro t. apply v4_ext; unfold linear, v4_add, mul_vec, v4_dot, mock_params, v4_zero;
            cbn [w0 w1 w2 w3 rp_mds row0 row1 row2 row3]; ring. }
        rewrite E. destruct n as [|n]; [reflexivity|]. apply IH. lia. }
      apply (L 24%nat). lia. }
    rewrite !H. auto.
  Qed.

  (** ** C38: padding, output lengths *)

  Section Pad.
    Variable P : rescue_params K.
    Hypothesis Hk : length (rp_keys P) = 25%nat.

    Lemma no_padding_ok input n : (length input mod 3 = 0)%nat ->
      exists res, sponge_no_padding P input n = Ok res /\ length res = n.
    Proof.
      intro Hl. unfold sponge_no_padding, CRHF_RATE. rewrite Hl. cbn [Nat.eqb negb].
      rewrite (absorb_ok K P Hk) by lia. cbn [bind].
      destruct (squeeze_ok K P Hk 3 n (absorb_v K P (chunks 3 input) v4_zero) ltac:(lia)) as (out & s' & -> & Ho).
      cbn [bind]. eauto.
    Qed.

    (** Every input of every length is hashed to exactly the requested number of
        elements; the unpadded interface refuses exactly the unaligned inputs. *)
    Theorem C38_output_length (input : list K) n :
      (exists res, variable_crhf P n input = Ok res /\ length res = n) /\
      (exists res, fixed_crhf P n input = Ok res /\ length res = n) /\
      (forall key, exists res, prf_evaluate P n key input = Ok res /\ length res = n) /\
      (if (length input mod 3 =? 0)%nat
       then exists res, sponge_no_padding P input n = Ok res /\ length res = n
       else sponge_no_padding P input n = Err tt).
    Proof.
      assert (HP : forall l : list K, exists res, sponge_with_zero_padding P l n = Ok res /\ length res = n).
      { intro l. unfold sponge_with_zero_padding, CRHF_RATE. destruct (pad_ok K l 3 ltac:(lia)) as (k & -> & Hm & _).
        cbn [bind]. destruct (no_padding_ok (l ++ repeat 0 k) n) as (res & -> & Hr).
        - rewrite app_length, repeat_length. exact Hm.
        - exists res. auto. }
      split; [|split; [|split]].
      - unfold variable_crhf, sponge_with_bit_padding, CRHF_RATE. destruct (pad_ok K (input ++ [1]) 3 ltac:(lia)) as (k & -> & Hm & _).
        cbn [bind]. destruct (no_padding_ok ((input ++ [1]) ++ repeat 0 k) n) as (res & -> & Hr).
        + rewrite app_length, repeat_length. exact Hm.
        + exists res. cbn [expect bind]. rewrite Hr, Nat.eqb_refl. auto.
      - unfold fixed_crhf, CRHF_RATE. destruct (Nat.eqb_spec (length input mod 3) 0) as [H|H].
        + destruct (no_padding_ok input n H) as (res & -> & Hr). exists res. cbn [bind].
          rewrite Hr, Nat.eqb_refl. auto.
        + destruct (HP input) as (res & -> & Hr). exists res. cbn [bind]. rewrite Hr, Nat.eqb_refl. auto.
      - intro key. unfold prf_evaluate, prf_zero_padding, STATE_SIZE.
        destruct (pad_ok K input 4 ltac:(lia)) as (k & -> & Hm & _). cbn [bind].
        unfold prf_no_padding, STATE_SIZE. rewrite app_length, repeat_length, Hm. cbn [Nat.eqb negb].
        rewrite (absorb_ok K P Hk) by lia. cbn [bind].
        destruct (squeeze_ok K P Hk 4 n (absorb_v K P (chunks 4 (input ++ repeat 0 k)) (V4 0 0 0 key)) ltac:(lia)) as (out & s' & -> & Ho).
        cbn [bind]. rewrite Ho, Nat.eqb_refl. eauto.
      - destruct (Nat.eqb_spec (length input mod 3) 0) as [H|H]; [apply no_padding_ok; auto|].
        unfold sponge_no_padding, CRHF_RATE. destruct (Nat.eqb_spec (length input mod 3) 0); [contradiction|reflexivity].
    Qed.

    (** The variable-length hash is the unpadded sponge applied to
        [input ++ 1 :: zeros], and different inputs of any lengths give different
        sponge inputs: a collision of the hash is a collision of the sponge. *)
    Theorem C38_variable_length_collision n (x y : list K) : x <> y ->
      variable_crhf P n x = variable_crhf P n y ->
      exists x' y', x' <> y' /\ (length x' mod 3 = 0)%nat /\ (length y' mod 3 = 0)%nat /\
        (exists j, (j < 3)%nat /\ x' = x ++ 1 :: repeat 0 j) /\
        (exists k, (k < 3)%nat /\ y' = y ++ 1 :: repeat 0 k) /\
        sponge_no_padding P x' n = variable_crhf P n x /\
        sponge_no_padding P x' n = sponge_no_padding P y' n.
    Proof.
      intros Hxy E.
      assert (H : forall z : list K, exists j, (j < 3)%nat /\ (length (z ++ 1%F :: repeat 0%F j) mod 3 = 0)%nat /\
        variable_crhf P n z = sponge_no_padding P (z ++ 1 :: repeat 0 j) n).
      { intro z. destruct (pad_ok K (z ++ [1]) 3 ltac:(lia)) as (j & Ep & Hm & Hj & _). exists j.
        assert (Ez : z ++ 1 :: repeat 0 j = (z ++ [1]) ++ repeat 0 j) by (rewrite <- app_assoc; reflexivity).
        rewrite Ez. split; [auto|]. split; [rewrite app_length, repeat_length; exact Hm|].
        unfold variable_crhf, sponge_with_bit_padding, CRHF_RATE. rewrite Ep. cbn [bind].
        destruct (no_padding_ok ((z ++ [1]) ++ repeat 0 j) n) as (res & -> & Hr).
        - rewrite app_length, repeat_length. exact Hm.
        - cbn [expect bind]. rewrite Hr, Nat.eqb_refl. reflexivity. }
      destruct (H x) as (j & Hj & Hxm & Ex). destruct (H y) as (k & Hk' & Hym & Ey).
      exists (x ++ 1 :: repeat 0 j), (y ++ 1 :: repeat 0 k).
      split; [|split; [auto|split; [auto|split; [eauto|split; [eauto|split; [auto|congruence]]]]]].
      intro E'. apply Hxy. apply (bit_pad_inj K x y j k). rewrite <- !app_assoc. exact E'.
    Qed.

    (** The fixed-length hash at one input length. *)
    Theorem C38_fixed_length_collision n (x y : list K) : length x = length y -> x <> y ->
      fixed_crhf P n x = fixed_crhf P n y ->
      exists k, (k < 3)%nat /\ (length (x ++ repeat 0%F k) mod 3 = 0)%nat /\
        x ++ repeat 0 k <> y ++ repeat 0 k /\
        sponge_no_padding P (x ++ repeat 0 k) n = fixed_crhf P n x /\
        sponge_no_padding P (x ++ repeat 0 k) n = sponge_no_padding P (y ++ repeat 0 k) n.
    Proof.
      intros Hl Hxy E.
      set (k := ((3 - length x mod 3) mod 3)%nat).
      assert (H : forall z : list K, length z = length x -> (length (z ++ repeat 0%F k) mod 3 = 0)%nat /\
        fixed_crhf P n z = sponge_no_padding P (z ++ repeat 0 k) n).
      { intros z Hz. destruct (pad_ok K z 3 ltac:(lia)) as (j & Ep & Hm & Hj & Ej).
        rewrite Hz in Ej. fold k in Ej. subst j.
        split; [rewrite app_length, repeat_length; exact Hm|].
        destruct (no_padding_ok (z ++ repeat 0 k) n) as (res & Er & Hr).
        { rewrite app_length, repeat_length. exact Hm. }
        unfold fixed_crhf, CRHF_RATE. destruct (Nat.eqb_spec (length z mod 3) 0) as [H0|H0].
        - assert (k = 0%nat) by (unfold k; rewrite <- Hz, H0; reflexivity).
          replace z with (z ++ repeat 0 k) at 1 by (rewrite H; cbn [repeat]; apply app_nil_r).
          rewrite Er. cbn [bind]. rewrite Hr, Nat.eqb_refl. reflexivity.
        - unfold sponge_with_zero_padding, CRHF_RATE. rewrite Ep. cbn [bind]. rewrite Er. cbn [expect bind].
          rewrite Hr, Nat.eqb_refl. reflexivity. }
      exists k. destruct (H x eq_refl) as [Hx Ex]. destruct (H y (eq_sym Hl)) as [Hy Ey].
      split; [apply Nat.mod_upper_bound; lia|]. split; [auto|]. split; [|split; [auto|congruence]].
      intro E'. apply app_inv_tail in E'. auto.
    Qed.

    (** Two fixed-length hashes of different input lengths are not separated: the
        hash of an unaligned input equals that of the input with a zero
        appended. *)
    Theorem C38_lengths_not_separated_refuted n (x : list K) : (length x mod 3 <> 0)%nat ->
      fixed_crhf P n x = fixed_crhf P n (x ++ [0]).
    Proof.
      intro H. set (y := x ++ [0]).
      assert (Hfix : forall z : list K, exists j, (j < 3)%nat /\ ((length z + j) mod 3 = 0)%nat /\
        fixed_crhf P n z = sponge_no_padding P (z ++ repeat 0 j) n).
      { intro z. destruct (pad_ok K z 3 ltac:(lia)) as (j & Ep & Hm & Hj & Ej). exists j.
        split; [auto|]. split; [auto|].
        destruct (no_padding_ok (z ++ repeat 0 j) n) as (res & Er & Hr).
        { rewrite app_length, repeat_length. exact Hm. }
        unfold fixed_crhf, CRHF_RATE. destruct (Nat.eqb_spec (length z mod 3) 0) as [H0|H0].
        - assert (j = 0%nat) by (rewrite Ej, H0; reflexivity).
          replace z with (z ++ repeat 0 j) at 1 by (rewrite H1; cbn [repeat]; apply app_nil_r).
          rewrite Er. cbn [bind]. rewrite Hr, Nat.eqb_refl. reflexivity.
        - unfold sponge_with_zero_padding, CRHF_RATE. rewrite Ep. cbn [bind]. rewrite Er. cbn [expect bind].
          rewrite Hr, Nat.eqb_refl. reflexivity. }
      destruct (Hfix x) as (j & Hj & Hjm & ->). destruct (Hfix y) as (k & Hk' & Hkm & ->). f_equal.
      unfold y in *. rewrite app_length in Hkm. cbn [length] in Hkm.
      assert (E : j = S k).
      { assert (j <> 0%nat) by (intros ->; rewrite Nat.add_0_r in Hjm; auto).
        pose proof (Nat.div_mod (length x + j) 3 ltac:(lia)). pose proof (Nat.div_mod (length x + 1 + k) 3 ltac:(lia)).
        lia. }
      subst j. cbn [repeat]. rewrite <- app_assoc. reflexivity.
    Qed.

    (** Absorbing one more block is injective in the block: two inputs of the
        same length that agree up to the last block leave different states. *)
    Theorem C38_last_block_injective q rate (s : vec4 K) (pre x y : list K) :
      has_card K q -> good_exps P q -> mdet K (rp_mds P) <> 0 ->
      (0 < rate <= 4)%nat -> (length pre mod rate = 0)%nat ->
      length x = length y -> (length x <= rate)%nat ->
      absorb P rate (pre ++ x) s = absorb P rate (pre ++ y) s -> x = y.
    Proof.
      intros Hq Ha Hm Hr Hp Hl Hx E.
      rewrite !(absorb_ok K P Hk) in E by lia. injection E as E.
      rewrite !(chunks_app_mul rate) in E by (auto; lia). unfold absorb_v in E. rewrite !fold_left_app in E.
      set (t := fold_left _ (chunks rate pre) s) in E.
      destruct x as [|a x], y as [|b y]; try discriminate Hl; [reflexivity|].
      assert (C : forall l : list K, l <> [] -> (length l <= rate)%nat -> chunks rate l = [l]).
      { intros l Hne Hle. rewrite chunks_cons, skipn_all2, firstn_all2, chunks_nil by (auto; lia). reflexivity. }
      rewrite (C (a :: x)), (C (b :: y)) in E by (try discriminate; rewrite <- ?Hl; exact Hx). cbn [fold_left] in E.
      destruct (prp_keys_bij K P q Hq Ha Hm (rp_keys P) Hk) as (f & Hf & Ef).
      assert (Ep : forall v, peval_v K P v = f v) by (intro v; unfold peval_v, perm_eval; rewrite Ef; reflexivity).
      rewrite !Ep in E. apply (bij_inj f) in E; auto. apply add_elems_inj in E; auto.
      cbn [length] in *. lia.
    Qed.

    (** With the key in the last state entry and all four entries absorbed, the
        PRF under a key and under a shifted key agree on inputs shifted the other
        way in their fourth element. *)
    Theorem C38_prf_shifted_key n (key d : K) (a b c e : K) (rest : list K) :
      prf_evaluate P n (key + d) (a :: b :: c :: e :: rest) =
      prf_evaluate P n key (a :: b :: c :: (e + d) :: rest).
    Proof.
      unfold prf_evaluate, prf_zero_padding, STATE_SIZE.
      destruct (pad_ok K (a :: b :: c :: e :: rest) 4 ltac:(lia)) as (j & -> & Hj & _ & Ej).
      destruct (pad_ok K (a :: b :: c :: (e + d) :: rest) 4 ltac:(lia)) as (k & -> & Hk' & _ & Ek).
      cbn [length] in *. rewrite <- Ej in Ek. subst k. cbn [bind].
      unfold prf_no_padding, STATE_SIZE. cbn [app length]. rewrite app_length, repeat_length.
      cbn [Nat.add] in *. rewrite Hj. cbn [Nat.eqb negb].
      rewrite !(absorb_ok K P Hk) by lia. cbn [bind].
      rewrite (chunks_cons 4 (a :: b :: c :: e :: _)), (chunks_cons 4 (a :: b :: c :: (e + d) :: _)) by (try lia; discriminate).
      cbn [firstn skipn]. unfold absorb_v. cbn [fold_left].
      replace (v4_add_elems (V4 0 0 0 (key + d)) [a; b; c; e]) with (v4_add_elems (V4 0 0 0 key) [a; b; c; (e + d)]).
      - reflexivity.
      - apply v4_ext; unfold v4_add_elems; cbn [w0 w1 w2 w3 nth]; ring.
    Qed.

    (** ** C39: squeezing *)

    (** Asking for more elements extends the shorter answer. *)
    Theorem C39_squeeze_prefix rate m n s a sa b sb : (0 < rate <= 4)%nat -> (n <= m)%nat ->
      squeeze P rate m s = Ok (a, sa) -> squeeze P rate n s = Ok (b, sb) ->
      length a = m /\ b = firstn n a.
    Proof.
      intros Hr Hnm Ea Eb. split; [|eapply (squeeze_prefix K P Hk rate Hr m n s); eauto].
      destruct (squeeze_ok K P Hk rate m s Hr) as (out & s' & E & Hl). rewrite E in Ea. injection Ea as <- _. exact Hl.
    Qed.

    (** Successive calls do not continue the stream: a call leaves the block it
        read from in place, so two successive calls for at most a block's worth
        return overlapping elements -- here, the shorter answer is a prefix of
        the other, for every state. *)
    Theorem C39_successive_squeezes_refuted rate n m s a sa b sb : (0 < rate <= 4)%nat ->
      (n <= m <= rate)%nat ->
      squeeze P rate n s = Ok (a, sa) -> squeeze P rate m sa = Ok (b, sb) ->
      a = firstn n b.
    Proof.
      intros Hr [Hnm Hm] Ea Eb. rewrite (squeeze_small K P) in Ea by (auto; lia). injection Ea as <- <-.
      rewrite (squeeze_small K P) in Eb by (auto; lia). injection Eb as <- _.
      rewrite firstn_firstn, Nat.min_l by lia. reflexivity.
    Qed.

    (** Absorbing in two calls equals absorbing the concatenation when the first
        part fills whole blocks; an unaligned call is the same as one padded with
        zeros to the end of the block. *)
    Theorem C39_absorb_calls rate (x y : list K) s : (0 < rate)%nat ->
      ((length x mod rate = 0)%nat ->
         absorb P rate (x ++ y) s = (let* s' := absorb P rate x s in absorb P rate y s')) /\
      (forall k, (0 < length x mod rate)%nat -> (length x mod rate + k <= rate)%nat ->
         absorb P rate (x ++ repeat 0 k) s = absorb P rate x s).
    Proof.
      intro Hr. split.
      - intro Hx. rewrite !(absorb_ok K P Hk) by auto. cbn [bind]. rewrite (absorb_ok K P Hk) by auto.
        rewrite (chunks_app_mul rate) by auto. unfold absorb_v. rewrite fold_left_app. reflexivity.
      - intros k Hx Hk'. rewrite !(absorb_ok K P Hk) by auto. f_equal.
        set (q := (length x / rate * rate)%nat).
        pose proof (Nat.div_mod (length x) rate ltac:(lia)) as Hdm.
        pose proof (Nat.mod_upper_bound (length x) rate ltac:(lia)) as Hub.
        assert (Hxs : x = firstn q x ++ skipn q x) by (symmetry; apply firstn_skipn).
        assert (Hq : (q <= length x)%nat) by (unfold q; lia).
        assert (Hlq : length (firstn q x) = q) by (rewrite firstn_length; lia).
        assert (Hls : length (skipn q x) = (length x mod rate)%nat) by (rewrite skipn_length; unfold q; lia).
        assert (Hqm : (q mod rate = 0)%nat) by (unfold q; apply Nat.mod_mul; lia).
        assert (Hvk : (length (skipn q x) + k <= rate)%nat) by lia.
        assert (Hv0 : (0 < length (skipn q x))%nat) by lia.
        clearbody q. revert Hxs Hlq Hvk Hv0. generalize (firstn q x) (skipn q x). intros u v -> Hlq Hvk Hv0.
        rewrite <- app_assoc. rewrite (chunks_app_mul rate u (v ++ repeat 0 k)), (chunks_app_mul rate u v) by (auto; rewrite Hlq; auto).
        unfold absorb_v. rewrite !fold_left_app.
        set (t := fold_left _ (chunks rate u) s).
        assert (C : forall l : list K, (0 < length l)%nat -> (length l <= rate)%nat -> chunks rate l = [l]).
        { intros l Hne Hle. rewrite chunks_cons, skipn_all2, firstn_all2, chunks_nil by (auto; intros ->; cbn [length] in *; lia). reflexivity. }
                rewrite (C v), (C (v ++ repeat 0 k)) by (rewrite ?app_length, ?repeat_length; lia).
        cbn [fold_left]. rewrite add_elems_zeros. reflexivity.
    Qed.

    (** ** C40: commitments *)

    (** A blinding factor is required; then committing always succeeds, and
        [verify] accepts exactly the value [commit] returns. *)
    Theorem C40_commit_verify (input : list K) (b c : K) :
      commit P input None = Err tt /\ comm_verify P input None c = Err tt /\
      exists h, commit P input (Some b) = Ok h /\
        comm_verify P input (Some b) c = Ok (feqb h c) /\
        comm_verify P input (Some b) h = Ok true /\
        (comm_verify P input (Some b) c = Ok true <-> c = h).
    Proof.
      split; [reflexivity|]. split; [reflexivity|].
      destruct (C38_output_length (b :: input) 1) as (_ & (res & Er & Hr) & _).
      destruct res as [|h [|]]; try discriminate Hr. exists h.
      assert (Ec : commit P input (Some b) = Ok h) by (unfold commit; rewrite Er; reflexivity).
      unfold comm_verify. rewrite Ec. cbn [bind]. split; [reflexivity|]. split; [reflexivity|].
      split; [rewrite feqb_refl; reflexivity|]. split.
      - intro E. injection E as E. apply feqb_eq in E. auto.
      - intros ->. rewrite feqb_refl. reflexivity.
    Qed.

    (** Opening one commitment to two different messages or blindings of one
        length exhibits a collision of the sponge. *)
    Theorem C40_binding (x y : list K) (b b' c : K) :
      length x = length y -> (b, x) <> (b', y) ->
      comm_verify P x (Some b) c = Ok true -> comm_verify P y (Some b') c = Ok true ->
      exists u v, u <> v /\ length u = length v /\ (length u mod 3 = 0)%nat /\
        firstn (S (length x)) u = b :: x /\ firstn (S (length y)) v = b' :: y /\
        sponge_no_padding P u 1 = Ok [c] /\ sponge_no_padding P v 1 = Ok [c].
    Proof.
      intros Hl Hne Hx Hy.
      assert (F : forall z d, comm_verify P z (Some d) c = Ok true -> fixed_crhf P 1 (d :: z) = Ok [c]).
      { intros z d E. destruct (C38_output_length (d :: z) 1) as (_ & (res & Er & Hr) & _).
        destruct res as [|h [|]]; try discriminate Hr. unfold comm_verify, commit in E. rewrite Er in *.
        cbn [bind index nth_error] in E. injection E as E. apply feqb_eq in E. rewrite E. reflexivity. }
      apply F in Hx, Hy.
      destruct (C38_fixed_length_collision 1 (b :: x) (b' :: y)) as (k & Hk' & Hm & Hd & E1 & E2).
      - cbn [length]. lia.
      - intro E. injection E as -> ->. auto.
      - congruence.
      - exists ((b :: x) ++ repeat 0 k), ((b' :: y) ++ repeat 0 k).
        split; [auto|]. split; [rewrite !app_length; cbn [length]; lia|]. split; [auto|].
        split; [|split; [|split; congruence]].
        + change (S (length x)) with (length (b :: x)). rewrite firstn_app, Nat.sub_diag, firstn_all. cbn [firstn]. apply app_nil_r.
        + change (S (length y)) with (length (b' :: y)). rewrite firstn_app, Nat.sub_diag, firstn_all. cbn [firstn]. apply app_nil_r.
    Qed.
  End Pad.
End Props.

(** ** The shipped parameters *)

(** What is checked by computation about one parameter file. *)
Definition const_ok (c : rconst) (Hp : prime (rc_p c)) : bool :=
  let P := rescue_of c Hp in
  ((rp_a P * limbs_N (rp_a_inv P)) mod (Z.to_N (rc_p c) - 1) =? 1)%N &&
  negb (feqb (mdet _ (rp_mds P)) 0) &&
  (length (rp_inject P) =? 24)%nat && (length (rp_keys P) =? 25)%nat.

(** For a parameter file passing the check: the keyed permutation is a bijection
    for every key, the unkeyed permutation is one too, and, if the round keys
    pass theirs, it is the keyed one under the zero key. *)
Lemma const_ok_spec c (Hp : prime (rc_p c)) : const_ok c Hp = true ->
  let P := rescue_of c Hp in
  (forall key y, exists! x, prp P key x = Ok y) /\
  (forall y, exists! x, perm_eval P x = Ok y) /\
  (check_keys _ P = true -> forall x, perm_eval P x = prp P v4_zero x).
Proof.
  unfold const_ok. set (P := rescue_of c Hp). rewrite !andb_true_iff, N.eqb_eq, negb_true_iff, !Nat.eqb_eq.
  intros [[[Ha Hm] Hi] Hk].
  assert (Hq : has_card (Zp (rc_p c) Hp) (Z.to_nat (rc_p c))) by apply zp_card.
  assert (Ha' : good_exps P (Z.to_nat (rc_p c))) by (unfold good_exps; rewrite prime_pred_N by exact Hp; exact Ha).
  assert (Hm' : mdet _ (rp_mds P) <> 0) by (intro E; rewrite E, feqb_refl in Hm; discriminate Hm).
  cbv zeta. split; [|split].
  - apply (C37_prp_bijection _ P _ Hq Ha' Hm'). exact Hi.
  - apply (C37_round_keys_bijection _ P _ (rp_keys P) Hq Ha' Hm'). exact Hk.
  - intros Hc x. unfold prp. rewrite (check_keys_ok _ P _ Hq Ha' Hm' Hi Hc). reflexivity.
Qed.

Definition shipped : list rconst :=
  [rescue_Bls377Fq; rescue_Bn254Fq; rescue_Ed377Fq; rescue_Ed381Fq; rescue_Ed254Fq].

(** Every non-mock parameter set of the crate, given only that its field's
    modulus is prime. *)
Theorem C37_shipped_parameters c (Hp : prime (rc_p c)) : In c shipped ->
  let P := rescue_of c Hp in
  (forall key y, exists! x, prp P key x = Ok y) /\ (forall y, exists! x, perm_eval P x = Ok y).
Proof.
  intro H. assert (Hc : const_ok c Hp = true).
  { repeat (destruct H as [<-|H]; [vm_cast_no_check (eq_refl true)|]). destruct H. }
  destruct (const_ok_spec c Hp Hc) as (H1 & H2 & _). split; assumption.
Qed.

(** The precomputed round keys are the key schedule of the zero key.  Checked
    here for one file only, the scalar field of BLS12-381: re-checking it costs
    minutes per field. *)
Theorem C37_shipped_round_keys (Hp : prime (rc_p rescue_Ed381Fq)) x :
  let P := rescue_of rescue_Ed381Fq Hp in perm_eval P x = prp P v4_zero x.
Proof.
  assert (Hc : const_ok rescue_Ed381Fq Hp = true) by (vm_cast_no_check (eq_refl true)).
  assert (Hk : check_keys _ (rescue_of rescue_Ed381Fq Hp) = true) by (vm_cast_no_check (eq_refl true)).
  destruct (const_ok_spec _ Hp Hc) as (_ & _ & H3). exact (H3 Hk x).
Qed.

(** ** Concrete cases *)
Definition v97 (a b c d : Z) : vec4 F97 := V4 (e97 a) (e97 b) (e97 c) (e97 d).
Definition R97 : rescue_params F97 :=
  mk_rescue 5 [77%N] (M4 (v97 2 3 1 1) (v97 1 2 3 1) (v97 1 1 2 3) (v97 3 1 1 2)) (v97 1 2 3 4)
    (repeat (v97 5 6 7 8) 24) (repeat (v97 9 10 11 12) 25).
Example C37_case : has_card F97 97 /\ good_exps R97 97 /\ mdet F97 (rp_mds R97) <> 0 /\
  length (rp_inject R97) = 24%nat /\ length (rp_keys R97) = 25%nat.
Proof.
  split; [exact (zp_card 97 prime_97)|]. split; [vm_compute; reflexivity|]. split; [|split; reflexivity].
  intro E. apply (f_equal (zv 97)) in E. vm_compute in E. discriminate E.
Qed.
(** Two calls of three elements repeat the same three elements, while one call of
    six gives six elements of which the last three differ. *)
Example C39_case :
  match squeeze R97 3 3 (v97 1 2 3 4) with
  | Ok (a, s) =>
      match squeeze R97 3 3 s, squeeze R97 3 6 (v97 1 2 3 4) with
      | Ok (b, _), Ok (c, _) =>
          map (zv 97) a = map (zv 97) b /\ map (zv 97) c <> map (zv 97) (a ++ b)
      | _, _ => False
      end
  | _ => False
  end.
Proof. vm_compute. split; [reflexivity|discriminate]. Qed.
Example C40_case : exists h, commit R97 [e97 4; e97 5] (Some (e97 6)) = Ok h /\
  comm_verify R97 [e97 4; e97 5] (Some (e97 6)) h = Ok true.
Proof.
  destruct (C40_commit_verify F97 R97 eq_refl [e97 4; e97 5] (e97 6) (e97 0)) as (_ & _ & h & H1 & _ & H2 & _).
  exists h. auto.
Qed.

Print Assumptions C37_round_keys_bijection.
Print Assumptions C37_prp_bijection.
Print Assumptions C37_mock_parameters_refuted.
Print Assumptions C37_shipped_parameters.
Print Assumptions C37_shipped_round_keys.
Print Assumptions C38_output_length.
Print Assumptions C38_variable_length_collision.
Print Assumptions C38_fixed_length_collision.
Print Assumptions C38_lengths_not_separated_refuted.
Print Assumptions C38_last_block_injective.
Print Assumptions C38_prf_shifted_key.
Print Assumptions C39_squeeze_prefix.
Print Assumptions C39_successive_squeezes_refuted.
Print Assumptions C39_absorb_calls.
Print Assumptions C40_commit_verify.
Print Assumptions C40_binding.
