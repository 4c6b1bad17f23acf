(** Properties C43 and C69 (BLS signatures over BN254), C45 (VRF) and C68 (encoding of
    BLS12-381 keys and signatures) about the model of BlsModel.v. *)

From Coq Require Import List Arith ZArith Lia Ring Field Znumtheory Bool Permutation.
From Verif Require Import Base ListAux Alg ConvModel ConvProofs BlsModel.
Import ListNotations.
Local Open Scope fld_scope.

(** ** C69: hashing to the curve *)
Section HashToCurveProps.
  Variable q : Z.
  Hypothesis Hq : prime q.
  Notation K := (Zp q Hq).
  Add Field KfieldH2c : (fth K).
  Variable hash_to_field : list Z -> K.
  Variable is_qnr : K -> bool.
  Hypothesis Hqnr : forall y : K, is_qnr y = true <-> ~ exists z : K, z * z = y.

  Definition on_curve (x y : K) : Prop := y * y = x * x * x + (1 + 1 + 1).
  (** Being the [k]-th candidate, and the first with a point above it. *)
  Definition first_candidate (h x : K) (k : nat) : Prop :=
    x = h + fnat k /\ forall j, (j < k)%nat -> ~ exists z, on_curve (h + fnat j) z.

  Lemma search_spec fuel : forall h x : K, search q Hq is_qnr fuel h = Some x ->
    exists k, first_candidate h x k /\ exists z, on_curve x z.
  Proof.
    induction fuel as [|n IH]; intros h x H; cbn [search] in H; destruct (is_qnr _) eqn:E; try discriminate.
    - assert (h = x) by congruence. subst h. exists 0%nat. split; [split|].
      + cbn [fnat]. ring.
      + intros; lia.
      + destruct (feq_dec (curve_rhs q Hq x) (curve_rhs q Hq x)); [|congruence].
        assert (N : ~ ~ exists z : K, z * z = curve_rhs q Hq x).
        { intro A. apply Hqnr in A. congruence. }
        assert (D : (exists z : K, z * z = curve_rhs q Hq x) \/ ~ exists z : K, z * z = curve_rhs q Hq x).
        { clear -is_qnr Hqnr. destruct (is_qnr (curve_rhs q Hq x)) eqn:E; [right; apply Hqnr; auto|].
          left.
          (* the field is finite: search it *)
          pose proof (prime_ge_2 _ Hq) as P2.
          destruct (existsb (fun n => feqb (fmul (zmk q (Z.of_nat n) : K) (zmk q (Z.of_nat n))) (curve_rhs q Hq x)) (seq 0 (Z.to_nat q))) eqn:X.
          - apply existsb_exists in X as (n & _ & X). apply feqb_eq in X. exists (zmk q (Z.of_nat n)). exact X.
          - exfalso. assert (A : is_qnr (curve_rhs q Hq x) = true); [|congruence]. apply Hqnr. intros [z Hz].
            apply not_true_iff_false in X. apply X.
            pose proof (zv_mod q z) as M. pose proof (Z.mod_pos_bound (zv q z) q ltac:(lia)) as B. rewrite M in B.
            apply existsb_exists. exists (Z.to_nat (zv q z)). split; [apply in_seq; lia|].
            rewrite Z2Nat.id by lia. rewrite zmk_zv. apply feqb_eq. exact Hz. }
        destruct D as [D|D]; [|contradiction]. destruct D as [z Hz]. exists z. exact Hz.
    - destruct (IH _ _ H) as (k & (Hx & Hk) & Hz). exists (S k). split; [split|exact Hz].
      + rewrite Hx. cbn [fnat]. ring.
      + intros [|j] Hj.
        * cbn [fnat]. intros [z Hz']. apply Hqnr in E. apply E. exists z.
          unfold on_curve in Hz'. rewrite Hz'. unfold curve_rhs, coeff_b. ring.
        * intros [z Hz']. apply (Hk j); [lia|]. exists z. unfold on_curve in *. rewrite Hz'. cbn [fnat]. ring.
    - assert (h = x) by congruence. subst h. destruct (IH x x) as (k & Hk & Hz).
      { destruct n; cbn [search]; rewrite E; reflexivity. }
      exists 0%nat. split; [split|exact Hz]; [cbn [fnat]; ring|intros; lia].
  Qed.
  Lemma search_total fuel : forall (h : K) k z, (k <= fuel)%nat -> on_curve (h + fnat k) z ->
    search q Hq is_qnr fuel h <> None.
  Proof.
    induction fuel as [|n IH]; intros h k z Hk Hz; cbn [search]; destruct (is_qnr _) eqn:E; try discriminate.
    - assert (k = 0%nat) by lia. subst k. exfalso. apply Hqnr in E. apply E. exists z.
      unfold on_curve in Hz. rewrite Hz. unfold curve_rhs, coeff_b. cbn [fnat]. ring.
    - destruct k as [|k].
      + exfalso. apply Hqnr in E. apply E. exists z.
        unfold on_curve in Hz. rewrite Hz. unfold curve_rhs, coeff_b. cbn [fnat]. ring.
      + apply (IH _ k z); [lia|]. unfold on_curve in *. rewrite Hz. cbn [fnat]. ring.
  Qed.

  Variable sqrt : K -> option K.
  Hypothesis Hsqrt : forall y z : K, sqrt y = Some z -> z * z = y.
  Hypothesis Hsqrt_total : forall y z : K, z * z = y -> sqrt y <> None.
  Notation hash_to_curve := (hash_to_curve q Hq hash_to_field is_qnr sqrt).

  Lemma zv_bound (z : K) : (0 <= zv q z < q)%Z.
  Proof. pose proof (prime_ge_2 _ Hq). rewrite <- (zv_mod q z). apply Z.mod_pos_bound. lia. Qed.
  Lemma zv_neg (y : K) : (zv q y <> 0)%Z -> zv q (- y : K) = (q - zv q y)%Z.
  Proof.
    intro H. change (zv q (- y : K)) with ((- zv q y) mod q)%Z. pose proof (zv_bound y).
    rewrite <- (Z_mod_plus_full _ 1), Z.mod_small; lia.
  Qed.

  (** C69: the hash of a message is a point of the curve, with the smaller of the two
      possible ordinates, above the first admissible abscissa at or after the message's
      field hash. *)
  Theorem C69_hash_to_curve fuel msg x y : q <> 2%Z ->
    hash_to_curve fuel msg = Ok (x, y) ->
    on_curve x y /\ (2 * zv q y < q)%Z /\ exists k, first_candidate (hash_to_field msg) x k.
  Proof.
    intros H2 H. unfold BlsModel.hash_to_curve in H. destruct (search _ _ _ _ _) as [x'|] eqn:E; [|discriminate].
    destruct (sqrt _) as [y'|] eqn:S; [|discriminate].
    destruct (search_spec _ _ _ E) as (k & Hk & _). apply Hsqrt in S.
    assert (x' = x) by congruence. subst x'.
    assert (Y : (if (2 * zv q y' >? q)%Z then - y' else y') = y) by congruence. clear H.
    pose proof (zv_bound y') as B.
    assert (Hodd : (2 * zv q y' <> q)%Z).
    { intro A. destruct (prime_divisors q Hq 2) as [?|[?|[?|?]]]; try lia. exists (zv q y'). lia. }
    split; [|split; [|exists k; exact Hk]].
    - unfold on_curve. rewrite <- Y. change (curve_rhs q Hq x) with (x * x * x + (1 + 1 + 1)) in S.
      rewrite <- S. destruct (_ >? _)%Z; ring.
    - rewrite <- Y. rewrite Z.gtb_ltb. destruct (Z.ltb_spec q (2 * zv q y')); [|lia].
      rewrite zv_neg by lia. lia.
  Qed.
  (** C69: it is defined on every message, provided the curve has a point; at most
      [q] candidates are tried. *)
  Theorem C69_hash_to_curve_total fuel msg x0 y0 : on_curve x0 y0 -> (Z.to_nat q <= fuel)%nat ->
    exists P, hash_to_curve fuel msg = Ok P.
  Proof.
    intros H0 Hf. unfold BlsModel.hash_to_curve.
    assert (E : search q Hq is_qnr fuel (hash_to_field msg) <> None).
    { apply (search_total _ _ (Z.to_nat (zv q (x0 - hash_to_field msg))) y0).
      - pose proof (zv_bound (x0 - hash_to_field msg)). lia.
      - assert (A : (fnat (Z.to_nat (zv q (x0 - hash_to_field msg))) : K) = x0 - hash_to_field msg).
        { rewrite <- (zmk_zv q (x0 - hash_to_field msg)) at 2.
          pose proof (zv_bound (x0 - hash_to_field msg)) as B.
          rewrite <- (Z2Nat.id (zv q (x0 - hash_to_field msg))) at 2 by lia.
          generalize (Z.to_nat (zv q (x0 - hash_to_field msg))). intro n.
          induction n as [|n IH]; [reflexivity|]. cbn [fnat]. rewrite IH. apply zp_ext.
          cbn [fadd Zp f1 zv zmk]. rewrite Nat2Z.inj_succ, Zplus_mod_idemp_l, Zplus_mod_idemp_r. f_equal. lia. }
        rewrite A. unfold on_curve in *. rewrite H0. ring. }
    destruct (search _ _ _ _ _) as [x|] eqn:S; [|congruence].
    destruct (search_spec _ _ _ S) as (_ & _ & z & Hz).
    destruct (sqrt (curve_rhs q Hq x)) eqn:R; [eexists; reflexivity|].
    exfalso. apply (Hsqrt_total _ z Hz). exact R.
  Qed.
End HashToCurveProps.

Section Canonical.
Variables (q : Z) (Hq : prime q).
Add Field KC43 : (fth (Zp q Hq)).
(** C69: the point depends on the message only, not on which square root the library
    returns. *)
Theorem C69_hash_to_curve_canonical hash_to_field is_qnr sqrt sqrt' f f' msg P P' :
  q <> 2%Z ->
  (forall y : Zp q Hq, is_qnr y = true <-> ~ exists z, z * z = y) ->
  (forall y z, sqrt y = Some z -> z * z = y) -> (forall y z, sqrt' y = Some z -> z * z = y) ->
  hash_to_curve q Hq hash_to_field is_qnr sqrt f msg = Ok P ->
  hash_to_curve q Hq hash_to_field is_qnr sqrt' f' msg = Ok P' -> P = P'.
Proof.
  intros H2 Hn Hs Hs' H H'. destruct P as [x y], P' as [x' y'].
  destruct (C69_hash_to_curve q Hq _ _ Hn _ Hs _ _ _ _ H2 H) as (C & B & k & Hx & Hk).
  destruct (C69_hash_to_curve q Hq _ _ Hn _ Hs' _ _ _ _ H2 H') as (C' & B' & k' & Hx' & Hk').
  assert (k = k').
  { destruct (lt_eq_lt_dec k k') as [[L|L]|L]; auto; exfalso.
    - apply (Hk' k L). exists y. rewrite <- Hx. exact C.
    - apply (Hk k' L). exists y'. rewrite <- Hx'. exact C'. }
  subst k'. assert (E : x' = x) by congruence. clear Hx Hx' H H'. subst x'.
  assert (Y : (y - y') * (y + y') = 0).
  { transitivity (y * y - y' * y'); [ring|]. rewrite C, C'. ring. }
  apply fmul_eq_0 in Y as [Y|Y].
  - apply fsub_0_eq in Y. congruence.
  - assert (y = - y'). { apply fsub_0_eq. rewrite <- Y. ring. }
    subst y. destruct (Z.eq_dec (zv q y') 0) as [Z|Z].
    + assert (y' = 0). { apply zp_ext. exact Z. } subst y'. replace (- (0 : Zp q Hq)) with (0 : Zp q Hq) by ring. reflexivity.
    + rewrite zv_neg in B by auto. lia.
Qed.
End Canonical.

(** ** C43: signatures *)
Section BlsProps.
  Variable K : fld.
  Variables V1 V2 VT : vsp K.
  Variable e : pairing K V1 V2 VT.
  Variable raw_pairing : pt V1 -> pt V2 -> VT.
  Variable raw_add1 : pt V1 -> pt V1 -> pt V1.
  Variable raw_neg1 : pt V1 -> pt V1.
  Variable raw_add2 : pt V2 -> pt V2 -> pt V2.
  Variable g2 : V2.
  Variable h2c : list Z -> V1.
  Variable cs_id : list Z.
  Hypothesis Hpair : forall a b, raw_pairing (Valid a) (Valid b) = e a b.
  Hypothesis Hadd1 : forall a b, raw_add1 (Valid a) (Valid b) = Valid (vadd a b).
  Hypothesis Hneg1 : forall a, raw_neg1 (Valid a) = Valid (vopp a).
  Hypothesis Hadd2 : forall a b, raw_add2 (Valid a) (Valid b) = Valid (vadd a b).
  (** Pairing with the generator is injective. *)
  Hypothesis Hnd : forall a, e a g2 = v0 -> a = v0.
  Add Field KfieldBls : (fth K).
  Notation ver_key_of := (ver_key_of K V2 g2).
  Notation sign := (sign K V1 h2c).
  Notation verify := (verify K V1 V2 VT raw_pairing g2 h2c).
  Notation aggregate := (aggregate K V1 raw_add1).
  Notation aggregate_verify := (aggregate_verify K V1 V2 VT raw_pairing raw_neg1 g2 h2c cs_id).
  Notation multi_sig_verify := (multi_sig_verify K V1 V2 VT raw_pairing raw_add2 g2 h2c cs_id).

  Lemma pe_opp_l a b : e (vopp a) b = vopp (e a b).
  Proof. rewrite !vopp_mul, pe_mul_l. reflexivity. Qed.
  Lemma pe_0_l b : e v0 b = v0.
  Proof. rewrite <- (vmul_0_l _ _ v0), pe_mul_l, vmul_0_l. reflexivity. Qed.
  Lemma pe_0_r a : e a v0 = v0.
  Proof. rewrite <- (vmul_0_l _ _ v0), pe_mul_r, vmul_0_l. reflexivity. Qed.
  Lemma pe_g2_inj a b : e a g2 = e b g2 -> a = b.
  Proof. intro H. apply vsub_eq, Hnd. rewrite pe_add_l, pe_opp_l, H. apply vadd_opp. Qed.
  Lemma pe_vsum_l {A} (f : A -> V1) l b : e (vsum (map f l)) b = vsum (map (fun a => e (f a) b) l).
  Proof.
    induction l; [apply pe_0_l|]. cbn [map]. rewrite !vsum_cons, pe_add_l, IHl. reflexivity.
  Qed.

  Lemma verify_internal_iff x msg sigma csid :
    verify_internal K V1 V2 VT raw_pairing g2 h2c (Valid (vmul x g2)) msg (Valid sigma) csid = Ok tt <->
    sigma = vmul x (h2c (msg ++ csid)).
  Proof.
    unfold verify_internal. rewrite !Hpair, pe_mul_r. destruct (veqb _ _) eqn:E.
    - apply veqb_eq in E. rewrite <- pe_mul_l in E. split; [intros _; apply pe_g2_inj, E|reflexivity].
    - split; [discriminate|]. intros ->. rewrite pe_mul_l in E. exfalso.
      assert (A : veqb (vmul x (e (h2c (msg ++ csid)) g2)) (vmul x (e (h2c (msg ++ csid)) g2)) = true) by (apply veqb_eq; reflexivity).
      congruence.
  Qed.

  (** C43: a signature is accepted under the key of [sk] exactly when it is the one
      [sign] produces; in particular signing then verifying succeeds, and no other
      signature is accepted. *)
  Theorem C43_verify_exact sk msg csid sigma :
    verify (ver_key_of sk) msg sigma csid = Ok tt <-> sigma = sign sk msg csid.
  Proof.
    unfold BlsModel.verify, BlsModel.ver_key_of, BlsModel.sign. destruct sigma as [s|n].
    - rewrite verify_internal_iff. split; congruence.
    - split; discriminate.
  Qed.
  (** C43: so a signature is accepted for another message exactly when both hash to
      the same point, or the key is zero. *)
  Theorem C43_other_message sk msg csid msg' csid' :
    verify (ver_key_of sk) msg' (sign sk msg csid) csid' = Ok tt <->
    sk = 0 \/ h2c (msg ++ csid) = h2c (msg' ++ csid').
  Proof.
    rewrite C43_verify_exact. unfold BlsModel.sign. split.
    - intro H. assert (E : vmul sk (h2c (msg ++ csid)) = vmul sk (h2c (msg' ++ csid'))) by congruence.
      destruct (feq_dec sk 0) as [|N]; [left; auto|right]. eapply vmul_cancel; eauto.
    - intros [->|E]; [rewrite !vmul_0_l|rewrite E]; reflexivity.
  Qed.

  Lemma aggregate_valid (s : V1) l : fold_left raw_add1 (map Valid l) (Valid s) = Valid (vadd s (vsum l)).
  Proof.
    revert s; induction l as [|a l IH]; intro s; cbn [map fold_left].
    - rewrite vadd_0_r. reflexivity.
    - rewrite Hadd1, IH, vsum_cons, vadd_assoc. reflexivity.
  Qed.
  (** C43: what [aggregate] returns; it refuses only the empty list. *)
  Theorem C43_aggregate (l : list V1) :
    aggregate (map Valid l) = match l with [] => Err ParameterError | _ => Ok (Valid (vsum l)) end.
  Proof.
    destruct l as [|a l]; [reflexivity|]. cbn [map BlsModel.aggregate]. rewrite aggregate_valid. reflexivity.
  Qed.

  Lemma combine_snoc {A B} (l : list A) (l' : list B) a b : length l = length l' ->
    combine (l ++ [a]) (l' ++ [b]) = combine l l' ++ [(a, b)].
  Proof.
    revert l'; induction l as [|x l IH]; destruct l'; cbn; try discriminate; [reflexivity|].
    intro H. rewrite IH by lia. reflexivity.
  Qed.

  (** C43: an aggregate signature is accepted for the listed keys and messages exactly
      when it is the sum of the signatures of the key owners on their messages. *)
  Theorem C43_aggregate_exact (signers : list (K * list Z)) sigma : signers <> [] ->
    (aggregate_verify (map (fun km => ver_key_of (fst km)) signers) (map snd signers) sigma = Ok tt <->
     sigma = Valid (vsum (map (fun km => vmul (fst km) (h2c (snd km ++ cs_id))) signers))).
  Proof.
    intro Hne. unfold BlsModel.aggregate_verify.
    destruct (map (fun km => ver_key_of (fst km)) signers) as [|v vs] eqn:EV.
    { destruct signers; [contradiction|discriminate]. }
    rewrite <- EV. rewrite !map_length, Nat.eqb_refl. cbn [negb].
    assert (F : forallb (valid2 K V2) (map (fun km => ver_key_of (fst km)) signers) = true).
    { apply forallb_forall. intros x Hx. apply in_map_iff in Hx as (km & <- & _). reflexivity. }
    rewrite F. cbn [negb]. destruct sigma as [s|n]; [|split; discriminate].
    unfold aggregate_verify_internal. rewrite Hneg1.
    rewrite combine_snoc by (rewrite !map_length; reflexivity).
    rewrite map_app, vsum_app. cbn [map fst snd]. rewrite Hpair, pe_opp_l.
    assert (S : vsum (map (fun mv => raw_pairing (fst mv) (snd mv))
        (combine (map (fun m => Valid (h2c (m ++ cs_id))) (map snd signers))
                 (map (fun km => ver_key_of (fst km)) signers)))
      = e (vsum (map (fun km => vmul (fst km) (h2c (snd km ++ cs_id))) signers)) g2).
    { rewrite pe_vsum_l. clear -Hpair. induction signers as [|km l IH]; [reflexivity|]. cbn [map combine fst snd]. rewrite !vsum_cons, IH.
      unfold BlsModel.ver_key_of. rewrite Hpair, pe_mul_r, pe_mul_l. reflexivity. }
    rewrite S. rewrite vsum_cons. cbn [vsum fold_right]. rewrite vadd_0_r.
    destruct (veqb _ _) eqn:E.
    - apply veqb_eq in E. apply (proj1 (vsub_eq _ _ _ _)) in E. apply pe_g2_inj in E. split; [intros _; congruence|reflexivity].
    - split; [discriminate|]. intro H. exfalso.
      match type of E with veqb ?a ?b = false => assert (A : veqb a b = true); [|congruence] end.
      apply veqb_eq, vsub_eq. f_equal. congruence.
  Qed.
  (** C43: hence aggregating the individual signatures is accepted. *)
  Theorem C43_aggregate_complete (signers : list (K * list Z)) : signers <> [] ->
    exists agg, aggregate (map (fun km => sign (fst km) (snd km) cs_id) signers) = Ok agg /\
      aggregate_verify (map (fun km => ver_key_of (fst km)) signers) (map snd signers) agg = Ok tt.
  Proof.
    intro Hne. exists (Valid (vsum (map (fun km => vmul (fst km) (h2c (snd km ++ cs_id))) signers))).
    split; [|apply C43_aggregate_exact; auto].
    unfold BlsModel.sign. rewrite <- (map_map (fun km => vmul (fst km) (h2c (snd km ++ cs_id))) Valid).
    rewrite C43_aggregate. destruct signers; [contradiction|reflexivity].
  Qed.

  (** C43: the order in which the signers are listed does not matter. *)
  Theorem C43_aggregate_order (vms vms' : list (pt V2 * list Z)) sigma : Permutation vms vms' ->
    aggregate_verify (map fst vms) (map snd vms) sigma = aggregate_verify (map fst vms') (map snd vms') sigma.
  Proof.
    intro HP. unfold BlsModel.aggregate_verify.
    assert (L := Permutation_length HP).
    assert (F : forallb (valid2 K V2) (map fst vms) = forallb (valid2 K V2) (map fst vms')).
    { clear -HP. induction HP; cbn [map forallb]; [reflexivity|rewrite IHHP; reflexivity| |congruence].
      destruct (valid2 _ _ (fst x)), (valid2 _ _ (fst y)); reflexivity. }
    rewrite F, !map_length, !Nat.eqb_refl. cbn [negb].
    assert (E : aggregate_verify_internal K V1 V2 VT raw_pairing raw_neg1 g2 h2c cs_id (map fst vms) (map snd vms) sigma
              = aggregate_verify_internal K V1 V2 VT raw_pairing raw_neg1 g2 h2c cs_id (map fst vms') (map snd vms') sigma).
    { unfold aggregate_verify_internal. rewrite !combine_snoc by (rewrite !map_length; reflexivity).
      rewrite !map_app, !vsum_app.
      replace (vsum (map _ (combine _ (map fst vms)))) with
        (vsum (map (fun mv => raw_pairing (fst mv) (snd mv))
          (combine (map (fun m => Valid (h2c (m ++ cs_id))) (map snd vms')) (map fst vms')))); [reflexivity|].
      assert (C : forall l : list (pt V2 * list Z), map (fun mv => raw_pairing (fst mv) (snd mv))
          (combine (map (fun m => Valid (h2c (m ++ cs_id))) (map snd l)) (map fst l)) =
          map (fun vm => raw_pairing (Valid (h2c (snd vm ++ cs_id))) (fst vm)) l).
      { clear. induction l as [|a l IH]; [reflexivity|]. cbn [map combine fst snd]. rewrite IH. reflexivity. }
      rewrite !C. clear -HP. induction HP; cbn [map]; rewrite ?vsum_cons.
      - reflexivity.
      - f_equal. auto.
      - apply vadd_swap.
      - congruence. }
    destruct vms as [|a l], vms' as [|a' l']; cbn in L; try discriminate; [reflexivity|].
    cbn [map] in *. rewrite E. reflexivity.
  Qed.

  (** C43: refusals. *)
  Theorem C43_refusals vks msgs msg sigma :
    (vks = [] -> aggregate_verify vks msgs sigma = Err ParameterError /\ multi_sig_verify vks msg sigma = Err ParameterError) /\
    (length vks <> length msgs -> aggregate_verify vks msgs sigma = Err ParameterError) /\
    (vks <> [] -> (exists n, In (Invalid n) vks) ->
      (length vks = length msgs -> aggregate_verify vks msgs sigma = Err FailedValidityCheck) /\
      multi_sig_verify vks msg sigma = Err FailedValidityCheck) /\
    (forall n, sigma = Invalid n -> aggregate_verify vks msgs sigma <> Ok tt /\ multi_sig_verify vks msg sigma <> Ok tt).
  Proof.
    unfold BlsModel.aggregate_verify, BlsModel.multi_sig_verify. split; [|split; [|split]].
    - intros ->. split; reflexivity.
    - intro H. destruct vks; [reflexivity|]. apply Nat.eqb_neq in H. rewrite H. reflexivity.
    - intros Hne [n Hn].
      assert (F : forallb (valid2 K V2) vks = false).
      { apply not_true_iff_false. rewrite forallb_forall. intro A. specialize (A _ Hn). discriminate. }
      rewrite F. destruct vks; [contradiction|]. split; [|reflexivity]. intros ->. rewrite Nat.eqb_refl. reflexivity.
    - intros n ->. destruct vks; [split; discriminate|]. destruct (negb _); [split; [discriminate|]|destruct (negb _); split; discriminate].
      destruct (negb _); discriminate.
  Qed.

  Lemma sum_keys (l : list K) v : fold_left raw_add2 (map ver_key_of l) (Valid v) = Valid (vadd v (vmul (fsum l) g2)).
  Proof.
    revert v; induction l as [|a l IH]; intro v; cbn [map fold_left fsum fold_right].
    - rewrite vmul_0_l, vadd_0_r. reflexivity.
    - unfold BlsModel.ver_key_of in *. rewrite Hadd2, IH. f_equal.
      change (fold_right fadd 0 l) with (fsum l). rewrite vmul_add_l, vadd_assoc. reflexivity.
  Qed.
  (** C43: a multi-signature is accepted exactly when it is the sum of the signers'
      signatures on the message. *)
  Theorem C43_multi_sig_exact (sks : list K) msg sigma : sks <> [] ->
    (multi_sig_verify (map ver_key_of sks) msg sigma = Ok tt <->
     sigma = Valid (vsum (map (fun sk => vmul sk (h2c (msg ++ cs_id))) sks))).
  Proof.
    intro Hne. unfold BlsModel.multi_sig_verify.
    destruct (map ver_key_of sks) as [|v vs] eqn:EV. { destruct sks; [contradiction|discriminate]. }
    rewrite <- EV.
    assert (F : forallb (valid2 K V2) (map ver_key_of sks) = true).
    { apply forallb_forall. intros x Hx. apply in_map_iff in Hx as (km & <- & _). reflexivity. }
    rewrite F. cbn [negb]. destruct sigma as [s|n]; [|split; discriminate].
    unfold multi_sig_verify_internal. rewrite sum_keys, vadd_0_l, verify_internal_iff, vsum_scal. split; congruence.
  Qed.
  Theorem C43_multi_sig_complete (sks : list K) msg : sks <> [] ->
    exists agg, aggregate (map (fun sk => sign sk msg cs_id) sks) = Ok agg /\
      multi_sig_verify (map ver_key_of sks) msg agg = Ok tt.
  Proof.
    intro Hne. exists (Valid (vsum (map (fun sk => vmul sk (h2c (msg ++ cs_id))) sks))).
    split; [|apply C43_multi_sig_exact; auto].
    unfold BlsModel.sign. rewrite <- (map_map (fun sk => vmul sk (h2c (msg ++ cs_id))) Valid).
    rewrite C43_aggregate. destruct sks; [contradiction|reflexivity].
  Qed.

  (** C43: multi-signature verification does not show that each key owner signed.  For
      any (valid) key and message, whoever then registers the right key of their own
      obtains an accepted multi-signature without the other's secret.  (The keys must
      come with proofs of possession, which this code does not ask for.) *)
  Theorem C43_rogue_key_refuted (vk : V2) (mine : K) msg :
    let rogue := vadd (vmul mine g2) (vopp vk) in
    multi_sig_verify [Valid vk; Valid rogue] msg (Valid (vmul mine (h2c (msg ++ cs_id)))) = Ok tt.
  Proof.
    cbn zeta. unfold BlsModel.multi_sig_verify, multi_sig_verify_internal. cbn [forallb valid2 andb negb fold_left].
    rewrite !Hadd2, vadd_0_l. replace (vadd vk (vadd (vmul mine g2) (vopp vk))) with (vmul mine g2).
    - apply verify_internal_iff. reflexivity.
    - rewrite vadd_swap, vadd_opp, vadd_0_r. reflexivity.
  Qed.
  (** C43: the checked verifiers accept the identity as a key: under it the identity
      signs every message. *)
  Theorem C43_identity_key_refuted msg csid vks msgs sigma :
    verify (Valid v0) msg (Valid v0) csid = Ok tt /\
    (multi_sig_verify [Valid v0] msg (Valid v0) = Ok tt) /\
    (aggregate_verify vks msgs sigma = Ok tt -> length vks = length msgs ->
      aggregate_verify (Valid v0 :: vks) (msg :: msgs) sigma = Ok tt).
  Proof.
    assert (A : forall m c, verify (Valid v0) m (Valid v0) c = Ok tt).
    { intros m c. cbn [BlsModel.verify]. rewrite <- (vmul_0_l _ _ g2). apply verify_internal_iff.
      rewrite vmul_0_l. reflexivity. }
    split; [apply A|split].
    - unfold BlsModel.multi_sig_verify, multi_sig_verify_internal. cbn [forallb valid2 andb negb fold_left].
      rewrite Hadd2, vadd_0_l. apply A.
    - unfold BlsModel.aggregate_verify. intros H L. destruct vks as [|vk vks]; [discriminate|].
      cbn [length] in *. rewrite L in *. cbn [Nat.eqb] in *. rewrite Nat.eqb_refl in *. cbn [negb] in *.
      cbn [forallb valid2 andb] in *. destruct (valid2 _ _ vk && forallb _ vks)%bool; [|discriminate].
      cbn [negb] in *. destruct sigma as [s|]; [|discriminate].
      unfold aggregate_verify_internal in *. cbn [map app combine] in *. rewrite vsum_cons. cbn [fst snd] in *.
      rewrite Hpair, pe_0_r, vadd_0_l. exact H.
  Qed.
  (** C43: message and identifier are concatenated without a separator, so signatures do
      not bind where one ends and the other begins. *)
  Theorem C43_identifier_refuted sk msg a b :
    verify (ver_key_of sk) msg (sign sk (msg ++ a) b) (a ++ b) = Ok tt.
  Proof.
    apply C43_other_message. right. rewrite app_assoc. reflexivity.
  Qed.

  (** ** C45: the VRF *)
  Variable digest : list Z -> list Z.
  Variable serialize : pt V1 -> list Z.
  Notation vrf_verify := (vrf_verify K V1 V2 VT raw_pairing g2 h2c digest serialize).
  Notation vrf_prove := (vrf_prove K V1 h2c).
  Notation vrf_evaluate := (vrf_evaluate K V1 h2c digest serialize).

  Lemma verify381_iff vk input proof : verify381 K V1 V2 VT raw_pairing g2 h2c vk input proof = Ok tt <->
    exists k s, vk = Valid k /\ proof = Valid s /\ k <> v0 /\ s <> v0 /\ e s g2 = e (h2c input) k.
  Proof.
    unfold verify381. destruct vk as [k|]; cbn [check2 negb]; [|split; [discriminate|intros (k & s & A & _); discriminate]].
    destruct (veqb k v0) eqn:Ek; cbn [negb].
    { apply veqb_eq in Ek. split; [discriminate|]. intros (k' & s & A & _ & B & _). congruence. }
    destruct proof as [s|]; cbn [check1 negb]; [|split; [discriminate|intros (k' & s & _ & A & _); discriminate]].
    destruct (veqb s v0) eqn:Es; cbn [negb].
    { apply veqb_eq in Es. split; [discriminate|]. intros (k' & s' & _ & A & _ & B & _). congruence. }
    rewrite !Hpair.
    assert (Nk : k <> v0) by (intro A; apply veqb_eq in A; congruence).
    assert (Ns : s <> v0) by (intro A; apply veqb_eq in A; congruence).
    destruct (veqb (e s g2) _) eqn:E; split; intro H; try discriminate; try reflexivity.
    - apply veqb_eq in E. exists k, s. auto.
    - destruct H as (k' & s' & A & B & _ & _ & C). exfalso.
      assert (k' = k) by congruence. assert (s' = s) by congruence. subst. apply veqb_eq in C. congruence.
  Qed.

  (** C45: an honest proof is accepted and yields the output the key owner computes
      with [evaluate]; the scheme object is unchanged, so calls can be repeated.
      (Keys are nonzero by construction in blst.) *)
  Theorem C45_complete st sk input : sk <> 0 -> g2 <> v0 -> h2c input <> v0 ->
    vrf_verify st (vrf_prove sk input) (ver_key_of sk) input = (st, (true, Some (snd (vrf_evaluate st sk input)))) /\
    fst (vrf_evaluate st sk input) = st.
  Proof.
    intros Hs Hg Hh. split; [|reflexivity]. unfold BlsModel.vrf_verify.
    assert (A : verify381 K V1 V2 VT raw_pairing g2 h2c (ver_key_of sk) input (vrf_prove sk input) = Ok tt).
    { apply verify381_iff. exists (vmul sk g2), (vmul sk (h2c input)).
      repeat split; auto; try (intro A; apply vmul_eq_0 in A as [?|?]; contradiction).
      rewrite pe_mul_l, pe_mul_r. reflexivity. }
    rewrite A. reflexivity.
  Qed.
  (** C45: for each key and input at most one proof is accepted, hence at most one
      output: uniqueness holds for every key, also one not generated honestly. *)
  Theorem C45_unique st st' vk input proof proof' out out' :
    snd (vrf_verify st proof vk input) = (true, out) ->
    snd (vrf_verify st' proof' vk input) = (true, out') ->
    proof = proof' /\ (st = st' -> out = out').
  Proof.
    unfold BlsModel.vrf_verify. intros H H'.
    destruct (verify381 _ _ _ _ _ _ _ vk input proof) as [[]|?|] eqn:E; try (cbn in H; discriminate).
    destruct (verify381 _ _ _ _ _ _ _ vk input proof') as [[]|?|] eqn:E'; try (cbn in H'; discriminate).
    apply verify381_iff in E as (k & s & A & B & _ & _ & C). apply verify381_iff in E' as (k' & s' & A' & B' & _ & _ & C').
    assert (k' = k) by congruence. subst k'. assert (s = s') by (apply pe_g2_inj; congruence). subst.
    split; [reflexivity|]. intros ->. cbn in *. congruence.
  Qed.
  (** C45: the verdict and the output go together, and the scheme object never changes. *)
  Theorem C45_verdict st vk input proof :
    vrf_verify st proof vk input = (st, (true, Some (digest (st ++ serialize proof)))) \/
    vrf_verify st proof vk input = (st, (false, None)).
  Proof.
    unfold BlsModel.vrf_verify. destruct (verify381 _ _ _ _ _ _ _ vk input proof) as [[]|?|]; auto.
  Qed.
  (** C45: a proof made for one input is accepted for another exactly when both hash to
      the same group element; degenerate keys and proofs are never accepted. *)
  Theorem C45_other_input st sk input input' : sk <> 0 -> g2 <> v0 -> h2c input <> v0 ->
    (fst (snd (vrf_verify st (vrf_prove sk input) (ver_key_of sk) input')) = true <-> h2c input = h2c input').
  Proof.
    intros Hs Hg Hh. unfold BlsModel.vrf_verify.
    destruct (verify381 _ _ _ _ _ _ _ (ver_key_of sk) input' _) as [[]|?|] eqn:E; cbn [fst snd proof_to_hash].
    - apply verify381_iff in E as (k & s & A & B & _ & _ & C). split; [intros _|reflexivity].
      assert (k = vmul sk g2) by (unfold BlsModel.ver_key_of in A; congruence).
      assert (s = vmul sk (h2c input)) by (unfold BlsModel.vrf_prove, sign381 in B; congruence). subst k s.
      rewrite pe_mul_r, <- pe_mul_l in C. apply pe_g2_inj in C. eapply vmul_cancel; eauto.
    - split; [discriminate|]. intro H. exfalso.
      assert (A : verify381 K V1 V2 VT raw_pairing g2 h2c (ver_key_of sk) input' (vrf_prove sk input) = Ok tt); [|congruence].
      apply verify381_iff. exists (vmul sk g2), (vmul sk (h2c input)).
      repeat split; auto; try (intro A; apply vmul_eq_0 in A as [?|?]; contradiction).
      rewrite pe_mul_l, pe_mul_r, H. reflexivity.
    - exfalso. revert E. unfold verify381. destruct (negb _); [discriminate|]. destruct (negb _); [discriminate|].
      destruct (veqb _ _); discriminate.
  Qed.
  Theorem C45_degenerate st vk input proof :
    vk = Valid v0 \/ proof = Valid v0 \/ (exists n, vk = Invalid n) \/ (exists n, proof = Invalid n) ->
    vrf_verify st proof vk input = (st, (false, None)).
  Proof.
    intro H. unfold BlsModel.vrf_verify.
    destruct (verify381 _ _ _ _ _ _ _ vk input proof) as [[]|?|] eqn:E; try reflexivity.
    apply verify381_iff in E as (k & s & A & B & C & D & _). exfalso.
    destruct H as [H|[H|[[n H]|[n H]]]]; congruence.
  Qed.
End BlsProps.

(** ** C68: encoding *)
Section CodecProps.
  Variable T : Type.
  Variables small large : nat.
  Variables (compress serialize : T -> list Z) (uncompress deserialize : list Z -> option T).
  Variable valid : T -> bool.
  Hypothesis Hc : forall x, length (compress x) = small.
  Hypothesis Hs : forall x, length (serialize x) = large.
  Hypothesis Huc : forall x, uncompress (compress x) = Some x.
  Hypothesis Hds : forall x, deserialize (serialize x) = Some x.
  Hypothesis Hsmall : (Z.of_nat small < 256 ^ 8)%Z.
  Hypothesis Hlarge : (Z.of_nat large < 256 ^ 8)%Z.
  Notation encode := (encode T compress serialize).
  Notation decode := (decode T small large uncompress deserialize valid).

  Lemma read_exact_app n a b : length a = n -> read_exact n (a ++ b) = Ok (a, b).
  Proof.
    intro H. unfold read_exact. rewrite app_length. destruct (Nat.ltb_spec (length a + length b) n); [lia|].
    rewrite <- H, firstn_app, skipn_app, Nat.sub_diag, firstn_all, skipn_all. cbn. rewrite app_nil_r. reflexivity.
  Qed.
  Lemma le_bytes_len (l : list Z) : (Z.of_nat (length l) < 256 ^ 8)%Z -> le_val (le_bytes 8 (Z.of_nat (length l))) = Z.of_nat (length l).
  Proof. intro H. apply le_val_bytes_small. change (Z.of_nat 8) with 8%Z. lia. Qed.

  (** C68: decoding the encoding of a key or signature, followed by anything, returns it
      and leaves the rest; with validation, exactly when it is valid. *)
  Theorem C68_round_trip compressed validate x rest :
    decode compressed validate (encode compressed x ++ rest) =
    if validate && negb (valid x) then Err tt else Ok (x, rest).
  Proof.
    unfold BlsModel.encode, slice_bytes, BlsModel.decode. rewrite <- app_assoc.
    rewrite read_exact_app by apply length_le_bytes. cbn [bind].
    destruct compressed.
    - rewrite le_bytes_len by (rewrite Hc; auto). rewrite Hc, Z.eqb_refl. cbn [andb orb negb].
      rewrite read_exact_app by apply Hc. cbn [bind]. rewrite Huc. reflexivity.
    - rewrite le_bytes_len by (rewrite Hs; auto). rewrite Hs, Z.eqb_refl, andb_false_r. cbn [andb orb negb].
      rewrite read_exact_app by apply Hs. cbn [bind]. rewrite Hds. reflexivity.
  Qed.
  (** C68: an encoding made in one mode is refused in the other. *)
  Theorem C68_wrong_mode compressed validate x rest : small <> large ->
    decode (negb compressed) validate (encode compressed x ++ rest) = Err tt.
  Proof.
    intro N. unfold BlsModel.encode, slice_bytes, BlsModel.decode. rewrite <- app_assoc.
    rewrite read_exact_app by apply length_le_bytes. cbn [bind].
    destruct compressed; cbn [negb].
    - rewrite le_bytes_len by (rewrite Hc; auto). rewrite Hc, andb_false_r. cbn [orb].
      destruct (Z.eqb_spec (Z.of_nat small) (Z.of_nat large)); [lia|reflexivity].
    - rewrite le_bytes_len by (rewrite Hs; auto). rewrite Hs, andb_false_r, orb_false_r.
      destruct (Z.eqb_spec (Z.of_nat large) (Z.of_nat small)); [lia|reflexivity].
  Qed.
  (** C68: every strict prefix of an encoding is refused: decoding never reads past the
      end, and never panics on any bytes. *)
  Theorem C68_truncated compressed validate x n : (n < length (encode compressed x))%nat ->
    decode compressed validate (firstn n (encode compressed x)) = Err tt.
  Proof.
    intro H. unfold BlsModel.encode, slice_bytes, BlsModel.decode in *.
    set (pl := if compressed then compress x else serialize x) in *.
    assert (Lpl : length pl = if compressed then small else large) by (destruct compressed; [apply Hc|apply Hs]).
    rewrite app_length, length_le_bytes in H.
    rewrite firstn_app, length_le_bytes.
    destruct (le_lt_dec 8 n) as [G|G].
    - rewrite (firstn_all2 (n := n)) by (rewrite length_le_bytes; lia).
      rewrite read_exact_app by apply length_le_bytes. cbn [bind]. destruct (negb _); [reflexivity|].
      unfold read_exact. destruct (Nat.ltb_spec (length (firstn (n - 8) pl)) (if compressed then small else large)); [reflexivity|].
      rewrite firstn_length in *. lia.
    - unfold read_exact at 1. replace (n - 8)%nat with 0%nat by lia. cbn [firstn].
      rewrite app_nil_r. destruct (Nat.ltb_spec (length (firstn n (le_bytes 8 (Z.of_nat (length pl))))) 8); [reflexivity|].
      rewrite firstn_length, length_le_bytes in *. lia.
  Qed.
  Theorem C68_never_panics compressed validate bs : decode compressed validate bs <> Panic.
  Proof.
    unfold BlsModel.decode, read_exact. destruct (_ <? _)%nat; [discriminate|]. cbn [bind].
    destruct (negb _); [discriminate|]. destruct (_ <? _)%nat; [discriminate|]. cbn [bind].
    destruct (if compressed then _ else _); [destruct (_ && _)%bool|]; discriminate.
  Qed.
  (** C68: what decodes with validation is valid. *)
  Theorem C68_validated compressed bs x rest : decode compressed true bs = Ok (x, rest) -> valid x = true.
  Proof.
    unfold BlsModel.decode, read_exact. destruct (_ <? _)%nat; [discriminate|]. cbn [bind].
    destruct (negb _); [discriminate|]. destruct (_ <? _)%nat; [discriminate|]. cbn [bind].
    destruct (if compressed then _ else _) as [y|]; [|discriminate]. cbn [andb].
    destruct (valid y) eqn:E; cbn [negb]; [|discriminate]. intro H. assert (y = x) by congruence. congruence.
  Qed.
  (** C68: encodings are 8 bytes longer than every size method announces, and for a
      key in uncompressed mode [serialized_size] announces the compressed length. *)
  Theorem C68_sizes_refuted x :
    length (encode true x) = (8 + vk_serialized_size small true)%nat /\
    length (encode true x) = (8 + sig_serialized_size small large true)%nat /\
    length (encode false x) = (8 + sig_serialized_size small large false)%nat /\
    length (encode false x) = (8 + vk_uncompressed_size large)%nat /\
    (small <> large -> length (encode false x) <> (8 + vk_serialized_size small false)%nat).
  Proof.
    unfold BlsModel.encode, slice_bytes, vk_serialized_size, sig_serialized_size, vk_uncompressed_size.
    rewrite !app_length, !length_le_bytes, Hc, Hs. repeat split; lia.
  Qed.
End CodecProps.

(** ** Concrete cases *)
Definition bls_e : pairing F97 (self_vsp F97) (self_vsp F97) (self_vsp F97).
Proof.
  pose proof (fth F97) as R.
  refine (mk_pairing F97 (self_vsp F97) (self_vsp F97) (self_vsp F97) (@fmul F97) _ _ _ _); intros; cbn [self_vsp vadd vmul vcar].
  all: apply zp_ext; cbn [fadd fmul F97 Zp zv zmk]; rewrite ?Zplus_mod_idemp_l, ?Zplus_mod_idemp_r, ?Zmult_mod_idemp_l, ?Zmult_mod_idemp_r, ?Zplus_mod_idemp_l, ?Zplus_mod_idemp_r; f_equal; ring.
Defined.
Definition bls_rp (a : pt (self_vsp F97)) (b : pt (self_vsp F97)) : self_vsp F97 :=
  match a, b with Valid a, Valid b => bls_e a b | _, _ => e97 1 end.
Definition bls_add (a b : pt (self_vsp F97)) : pt (self_vsp F97) :=
  match a, b with Valid a, Valid b => Valid (vadd a b) | _, _ => Invalid 0 end.
Definition bls_neg (a : pt (self_vsp F97)) : pt (self_vsp F97) :=
  match a with Valid a => Valid (vopp a) | Invalid n => Invalid n end.
Definition bls_h (m : list Z) : self_vsp F97 := e97 (1 + fold_right (fun b a => b + 3 * a) 5 m)%Z.
Definition bls_g : self_vsp F97 := e97 5.

(** The hypotheses of the section hold, a signature is accepted, and three signers on
    three messages aggregate; a wrong message is refused. *)
Example C43_case :
  (forall a b, bls_rp (Valid a) (Valid b) = bls_e a b) /\
  (forall a, bls_e a bls_g = v0 -> a = v0).
Proof.
  split; [reflexivity|]. intros a H. change (fmul a bls_g = f0) in H. apply fmul_eq_0 in H as [H|H]; [exact H|].
  discriminate H.
Qed.
Example C43_run :
  let vk k := ver_key_of F97 (self_vsp F97) bls_g (e97 k) in
  let sg k m := sign F97 (self_vsp F97) bls_h (e97 k) m [9%Z] in
  verify F97 _ _ _ bls_rp bls_g bls_h (vk 7%Z) [1; 2]%Z (sg 7%Z [1; 2]%Z) [9%Z] = Ok tt /\
  verify F97 _ _ _ bls_rp bls_g bls_h (vk 7%Z) [1; 3]%Z (sg 7%Z [1; 2]%Z) [9%Z] = Err VerificationError /\
  (let* agg := aggregate F97 _ bls_add [sg 7%Z [1]%Z; sg 11%Z [2; 2]%Z; sg 13%Z []] in
   aggregate_verify F97 _ _ _ bls_rp bls_neg bls_g bls_h [9%Z] [vk 7%Z; vk 11%Z; vk 13%Z] [[1]; [2; 2]; []]%Z agg) = Ok tt /\
  (let* agg := aggregate F97 _ bls_add [sg 7%Z [4]%Z; sg 11%Z [4]%Z] in
   multi_sig_verify F97 _ _ _ bls_rp bls_add bls_g bls_h [9%Z] [vk 7%Z; vk 11%Z] [4]%Z agg) = Ok tt.
Proof. vm_compute. repeat split. Qed.
(** A hash to the curve [y^2 = x^3 + 3] over the field of 97 elements that needs more
    than one attempt. *)
Definition sq97 (y : F97) : option F97 :=
  match filter (fun n => feqb (fmul (e97 (Z.of_nat n)) (e97 (Z.of_nat n))) y) (seq 0 97) with
  | [] => None | n :: _ => Some (e97 (Z.of_nat n)) end.
Definition qnr97 (y : F97) : bool := match sq97 y with None => true | Some _ => false end.
Example C69_hash_case :
  match hash_to_curve 97 prime_97 (fun m => e97 (hd 0%Z m)) qnr97 sq97 97 [3%Z] with
  | Ok (x, y) => (zv 97 x, zv 97 y) = (5, 15)%Z
  | _ => False
  end.
Proof. vm_compute. reflexivity. Qed.
Example C45_run :
  let pr := vrf_prove F97 (self_vsp F97) bls_h (e97 7) [1; 2]%Z in
  let ser (p : pt (self_vsp F97)) := match p with Valid v => [zv 97 v] | Invalid _ => [] end in
  let vk := ver_key_of F97 (self_vsp F97) bls_g (e97 7) in
  snd (vrf_verify F97 _ _ _ bls_rp bls_g bls_h (fun l => l) ser vrf_new pr vk [1; 2]%Z) = (true, Some (snd (vrf_evaluate F97 _ bls_h (fun l => l) ser vrf_new (e97 7) [1; 2]%Z))) /\
  snd (vrf_verify F97 _ _ _ bls_rp bls_g bls_h (fun l => l) ser vrf_new pr vk [1; 3]%Z) = (false, None).
Proof. vm_compute. split; reflexivity. Qed.
Example C68_run :
  let comp (x : Z) := [x] in let ser (x : Z) := [x; x + 1]%Z in
  let unc l := match l with [x] => Some x | _ => None end in
  let des l := match l with [x; y] => if (y =? x + 1)%Z then Some x else None | _ => None end in
  decode Z 1 2 unc des (fun x => (0 <? x)%Z) false true (encode Z comp ser false 4%Z ++ [77]%Z) = Ok (4, [77])%Z /\
  decode Z 1 2 unc des (fun x => (0 <? x)%Z) true true (encode Z comp ser true 0%Z) = Err tt.
Proof. vm_compute. split; reflexivity. Qed.

Print Assumptions C69_hash_to_curve.
Print Assumptions C69_hash_to_curve_total.
Print Assumptions C69_hash_to_curve_canonical.
Print Assumptions C43_verify_exact.
Print Assumptions C43_other_message.
Print Assumptions C43_aggregate.
Print Assumptions C43_aggregate_exact.
Print Assumptions C43_aggregate_complete.
Print Assumptions C43_aggregate_order.
Print Assumptions C43_refusals.
Print Assumptions C43_multi_sig_exact.
Print Assumptions C43_multi_sig_complete.
Print Assumptions C43_rogue_key_refuted.
Print Assumptions C43_identity_key_refuted.
Print Assumptions C43_identifier_refuted.
Print Assumptions C45_complete.
Print Assumptions C45_unique.
Print Assumptions C45_verdict.
Print Assumptions C45_other_input.
Print Assumptions C45_degenerate.
Print Assumptions C68_round_trip.
Print Assumptions C68_wrong_mode.
Print Assumptions C68_truncated.
Print Assumptions C68_never_panics.
Print Assumptions C68_validated.
Print Assumptions C68_sizes_refuted.
