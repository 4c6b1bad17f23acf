(** Range and comparison gadgets: the constraints they add mean exactly the
    integer relation on canonical representatives. *)

From Coq Require Import List Arith ZArith Bool Lia.
From Verif Require Import Base ListAux Alg Poly CircuitModel CircuitProofs GadgetModel GadgetProofs RangeProofs BitProofs.
Import ListNotations.
Local Open Scope fld_scope.
Local Open Scope circ_scope.

Definition outs (n : nat) (vs : list nat) (m : nat) : Prop :=
  length vs = n /\ Forall (fun v => v < m)%nat vs.

Lemma chunk_val_split m l :
  chunk_val l = (chunk_val (firstn m l) + 2 ^ Z.of_nat m * chunk_val (skipn m l))%Z.
Proof.
  destruct (le_lt_dec (length l) m) as [H|H].
  - rewrite firstn_all2, skipn_all2 by lia. rewrite chunk_val_nil. lia.
  - rewrite <- (firstn_skipn m l) at 1. rewrite chunk_val_app, firstn_length_le by lia. reflexivity.
Qed.
Lemma chunk_val_firstn m l : chunk_val (firstn m l) = (chunk_val l mod 2 ^ Z.of_nat m)%Z.
Proof.
  rewrite (chunk_val_split m l) at 1. rewrite Z.add_comm, Z.mul_comm, Z.add_comm, Z_mod_plus_full.
  symmetry. apply Z.mod_small. pose proof (chunk_val_range (firstn m l)) as H.
  rewrite firstn_length in H.
  assert (2 ^ Z.of_nat (Nat.min m (length l)) <= 2 ^ Z.of_nat m)%Z by (apply Z.pow_le_mono_r; lia). lia.
Qed.
Lemma chunk_val_skipn m l : chunk_val (skipn m l) = (chunk_val l / 2 ^ Z.of_nat m)%Z.
Proof.
  rewrite (chunk_val_split m l) at 1. pose proof (Z.pow_pos_nonneg 2 (Z.of_nat m)).
  rewrite Z.add_comm, Z.mul_comm, Z.div_add_l by lia.
  rewrite chunk_val_firstn. rewrite Z.div_small; [lia|]. apply Z.mod_pos_bound; lia.
Qed.

Section Specs.
  Context {K : fld}.
  Variable zval : K -> Z.
  Variable p : Z.
  Variable nb L : nat.
  Hypothesis HF : pfield K zval p nb L.
  Add Field Kfield_cp : (fth K).
  Notation gspec := (gspec zval).
  Notation dsat := (dsat zval).

  Ltac start := unfold gspec, CircuitProofs.gspec; unfold out, noout.

  Lemma map_k2b_b2k (bs : list bool) : map k2b (map (b2k (K:=K)) bs) = bs.
  Proof. rewrite map_map. rewrite (map_ext _ (fun b => b)); [apply map_id|]. intros. apply k2b_b2k. Qed.

  Lemma bits_val v n : (n <= L)%nat ->
    chunk_val (firstn n (bits_le L (zval v))) = (zval v mod 2 ^ Z.of_nat n)%Z.
  Proof.
    intros Hn. rewrite chunk_val_firstn. pose proof (pf_range _ _ _ _ _ HF v) as Hv.
    unfold bits_le. rewrite chunk_val_testbits by lia. now rewrite (pf_repr_mod zval p nb L HF).
  Qed.

  (** [range_gate_internal] *)
  Lemma range_gate_internal_spec c a n : wf c -> (a < num_vars c)%nat -> (1 <= n <= L)%nat ->
    gspec (range_gate_internal zval p nb L a n) c
      (fun w vs => Forall isb (map w vs) /\ w a = fZ (chunk_val (map k2b (map w vs)))
                   /\ (n = nb -> (chunk_val (map k2b (map w vs)) < p)%Z))
      (fun w => (zval (w a) < 2 ^ Z.of_nat n)%Z) (outs n).
  Proof.
    intros Hw Ha Hn; start. unfold range_gate_internal. wstep.
    destruct (Nat.eqb_spec n 0); [lia|]. wstep. cbn zeta.
    rewrite length_bits_le. destruct (Nat.ltb_spec L n); [lia|].
    set (bs := firstn n (bits_le L (zval (hon c a)))).
    assert (Hbs : length bs = n) by (unfold bs; rewrite firstn_length, length_bits_le; lia).
    apply wpc_bind. eapply wpc_mono; [apply (mapM_bool_spec zval); wfs|].
    intros vs d _ (Hvs & Hd & Hsat).
    assert (Hnv : num_vars (capp c d) = (num_vars c + n)%nat).
    { cbn [capp num_vars]. rewrite Hd, map_length, Hbs. reflexivity. }
    assert (Hvb : Forall (fun v => v < num_vars (capp c d))%nat vs).
    { rewrite Hvs, Hnv, Hbs. apply Forall_forall. intros x Hx. apply in_seq in Hx. lia. }
    assert (Hlen : length vs = n) by (rewrite Hvs, seq_length; auto).
    assert (Hne : vs <> []) by (intros ->; cbn in Hlen; lia).
    assert (Hval : forall w, hext (capp c d) w -> map w vs = map b2k bs).
    { intros w Hw'. rewrite Hvs. rewrite <- Hd, <- (hext_seq c d w Hw Hw').
      rewrite Hd, map_length. reflexivity. }
    assert (Hc : forall w, hext c w -> w a = hon c a) by (intros w Hw'; apply Hw'; auto).
    assert (Hbv : forall w, hext (capp c d) w -> hext c w -> (zval (w a) < 2 ^ Z.of_nat n)%Z ->
       Forall isb (map w vs) /\ chunk_val (map k2b (map w vs)) = zval (w a) /\
       w a = peval (map w vs) (fZ 2)).
    { intros w H1 H2 H3. pose proof (pf_range _ _ _ _ _ HF (w a)).
      assert (Hi : Forall isb (map w vs)).
      { rewrite (Hval w H1). apply Forall_forall. intros x Hx. apply in_map_iff in Hx as (b & <- & _).
        apply isb_b2k. }
      assert (Hcv : chunk_val (map k2b (map w vs)) = zval (w a)).
      { rewrite (Hval w H1), map_k2b_b2k. unfold bs.
        rewrite bits_val by lia. rewrite <- (Hc w H2). apply Z.mod_small. lia. }
      split; [|split]; auto. rewrite peval_bits, Hcv by auto. symmetry. apply (pf_fZ _ _ _ _ _ HF). }
    apply wpc_assoc || idtac.
    destruct (Nat.eqb_spec n nb) as [En|En]; unfold binary_decomposition_gate; repeat wstep.
    - use decomposition_gate_spec; auto.
      use canonical_check_spec.
      + exact HF.
      + eapply Forall_impl; [|exact Hvb]. cbn beta. intros. bnd.
      + repeat wstep. leaf; auto.
        * match goal with H : CircuitProofs.dsat _ _ _ d |- _ => apply Hsat in H end. split; [|split]; auto. rewrite F0. apply peval_bits; auto.
        * apply Hsat. apply (Hbv w); auto.
        * apply Cmp; auto. apply (Hbv w); auto.
        * destruct (Hbv w) as (B1 & B2 & _); auto. apply Cmp0; auto. split; auto.
          rewrite B2. apply (pf_range _ _ _ _ _ HF).
        * split; auto. eapply Forall_impl; [|exact Hvb]. cbn beta. intros. bnd.
    - use decomposition_gate_spec; auto. repeat wstep. leaf; auto.
      + match goal with H : CircuitProofs.dsat _ _ _ d |- _ => apply Hsat in H end. split; [|split]; auto; [|congruence]. rewrite F. apply peval_bits; auto.
      + apply Hsat. apply (Hbv w); auto.
      + apply Cmp; auto. apply (Hbv w); auto.
      + split; auto. eapply Forall_impl; [|exact Hvb]. cbn beta. intros. bnd.
  Qed.

  Lemma fpow_two n : fpow (fZ 2) n = (fZ (2 ^ Z.of_nat n) : K).
  Proof.
    induction n as [|n IH]; [cbn [fpow]; change (2 ^ Z.of_nat 0)%Z with 1%Z; now rewrite fZ_1|].
    cbn [fpow]. rewrite Nat2Z.inj_succ, Z.pow_succ_r, fZ_mul, IH by lia. reflexivity.
  Qed.
  Lemma zval_pow n : (n < nb)%nat -> zval (fpow (fZ 2) n) = (2 ^ Z.of_nat n)%Z.
  Proof.
    intros Hn. rewrite fpow_two. apply (zval_small zval p nb L HF).
    pose proof (pow_lt_p zval p nb L HF n Hn). pose proof (Z.pow_pos_nonneg 2 (Z.of_nat n)). lia.
  Qed.

  (** The bits of a satisfying assignment are the bits of the canonical
      representative. *)
  Definition is_bits (w : nat -> K) (a : nat) (vs : list nat) : Prop :=
    Forall isb (map w vs) /\ chunk_val (map k2b (map w vs)) = zval (w a).

  Lemma unpack_spec c a n : wf c -> (a < num_vars c)%nat -> (1 <= n <= nb)%nat ->
    (zval (hon c a) < 2 ^ Z.of_nat n)%Z ->
    gspec (unpack zval p nb L a n) c (fun w vs => is_bits w a vs) (fun _ => True) (outs n).
  Proof.
    intros Hw Ha Hn Hv; start. unfold unpack. pose proof (pf_len _ _ _ _ _ HF).
    assert (G : wpc (range_gate_internal zval p nb L a n) c (fun a0 d =>
      (forall w, base w -> dsat (ptype c) w d -> is_bits w a a0) /\
      (forall w, base w -> hext (capp c d) w -> True -> dsat (ptype c) w d) /\
      outs n a0 (num_vars c + length (d_vals d)))).
    { eapply wpc_mono; [apply range_gate_internal_spec; auto; lia|].
      intros vs d _ (S1 & S2 & S3). split; [|split]; auto.
      - intros w Hb Hs. destruct (S1 w Hb Hs) as (B1 & B2 & B3). split; auto.
        rewrite B2. symmetry. apply (zval_small zval p nb L HF). pose proof (chunk_val_range (map k2b (map w vs))) as Hr.
        rewrite !map_length, (proj1 S3) in Hr.
        destruct (Nat.eq_dec n nb) as [E|E]; [specialize (B3 E); lia|].
        pose proof (pow_lt_p zval p nb L HF n ltac:(lia)). lia.
      - intros w Hb Hh _. apply S2; auto. rewrite (hext_app1 c d w Hw Hh a Ha). auto. }
    destruct (Nat.ltb_spec n nb).
    - repeat wstep. rewrite zval_pow by auto.
      destruct (Z.leb_spec (2 ^ Z.of_nat n) (zval (hon c a))); [lia|]. repeat wstep. exact G.
    - repeat wstep. exact G.
  Qed.
  Lemma unpack_full_spec c a : wf c -> (a < num_vars c)%nat ->
    gspec (unpack zval p nb L a nb) c (fun w vs => is_bits w a vs) (fun _ => True) (outs nb).
  Proof.
    intros Hw Ha. apply unpack_spec; auto.
    - pose proof (pf_nb zval p nb L HF). lia.
    - pose proof (pf_range _ _ _ _ _ HF (hon c a)). pose proof (pf_hi _ _ _ _ _ HF). lia.
  Qed.
  (** [unpack] refuses a value that does not fit. *)
  Lemma unpack_err c a n : wf c -> (a < num_vars c)%nat -> (n < nb)%nat ->
    (2 ^ Z.of_nat n <= zval (hon c a))%Z ->
    unpack zval p nb L a n c = (Err ParameterError, c).
  Proof.
    intros Hw Ha Hn Hv. unfold unpack. destruct (Nat.ltb_spec n nb); [|lia].
    unfold cbind, get_witness, check_var_bound, lift, cbind.
    destruct (Nat.leb_spec (num_vars c) a); [lia|].
    rewrite (index_nth _ 0) by (rewrite (wf_wit _ Hw); auto).
    rewrite zval_pow by auto. change (nth a (witness c) 0) with (hon c a).
    destruct (Z.leb_spec (2 ^ Z.of_nat n) (zval (hon c a))); [reflexivity|lia].
  Qed.

  Lemma fsum_bits (l : list K) : Forall isb l ->
    exists k, fsum l = fZ k /\ (0 <= k <= Z.of_nat (length l))%Z /\
              (k = 0%Z <-> chunk_val (map k2b l) = 0%Z).
  Proof.
    induction 1 as [|x l Hx _ IH]; [exists 0%Z; cbn; repeat split; auto; lia|].
    destruct IH as (k & E & Hk & Hz). cbn [fsum fold_right map length].
    pose proof (chunk_val_range (map k2b l)).
    exists ((if k2b x then 1 else 0) + k)%Z. rewrite chunk_val_cons, fZ_add, <- E.
    split; [|split].
    - f_equal. rewrite <- (b2k_k2b x Hx) at 1. destruct (k2b x); cbn [b2k]; [now rewrite fZ_1|reflexivity].
    - destruct (k2b x); lia.
    - destruct (k2b x); lia.
  Qed.

  Lemma is_in_range_spec c a n : wf c -> (a < num_vars c)%nat -> (n < nb)%nat ->
    gspec (is_in_range zval p nb L a n) c
      (fun w o => w o = b2k (zval (w a) <? 2 ^ Z.of_nat n)%Z) (fun _ => True) out.
  Proof.
    intros Hw Ha Hn; start. unfold is_in_range. use unpack_full_spec. destruct R as [R1 R2].
    destruct (Nat.ltb_spec (length a0) n); [lia|].
    assert (Hs : Forall (fun v => v < num_vars (capp c d))%nat (skipn n a0)).
    { rewrite <- (firstn_skipn n a0) in R2. apply Forall_app in R2 as [_ R2]. exact R2. }
    use csum_spec.
    { intros E. apply (f_equal (@length nat)) in E. rewrite skipn_length in E. cbn in E. lia. }
    use is_zero_spec. leaf; auto.
    rewrite F, F0. f_equal. destruct F1 as [B1 B2].
    rewrite <- skipn_map. 
    assert (B3 : Forall isb (skipn n (map w a0))).
    { rewrite <- (firstn_skipn n (map w a0)) in B1. now apply Forall_app in B1. }
    destruct (fsum_bits _ B3) as (k & Ek & Hk & Hz). rewrite Ek.
    rewrite <- skipn_map, chunk_val_skipn, B2 in Hz. rewrite skipn_length, map_length, R1 in Hk.
    pose proof (nb_lt_p zval p nb L HF). pose proof (pf_range _ _ _ _ _ HF (w a)) as Hr.
    pose proof (Z.pow_pos_nonneg 2 (Z.of_nat n)) as Hp2.
    destruct (Z.ltb_spec (zval (w a)) (2 ^ Z.of_nat n)) as [Hlt|Hge].
    - apply feqb_eq. assert (k = 0%Z) by (apply Hz, Z.div_small; lia). subst k. reflexivity.
    - apply feqb_neq. intros E0.
      assert (Ez : zval (fZ k) = 0%Z) by (rewrite E0; change (0 : K) with (fZ 0 : K); apply (zval_small zval p nb L HF); lia).
      rewrite (zval_small zval p nb L HF) in Ez by lia. apply Hz in Ez.
      apply Z.div_small_iff in Ez; lia.
  Qed.

  (** Comparison with a constant. *)
  Definition gt_body (cur : nat) (bx : bool * nat) : circ K nat :=
    let '(b, x) := bx in if (b : bool) then logic_and x cur else logic_or x cur.
  Lemma gt_foldM_spec l : forall c cur, wf c -> (cur < num_vars c)%nat ->
    Forall (fun bx => snd bx < num_vars c)%nat l ->
    gspec (foldM gt_body cur l) c
      (fun w o => isb (w cur) -> Forall (fun bx => isb (w (snd bx))) l ->
         w o = b2k (gt_fold (k2b (w cur)) (map (fun bx => (fst bx, k2b (w (snd bx)))) l)))
      (fun _ => True) out.
  Proof.
    induction l as [|[b x] l IH]; intros c cur Hw Hc Hl; start.
    - cbn [foldM]. wstep. leaf; auto. intros Hcur _. cbn [map gt_fold]. now rewrite b2k_k2b.
    - cbn [foldM]. inversion Hl; subst. cbn [snd] in *. unfold gt_body at 1. destruct b.
      + use logic_and_spec. use IH.
        { eapply Forall_impl; [|eassumption]. cbn beta. intros. bnd. }
        leaf; auto. intros Hcur Hbs. inversion Hbs; subst. cbn [snd] in *.
        assert (E : w a = b2k (k2b (w x) && k2b (w cur))).
        { rewrite F0. rewrite <- (b2k_k2b (w cur)) at 1 by auto. rewrite <- (b2k_k2b (w x)) at 1 by auto.
          apply b2k_and. }
        rewrite F; auto; [|rewrite E; apply isb_b2k]. cbn [map gt_fold fst snd].
        now rewrite E, k2b_b2k.
      + use logic_or_spec. use IH.
        { eapply Forall_impl; [|eassumption]. cbn beta. intros. bnd. }
        leaf; auto. intros Hcur Hbs. inversion Hbs; subst. cbn [snd] in *.
        assert (E : w a = b2k (k2b (w x) || k2b (w cur))).
        { rewrite F0. rewrite <- (b2k_k2b (w cur)) at 1 2 by auto. rewrite <- (b2k_k2b (w x)) at 1 2 by auto.
          apply b2k_or. }
        rewrite F; auto; [|rewrite E; apply isb_b2k]. cbn [map gt_fold fst snd].
        now rewrite E, k2b_b2k.
  Qed.

  Lemma skip_ones_spec (f : nat -> bool) l :
    gt_fold false (map (fun bx => (fst bx, f (snd bx))) l) =
    match skip_ones l with
    | [] => false
    | (_, v) :: rest => gt_fold (f v) (map (fun bx => (fst bx, f (snd bx))) rest)
    end.
  Proof.
    induction l as [|[[|] x] l IH]; cbn [map gt_fold skip_ones fst snd]; auto.
    - rewrite andb_false_r. exact IH.
    - rewrite orb_false_r. reflexivity.
  Qed.
  Lemma skip_ones_incl l : incl (skip_ones l) l.
  Proof.
    induction l as [|[[|] x] l IH]; cbn [skip_ones]; [apply incl_refl| |apply incl_refl].
    apply incl_tl; auto.
  Qed.

  Lemma is_gt_constant_internal_spec c a k : wf c -> (a < num_vars c)%nat ->
    gspec (is_gt_constant_internal zval p nb L a k) c
      (fun w o => w o = b2k (zval k <? zval (w a))%Z) (fun _ => True) out.
  Proof.
    intros Hw Ha; start. unfold is_gt_constant_internal. use unpack_full_spec. destruct R as [R1 R2].
    cbn zeta. rewrite R1, length_bits_le. pose proof (pf_len _ _ _ _ _ HF).
    replace (nb - L)%nat with 0%nat by lia. cbn [repeat]. rewrite app_nil_r.
    set (l := combine (firstn nb (bits_le L (zval k))) a0).
    assert (Hl1 : length (firstn nb (bits_le L (zval k))) = length a0).
    { rewrite firstn_length, length_bits_le, R1. lia. }
    assert (Hin : forall b v, In (b, v) l -> In v a0) by (intros b v Hv; eapply in_combine_r; exact Hv).
    assert (Hkey : forall w, is_bits w a a0 ->
       gt_fold false (map (fun bx => (fst bx, k2b (w (snd bx)))) l) = (zval k <? zval (w a))%Z).
    { intros w [B1 B2]. rewrite gt_fold_spec. cbn [andb]. rewrite orb_false_r.
      rewrite !map_map. cbn [fst snd]. unfold l.
      assert (E1 : map (fun x : bool * nat => fst x) (combine (firstn nb (bits_le L (zval k))) a0) = firstn nb (bits_le L (zval k))).
      { rewrite (map_ext _ fst) by auto. clear - Hl1. revert a0 Hl1. induction (firstn nb (bits_le L (zval k))) as [|x xs IH]; intros [|y ys] H; try discriminate; auto.
        cbn. f_equal. apply IH. cbn in H; lia. }
      assert (E2 : map (fun x : bool * nat => k2b (w (snd x))) (combine (firstn nb (bits_le L (zval k))) a0) = map k2b (map w a0)).
      { clear - Hl1. rewrite map_map. revert a0 Hl1. induction (firstn nb (bits_le L (zval k))) as [|x xs IH]; intros [|y ys] H; try discriminate; auto.
        cbn. f_equal. apply IH. cbn in H; lia. }
      rewrite E1, E2, B2. rewrite bits_val by lia.
      rewrite Z.mod_small; [reflexivity|]. pose proof (pf_range _ _ _ _ _ HF k). pose proof (pf_hi _ _ _ _ _ HF). lia. }
    pose proof (fun f => skip_ones_spec f l) as Hskip. pose proof (skip_ones_incl l) as Hincl.
    destruct (skip_ones l) as [|[b v] rest].
    - pose proof (wf_two _ Hw). wstep. leaf; auto.
      rewrite <- (Hkey w F). rewrite (Hskip (fun v => k2b (w v))). auto.
    - use gt_foldM_spec.
      { rewrite Forall_forall in R2. apply R2. apply (Hin b), Hincl. left; auto. }
      { rewrite Forall_forall in R2. apply Forall_forall. intros [b' v'] Hv. apply R2.
        apply (Hin b'), Hincl. right; auto. }
      leaf; auto.
      rewrite <- (Hkey w F0). rewrite (Hskip (fun v => k2b (w v))).
      destruct F0 as [B1 B2]. rewrite Forall_forall in B1.
      apply F.
      + apply B1, in_map. apply (Hin b), Hincl. left; auto.
      + apply Forall_forall. intros [b' v'] Hv. apply B1, in_map. apply (Hin b'), Hincl. right; auto.
  Qed.

  Lemma zval_half : zval (half p) = ((p - 1) / 2)%Z.
  Proof.
    unfold half. apply (zval_small zval p nb L HF). pose proof (pf_pos zval p nb L HF).
    split; [apply Z.div_pos; lia|]. apply Z.div_lt_upper_bound; lia.
  Qed.
  Lemma zval_sub x y : zval (x - y) = ((zval x - zval y) mod p)%Z.
  Proof.
    rewrite <- (pf_zval _ _ _ _ _ HF). rewrite fZ_sub, !(pf_fZ _ _ _ _ _ HF). reflexivity.
  Qed.
  Lemma feqb_b2k a b : feqb (b2k a : K) (b2k b) = Bool.eqb a b.
  Proof.
    destruct (Bool.eqb a b) eqn:E.
    - apply Bool.eqb_prop in E. subst. apply feqb_refl.
    - apply feqb_neq. intros H. apply b2k_inj in H. subst. now rewrite Bool.eqb_reflx in E.
  Qed.
  Lemma feqb_b2k_0 a : feqb (b2k a : K) 0 = negb a.
  Proof. change (0 : K) with (b2k false : K). rewrite feqb_b2k. now destruct a. Qed.

  Lemma lt_half_split x y : (0 <= x < p)%Z -> (0 <= y < p)%Z ->
    let h := ((p - 1) / 2)%Z in
    ((negb (h <? x) && (h <? y)) || (Bool.eqb (h <? x) (h <? y) && (h <? (x - y) mod p)))%Z = (x <? y)%Z.
  Proof.
    intros Hx Hy h. unfold h. clear h. pose proof (Z.div_mod (p - 1) 2 ltac:(lia)) as E.
    pose proof (Z.mod_pos_bound (p - 1) 2 ltac:(lia)) as Hm.
    set (h := ((p - 1) / 2)%Z) in *. clearbody h.
    assert (Em : ((x - y) mod p = if (x <? y)%Z then x - y + p else x - y)%Z).
    { destruct (Z.ltb_spec x y).
      - rewrite <- (Z_mod_plus_full _ 1), Z.mul_1_l. apply Z.mod_small. lia.
      - apply Z.mod_small. lia. }
    rewrite Em. clear Em.
    destruct (Z.ltb_spec x y); destruct (Z.ltb_spec h x), (Z.ltb_spec h y); cbn [negb andb orb Bool.eqb];
      try reflexivity; try lia;
      match goal with |- (?u <? ?v)%Z = _ => destruct (Z.ltb_spec u v); try reflexivity; lia end.
  Qed.

  Lemma msb_check_spec c a b : wf c -> (a < num_vars c)%nat -> (b < num_vars c)%nat ->
    gspec (msb_check_internal zval p nb L a b) c
      (fun w me => w (fst me) = b2k (negb (((p - 1) / 2 <? zval (w a))%Z) && ((p - 1) / 2 <? zval (w b))%Z)
                /\ w (snd me) = b2k (Bool.eqb ((p - 1) / 2 <? zval (w a))%Z ((p - 1) / 2 <? zval (w b))%Z))
      (fun _ => True) (fun me n => fst me < n /\ snd me < n)%nat.
  Proof.
    intros Hw Ha Hbn; start. unfold msb_check_internal, logic_neg.
    use is_gt_constant_internal_spec. use is_gt_constant_internal_spec.
    use is_zero_spec. use logic_and_spec. use is_equal_spec. repeat wstep. leaf; auto.
    - cbn [fst snd] in *. rewrite zval_half in *. split.
      + rewrite F0, F1, F2, F3, feqb_b2k_0. apply b2k_and.
      + rewrite F, F2, F3. now rewrite feqb_b2k.
    - cbn [fst snd]. split; bnd.
  Qed.

  Lemma is_lt_internal_spec c a b : wf c -> (a < num_vars c)%nat -> (b < num_vars c)%nat ->
    gspec (is_lt_internal zval p nb L a b) c
      (fun w o => w o = b2k (zval (w a) <? zval (w b))%Z) (fun _ => True) out.
  Proof.
    intros Hw Ha Hbn; start. unfold is_lt_internal. use msb_check_spec. destruct R as [R1 R2].
    use sub_spec. use is_gt_constant_internal_spec. use logic_and_spec. use logic_or_spec. leaf; auto.
    destruct F3 as [F3 F4]. rewrite F, F0, F1, F2, F3, F4. rewrite zval_half, zval_sub.
    rewrite b2k_and, b2k_or. f_equal.
    apply lt_half_split; apply (pf_range _ _ _ _ _ HF).
  Qed.
  Lemma enforce_lt_internal_spec c a b : wf c -> (a < num_vars c)%nat -> (b < num_vars c)%nat ->
    gspec (enforce_lt_internal zval p nb L a b) c
      (fun w _ => (zval (w a) < zval (w b))%Z) (fun w => (zval (w a) < zval (w b))%Z) noout.
  Proof.
    intros Hw Ha Hbn; start. unfold enforce_lt_internal. use msb_check_spec. destruct R as [R1 R2].
    use sub_spec. use is_gt_constant_internal_spec. use logic_and_spec. use logic_or_gate_spec.
    assert (Hkey : forall w : nat -> K, w a3 = w (snd a0) * w a2 -> w a2 = b2k (zval (half p) <? zval (w a1))%Z ->
      w a1 = w a - w b ->
      w (fst a0) = b2k (negb (((p - 1) / 2 <? zval (w a))%Z) && ((p - 1) / 2 <? zval (w b))%Z) ->
      w (snd a0) = b2k (Bool.eqb ((p - 1) / 2 <? zval (w a))%Z ((p - 1) / 2 <? zval (w b))%Z) ->
      w (fst a0) + w a3 - w (fst a0) * w a3 = b2k (zval (w a) <? zval (w b))%Z).
    { intros w F0 F1 F2 F3 F4. rewrite F0, F1, F2, F3, F4. rewrite zval_half, zval_sub.
      rewrite b2k_and, b2k_or. f_equal.
      apply lt_half_split; apply (pf_range _ _ _ _ _ HF). }
    leaf; auto.
    - destruct F3 as [F3 F4]. rewrite (Hkey w) in F by auto. apply b2k_1 in F. now apply Z.ltb_lt.
    - match goal with H : _ /\ _ |- _ => destruct H as [F3 F4] end.
      apply Cmp3; auto. rewrite (Hkey w) by auto. apply b2k_1. now apply Z.ltb_lt.
  Qed.

  Ltac cmp1 := intros; start.
  Lemma enforce_lt_spec c a b : wf c -> (a < num_vars c)%nat -> (b < num_vars c)%nat ->
    gspec (enforce_lt zval p nb L a b) c
      (fun w _ => (zval (w a) < zval (w b))%Z) (fun w => (zval (w a) < zval (w b))%Z) noout.
  Proof. intros; start. unfold enforce_lt. repeat wstep. use enforce_lt_internal_spec. leaf; auto. Qed.
  Lemma is_lt_spec c a b : wf c -> (a < num_vars c)%nat -> (b < num_vars c)%nat ->
    gspec (is_lt zval p nb L a b) c
      (fun w o => w o = b2k (zval (w a) <? zval (w b))%Z) (fun _ => True) out.
  Proof. intros; start. unfold is_lt. repeat wstep. use is_lt_internal_spec. leaf; auto. Qed.

  Lemma enforce_leq_spec c a b : wf c -> (a < num_vars c)%nat -> (b < num_vars c)%nat ->
    gspec (enforce_leq zval p nb L a b) c
      (fun w _ => (zval (w a) <= zval (w b))%Z) (fun w => (zval (w a) <= zval (w b))%Z) noout.
  Proof.
    intros; start. unfold enforce_leq. use is_lt_spec. use enforce_constant_spec. leaf; auto.
    - rewrite F0 in F. apply b2k_0 in F. now apply Z.ltb_ge.
    - apply Cmp0; auto. rewrite F. apply b2k_0. now apply Z.ltb_ge.
  Qed.
  Lemma enforce_gt_spec c a b : wf c -> (a < num_vars c)%nat -> (b < num_vars c)%nat ->
    gspec (enforce_gt zval p nb L a b) c
      (fun w _ => (zval (w b) < zval (w a))%Z) (fun w => (zval (w b) < zval (w a))%Z) noout.
  Proof. intros. unfold enforce_gt. apply enforce_lt_spec; auto. Qed.
  Lemma enforce_geq_spec c a b : wf c -> (a < num_vars c)%nat -> (b < num_vars c)%nat ->
    gspec (enforce_geq zval p nb L a b) c
      (fun w _ => (zval (w b) <= zval (w a))%Z) (fun w => (zval (w b) <= zval (w a))%Z) noout.
  Proof.
    intros; start. unfold enforce_geq. use is_lt_spec. use enforce_constant_spec. leaf; auto.
    - rewrite F0 in F. apply b2k_0 in F. now apply Z.ltb_ge.
    - apply Cmp0; auto. rewrite F. apply b2k_0. now apply Z.ltb_ge.
  Qed.
  Lemma is_gt_spec c a b : wf c -> (a < num_vars c)%nat -> (b < num_vars c)%nat ->
    gspec (is_gt zval p nb L a b) c
      (fun w o => w o = b2k (zval (w b) <? zval (w a))%Z) (fun _ => True) out.
  Proof. intros. unfold is_gt. apply is_lt_spec; auto. Qed.
  Lemma is_leq_spec c a b : wf c -> (a < num_vars c)%nat -> (b < num_vars c)%nat ->
    gspec (is_leq zval p nb L a b) c
      (fun w o => w o = b2k (zval (w a) <=? zval (w b))%Z) (fun _ => True) out.
  Proof.
    intros; start. unfold is_leq, logic_neg. repeat wstep. use is_lt_internal_spec. use is_zero_spec. leaf; auto.
    rewrite F, F0, feqb_b2k_0, <- Z.leb_antisym. reflexivity.
  Qed.
  Lemma is_geq_spec c a b : wf c -> (a < num_vars c)%nat -> (b < num_vars c)%nat ->
    gspec (is_geq zval p nb L a b) c
      (fun w o => w o = b2k (zval (w b) <=? zval (w a))%Z) (fun _ => True) out.
  Proof.
    intros; start. unfold is_geq, logic_neg. repeat wstep. use is_lt_internal_spec. use is_zero_spec. leaf; auto.
    rewrite F, F0, feqb_b2k_0, <- Z.leb_antisym. reflexivity.
  Qed.

  (** Comparisons with a constant. *)
  Lemma is_gt_constant_spec c a k : wf c -> (a < num_vars c)%nat ->
    gspec (is_gt_constant zval p nb L a k) c
      (fun w o => w o = b2k (zval k <? zval (w a))%Z) (fun _ => True) out.
  Proof. intros; start. unfold is_gt_constant. repeat wstep. use is_gt_constant_internal_spec. leaf; auto. Qed.
  Ltac constcmp L1 :=
    intros; start; repeat wstep; use create_constant_variable_spec; use L1; leaf; auto;
    [ match goal with F : ?w ?v = ?k |- _ => rewrite <- F; auto end | .. ].
  Lemma is_lt_constant_spec c a k : wf c -> (a < num_vars c)%nat ->
    gspec (is_lt_constant zval p nb L a k) c
      (fun w o => w o = b2k (zval (w a) <? zval k)%Z) (fun _ => True) out.
  Proof.
    unfold is_lt_constant. intros; start; repeat wstep. use create_constant_variable_spec. use is_lt_spec.
    leaf; auto. now rewrite F, F0.
  Qed.
  Lemma is_leq_constant_spec c a k : wf c -> (a < num_vars c)%nat ->
    gspec (is_leq_constant zval p nb L a k) c
      (fun w o => w o = b2k (zval (w a) <=? zval k)%Z) (fun _ => True) out.
  Proof.
    unfold is_leq_constant. intros; start; repeat wstep. use create_constant_variable_spec. use is_leq_spec.
    leaf; auto. now rewrite F, F0.
  Qed.
  Lemma is_geq_constant_spec c a k : wf c -> (a < num_vars c)%nat ->
    gspec (is_geq_constant zval p nb L a k) c
      (fun w o => w o = b2k (zval k <=? zval (w a))%Z) (fun _ => True) out.
  Proof.
    unfold is_geq_constant. intros; start; repeat wstep. use create_constant_variable_spec. use is_geq_spec.
    leaf; auto. now rewrite F, F0.
  Qed.
  Lemma enforce_lt_constant_spec c a k : wf c -> (a < num_vars c)%nat ->
    gspec (enforce_lt_constant zval p nb L a k) c
      (fun w _ => (zval (w a) < zval k)%Z) (fun w => (zval (w a) < zval k)%Z) noout.
  Proof.
    unfold enforce_lt_constant. intros; start; repeat wstep. use create_constant_variable_spec. use enforce_lt_spec.
    leaf; auto; [now rewrite <- F0|]. apply Cmp0; auto. now rewrite F.
  Qed.
  Lemma enforce_leq_constant_spec c a k : wf c -> (a < num_vars c)%nat ->
    gspec (enforce_leq_constant zval p nb L a k) c
      (fun w _ => (zval (w a) <= zval k)%Z) (fun w => (zval (w a) <= zval k)%Z) noout.
  Proof.
    unfold enforce_leq_constant. intros; start; repeat wstep. use create_constant_variable_spec. use enforce_leq_spec.
    leaf; auto; [now rewrite <- F0|]. apply Cmp0; auto. now rewrite F.
  Qed.
  Lemma enforce_gt_constant_spec c a k : wf c -> (a < num_vars c)%nat ->
    gspec (enforce_gt_constant zval p nb L a k) c
      (fun w _ => (zval k < zval (w a))%Z) (fun w => (zval k < zval (w a))%Z) noout.
  Proof.
    unfold enforce_gt_constant. intros; start; repeat wstep. use create_constant_variable_spec. use enforce_gt_spec.
    leaf; auto; [now rewrite <- F0|]. apply Cmp0; auto. now rewrite F.
  Qed.
  Lemma enforce_geq_constant_spec c a k : wf c -> (a < num_vars c)%nat ->
    gspec (enforce_geq_constant zval p nb L a k) c
      (fun w _ => (zval k <= zval (w a))%Z) (fun w => (zval k <= zval (w a))%Z) noout.
  Proof.
    unfold enforce_geq_constant. intros; start; repeat wstep. use create_constant_variable_spec. use enforce_geq_spec.
    leaf; auto; [now rewrite <- F0|]. apply Cmp0; auto. now rewrite F.
  Qed.
End Specs.
