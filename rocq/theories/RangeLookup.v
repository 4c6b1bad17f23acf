(** Range checks through the lookup table of UltraPlonk circuits. *)

From Coq Require Import List Arith ZArith Bool Lia.
From Verif Require Import Base ListAux Alg Poly CircuitModel CircuitProofs GadgetModel GadgetProofs RangeProofs BitProofs CmpProofs.
Import ListNotations.
Local Open Scope fld_scope.
Local Open Scope circ_scope.

(** Little-endian value in base [B]. *)
Fixpoint hval (B : Z) (l : list Z) : Z :=
  match l with [] => 0 | z :: l' => z + B * hval B l' end%Z.
Lemma hval_app B l l' : hval B (l ++ l') = (hval B l + B ^ Z.of_nat (length l) * hval B l')%Z.
Proof.
  induction l as [|z l IH]; cbn [app hval length].
  - change (B ^ Z.of_nat 0)%Z with 1%Z. lia.
  - rewrite IH, Nat2Z.inj_succ, Z.pow_succ_r by lia. ring.
Qed.
Lemma hval_range B l : (0 < B)%Z -> Forall (fun z => 0 <= z < B)%Z l ->
  (0 <= hval B l < B ^ Z.of_nat (length l))%Z.
Proof.
  intros HB. induction 1 as [|z l Hz _ IH]; [cbn; lia|].
  cbn [hval length]. rewrite Nat2Z.inj_succ, Z.pow_succ_r by lia. nia.
Qed.
Lemma hval_digits B n : forall v, (0 < B)%Z -> (0 <= v)%Z ->
  hval B (map (fun i => (v / B ^ Z.of_nat i) mod B)%Z (seq 0 n)) = (v mod B ^ Z.of_nat n)%Z.
Proof.
  induction n as [|n IH]; intros v HB Hv.
  - cbn [seq map hval]. change (B ^ Z.of_nat 0)%Z with 1%Z. now rewrite Z.mod_1_r.
  - cbn [seq map hval]. rewrite <- seq_shift, map_map.
    rewrite (map_ext _ (fun i => ((v / B) / B ^ Z.of_nat i) mod B)%Z).
    2:{ intros i. rewrite Nat2Z.inj_succ, Z.pow_succ_r by lia. pose proof (Z.pow_pos_nonneg B (Z.of_nat i)).
        rewrite Z.div_div by lia. reflexivity. }
    rewrite IH by (auto; apply Z.div_pos; lia).
    change (B ^ Z.of_nat 0)%Z with 1%Z. rewrite Z.div_1_r.
    rewrite Nat2Z.inj_succ, Z.pow_succ_r by lia. pose proof (Z.pow_pos_nonneg B (Z.of_nat n)).
    rewrite Z.rem_mul_r by lia. reflexivity.
Qed.

Section Specs.
  Context {K : fld}.
  Variable zval : K -> Z.
  Variable p : Z.
  Variable nb L : nat.
  Hypothesis HF : pfield K zval p nb L.
  Add Field Kfield_rl : (fth K).
  Notation gspec := (gspec zval).
  Notation dsat := (dsat zval).

  Ltac start := unfold gspec, CircuitProofs.gspec; unfold out, noout.

  Lemma peval_fZ (zs : list Z) B : peval (map (fun z => fZ z : K) zs) (fZ B) = fZ (hval B zs).
  Proof.
    induction zs as [|z zs IH]; [reflexivity|].
    cbn [map peval hval]. rewrite IH, fZ_add, fZ_mul. reflexivity.
  Qed.

  Lemma mapM_var_spec xs : forall c, wf c ->
    wpc (mapM create_variable xs) c (fun vs d =>
      vs = seq (num_vars c) (length xs) /\ d_vals d = xs /\ forall t w, dsat t w d).
  Proof.
    induction xs as [|x xs IH]; intros c Hw; cbn [mapM].
    - wstep. repeat split; cbn; constructor.
    - repeat wstep. apply wpc_bind. eapply wpc_mono; [apply IH; wfs|].
      intros vs d _ (-> & Hd & Hs). repeat wstep. split; [|split].
      + cbn [length seq]. f_equal. cbn [capp num_vars dval d_vals length]. f_equal. lia.
      + cbn [dcat dval dnil d_vals app]. now rewrite Hd, app_nil_r.
      + intros t w. rewrite !dsat_cat, dsat_val. split; auto. split; auto. apply dsat_nil.
  Qed.

  Lemma iterM_range_spec vs : forall c b, wf c -> ptype c = Ultra b ->
    Forall (fun v => v < num_vars c)%nat vs ->
    wpc (iterM add_range_check_variable vs) c (fun _ d =>
      d_vals d = [] /\ forall w, dsat (Ultra b) w d <-> Forall (rsat zval (Ultra b) w) vs).
  Proof.
    induction vs as [|v vs IH]; intros c b Hw Ht Hvs; cbn [iterM].
    - wstep. split; auto. intros w. split; [constructor|intros; apply dsat_nil].
    - inversion Hvs; subst. apply wpc_bind. 
      exists tt, (drange v). split.
      { unfold add_range_check_variable, cbind, lift, support_lookup. rewrite Ht.
        rewrite (finalize_false _ Hw). unfold check_var_bound, lift.
        destruct (Nat.leb_spec (num_vars c) v); [lia|]. unfold modify, push_range, capp, drange; cbn.
        rewrite !app_nil_r, !Nat.add_0_r. reflexivity. }
      split; [apply plain_drange; auto|].
      eapply wpc_mono; [apply (IH _ b); [wfs|auto|]|].
      { eapply Forall_impl; [|eassumption]. cbn beta. intros. bnd. }
      intros _ d _ [Hd Hs]. split; [cbn; auto|].
      intros w. rewrite dsat_cat, dsat_range, Hs, Forall_cons_iff. reflexivity.
  Qed.

  Lemma nth_resize {A} (l : list A) n x i : (i < n)%nat -> nth i (resize l n x) x = nth i l x.
  Proof.
    intros Hi. unfold resize. destruct (Nat.lt_ge_cases i (length l)).
    - rewrite app_nth1 by (rewrite firstn_length; lia).
      rewrite <- (firstn_skipn n l) at 2. rewrite app_nth1 by (rewrite firstn_length; lia). reflexivity.
    - rewrite app_nth2 by (rewrite firstn_length; lia). rewrite nth_repeat. symmetry. apply nth_overflow; auto.
  Qed.

  Lemma decompose_le_eq v len rb : (1 <= rb)%nat ->
    decompose_le zval L v len rb =
    map (fun z => fZ z) (map (fun i => (zval v / (2 ^ Z.of_nat rb) ^ Z.of_nat i) mod 2 ^ Z.of_nat rb)%Z (seq 0 len)).
  Proof.
    intros Hrb. rewrite map_map. unfold decompose_le.
    assert (Hl : forall (l : list K), length (resize l len 0) = len).
    { intros l. unfold resize. rewrite app_length, firstn_length, repeat_length. lia. }
    apply nth_ext with (d := 0) (d' := 0).
    { rewrite Hl, map_length, seq_length. reflexivity. }
    rewrite Hl. intros i Hi. rewrite nth_resize by auto.
    rewrite (nth_indep (map _ (seq 0 len)) 0 ((fun i => fZ ((zval v / (2 ^ Z.of_nat rb) ^ Z.of_nat i) mod 2 ^ Z.of_nat rb)) 0%nat))
      by (rewrite map_length, seq_length; auto).
    rewrite (map_nth (fun i => fZ ((zval v / (2 ^ Z.of_nat rb) ^ Z.of_nat i) mod 2 ^ Z.of_nat rb)) (seq 0 len) 0%nat i). rewrite seq_nth by auto. cbn [Nat.add].
    pose proof (chunks_nth rb (bits_le L (zval v)) Hrb i) as Hc.
    rewrite length_bits_le in Hc. pose proof (pf_range _ _ _ _ _ HF v) as Hv.
    rewrite <- Z.pow_mul_r by lia. rewrite <- Nat2Z.inj_mul, (Nat.mul_comm rb i).
    destruct (Nat.ltb_spec (i * rb) L).
    - apply (map_nth_error (fun ch => fZ (chunk_val ch) : K)) in Hc.
      rewrite (nth_error_nth _ _ 0 Hc). f_equal.
      rewrite chunk_val_firstn, chunk_val_skipn. f_equal. f_equal.
      unfold bits_le. rewrite chunk_val_testbits by lia. now rewrite (pf_repr_mod zval p nb L HF).
    - apply nth_error_None in Hc. rewrite nth_overflow by (rewrite map_length; auto).
      rewrite Z.div_small; [reflexivity|]. split; [lia|].
      pose proof (pf_hi _ _ _ _ _ HF). pose proof (pf_len _ _ _ _ _ HF).
      assert (2 ^ Z.of_nat nb <= 2 ^ Z.of_nat (i * rb))%Z by (apply Z.pow_le_mono_r; lia). lia.
  Qed.

  Lemma rsat_ultra w v b : (1 <= b <= 31)%nat -> (b < nb)%nat ->
    rsat zval (Ultra b) w v <-> (zval (w v) < 2 ^ Z.of_nat b)%Z.
  Proof.
    intros Hb Hn. cbn [rsat].
    assert (2 ^ Z.of_nat b < 2 ^ 32)%Z by (apply Z.pow_lt_mono_r; lia).
    pose proof (Z.pow_pos_nonneg 2 (Z.of_nat b)). pose proof (pow_lt_p zval p nb L HF b Hn).
    rewrite Z.mod_small by lia. rewrite (zval_small zval p nb L HF) by lia. reflexivity.
  Qed.

  Lemma range_gate_with_lookup_spec c a n rb : wf c -> ptype c = Ultra rb -> (a < num_vars c)%nat ->
    (1 <= n)%nat -> (1 <= rb <= 31)%nat -> (rb < nb)%nat ->
    gspec (range_gate_with_lookup zval p nb L a n) c
      (fun w _ => (zval (w a) < 2 ^ Z.of_nat n)%Z) (fun w => (zval (w a) < 2 ^ Z.of_nat n)%Z) noout.
  Proof.
    intros Hw Ht Ha Hn Hrb Hrn; start. unfold range_gate_with_lookup.
    apply wpc_bind_lift with (a := rb); [unfold range_bit_len; now rewrite Ht|].
    apply wpc_bind_lift with (a := (2 ^ Z.of_nat rb)%Z); [unfold range_size, range_bit_len; now rewrite Ht|].
    destruct (Nat.eqb_spec n 0); [lia|]. wstep. destruct (Nat.eqb_spec rb 0); [lia|]. cbn zeta.
    set (lo := (n mod rb)%nat). set (k := (n / rb)%nat).
    assert (En : n = (rb * k + lo)%nat) by (apply Nat.div_mod; lia).
    assert (Hlo : (lo < rb)%nat) by (apply Nat.mod_upper_bound; lia).
    set (len := (k + (if (0 <? lo)%nat then 1 else 0))%nat).
    assert (Hlen1 : (1 <= len)%nat).
    { unfold len. destruct (Nat.ltb_spec 0 lo); [lia|]. destruct (Nat.eq_dec k 0) as [E0|E0]; [|lia].
      rewrite E0 in En. lia. }
    wstep. apply wpc_bind. eapply wpc_mono; [apply (mapM_var_spec _ c); auto|].
    intros vs d _ (Hvs & Hd & Hsat). rewrite decompose_le_eq in Hvs, Hd by lia.
    rewrite !map_length, seq_length in Hvs.
    assert (Hdl : length (d_vals d) = len) by (rewrite Hd, !map_length, seq_length; auto).
    set (B := (2 ^ Z.of_nat rb)%Z) in *.
    assert (HB : (0 < B)%Z) by (apply Z.pow_pos_nonneg; lia).
    assert (Hlenvs : length vs = len) by (rewrite Hvs, seq_length; auto).
    assert (Hvb : Forall (fun v => v < num_vars c + len)%nat vs).
    { rewrite Hvs. apply Forall_forall. intros x Hx. apply in_seq in Hx. lia. }
    assert (Hkl : (k <= len)%nat) by (unfold len; lia).
    assert (Hval : forall w, hext (capp c d) w ->
      map w vs = map (fun z => fZ z) (map (fun i => (zval (w a) / B ^ Z.of_nat i) mod B)%Z (seq 0 len))).
    { intros w Hh. pose proof (hext_seq c d w Hw Hh) as E. rewrite Hdl in E.
      rewrite Hvs, E, Hd. rewrite (hext_app1 c d w Hw Hh a Ha). reflexivity. }
    apply wpc_bind. eapply wpc_mono.
    { apply (iterM_range_spec (firstn k vs) _ rb); [wfs|auto|].
      rewrite <- (firstn_skipn k vs) in Hvb. apply Forall_app in Hvb as [Hvb _].
      eapply Forall_impl; [|exact Hvb]. cbn beta. cbn [capp num_vars]. lia. }
    intros _ dr _ [Hdr Hrs].
    (* the leftover chunk *)
    assert (Hleft : wpc (if (0 <? lo)%nat
       then x <- idx vs k ;; range_gate_internal zval p nb L x lo >> ret tt else ret tt)
      (capp (capp c d) dr) (fun _ dl =>
        (forall w, base w -> dsat (ptype c) w dl -> (0 < lo)%nat -> (zval (w (nth k vs 0%nat)) < 2 ^ Z.of_nat lo)%Z) /\
        (forall w, base w -> hext (capp (capp (capp c d) dr) dl) w ->
           ((0 < lo)%nat -> (zval (w (nth k vs 0%nat)) < 2 ^ Z.of_nat lo)%Z) -> dsat (ptype c) w dl))).
    { destruct (Nat.ltb_spec 0 lo) as [H0|H0].
      - assert (Hk : (k < len)%nat) by (unfold len; destruct (Nat.ltb_spec 0 lo); lia).
        apply (wpc_bind_idx vs 0%nat); [lia|].
        assert (nth k vs 0 < num_vars c + len)%nat.
        { rewrite Forall_forall in Hvb. apply Hvb, nth_In. lia. }
        use range_gate_internal_spec.
        { pose proof (pf_len _ _ _ _ _ HF). lia. }
        wstep. rewrite !ptype_capp in *. split.
        + intros w Hb Hs _. rewrite dsat_cat in Hs. destruct Hs as [Hs _].
          destruct (Snd w Hb Hs) as (_ & E & _). rewrite E.
          rewrite (pf_zval _ _ _ _ _ HF).
          pose proof (chunk_val_range (map k2b (map w a0))) as Hr. rewrite !map_length, (proj1 R) in Hr.
          eapply Z.le_lt_trans; [apply Z.mod_le; [lia|apply (pf_pos zval p nb L HF)]|]. lia.
        + intros w Hb Hh HC. rewrite dsat_cat. split; [|apply dsat_nil].
          rewrite <- capp_cat in Hh. apply Cmp; auto. apply (hext_app1 _ dnil); [wfs|exact Hh].
      - wstep. split; [intros; lia|intros; apply dsat_nil]. }
    apply wpc_bind. eapply wpc_mono; [exact Hleft|]. clear Hleft.
    intros _ dl _ [Lsnd Lcmp].
    use decomposition_gate_spec.
    { intros E0. rewrite E0 in Hlenvs. cbn in Hlenvs. lia. }
    { eapply Forall_impl; [|exact Hvb]. cbn beta. cbn [capp num_vars]. intros. lia. }
    rewrite !ptype_capp in *.
    assert (Hmap : forall w : nat -> K, map w vs = map (fun z => fZ z) (map (fun v => zval (w v)) vs)).
    { intros w. rewrite map_map. apply map_ext. intros v. symmetry. apply (pf_fZ _ _ _ _ _ HF). }
    assert (Hfn : vs = firstn k vs ++ (if (0 <? lo)%nat then [nth k vs 0%nat] else [])).
    { destruct (Nat.ltb_spec 0 lo) as [H0|H0].
      - assert (len = S k) by (unfold len; destruct (Nat.ltb_spec 0 lo); lia).
        rewrite <- (firstn_skipn k vs) at 1. f_equal. rewrite (skipn_nth_cons vs 0%nat k) by lia.
        f_equal. rewrite (skipn_all2 (n := S k)) by lia. reflexivity.
      - rewrite app_nil_r, firstn_all2; auto. unfold len in Hlenvs. destruct (Nat.ltb_spec 0 lo); lia. }
    leaf; auto.
    - rewrite Ht in *.
      match goal with H : CircuitProofs.dsat _ _ _ dr |- _ => apply Hrs in H; rename H into HR end.
      rename F0 into HL.
      rewrite F, Hmap, peval_fZ, (pf_zval _ _ _ _ _ HF).
      assert (HR' : Forall (fun z => 0 <= z < B)%Z (map (fun v => zval (w v)) (firstn k vs))).
      { apply Forall_forall. intros z Hz. apply in_map_iff in Hz as (v & <- & Hv).
        rewrite Forall_forall in HR. specialize (HR v Hv). apply rsat_ultra in HR; auto.
        pose proof (pf_range _ _ _ _ _ HF (w v)). unfold B. lia. }
      pose proof (hval_range B _ HB HR') as Hr. rewrite map_length, firstn_length_le in Hr by lia.
      assert (Hb2 : (0 <= hval B (map (fun v => zval (w v)) vs) < 2 ^ Z.of_nat n)%Z).
      { rewrite Hfn, map_app, hval_app, map_length, firstn_length_le by lia.
        rewrite En, Nat2Z.inj_add, Z.pow_add_r, Nat2Z.inj_mul, Z.pow_mul_r by lia. fold B.
        destruct (Nat.ltb_spec 0 lo) as [H0|H0].
        - specialize (HL H0). cbn [map hval]. pose proof (pf_range _ _ _ _ _ HF (w (nth k vs 0%nat))) as Hx.
          set (P := (B ^ Z.of_nat k)%Z) in *. set (q := (2 ^ Z.of_nat lo)%Z) in *.
          set (h := hval B _) in *. nia.
        - replace lo with 0%nat by lia. cbn [map hval Z.of_nat]. lia. }
      eapply Z.le_lt_trans; [apply Z.mod_le; [lia|apply (pf_pos zval p nb L HF)]|]. lia.
    - rewrite Ht. apply Hrs. rewrite Hvs. apply Forall_forall. intros v Hv.
      apply rsat_ultra; auto.
      assert (Hv' : In v vs).
      { rewrite <- Hvs in Hv. rewrite <- (firstn_skipn k vs). apply in_or_app; auto. }
      assert (Hin : In (w v) (map w vs)) by (apply in_map; auto).
      match goal with H : hext (capp c d) w |- _ => rewrite (Hval w H) in Hin end.
      apply in_map_iff in Hin as (z & <- & Hz). apply in_map_iff in Hz as (i & <- & _).
      rewrite (pf_zval _ _ _ _ _ HF).
      pose proof (Z.mod_pos_bound (zval (w a) / B ^ Z.of_nat i) B HB) as Hm.
      eapply Z.le_lt_trans; [apply Z.mod_le; [lia|apply (pf_pos zval p nb L HF)]|]. exact (proj2 Hm).
    - apply Lcmp; auto. intros Hlo0.
      assert (Hk : (k < len)%nat) by (unfold len; destruct (Nat.ltb_spec 0 lo); lia).
      match goal with H : hext (capp c d) w |- _ => pose proof (Hval w H) as Hv end.
      assert (E : nth k (map w vs) 0 = w (nth k vs 0%nat)).
      { rewrite (nth_indep _ 0 (w 0%nat)) by (rewrite map_length; lia). apply map_nth. }
      rewrite <- E, Hv, map_map.
      rewrite (nth_indep _ 0 ((fun i => fZ ((zval (w a) / B ^ Z.of_nat i) mod B)) 0%nat))
        by (rewrite map_length, seq_length; auto).
      rewrite (map_nth (fun i => fZ ((zval (w a) / B ^ Z.of_nat i) mod B)) (seq 0 len) 0%nat k).
      rewrite seq_nth by auto. cbn [Nat.add].
      rewrite (pf_zval _ _ _ _ _ HF).
      assert (Hq : (0 <= zval (w a) / B ^ Z.of_nat k < 2 ^ Z.of_nat lo)%Z).
      { pose proof (pf_range _ _ _ _ _ HF (w a)). pose proof (Z.pow_pos_nonneg B (Z.of_nat k)).
        split; [apply Z.div_pos; lia|]. apply Z.div_lt_upper_bound; [lia|].
        unfold B in *. rewrite <- Z.pow_mul_r, <- Z.pow_add_r by lia.
        replace (Z.of_nat rb * Z.of_nat k + Z.of_nat lo)%Z with (Z.of_nat n) by lia. lia. }
      pose proof (Z.mod_pos_bound (zval (w a) / B ^ Z.of_nat k) B HB) as Hm.
      eapply Z.le_lt_trans; [apply Z.mod_le; [lia|apply (pf_pos zval p nb L HF)]|].
      eapply Z.le_lt_trans; [apply Z.mod_le; lia|]. lia.
    - apply Cmp; auto.
      match goal with H : hext (capp c d) w |- _ => rewrite (Hval w H) end.
      rewrite peval_fZ. pose proof (pf_range _ _ _ _ _ HF (w a)). rewrite hval_digits by lia.
      rewrite Z.mod_small; [symmetry; apply (pf_fZ _ _ _ _ _ HF)|]. split; [lia|].
      eapply Z.lt_le_trans; [exact HC|]. unfold B. rewrite <- Z.pow_mul_r by lia.
      apply Z.pow_le_mono_r; [lia|]. unfold len. destruct (Nat.ltb_spec 0 lo); nia.
  Qed.

  (** [enforce_in_range] for both kinds of circuit. *)
  Lemma enforce_in_range_spec c a n : wf c -> (a < num_vars c)%nat ->
    match ptype c with Turbo => (1 <= n <= L)%nat | Ultra rb => (1 <= n /\ 1 <= rb <= 31 /\ rb < nb)%nat end ->
    gspec (enforce_in_range zval p nb L a n) c
      (fun w _ => (zval (w a) < 2 ^ Z.of_nat n)%Z) (fun w => (zval (w a) < 2 ^ Z.of_nat n)%Z) noout.
  Proof.
    intros Hw Ha Hn; start. unfold enforce_in_range.
    apply wpc_bind_lift with (a := support_lookup c); [reflexivity|]. unfold support_lookup.
    destruct (ptype c) eqn:Ht.
    - use range_gate_internal_spec.
      wstep. rewrite Ht in *. leaf; auto.
      destruct F as (_ & E & _). rewrite E, (pf_zval _ _ _ _ _ HF).
      pose proof (chunk_val_range (map k2b (map w a0))) as Hr. rewrite !map_length, (proj1 R) in Hr.
      eapply Z.le_lt_trans; [apply Z.mod_le; [lia|apply (pf_pos zval p nb L HF)]|]. lia.
    - destruct Hn as (H1 & H2 & H3). use (range_gate_with_lookup_spec c a n range_bit_len). rewrite Ht in *.
      leaf; auto.
  Qed.
End Specs.
