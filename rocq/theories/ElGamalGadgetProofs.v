(** Specifications of the ElGamal gadget. *)

From Coq Require Import List Arith NArith ZArith Znumtheory Bool Lia Ring Field.
From Verif Require Import Base ListAux Alg FiniteField ConvModel RescueModel RescueProofs CircuitModel CircuitProofs GadgetModel
  GadgetProofs RangeProofs BitProofs CmpProofs Group Edwards EccModel EccProofs RescueGadgetModel RescueGadgetProofs
  MerkleGadgetProofs SigModel SigGadgetModel SigGadgetProofs.
From Verif Require ConvProofs.
Import ListNotations.
Local Open Scope fld_scope.
Local Open Scope circ_scope.

Section Specs.
  Variables (p : Z) (Hp : prime p).
  Notation K := (Zp p Hp).
  Notation zval := (zv p : K -> Z).
  Add Field Kelg : (fth K).
  Variable P : rescue_params K.
  Variable q : nat.
  Hypothesis Hq : has_card K q.
  Hypothesis Ha : ((rp_a P * limbs_N (rp_a_inv P)) mod N.of_nat (q - 1) = 1)%N.
  Hypothesis Ha5 : rp_a P = 5%N \/ rp_a P = 11%N.
  Hypothesis Hkeys : length (rp_keys P) = 25%nat.
  Hypothesis Hinj : length (rp_inject P) = 24%nat.
  Notation gspec := (@CircuitProofs.gspec K zval _).
  Notation T := (fun _ => True).

  (** ** The counter mode *)
  Lemma apply_blocks_shift keys (n : K) cs : forall i,
    apply_blocks p Hp P Encrypt keys (n + 1) i cs = apply_blocks p Hp P Encrypt keys n (S i) cs.
  Proof.
    induction cs as [|b cs IH]; intros i; [reflexivity|]. cbn [apply_blocks]. rewrite IH.
    replace (n + 1 + fnat i : K) with (n + fnat (S i) : K) by (cbn [fnat]; ring). reflexivity.
  Qed.
  Lemma block_sum (w : nat -> K) s t : map w (state_vars s) = v4_elems (rv w s) /\
    apply_block p Hp Encrypt (v4_elems (rv w s)) (rv w t) = v4_elems (v4_add (rv w s) (rv w t)).
  Proof. split; reflexivity. Qed.
  Lemma stream_blocks_spec data : forall (c : circuit K) keys counter, wf c -> sbl keys (num_vars c) -> length keys = 25%nat ->
    (counter < num_vars c)%nat -> sbl data (num_vars c) ->
    gspec (stream_blocks P keys counter data) c
      (fun w o => apply_blocks p Hp P Encrypt (rsl w keys) (w counter) 0 (map (fun s => map w (state_vars s)) data) = Ok (map w (flat_map state_vars o)))
      T (fun o n => sbl o n /\ length o = length data).
  Proof.
    induction data as [|s data IH]; intros c keys counter Hw Hk El Hc Hd; cbn [stream_blocks].
    - apply gspec_ret; [split; [constructor|reflexivity]|reflexivity].
    - inversion_clear Hd as [|? ? Hs Hd']. pose proof (wf_two _ Hw).
      eapply gspec_seq with (1 := Hw); [apply (prp_with_round_keys_spec zval P q Hq Ha Ha5 Hkeys (SV counter 0 0 0) keys c); auto|now intros|].
      { repeat split; cbn; lia. }
      intros t c1 L1 O1 _. assert (W1 : wf c1) by apply L1. assert (N1 : (num_vars c <= num_vars c1)%nat) by apply L1.
      eapply gspec_seq with (1 := W1); [apply (add_constant_spec zval c1 counter 1); auto; lia|now intros|].
      intros ct c2 L2 O2 _. assert (W2 : wf c2) by apply L2. assert (N2 : (num_vars c1 <= num_vars c2)%nat) by apply L2.
      eapply gspec_seq with (1 := W2); [apply (add_state_spec zval P q Ha Ha5 s t c2); auto; eapply sb_le; eauto; lia|now intros|].
      intros o c3 L3 O3 _. assert (W3 : wf c3) by apply L3. assert (N3 : (num_vars c2 <= num_vars c3)%nat) by apply L3.
      eapply gspec_seq with (1 := W3); [apply (IH c3 keys ct); auto|now intros|].
      { eapply sbl_le; eauto; lia. } { unfold out in *. lia. } { eapply sbl_le; eauto; lia. }
      intros rest c4 L4 [O4 E4] _. apply gspec_ret.
      + split; [|cbn; lia]. constructor; [eapply sb_le; eauto; apply L4|exact O4].
      + intros w Bw F1 F2 F3 F4. cbn [apply_blocks map fnat flat_map]. rewrite map_app.
        replace (w counter + 0 : K) with (w counter) by ring.
        assert (E0 : rv w (SV counter 0 0 0) = V4 (w counter) 0 0 0) by (unfold rv; cbn [s0 s1 s2 s3]; destruct Bw as [-> _]; reflexivity).
        rewrite E0 in F4. rewrite <- F4. cbn [bind]. rewrite F3, apply_blocks_shift in F1. rewrite F1. cbn [bind].
        destruct (block_sum w s t) as [-> ->]. destruct (block_sum w o o) as [-> _]. rewrite F2. reflexivity.
  Qed.
  Lemma stream_no_padding_spec (c : circuit K) key data : wf c -> sb key (num_vars c) -> sbl data (num_vars c) ->
    gspec (counter_mode_stream_no_padding P key data) c
      (fun w o => (let* keys := key_schedule P (rv w key) in
                   apply_blocks p Hp P Encrypt keys 0 0 (map (fun s => map w (state_vars s)) data)) = Ok (map w (flat_map state_vars o)))
      T (fun o n => sbl o n /\ length o = length data).
  Proof.
    intros Hw Hk Hd. unfold counter_mode_stream_no_padding. pose proof (wf_two _ Hw).
    eapply gspec_seq with (1 := Hw); [apply (key_schedule_spec zval P q Hq Ha Ha5 key c); auto|now intros|].
    intros keys c1 L1 [O1 E1] _. assert (W1 : wf c1) by apply L1. assert (N1 : (num_vars c <= num_vars c1)%nat) by apply L1.
    eapply MerkleGadgetProofs.gspec_weaken; [| | |apply (stream_blocks_spec data c1 keys 0); auto; [lia|lia|eapply sbl_le; eauto]]; cbn beta; auto.
    intros w o [B0 _] F1 F2. unfold key_schedule. rewrite schedule_sched by (rewrite Hinj; reflexivity). cbn [bind skipn].
    rewrite B0, F2 in F1. exact F1.
  Qed.

  Lemma mapM_block4 bs : forall (c : circuit K), wf c -> Forall (fun b => length b = 4%nat /\ bdl b (num_vars c)) bs ->
    gspec (mapM (fun b => block4 b) bs) c (fun w l => map (fun s => map w (state_vars s)) l = map (map w) bs) T
      (fun l n => sbl l n /\ length l = length bs).
  Proof.
    induction bs as [|b bs IH]; intros c Hw Hb; cbn [mapM].
    - apply gspec_ret; [split; [constructor|reflexivity]|reflexivity].
    - inversion_clear Hb as [|? ? [Hl Hb0] Hb'].
      assert (Eb : exists x y z t, b = [x; y; z; t]) by (destruct b as [|? [|? [|? [|? [|? ?]]]]]; try discriminate Hl; repeat eexists).
      destruct Eb as (b0 & b1 & b2 & b3 & Eb). subst.
      eapply gspec_seq with (1 := Hw) (S1 := fun w s => s = SV b0 b1 b2 b3) (C1 := fun _ => True) (R1 := sb).
      { do 4 (eapply gspec_lift; [reflexivity|]). apply gspec_ret; [|reflexivity].
        unfold bdl in Hb0. rewrite !Forall_cons_iff in Hb0. unfold sb; cbn [s0 s1 s2 s3]. tauto. }
      { now intros. }
      intros s c1 L1 O1 _. assert (W1 : wf c1) by apply L1.
      eapply gspec_seq with (1 := W1); [apply (IH c1); auto|now intros|].
      { eapply Forall_impl; [|exact Hb']. cbn. intros a [H1 H2]. split; auto. eapply bdl_later; eauto. }
      intros l c2 L2 [O2 E2] _. apply gspec_ret; cbn [length map].
      + split; [|lia]. constructor; auto. eapply sb_le; eauto. apply L2.
      + intros w _ F1 ->. rewrite F1. reflexivity.
  Qed.
  Lemma sbl_flat l n : sbl l n -> bdl (flat_map state_vars l) n.
  Proof.
    clear. induction 1 as [|s l (B0 & B1 & B2 & B3) _ IH]; [constructor|]. cbn [flat_map]. apply bdl_app; auto. repeat constructor; auto.
  Qed.
  Lemma len_flat l : length (flat_map state_vars l) = (4 * length l)%nat.
  Proof. clear. induction l as [|s l IH]; cbn [flat_map length app state_vars]; [reflexivity|]. rewrite IH. lia. Qed.
  Lemma next_len4 n : compute_len_to_next_multiple n STATE_SIZE = Ok (len_to_next_multiple n STATE_SIZE) /\
    (n <= len_to_next_multiple n STATE_SIZE)%nat /\ (len_to_next_multiple n STATE_SIZE mod 4 = 0)%nat.
  Proof.
    clear. change STATE_SIZE with 4%nat. split; [reflexivity|]. unfold len_to_next_multiple.
    pose proof (Nat.div_mod n 4 ltac:(lia)). pose proof (Nat.mod_upper_bound n 4 ltac:(lia)).
    destruct (Nat.eqb_spec (n mod 4) 0) as [E|E]; [lia|]. split; [lia|].
    replace (n + 4 - n mod 4)%nat with (0 + (n / 4 + 1) * 4)%nat by lia. now rewrite Nat.mod_add.
  Qed.
  Lemma chunks4_len {X} (l : list X) : (length l mod 4 = 0)%nat -> (4 * length (chunks STATE_SIZE l) = length l)%nat.
  Proof.
    clear. intros Hm. destruct l as [|x l]; [reflexivity|]. rewrite ConvProofs.chunks_pos_len by (unfold STATE_SIZE; try lia; discriminate).
    change STATE_SIZE with 4%nat. assert (H0 : length (x :: l) <> 0%nat) by discriminate. revert Hm H0. generalize (length (x :: l)). intros n Hm H0.
    pose proof (Nat.div_mod n 4 ltac:(lia)). replace (n - 1)%nat with (3 + (n / 4 - 1) * 4)%nat by lia. rewrite Nat.div_add by lia.
    change (3 / 4)%nat with 0%nat. lia.
  Qed.
  Lemma stream_spec (c : circuit K) key data : wf c -> sb key (num_vars c) -> bdl data (num_vars c) ->
    gspec (counter_mode_stream P key data) c
      (fun w o => apply_counter_mode_stream p Hp P (rv w key) (map w data) 0 Encrypt = Ok (map w o))
      T (fun o n => bdl o n /\ length o = length data).
  Proof.
    intros Hw Hk Hd. unfold counter_mode_stream. destruct (next_len4 (length data)) as (E1 & E2 & E3).
    set (n := len_to_next_multiple (length data) STATE_SIZE) in *. pose proof (wf_two _ Hw).
    set (padded := data ++ repeat 0%nat (n - length data)).
    assert (Lp : length padded = n) by (unfold padded; rewrite app_length, repeat_length; lia).
    assert (Bp : Forall (fun b => length b = 4%nat /\ bdl b (num_vars c)) (chunks STATE_SIZE padded)).
    { apply chunks_all; [unfold STATE_SIZE; lia|rewrite Lp; exact E3|]. apply bdl_app; auto. apply bdl_repeat. lia. }
    eapply gspec_seq with (1 := Hw); [apply (mapM_block4 (chunks STATE_SIZE padded) c); auto|now intros|].
    intros st c1 L1 [O1 N1] _. assert (W1 : wf c1) by apply L1.
    eapply gspec_seq with (1 := W1); [apply (stream_no_padding_spec c1 key st); auto; eapply sb_le; eauto; apply L1|now intros|].
    intros o c2 L2 [O2 N2] _. apply gspec_ret.
    - split; [apply Forall_firstn, sbl_flat; auto|]. rewrite firstn_length, len_flat, N2, N1.
      assert (X : (4 * length (chunks STATE_SIZE padded) = length padded)%nat).
      { apply chunks4_len. rewrite Lp. exact E3. }
      lia.
    - intros w Bw F1 F2. unfold apply_counter_mode_stream, pad_with_zeros. rewrite map_length, E1. cbn [bind].
      rewrite firstn_all2 by (rewrite map_length; lia).
      assert (Ep : map w data ++ repeat 0 (n - length data) = map w padded).
      { unfold padded. rewrite map_app, map_repeat. destruct Bw as [-> _]. reflexivity. }
      rewrite Ep, chunks_map' by (unfold STATE_SIZE; lia). rewrite F2 in F1.
      destruct (key_schedule P (rv w key)) as [keys| |]; try discriminate F1. cbn [bind] in *. rewrite F1. cbn [bind].
      now rewrite firstn_map.
  Qed.

  (** ** Encryption *)
  Variables A D : K.
  Hypothesis HC : law K A D.
  Notation E := (curve K A D HC).
  Notation cval := (cval K A D HC).
  Notation on := (ins K A D HC).
  Variables (nb L : nat).
  Hypothesis HF : BitProofs.pfield K zval p nb L.
  Variables (sbits : nat) (order : Z) (B0 : E) (glv : nat -> pvar -> circ K pvar).
  Hypothesis Hs1 : (1 <= sbits)%nat.
  Hypothesis Hs2 : (fb_bits sbits <= nb)%nat.
  Lemma sbits_le : (sbits <= fb_bits sbits)%nat.
  Proof. clear. unfold fb_bits. destruct (Nat.odd sbits); lia. Qed.
  Lemma variable_base_spec (c : circuit K) r b : wf c -> base (hon c) -> support_lookup c = false ->
    (r < num_vars c)%nat -> pout b (num_vars c) -> on (pv (hon c) b) -> (zval (hon c r) < 2 ^ Z.of_nat sbits)%Z ->
    gspec (variable_base_scalar_mul A D sbits order zval p nb L glv r b) c
      (fun w o => forall V : E, pv w b = cval V -> pv w o = cval (gmul (zval (w r)) V)) T pout.
  Proof.
    intros Hw Hb Hs Hr Hp' Ob Hlt. pose proof sbits_le. unfold variable_base_scalar_mul, check_point_var_bound, CircuitProofs.gspec.
    repeat first [apply wpc_assoc | apply wpc_chk; [assumption || apply Hp'|]].
    eapply wpc_bind_lift; [rewrite Hs; reflexivity|]. cbn [andb]. unfold msm, msm_with_var_scalar_length. cbn [length Nat.eqb negb].
    eapply wpc_bind_lift; [rewrite Hs; reflexivity|].
    eapply MerkleGadgetProofs.gspec_weaken; [| | |apply (msm_naive_spec zval A D HC p nb L HF c [b] [r] sbits); auto]; cbn beta; auto.
    - intros w o Bw F V HV. rewrite (F [V]) by (cbn [map]; now rewrite HV). f_equal. cbn [map]. unfold smul. cbn [combine map gsum fst snd]. apply gadd_0_r.
    - lia.
    - discriminate.
    - cbn [combine]. constructor; [|constructor]. repeat split; auto; apply Hp'.
  Qed.
  Lemma elgamal_encrypt_spec (c : circuit K) pk data r : wf c -> base (hon c) -> support_lookup c = false ->
    pout pk (num_vars c) -> bdl data (num_vars c) -> (r < num_vars c)%nat ->
    on (pv (hon c) pk) -> (zval (hon c r) < 2 ^ Z.of_nat sbits)%Z ->
    gspec (elgamal_encrypt A D (cval B0) sbits order zval p nb L P glv pk data r) c
      (fun w o => pv w (cv_ephemeral o) = cval (gmul (zval (w r)) B0) /\
        forall V : E, pv w pk = cval V ->
          (let* key := perm_eval P (V4 (fst (cval (gmul (zval (w r)) V))) (snd (cval (gmul (zval (w r)) V))) 0 0) in
           apply_counter_mode_stream p Hp P key (map w data) 0 Encrypt) = Ok (map w (cv_data o)))
      T (fun o n => pout (cv_ephemeral o) n /\ bdl (cv_data o) n /\ length (cv_data o) = length data).
  Proof.
    intros Hw Hb Hs Hpk Hd Hr Ov Hlt. unfold elgamal_encrypt. pose proof (wf_two _ Hw). pose proof sbits_le.
    eapply gspec_seq with (1 := Hw); [apply (variable_base_spec c r pk); auto|now intros|].
    intros sh c1 L1 [O1 O1'] _. assert (W1 : wf c1) by apply L1. assert (N1 : (num_vars c <= num_vars c1)%nat) by apply L1.
    eapply gspec_seq with (1 := W1); [apply (permutation_spec zval P q Hq Ha Ha5 Hkeys (SV (fst sh) (snd sh) 0 0) c1); auto|now intros|].
    { repeat split; cbn [s0 s1 s2 s3]; auto; lia. }
    intros key c2 L2 O2 _. assert (W2 : wf c2) by apply L2. assert (L02 : later c c2) by eauto using later_trans.
    eapply gspec_seq with (1 := W2); [apply (stream_spec c2 key data); auto; apply (bdl_later c c2); auto|now intros|].
    intros ct c3 L3 [O3 E3] _. assert (W3 : wf c3) by apply L3. assert (L03 : later c c3) by eauto using later_trans.
    eapply gspec_seq with (1 := W3); [apply (fixed_base_spec zval A D HC p nb L HF sbits c3 r B0); auto|now intros|].
    { apply (base_of c c3); auto. } { destruct L03 as (_ & ? & _). lia. }
    { destruct L03 as (_ & _ & _ & ->); auto. eapply Z.lt_le_trans; [exact Hlt|]. apply Z.pow_le_mono_r; lia. }
    intros e c4 L4 O4 _. apply gspec_ret; cbn [cv_ephemeral cv_data].
    - split; [exact O4|]. split; [apply (bdl_later c3 c4); auto|exact E3].
    - intros w Bw F1 F2 F3 F4. split; [exact F1|]. intros V HV. specialize (F4 V HV). rewrite <- F4. cbn [pv fst snd].
      rewrite (perm_eval_ok K P Hkeys). cbn [bind]. rewrite <- F2. f_equal. rewrite F3. f_equal.
      unfold rv. cbn [s0 s1 s2 s3]. destruct Bw as [-> _]. reflexivity.
  Qed.
End Specs.
