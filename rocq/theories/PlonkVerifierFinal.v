(** The end of the verifier circuit: keys, parameters, and the two points it returns (C82, C83). *)
From Coq Require Import String List Arith ZArith Lia Bool Znumtheory Ring Field.
From Verif Require Import Base ListAux Alg Poly Group Edwards KzgModel PlonkModel CircuitModel CircuitProofs GadgetModel GadgetProofs RangeProofs
  BitProofs CmpProofs SatProofs SatGadget BuiltProofs FinalProps EccModel EccProofs EccProps TableSpec EccMsm MsmProps ModArithModel ModArithProofs CircuitProps ModArithProps
  RescueModel PlonkVerifierModel PlonkVerifierOps PlonkVerifierEval PlonkVerifierProps.
Import ListNotations.
Local Open Scope fld_scope.
Local Open Scope circ_scope.

Section End.
  Context {K Fr : fld}.
  Add Field Kpvf : (fth K).
  Variable zval : K -> Z.
  Variable q : Z.
  Variables nb L m rb : nat.
  Hypothesis HN : nn_params K zval q nb L m rb.
  Notation M := (2 ^ Z.of_nat m)%Z.
  Variable P : Z.
  Hypothesis HP : (0 < P < M * M)%Z.
  Variable tb : nat.
  Variables A D : K.
  Hypothesis HC : law K A D.
  Notation E := (curve K A D HC).
  Notation cval := (cval K A D HC).
  Notation on := (ins K A D HC).
  Notation tok := (tok zval q).
  Notation True2 := (fun _ _ => True).
  Notation multi := (multi A D HC).
  Notation fv := (fvar (K := K)).
  Notation small := (ModArithProofs.small zval m).
  Notation fval := (ModArithProofs.fval zval m).
  (** Scalars of [tb] bits, whose windows do not reach the native modulus. *)
  Hypothesis Htb : (1 <= tb)%nat.
  Hypothesis Hspan : (2 ^ Z.of_nat (span tb) <= q)%Z.
  Hypothesis Hwin : (2 ^ Z.of_nat (pip_c tb) <= P)%Z.
  Hypothesis HPb : (P <= 2 ^ Z.of_nat tb)%Z.

  Lemma q_gt_1 : (1 < q)%Z.
  Proof.
    eapply Z.lt_le_trans; [|exact Hspan]. apply Z.pow_gt_1; [lia|]. pose proof (span_ge tb Htb). lia.
  Qed.
  Lemma tok_msm c T bases scalars : reached c T -> ptype c <> Turbo -> base (hon c) -> bases <> [] -> length bases = length scalars ->
    Forall (fun b => pout b (num_vars c) /\ on (pv (hon c) b)) bases ->
    Forall (fun s => (s < num_vars c)%nat /\ (zval (hon c s) < 2 ^ Z.of_nat tb)%Z) scalars ->
    tok (msm A D zval q nb L tb P bases scalars) c T
      (fun w o => forall Ps : list E, Forall2 (fun b Q => pv w b = cval Q) bases Ps -> pv w o = cval (multi (map (fun s => zval (w s)) scalars) Ps))
      True2 pout (length bases).
  Proof.
    intros R Nt B Hne Hll HB HS. pose proof (np_field _ _ _ _ _ _ _ HN) as HF. pose proof (pip_c_pos tb) as Hc.
    assert (HS' : Forall (fun s => (s < num_vars c)%nat /\ (zval (hon c s) < (2 ^ Z.of_nat (pip_c tb)) ^ Z.of_nat (nwin (pip_c tb) tb))%Z) scalars).
    { eapply Forall_impl; [|exact HS]. intros s [H1 H2]. split; auto. rewrite span_pow.
      eapply Z.lt_le_trans; [exact H2|]. apply Z.pow_le_mono_r; [lia|]. apply Nat2Z.inj_le. now apply span_ge. }
    assert (Hpc : (2 ^ Z.of_nat (pip_c tb) <= q)%Z).
    { eapply Z.le_trans; [|exact Hspan]. apply Z.pow_le_mono_r; [lia|]. apply Nat2Z.inj_le. unfold span, nwin. nia. }
    pose proof (tok_pippenger zval A D HC q nb L HF P c T bases scalars tb ltac:(lia) Hpc Hwin Htb R B Nt Hne Hll HB HS') as Tk.
    eapply tok_ext. { unfold msm, msm_with_var_scalar_length. rewrite Hll, Nat.eqb_refl. cbn [negb]. unfold cbind, lift.
      replace (support_lookup c) with true; [reflexivity|]. unfold support_lookup. destruct (ptype c); congruence. }
    eapply tok_weaken; [exact Tk| | | |reflexivity]; auto. cbv beta.
    intros w o _ Hr Ps HPs. destruct (Hr Ps HPs) as (zs & Hz & Ev). rewrite Ev, multi_eq. do 3 f_equal.
    clear -Hz Hspan HF. induction Hz as [|s z scalars zs [H1 H2] _ IH]; [reflexivity|]. cbn [map]. rewrite <- IH. f_equal. rewrite span_pow in H1.
    rewrite H2, (pf_zval _ _ _ _ _ HF). symmetry. apply Z.mod_small. lia.
  Qed.

  Lemma tok_vspec {X} (mm : circ K X) c T S V R : reached c T -> vspec zval mm c S (fun _ => True) V R -> tok mm c T S V R 0.
  Proof.
    intros Rc H. apply tok_wpc; auto. eapply wpc_mono; [exact H|]. intros a d _ (S1 & C1 & V1 & R1). split; [exact S1|]. split; [intros; apply C1; auto|]. split; [exact R1|]. intros; apply V1; auto.
  Qed.
  Lemma tok_mul c T x y : reached c T -> ptype c = Ultra rb -> base (hon c) -> can zval m (P mod M) (P / M) c x -> can zval m (P mod M) (P / M) c y ->
    tok (mod_mul zval q nb L x y (pelem m P)) c T
      (fun w o => small w x -> small w y -> small w o /\ ((fval w o) mod P = (fval w x * fval w y) mod P)%Z)
      (fun w o => small w o /\ (fval w o < P)%Z) (fun o n => fvok m o /\ fvout o n) 0.
  Proof.
    intros Rc Ht Hb Hx Hy. destruct (np_hyps zval q nb L m rb HN P HP) as (H1 & H2 & H3 & H4 & H5 & H6 & H7 & H8).
    destruct (P_split zval q nb L m rb HN P HP) as (E0 & E1 & EP). pose proof (np_field _ _ _ _ _ _ _ HN) as HF.
    assert (HP0 : (0 < P mod M + M * (P / M))%Z) by lia.
    destruct Hx as [(A1 & A2 & A3) A4], Hy as [(D1 & D2 & D3) D4].
    assert (Rx : (0 <= fval (hon c) x < M * M)%Z) by (apply (o_small_range zval q nb L HF m rb H1 H2 H3 H4 H5 (P mod M) E0 H8); auto).
    assert (Ry : (0 <= fval (hon c) y < M * M)%Z) by (apply (o_small_range zval q nb L HF m rb H1 H2 H3 H4 H5 (P mod M) E0 H8); auto).
    pose proof (mul_chain zval q nb L HF m rb H1 H2 H3 H4 H5 H6 (P mod M) (P / M) E0 E1 HP0 H7 H8 c x y _ _ (reached_wf _ _ Rc) Ht Hb
      (conj A1 (conj A2 (conj A3 eq_refl))) (conj D1 (conj D2 (conj D3 eq_refl))) ltac:(nia)) as W.
    apply tok_wpc; auto. rewrite Ht. eapply wpc_mono; [exact W|]. cbv beta.
    intros o d _ (U1 & U2 & (U3 & U4 & U5 & U6) & U7). unfold congr in U1. rewrite EP in *.
    split; [exact U1|]. split; [exact U2|]. split; [split; auto|]. intros w _ Hh. split.
    - apply (small_hext zval m (capp c d)); auto.
    - rewrite (fval_hext zval m (capp c d)), U6; auto. apply Z.mod_pos_bound. lia.
  Qed.
  Lemma o_small_range' w x : small w x -> (0 <= fval w x < M * M)%Z.
  Proof.
    destruct (np_hyps zval q nb L m rb HN P HP) as (H1 & H2 & H3 & H4 & H5 & H6 & H7 & H8). pose proof (np_field _ _ _ _ _ _ _ HN) as HF.
    destruct (P_split zval q nb L m rb HN P HP) as (E0 & _). apply (o_small_range zval q nb L HF m rb H1 H2 H3 H4 H5 (P mod M) E0 H8 w x).
  Qed.
  Lemma limbs_fval w x : small w x -> zval (limbs_of m w x) = fval w x.
  Proof.
    intros S. destruct (np_hyps zval q nb L m rb HN P HP) as (H1 & H2 & H3 & H4 & H5 & H6 & H7 & H8). pose proof (np_field _ _ _ _ _ _ _ HN) as HF.
    destruct (P_split zval q nb L m rb HN P HP) as (E0 & _).
    pose proof (o_small_range zval q nb L HF m rb H1 H2 H3 H4 H5 (P mod M) E0 H8 w x S) as R.
    replace (limbs_of m w x) with (fZ (fval w x) : K).
    - rewrite (pf_zval _ _ _ _ _ HF). apply Z.mod_small. lia.
    - unfold ModArithProofs.fval, limbs_of. rewrite fZ_add, fZ_mul, !(pf_fZ _ _ _ _ _ HF). reflexivity.
  Qed.
  Lemma can_later c c1 T1 x : later c c1 T1 -> can zval m (P mod M) (P / M) c x -> can zval m (P mod M) (P / M) c1 x.
  Proof.
    intros LT [(A1 & [A2 A2'] & A3) A4]. pose proof (lt_vars _ _ _ LT) as Hv.
    unfold can, inb, ModArithProofs.small, ModArithProofs.fval, fvout in *. rewrite !(lt_hon _ _ _ LT) by assumption. unfold inc in *. split; [split; [exact A1|split; [split; lia|exact A3]]|exact A4].
  Qed.
  Lemma tok_constp c T Q : reached c T -> tok (create_constant_point_variable Q) c T (fun w o => pv w o = Q) True2 pout 0.
  Proof. intros R. apply tok_gspec; auto. apply create_constant_point_variable_spec. eapply reached_wf; eauto. Qed.
  Lemma tok_convert c T x : reached c T -> can zval m (P mod M) (P / M) c x ->
    tok (convert_to_var x) c T (fun w o => w o = limbs_of m w x) True2 (fun o n => o < n)%nat 0.
  Proof.
    intros R [(A1 & A2 & A3) A4]. eapply tok_weaken; [apply tok_vspec; [exact R|apply (convert_spec zval m); auto; eapply reached_wf; eauto]|auto..].
  Qed.

  (** ** The gates after the opening claim *)
  (** mod.rs:229-283 *)
  Definition verifier_end (ni : nninfo (K := K)) (info : pcsvar (K := K)) (beta_g g : Edwards.pt K) (blinding : nat) : circ K (pvar * pvar) :=
    gv <- create_constant_point_variable g ;;
    u <- convert_to_var (pc_u info) ;;
    inner1 <- msm A D zval q nb L tb P [pc_open info; pc_shifted info; gv] [1%nat; u; blinding] ;;
    t <- vmul zval q nb L ni (pc_next info) (pc_u info) ;;
    gi <- create_constant_point_variable (te_inverse g) ;;
    let sb := pc_comm info ++ [(pc_point info, pc_open info); (t, pc_shifted info); (pc_eval info, gi)] in
    scalars <- mapM convert_to_var (map fst sb) ;;
    bg <- create_constant_point_variable beta_g ;;
    inner2 <- msm A D zval q nb L tb P (map snd sb ++ [bg]) (scalars ++ [blinding]) ;;
    ret (inner1, inner2).
  Lemma partial_split zr radix2 RP beta_g g vks pi b bl c :
    partial_verify_circuit (Fr := Fr) zval q nb L zr P tb radix2 A D RP beta_g g vks pi b bl c =
    match vks with
    | [] => fail ParameterError
    | vk0 :: _ =>
        if negb (length vks =? bv_len b)%nat then fail ParameterError else
        if negb (forallb (fun vk => (kv_n vk =? kv_n vk0)%nat) vks) then fail ParameterError else
        ni <- info_new zval nb P tb ;;
        d <- (match radix2 (kv_n vk0) with Some d => ret d | None => fail ParameterError end) ;;
        info <- prepare_pcs_info_var zval q nb L zr P tb radix2 ni RP d vks (repeat (pi ++ pi) (length vks)) b ;;
        verifier_end ni info beta_g g bl
    end c.
  Proof. reflexivity. Qed.

  Definition scalars_of (o : pcsvar (K := K)) : list fv := pc_u o :: pc_point o :: pc_next o :: pc_eval o :: map fst (pc_comm o).
  Definition points_of (o : pcsvar (K := K)) : list pvar := pc_open o :: pc_shifted o :: map snd (pc_comm o).
  (** The two points are the sums of the multiples, the product of [next] and [u] being
      taken modulo the order of the group. *)
  Definition end_ok (G BG : E) (bl : nat) (info : pcsvar (K := K)) (w : nat -> K) (o : pvar * pvar) : Prop :=
    forall (Pc : list E) (Po Ps : E), Forall2 (fun b Q => pv w b = cval Q) (map snd (pc_comm info)) Pc -> pv w (pc_open info) = cval Po -> pv w (pc_shifted info) = cval Ps ->
      Forall (small w) (scalars_of info) ->
      pv w (fst o) = cval (gadd Po (gadd (gmul (fval w (pc_u info)) Ps) (gmul (zval (w bl)) G))) /\
      exists t, (0 <= t)%Z /\ (t mod P = (fval w (pc_next info) * fval w (pc_u info)) mod P)%Z /\
        pv w (snd o) = cval (gadd (multi (map (fun sb => fval w (fst sb)) (pc_comm info)) Pc)
          (gadd (gmul (fval w (pc_point info)) Po) (gadd (gmul t Ps) (gadd (gmul (fval w (pc_eval info)) (gopp G)) (gmul (zval (w bl)) BG))))).

  Lemma te_inverse_cval (G : E) : te_inverse (cval G) = cval (gopp G).
  Proof. reflexivity. Qed.
  Lemma multi_app zs zs' : forall Ps Ps', length zs = length Ps -> multi (zs ++ zs') (Ps ++ Ps') = gadd (multi zs Ps) (multi zs' Ps').
  Proof.
    induction zs as [|z zs IH]; intros [|Q Ps] Ps' Hl; try discriminate; cbn [app MsmProps.multi]; [now rewrite gadd_0_l|].
    rewrite IH by (now injection Hl). apply gadd_assoc.
  Qed.
  Lemma tok_end c T ni info (G BG : E) bl : reached c T -> ptype c = Ultra rb -> base (hon c) -> ni_elem ni = pelem m P ->
    Forall (can zval m (P mod M) (P / M) c) (scalars_of info) ->
    Forall (fun p => pout p (num_vars c) /\ on (pv (hon c) p)) (points_of info) ->
    (bl < num_vars c)%nat -> (zval (hon c bl) < 2 ^ Z.of_nat tb)%Z ->
    tok (verifier_end ni info (cval BG) (cval G) bl) c T (end_ok G BG bl info) True2 (fun o n => pout (fst o) n /\ pout (snd o) n) (3 + (length (pc_comm info) + 4)).
  Proof.
    intros Rc Ht Hb Hni Hsc Hpt Hbl Hblv. pose proof (np_field _ _ _ _ _ _ _ HN) as HF. unfold verifier_end.
    pose proof Hsc as Hsc0. unfold scalars_of in Hsc. inversion_clear Hsc as [|? ? Cu Hsc1]. inversion_clear Hsc1 as [|? ? Cp Hsc2]. inversion_clear Hsc2 as [|? ? Cn Hsc3]. inversion_clear Hsc3 as [|? ? Ce Cc].
    inversion_clear Hpt as [|? ? [Oo Oo'] Hpt1]. inversion_clear Hpt1 as [|? ? [Os Os'] Oc].
    eapply tok_bind; [exact Rc|exact Hb|apply tok_constp; exact Rc| |reflexivity].
    intros gv c1 T1 L1 Rg Hg1. cbv beta in Rg, Hg1.
    eapply tok_bind; [apply L1|apply L1|apply tok_convert; [apply L1|eapply can_later; eauto]| |reflexivity].
    intros u c2 T2 L2 Ru Hu2. cbv beta in Ru, Hu2. pose proof (later_trans _ _ _ _ _ L1 L2) as L02. pose proof (lt_vars _ _ _ L02) as V02. pose proof (lt_vars _ _ _ L2) as V12.
    pose proof (lt_base _ _ _ L2) as B2. pose proof (wf_two _ (lt_wf _ _ _ L2)) as W2.
    pose proof Cu as [(Cu1 & Cu2 & Cu3) Cu4].
    assert (Hu : zval (hon c2 u) = fval (hon c) (pc_u info)).
    { rewrite (proj1 (Hu2 (hon c2) B2 (hext_hon _))). pose proof (can_later c c2 T2 _ L02 Cu) as [(_ & _ & S) _]. rewrite (limbs_fval _ _ S).
      unfold ModArithProofs.fval. destruct Cu2. now rewrite !(lt_hon _ _ _ L02) by assumption. }
    assert (H2tb : (1 < 2 ^ Z.of_nat tb)%Z) by (apply Z.pow_gt_1; lia).
    assert (Hg : pv (hon c2) gv = cval G).
    { rewrite (pv_later _ _ _ _ L2); [|exact Rg]. apply (proj1 (Hg1 (hon c1) (lt_base _ _ _ L1) (hext_hon _))). }
    eapply tok_bind; [apply L2|apply L2|apply tok_msm; [apply L2|rewrite (lt_type _ _ _ L02), Ht; discriminate|exact B2|discriminate|reflexivity|..]| |].
    { constructor; [split; [eapply pout_le; eauto|rewrite (pv_later _ _ _ _ L02); auto]|]. constructor; [split; [eapply pout_le; eauto|rewrite (pv_later _ _ _ _ L02); auto]|].
      constructor; [split; [eapply pout_le; eauto|rewrite Hg; apply cval_on]|constructor]. }
    { constructor; [split; [lia|]|].
      { destruct B2 as [_ B1]. rewrite B1. change (1 : K) with (fZ 1 : K). rewrite (pf_zval _ _ _ _ _ HF), Z.mod_small; [exact H2tb|]. pose proof q_gt_1. lia. }
      constructor; [split; [exact Ru|rewrite Hu; destruct (P_split zval q nb L m rb HN P HP) as (_ & _ & EP); rewrite EP in Cu4; lia]|]. constructor; [split; [lia|rewrite (lt_hon _ _ _ L02) by exact Hbl; exact Hblv]|constructor]. }
    { intros i1 c3 T3 L3 Ri1 Hi1. cbv beta in Ri1, Hi1. pose proof (later_trans _ _ _ _ _ L02 L3) as L03. unfold vmul. rewrite Hni.
      eapply tok_bind; [apply L3|apply L3|apply tok_mul; [apply L3|now rewrite (lt_type _ _ _ L03)|apply L3|eapply can_later; eauto|eapply can_later; eauto]| |reflexivity].
      intros t c4 T4 L4 Rt Ht4. cbv beta in Rt, Ht4. pose proof (later_trans _ _ _ _ _ L03 L4) as L04.
      eapply tok_bind; [apply L4|apply L4|apply tok_constp, L4| |reflexivity].
      intros gi c5 T5 L5 Rgi Hgi. cbv beta in Rgi, Hgi. pose proof (later_trans _ _ _ _ _ L04 L5) as L05. pose proof (later_trans _ _ _ _ _ L4 L5) as L35.
      remember (pc_comm info ++ [(pc_point info, pc_open info); (t, pc_shifted info); (pc_eval info, gi)]) as sb eqn:Esb.
      assert (Ct : can zval m (P mod M) (P / M) c4 t).
      { destruct (Ht4 (hon c4) (lt_base _ _ _ L4) (hext_hon _)) as [_ [T1' T2']]. split; [split; [apply Rt|split; [apply Rt|exact T1']]|].
        destruct (P_split zval q nb L m rb HN P HP) as (_ & _ & EP). now rewrite EP. }
      assert (Csb : Forall (can zval m (P mod M) (P / M) c5) (map fst sb)).
      { rewrite Esb, map_app. apply Forall_app. split; [eapply Forall_impl; [|exact Cc]; intros y Hy; exact (can_later _ _ _ _ L05 Hy)|].
        cbn [map fst]. constructor; [apply (can_later _ _ _ _ L05 Cp)|]. constructor; [apply (can_later _ _ _ _ L5 Ct)|]. constructor; [apply (can_later _ _ _ _ L05 Ce)|constructor]. }
      assert (Psb : Forall (fun p => pout p (num_vars c5) /\ on (pv (hon c5) p)) (map snd sb)).
      { assert (Up : forall p, pout p (num_vars c) /\ on (pv (hon c) p) -> pout p (num_vars c5) /\ on (pv (hon c5) p)).
        { intros p [X1 X2]. split; [eapply pout_le; [exact X1|apply (lt_vars _ _ _ L05)]|]. now rewrite (pv_later _ _ _ _ L05). }
        rewrite Esb, map_app. apply Forall_app. split; [eapply Forall_impl; [|exact Oc]; exact Up|]. cbn [map snd].
        constructor; [apply Up; auto|]. constructor; [apply Up; auto|]. constructor; [|constructor]. split; [exact Rgi|].
        rewrite (proj1 (Hgi (hon c5) (lt_base _ _ _ L5) (hext_hon _))), te_inverse_cval. apply cval_on. }
      eapply tok_bind; [apply L5|apply L5|apply (tok_mapM zval q convert_to_var (fun x w o => w o = limbs_of m w x) (fun _ => True2) (fun o n => o < n)%nat (map fst sb)); [intros; lia|apply L5|apply L5|]| |reflexivity].
      { intros y c1' T1' Hin LT. apply tok_convert; [apply LT|]. rewrite Forall_forall in Csb. eapply can_later; eauto. }
      intros scs c6 T6 L6 Rscs Hscs. cbv beta in Rscs, Hscs.
      eapply tok_bind; [apply L6|apply L6|apply tok_constp, L6| |reflexivity].
      intros bg c7 T7 L7 Rbg Hbg. cbv beta in Rbg, Hbg. pose proof (later_trans _ _ _ _ _ L6 L7) as L57. pose proof (later_trans _ _ _ _ _ L05 L57) as L07.
      pose proof (lt_base _ _ _ L7) as B7.
      assert (Lscs : length scs = length sb).
      { destruct (Hscs (hon c6) (lt_base _ _ _ L6) (hext_hon _)) as [F _]. apply Forall2_len in F. rewrite map_length in F. lia. }
      eapply tok_bind with (n2 := 0%nat); [apply L7|apply L7|apply tok_msm; [apply L7|rewrite (lt_type _ _ _ L07), Ht; discriminate|exact B7| |..]| |].
      - intros X. apply app_eq_nil in X. destruct X. discriminate.
      - rewrite !app_length, map_length, Lscs. reflexivity.
      - apply Forall_app. split.
        + eapply Forall_impl; [|exact Psb]. intros p [X1 X2]. split; [eapply pout_le; [exact X1|apply (lt_vars _ _ _ L57)]|]. now rewrite (pv_later _ _ _ _ L57).
        + constructor; [|constructor]. split; [exact Rbg|]. rewrite (proj1 (Hbg (hon c7) B7 (hext_hon _))). apply cval_on.
      - apply Forall_app. split.
        + destruct (Hscs (hon c6) (lt_base _ _ _ L6) (hext_hon _)) as [F _].
          assert (F' : Forall2 (fun x o => (o < num_vars c6)%nat /\ hon c6 o = limbs_of m (hon c6) x /\ can zval m (P mod M) (P / M) c6 x) (map fst sb) scs).
          { clear -F Rscs Csb L6 HN HP Htb Hspan Hwin HPb HC. revert Rscs Csb. induction F as [|x o l l' Fx _ IH]; intros Rscs Csb; constructor; inversion_clear Rscs; inversion_clear Csb; auto. split; auto. split; auto. eapply can_later; eauto. }
          clear -F' L7 HN HP Htb Hspan Hwin HPb HC. revert F'. generalize (map fst sb). intros l F'. induction F' as [|x o l l' (X1 & X2 & X3) _ IH]; constructor; auto.
          pose proof (lt_vars _ _ _ L7). split; [lia|]. rewrite (lt_hon _ _ _ L7) by exact X1. rewrite X2. destruct X3 as [(_ & _ & S) V]. rewrite (limbs_fval _ _ S).
          destruct (P_split zval q nb L m rb HN P HP) as (_ & _ & EP). rewrite EP in V. lia.
        + constructor; [|constructor]. pose proof (lt_vars _ _ _ L07). split; [lia|]. rewrite (lt_hon _ _ _ L07) by exact Hbl. exact Hblv.
      - intros i2 c8 T8 L8 Ri2 Hi2. cbv beta in Ri2. apply tok_ret; [apply L8| |auto|].
        + intros w Bw Hi2w Hbgw Hscsw Hgiw Htw Hi1w Huw Hgw Pc Po Ps HPc HPo HPs Sm. cbn [fst snd].
          inversion_clear Sm as [|? ? Su Sm1]. inversion_clear Sm1 as [|? ? Sp Sm2]. inversion_clear Sm2 as [|? ? Sn Sm3]. inversion_clear Sm3 as [|? ? Se Sc].
          destruct (Htw Sn Su) as [St Et]. split.
          * rewrite (Hi1w [Po; Ps; G]) by (repeat constructor; auto). cbn [map MsmProps.multi]. rewrite Huw, (limbs_fval _ _ Su). destruct Bw as [_ B1]. rewrite B1.
            change (1 : K) with (fZ 1 : K). rewrite (pf_zval _ _ _ _ _ HF), Z.mod_small by (pose proof q_gt_1; lia).
            now rewrite gmul_1, gadd_0_r.
          * exists (fval w t). split; [apply (o_small_range' _ _ St)|]. split; [exact Et|].
            rewrite (Hi2w (Pc ++ [Po; Ps; gopp (G : E); BG])).
            -- rewrite map_app. assert (Es : map (fun s => zval (w s)) scs = map (fun sb0 => fval w (fst sb0)) sb).
               { assert (Ss : Forall (small w) (map fst sb)).
                 { rewrite Esb, map_app. apply Forall_app. split; [exact Sc|]. cbn [map fst]. constructor; [exact Sp|]. constructor; [exact St|]. constructor; [exact Se|constructor]. }
                 clear -Hscsw Ss HN HP Htb Hspan Hwin HPb HC. revert scs Hscsw. induction sb as [|x l IH]; intros scs Hs; inversion Hs as [|? o ? ? E1 E2]; subst; [reflexivity|].
                 cbn [map] in *. inversion_clear Ss. f_equal; [now rewrite E1, limbs_fval|now apply IH]. }
               rewrite Es, Esb, map_app, <- app_assoc. cbn [map fst app].
               rewrite multi_app by (apply Forall2_len in HPc; rewrite !map_length in *; exact HPc). cbn [MsmProps.multi]. now rewrite gadd_0_r.
            -- rewrite Esb, map_app, <- app_assoc. cbn [map snd app]. apply Forall2_app; [exact HPc|]. constructor; [exact HPo|]. constructor; [exact HPs|].
               constructor; [rewrite Hgiw; apply te_inverse_cval|]. constructor; [exact Hbgw|constructor].
        + cbn [fst snd]. split; [|exact Ri2]. eapply pout_le; [exact Ri1|]. pose proof (lt_vars _ _ _ L35). pose proof (lt_vars _ _ _ L57). pose proof (lt_vars _ _ _ L8). lia.
      - rewrite app_length, map_length, Esb, app_length. cbn [length]. reflexivity. }
    cbn [length]. lia.
  Qed.
End End.
