(** Machine-checked statement about windowed multi-scalar multiplication: C36.

    [reached c T] lists the circuits a builder can hold, with the lookup tables [T]
    it created ([FinalProps]); [curve], [holds], [msm_value] are those of [EccProps]. *)

From Coq Require Import List Arith ZArith Bool Lia.
From Verif Require Import Base ListAux Alg Poly CircuitModel CircuitProofs GadgetModel GadgetProofs RangeProofs
  BitProofs CmpProofs SatProofs SatGadget BuiltProofs FinalProps CircuitProps Group Edwards EccModel EccProofs EccProps TableSpec EccMsm.
Import ListNotations.
Local Open Scope fld_scope.
Local Open Scope circ_scope.

Section C36.
  Context {K : fld}.
  Variable zval : K -> Z.
  Variables A D : K.
  Hypothesis HC : law K A D.
  Variable p : Z.
  Variables nb L : nat.
  Hypothesis HF : pfield K zval p nb L.
  Notation E := (curve K A D HC).
  Notation holds := (holds A D HC).
  Notation accepts := (accepts zval).

  (** The integers below [2^span len] are those the windows of [len] bits represent. *)
  Definition span (len : nat) : nat := (pip_c len * nwin (pip_c len) len)%nat.
  Lemma span_pow len : ((2 ^ Z.of_nat (pip_c len)) ^ Z.of_nat (nwin (pip_c len) len) = 2 ^ Z.of_nat (span len))%Z.
  Proof. unfold span. rewrite Nat2Z.inj_mul, Z.pow_mul_r by lia. reflexivity. Qed.
  Lemma pip_c_pos len : (3 <= pip_c len)%nat.
  Proof.
    unfold pip_c. destruct (Nat.ltb_spec len 32); [lia|]. unfold ln_without_floats.
    assert (H5 : (5 <= Nat.log2_up len)%nat) by (change 5%nat with (Nat.log2_up 32); apply Nat.log2_up_le_mono; lia).
    revert H5. generalize (Nat.log2_up len). intros n Hn. apply Nat.div_le_lower_bound; lia.
  Qed.
  Lemma span_ge len : (1 <= len)%nat -> (len <= span len)%nat.
  Proof.
    intros H. unfold span, nwin. pose proof (pip_c_pos len). set (c := pip_c len) in *.
    pose proof (Nat.div_mod (len - 1) c ltac:(lia)). pose proof (Nat.mod_upper_bound (len - 1) c ltac:(lia)). nia.
  Qed.
  (** The sum of the multiples by integers. *)
  Fixpoint multi (zs : list Z) (Ps : list E) : E :=
    match zs, Ps with
    | z :: zs', P :: Ps' => gadd (gmul z P) (multi zs' Ps')
    | _, _ => g0
    end.
  Lemma multi_eq zs : forall Ps, multi zs Ps = gsum A D HC (smul A D HC zs Ps).
  Proof.
    unfold smul. induction zs as [|z zs IH]; intros [|P Ps]; cbn [multi combine map gsum fst snd]; auto. now rewrite IH.
  Qed.

  (** In a circuit with lookups, [msm] on scalars of [len] bits succeeds, and
      - the values it computes are the sum of the multiples by the scalars, and
        are accepted if the circuit was;
      - in every assignment accepted then or later, the result is a sum of
        multiples by integers below [2^span len] congruent to the scalars modulo
        the field. *)
  Theorem C36_pippenger order (c : circuit K) T bases scalars len :
    reached c T -> ptype c <> Turbo -> base (honest c) -> (1 <= len)%nat ->
    (2 ^ Z.of_nat (pip_c len) <= p)%Z -> (2 ^ Z.of_nat (pip_c len) <= order)%Z ->
    bases <> [] -> length bases = length scalars ->
    Forall (fun b => pinc c b /\ in_law A D HC (honest c) b) bases ->
    Forall (fun s => inc c s /\ (zval (honest c s) < 2 ^ Z.of_nat len)%Z) scalars ->
    exists o c' Tn, msm_with_var_scalar_length A D zval p nb L order bases scalars len c = (Ok o, c') /\
      length Tn = length bases /\ reached c' (T ++ Tn) /\ extends c c' /\ pinc c' o /\ (exists l, witness c' = witness c ++ l) /\
      (forall Ps, Forall2 (holds (honest c)) bases Ps -> holds (honest c') o (msm_value zval A D HC (honest c) scalars Ps)) /\
      (forall pub, (Z.of_nat (length T + length bases) < p)%Z -> accepts c (witness c) pub -> accepts c' (witness c') pub) /\
      (forall c'' T'' ws pub, reached c'' (T ++ Tn ++ T'') -> extends c' c'' -> (Z.of_nat (length (T ++ Tn ++ T'')) < p)%Z ->
         accepts c'' ws pub ->
         forall Ps, Forall2 (holds (asg ws)) bases Ps ->
           exists zs, Forall2 (fun s z => (0 <= z < 2 ^ Z.of_nat (span len))%Z /\ zval (asg ws s) = (z mod p)%Z) scalars zs /\
             holds (asg ws) o (multi zs Ps)).
  Proof.
    intros R Nt B Hl Hp Ho Hne Hll HB HS.
    assert (HB' : Forall (fun b => pout b (num_vars c) /\ ins K A D HC (pv (hon c) b)) bases).
    { eapply Forall_impl; [|exact HB]. intros b [H1 H2]. split; auto. }
    assert (HS' : Forall (fun s => (s < num_vars c)%nat /\ (zval (hon c s) < (2 ^ Z.of_nat (pip_c len)) ^ Z.of_nat (nwin (pip_c len) len))%Z) scalars).
    { eapply Forall_impl; [|exact HS]. intros s [H1 H2]. split; auto. rewrite span_pow.
      eapply Z.lt_le_trans; [exact H2|]. apply Z.pow_le_mono_r; [lia|]. apply Nat2Z.inj_le. now apply span_ge. }
    pose proof (pip_c_pos len) as Hc.
    destruct (tok_pippenger zval A D HC p nb L HF order c T bases scalars len ltac:(lia) Hp Ho Hl R B Nt Hne Hll HB' HS')
      as (o & c' & Tn & E1 & LT & R' & X & Po & W & Hh & Snd & Cmp).
    exists o, c', Tn. split.
    { unfold msm_with_var_scalar_length. rewrite Hll, Nat.eqb_refl. cbn [negb]. unfold cbind, lift.
      replace (support_lookup c) with true; [exact E1|]. unfold support_lookup. destruct (ptype c); congruence. }
    split; [exact LT|]. split; [exact R'|]. split; [exact X|]. split; [exact Po|]. split; [exact W|]. split; [|split; [exact Cmp|]].
    - destruct W as [l W]. intros Ps HP. pose proof (hon_ext c c' T l) as He.
      destruct (Hh (hon c') (base_ext _ _ _ _ R W B) (hext_hon _)) as [_ H].
      destruct (H Ps) as (zs & Hz & Ev).
      + clear -HP He R W HB. induction HP as [|b P bases Ps H _ IH]; constructor.
        * apply Forall_cons_iff in HB as [[[Hb1 Hb2] _] _]. unfold EccProps.holds in H. rewrite <- H. unfold pv.
          unfold honest. now rewrite !He.
        * apply IH. now apply Forall_cons_iff in HB.
      + unfold EccProps.holds. etransitivity; [exact Ev|]. f_equal. rewrite msm_value_eq. do 2 f_equal.
        clear -Hz He R W HS. induction Hz as [|s z scalars zs H _ IH]; [reflexivity|]. apply Forall_cons_iff in HS as [[Hs _] HS].
        cbn [map]. rewrite <- IH by exact HS. f_equal. unfold zeq_rel in H. rewrite H. unfold honest. now rewrite He.
    - intros c'' T'' ws pub R'' X'' Hp'' Acc Ps HP. destruct (Snd c'' T'' ws pub R'' X'' Hp'' Acc Ps) as (zs & Hz & Ev).
      + clear -HP. induction HP; constructor; auto.
      + exists zs. split; [|unfold EccProps.holds; rewrite multi_eq; exact Ev].
        clear -Hz HF. induction Hz as [|s z scalars zs [H1 H2] _ IH]; constructor; auto. rewrite span_pow in H1. split; auto.
        rewrite H2. apply (pf_zval _ _ _ _ _ HF).
  Qed.
  (** When the windows do not reach beyond the modulus, only the right result is
      accepted. *)
  Theorem C36_pippenger_exact order (c : circuit K) T bases scalars len :
    (2 ^ Z.of_nat (span len) <= p)%Z ->
    reached c T -> ptype c <> Turbo -> base (honest c) -> (1 <= len)%nat -> (2 ^ Z.of_nat (pip_c len) <= order)%Z ->
    bases <> [] -> length bases = length scalars ->
    Forall (fun b => pinc c b /\ in_law A D HC (honest c) b) bases ->
    Forall (fun s => inc c s /\ (zval (honest c s) < 2 ^ Z.of_nat len)%Z) scalars ->
    exists o c' Tn, msm_with_var_scalar_length A D zval p nb L order bases scalars len c = (Ok o, c') /\
      length Tn = length bases /\ reached c' (T ++ Tn) /\ extends c c' /\ pinc c' o /\
      (forall pub, (Z.of_nat (length T + length bases) < p)%Z -> accepts c (witness c) pub -> accepts c' (witness c') pub) /\
      (forall c'' T'' ws pub, reached c'' (T ++ Tn ++ T'') -> extends c' c'' -> (Z.of_nat (length (T ++ Tn ++ T'')) < p)%Z ->
         accepts c'' ws pub ->
         forall Ps, Forall2 (holds (asg ws)) bases Ps -> holds (asg ws) o (msm_value zval A D HC (asg ws) scalars Ps)).
  Proof.
    intros Hsp R Nt B Hl Ho Hne Hll HB HS.
    destruct (C36_pippenger order c T bases scalars len R Nt B Hl) as (o & c' & Tn & E1 & LT & R' & X & Po & _ & _ & Cmp & Snd); auto.
    { eapply Z.le_trans; [|exact Hsp]. apply Z.pow_le_mono_r; [lia|]. apply Nat2Z.inj_le. unfold span, nwin. nia. }
    exists o, c', Tn. do 6 (split; auto). intros c'' T'' ws pub R'' X'' Hp'' Acc Ps HP.
    destruct (Snd c'' T'' ws pub R'' X'' Hp'' Acc Ps HP) as (zs & Hz & Ev).
    replace (msm_value zval A D HC (asg ws) scalars Ps) with (multi zs Ps); auto.
    rewrite msm_value_eq, multi_eq. do 2 f_equal. clear -Hz Hsp.
    induction Hz as [|s z scalars zs [H1 H2] _ IH]; [reflexivity|]. cbn [map]. rewrite H2, Z.mod_small by lia. now f_equal.
  Qed.
End C36.

(** The hypotheses are met: on the Edwards curve over F97 with a point of order
    56 and any scalar of six bits, the run succeeds, is accepted, and pins the
    output to the multiple. *)
Lemma ecc_reached t s : reached (ecc_circuit t s) [].
Proof.
  assert (B0 : base (hon (new_circuit F97 t))) by (split; reflexivity).
  assert (T : tok z97 97 (create_point_variable (e97 5, e97 23) >> create_point_variable (e97 7, e97 41) >> create_variable (e97 s))
    (new_circuit F97 t) [] (fun _ _ => True) (fun _ _ => True) (fun _ _ => True) 0).
  { eapply tok_bind with (n2 := 0%nat); [apply r_new|exact B0|apply tok_point; [apply r_new|exact B0]| |reflexivity]. intros a c1 T1 L1 _ _.
    eapply tok_bind with (n2 := 0%nat); [apply L1|apply L1|apply tok_point; apply L1| |reflexivity]. intros b c2 T2 L2 _ _.
    eapply tok_weaken; [apply tok_var, L2|auto..]. }
  destruct T as (a & c' & Tn & E & Ln & R & _). destruct Tn; [|discriminate]. unfold ecc_circuit. rewrite E. exact R.
Qed.
Theorem C36_pippenger_instance s : (0 <= s < 64)%Z ->
  exists o c' Tn, msm_with_var_scalar_length (e97 1) (e97 5) z97 97 7 64 56 [(2, 3)%nat] [6%nat] 6 (ecc_circuit (Ultra 2) s) = (Ok o, c') /\
    length Tn = 1%nat /\ reached c' Tn /\ accepts z97 c' (witness c') [] /\
    (forall ws, accepts z97 c' ws [] -> holds (e97 1) (e97 5) law97 (asg ws) (2, 3)%nat g97 ->
       holds (e97 1) (e97 5) law97 (asg ws) o (gmul (z97 (asg ws 6)) g97)).
Proof.
  intros Hs. destruct (C35_instance (Ultra 2) s) as (G & B & P1 & P2 & I & H1 & H2).
  assert (Es : z97 (honest (ecc_circuit (Ultra 2) s) 6) = s).
  { change (z97 (e97 s) = s). change (e97 s) with (zmk 97 s). rewrite <- (fZ_Zp 97 prime_97 s). rewrite (pf_zval _ _ _ _ _ F97_pfield). apply Z.mod_small. lia. }
  destruct (C36_pippenger_exact z97 (e97 1) (e97 5) law97 97 7 64 F97_pfield 56 (ecc_circuit (Ultra 2) s) [] [(2, 3)%nat] [6%nat] 6)
    as (o & c' & Tn & E & LT & R' & X & Po & Cmp & Snd).
  - vm_compute; congruence.
  - apply ecc_reached.
  - discriminate.
  - exact B.
  - lia.
  - vm_compute; congruence.
  - discriminate.
  - reflexivity.
  - constructor; [|constructor]. split; [exact P1|]. apply (in_law_holds (e97 1) (e97 5) law97). exists g97. exact H1.
  - constructor; [|constructor]. split; [exact I|]. rewrite Es. change (2 ^ Z.of_nat 6)%Z with 64%Z. lia.
  - exists o, c', Tn. split; auto. split; auto. split; auto. split.
    + apply Cmp; [cbn; lia|]. split; reflexivity.
    + intros ws Acc H. rewrite <- (gadd_0_r _ (gmul _ g97)).
      apply (Snd c' [] ws []) with (Ps := [g97]); auto using extends_refl.
      * cbn [app]. rewrite app_nil_r. exact R'.
      * cbn [app]. rewrite app_nil_r, LT. cbn. lia.
Qed.
Print Assumptions C36_pippenger.
Print Assumptions C36_pippenger_exact.
Print Assumptions C36_pippenger_instance.
