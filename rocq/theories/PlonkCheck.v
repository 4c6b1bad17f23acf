(** The final pairing check: what it computes for one and for many proofs. *)
From Coq Require Import List Arith ZArith Lia Bool Ring Field.
From Verif Require Import Base Alg Poly VRing KzgModel KzgProofs KzgFft CircuitModel FinalModel PlonkModel LagrangeProofs PlonkPoly PlonkInst PlonkLin PlonkOpen.
Import ListNotations.

Section Check.
  Variable K : fld.
  Local Open Scope fld_scope.
  Add Field Kchk : (fth K).
  Notation pol := (list K).
  Variables V1 V2 VT : vsp K.
  Variable e : pairing K V1 V2 VT.

  (** ** Polynomials with coefficients in a vector space *)
  Section VPoly.
    Variable V : vsp K.
    Fixpoint vpeval (cs : list V) (x : K) : V := match cs with [] => v0 | c :: cs' => vadd c (vmul x (vpeval cs' x)) end.
    Fixpoint vpdiv (cs : list V) (z : K) : list V := match cs with [] => [] | _ :: cs' => vpeval cs' z :: vpdiv cs' z end.
    Lemma vpdiv_len cs z : length (vpdiv cs z) = length cs.
    Proof. induction cs; cbn; auto. Qed.
    Lemma vpdiv_spec cs z x : vpeval cs x = vadd (vpeval cs z) (vmul (x - z) (vpeval (vpdiv cs z) x)).
    Proof.
      induction cs as [|c cs IH]; cbn [vpeval vpdiv]; [now rewrite vmul_0_r, vadd_0_r|].
      rewrite IH. vring.
    Qed.
    (** A quotient has one coefficient less. *)
    Lemma vpdiv_last cs z : exists q, length q = pred (length cs) /\ forall x, vpeval (vpdiv cs z) x = vpeval q x.
    Proof.
      exists (removelast (vpdiv cs z)). split.
      - rewrite removelast_firstn_len, firstn_length, vpdiv_len. lia.
      - intro x. induction cs as [|c [|c' cs] IH]; [reflexivity| |].
        + cbn. now rewrite vmul_0_r, vadd_0_r.
        + change (vpdiv (c :: c' :: cs) z) with (vpeval (c' :: cs) z :: vpdiv (c' :: cs) z). cbn [vpeval].
          rewrite IH. reflexivity.
    Qed.
    Lemma vmul_eq_0' (a : K) (x : V) : a <> 0 -> vmul a x = v0 -> x = v0.
    Proof. intros Ha H. apply vmul_eq_0 in H as [H|H]; [contradiction|exact H]. Qed.
    Theorem vroot_zero : forall rs cs, NoDup rs -> (forall r, In r rs -> vpeval cs r = v0) -> (length cs <= length rs)%nat ->
      forall x, vpeval cs x = v0.
    Proof.
      induction rs as [|r rs IH]; intros cs Nd H L x.
      - destruct cs; [reflexivity|cbn in L; lia].
      - rewrite (vpdiv_spec cs r x), (H r (or_introl eq_refl)). destruct (vpdiv_last cs r) as (q & Lq & Eq). rewrite Eq.
        rewrite (IH q).
        + now rewrite vmul_0_r, vadd_0_r.
        + now inversion Nd.
        + intros r' Hr'. rewrite <- Eq. apply (vmul_eq_0' (r' - r)).
          * intro Z. apply fsub_0_eq in Z. subst r'. inversion Nd; contradiction.
          * pose proof (vpdiv_spec cs r r') as D. rewrite (H r' (or_intror Hr')), (H r (or_introl eq_refl)) in D.
            symmetry. etransitivity; [exact D|]. vring.
        + cbn in L. lia.
    Qed.
    Lemma vpeval_0 cs x : (forall c, In c cs -> c = v0) -> vpeval cs x = v0.
    Proof.
      induction cs as [|c cs IH]; intro H; [reflexivity|]. cbn [vpeval]. rewrite IH by (intros; apply H; now right).
      rewrite (H c (or_introl eq_refl)), vmul_0_r, vadd_0_r. reflexivity.
    Qed.
    (** Vanishing at as many points as there are coefficients forces all coefficients to vanish. *)
    Theorem vroot_coeffs : forall cs rs, NoDup rs -> (forall r, In r rs -> vpeval cs r = v0) -> (length cs <= length rs)%nat ->
      forall c, In c cs -> c = v0.
    Proof.
      induction cs as [|c cs IH]; intros rs Nd H L a Ha; [destruct Ha|].
      pose proof (vroot_zero rs (c :: cs) Nd H L) as Z.
      assert (C : c = v0). { specialize (Z 0). cbn [vpeval] in Z. rewrite vmul_0_l, vadd_0_r in Z. exact Z. }
      destruct Ha as [<-|Ha]; [exact C|].
      destruct (in_dec (fun x y : K => match feq_dec x y with left E => left E | right N => right N end) 0 rs) as [I0|N0].
      - apply in_split in I0 as (l1 & l2 & ->). apply (IH (l1 ++ l2)); auto.
        + eapply NoDup_remove_1; eauto.
        + intros r Hr. assert (r <> 0) by (intros ->; apply NoDup_remove_2 in Nd; contradiction).
          apply (vmul_eq_0' r); auto. assert (Hr' : In r (l1 ++ 0 :: l2)) by (rewrite in_app_iff in *; cbn; tauto).
          specialize (H r Hr'). cbn [vpeval] in H. rewrite C in H. rewrite <- H. vring.
        + rewrite app_length in *. cbn in *. lia.
      - apply (IH rs); auto; [|cbn in L; lia].
        intros r Hr. assert (r <> 0) by congruence. apply (vmul_eq_0' r); auto. specialize (H r Hr). cbn [vpeval] in H. rewrite C in H. rewrite <- H. vring.
    Qed.
  End VPoly.

  Notation info := (pcs_info K V1).
  Notation open_key := (vparam K V1 V2).
  (** The claim one prepared proof makes. *)
  Definition info_B (ok : open_key) (x : info) : V1 :=
    vadd (vadd (vadd (sb_msm K V1 (in_comm K V1 x)) (vmul (in_point K V1 x) (in_open K V1 x)))
      (vmul (in_u K V1 x * in_next K V1 x) (in_shifted K V1 x))) (vopp (vmul (in_eval K V1 x) (vg ok))).
  Definition info_A (x : info) : V1 := vadd (in_open K V1 x) (vmul (in_u K V1 x) (in_shifted K V1 x)).
  Definition info_err (ok : open_key) (x : info) : VT := vadd (e (info_A x) (vbeta_h ok)) (e (vopp (info_B ok x)) (vh ok)).

  Lemma batch_A_msm r (infos : list info) : forall m rb,
    sb_msm K V1 (fst (fold_left (fun st x => (sb_push K V1 (snd st * in_u K V1 x) (in_shifted K V1 x) (sb_push K V1 (snd st) (in_open K V1 x) (fst st)), snd st * r)) infos (m, rb)))
    = vadd (sb_msm K V1 m) (vmul rb (vpeval V1 (map info_A infos) r)).
  Proof.
    induction infos as [|x infos IH]; intros m rb; cbn [fold_left map vpeval fst snd].
    - now rewrite vmul_0_r, vadd_0_r.
    - rewrite IH, !sb_push_msm. unfold info_A. vring.
  Qed.
  Lemma batch_B_msm ok r (infos : list info) : forall m se rb,
    let '(m', se', _) := fold_left (fun st x =>
        let '(m, se, rb) := st in
        let m := sb_merge K V1 rb (in_comm K V1 x) m in
        let m := sb_push K V1 (rb * in_point K V1 x) (in_open K V1 x) m in
        let m := sb_push K V1 (rb * in_u K V1 x * in_next K V1 x) (in_shifted K V1 x) m in
        (m, se + rb * in_eval K V1 x, rb * r)) infos (m, se, rb) in
    vadd (sb_msm K V1 m') (vopp (vmul se' (vg ok))) = vadd (vadd (sb_msm K V1 m) (vopp (vmul se (vg ok)))) (vmul rb (vpeval V1 (map (info_B ok) infos) r)).
  Proof.
    induction infos as [|x infos IH]; intros m se rb; cbn [fold_left map vpeval fst snd].
    - now rewrite vmul_0_r, vadd_0_r.
    - match goal with |- context [fold_left _ infos (?m1, ?se1, ?rb1)] => specialize (IH m1 se1 rb1) end.
      destruct (fold_left _ infos _) as [[m' se'] rb'] in *. rewrite IH. cbv zeta. rewrite !sb_push_msm, sb_merge_msm. unfold info_B. vring.
  Qed.
  Lemma pe_0_l (y : V2) : e v0 y = v0.
  Proof. replace (v0 : V1) with (vmul (0 : K) (v0 : V1)) by (apply vmul_0_l). rewrite pe_mul_l. apply vmul_0_l. Qed.
  Lemma pe_opp_l (x : V1) (y : V2) : e (vopp x) y = vopp (e x y).
  Proof. replace (vopp x) with (vmul (- (1 : K)) x) by vring. rewrite pe_mul_l. vring. Qed.
  Lemma pe_vpeval (cs : list V1) r (y : V2) : e (vpeval V1 cs r) y = vpeval VT (map (fun c => e c y) cs) r.
  Proof. induction cs as [|c cs IH]; cbn [vpeval map]; [apply pe_0_l|]. now rewrite pe_add_l, pe_mul_l, IH. Qed.
  Lemma vpeval_add {A} (f h : A -> VT) l r : vadd (vpeval VT (map f l) r) (vpeval VT (map h l) r) = vpeval VT (map (fun a => vadd (f a) (h a)) l) r.
  Proof. induction l as [|a l IH]; cbn [vpeval map]; [now rewrite vadd_0_r|]. rewrite <- IH. vring. Qed.

  Theorem check_openings_err ok r infos :
    check_openings K V1 V2 VT e ok r infos = veqb (vpeval VT (map (info_err ok) infos) r) v0.
  Proof.
    unfold check_openings, batch_A, batch_B. rewrite batch_A_msm.
    pose proof (batch_B_msm ok r infos [] 0 1) as HB. destruct (fold_left _ infos ([], 0, 1)) as [[m se] rb].
    rewrite sb_push_msm. f_equal.
    replace (vadd (sb_msm K V1 m) (vmul (- se) (vg ok))) with (vpeval V1 (map (info_B ok) infos) r).
    2:{ replace (vmul (- se) (vg ok)) with (vopp (vmul se (vg ok))) by vring. rewrite HB. cbn. vring. }
    replace (vadd (sb_msm K V1 []) (vmul 1 (vpeval V1 (map info_A infos) r))) with (vpeval V1 (map info_A infos) r) by (cbn; vring).
    rewrite pe_opp_l, !pe_vpeval, !map_map. unfold info_err.
    replace (vopp (vpeval VT (map (fun x => e (info_B ok x) (vh ok)) infos) r)) with (vpeval VT (map (fun x => e (vopp (info_B ok x)) (vh ok)) infos) r).
    2:{ clear HB. induction infos as [|x infos IH]; cbn [map vpeval]; [vring|]. rewrite IH, pe_opp_l. vring. }
    apply vpeval_add.
  Qed.

  (** ** The prover's witnesses *)
  Notation vals := (vals K).
  Lemma batch_fold r (ps : list pol) : forall acc c y, 
    peval (fst (fold_left (fun ac p => (paddp K (fst ac) (mul_poly K p (snd ac)), snd ac * r)) ps (acc, c))) y = peval acc y + c * peval (vals ps y) r.
  Proof.
    induction ps as [|p ps IH]; intros acc c y; cbn [fold_left fst snd]; [cbn; ring|].
    rewrite IH, peval_paddp, peval_mul_poly. change (vals (p :: ps) y) with (peval p y :: vals ps y). cbn [peval]. ring.
  Qed.
  Lemma batch_fold_len (r : K) k (ps : list pol) : (forall p, In p ps -> (length p <= k)%nat) -> forall (acc : pol) (c : K), (length acc <= k)%nat ->
    (length (fst (fold_left (fun ac p => (paddp K (fst ac) (mul_poly K p (snd ac)), (snd ac * r)%F)) ps (acc, c))) <= k)%nat.
  Proof.
    induction ps as [|p ps IH]; intros H acc c L; cbn [fold_left fst snd]; [exact L|]. apply IH; [intros; apply H; now right|].
    pose proof (length_paddp K acc (mul_poly K p c)). pose proof (length_mul_poly K p c). specialize (H p (or_introl eq_refl)). lia.
  Qed.
  Lemma witness_ok b gg m (ps : list pol) r x w : (forall p, In p ps -> (length p <= m)%nat) ->
    batched_witness K V1 (tpowers K V1 b gg m) ps r x = Ok w ->
    exists wv, w = vmul wv gg /\ (b - x) * wv = peval (vals ps b) r - peval (vals ps x) r.
  Proof.
    intros H E. unfold batched_witness in E. cbv zeta in E.
    pose proof (batch_fold r ps [] 1) as F. pose proof (batch_fold_len r m ps H [] 1 ltac:(cbn; lia)) as L.
    set (B := fst (fold_left _ _ _)) in *. rewrite pquo_lin in E. apply lift_pcs_ok in E.
    apply commit_ok in E.
    - exists (peval (pnorm K (pdiv B x)) b). split; [exact E|]. rewrite peval_pnorm. pose proof (pdiv_spec _ B x b) as D. rewrite !F in D. cbn [peval] in D.
      assert (D' : peval (vals ps b) r = (b - x) * peval (pdiv B x) b + peval (vals ps x) r).
      { transitivity (0 + 1 * peval (vals ps b) r); [ring|]. etransitivity; [exact D|]. ring. }
      rewrite D'. ring.
    - pose proof (length_pnorm K (pdiv B x)). rewrite length_pdiv in *. lia.
  Qed.

  Lemma quot_lin_fold zn2 (qs : list pol) : forall acc c y,
    peval (fst (fold_left (fun rc p => let c := snd rc * zn2 in (paddp K (fst rc) (mul_poly K p c), c)) qs (acc, c))) y
    = peval acc y + c * zn2 * peval (vals qs y) zn2.
  Proof.
    induction qs as [|p qs IH]; intros acc c y; cbn [fold_left fst snd]; [cbn; ring|]. cbv zeta.
    rewrite IH, peval_paddp, peval_mul_poly. change (vals (p :: qs) y) with (peval p y :: vals qs y). cbn [peval]. ring.
  Qed.
  Lemma quot_lin_len (zn2 : K) k (qs : list pol) : (forall p, In p qs -> (length p <= k)%nat) -> forall (acc : pol) (c : K), (length acc <= k)%nat ->
    (length (fst (fold_left (fun rc p => let c := (snd rc * zn2)%F in (paddp K (fst rc) (mul_poly K p c), c)) qs (acc, c))) <= k)%nat.
  Proof.
    induction qs as [|p qs IH]; intros H acc c L; cbn [fold_left fst snd]; [exact L|]. cbv zeta. apply IH; [intros; apply H; now right|].
    pose proof (length_paddp K acc (mul_poly K p (c * zn2))). pose proof (length_mul_poly K p (c * zn2)). specialize (H p (or_introl eq_refl)). lia.
  Qed.
  Lemma lin_quot_ok d k ze (qs : list pol) l : (forall p, In p qs -> (length p <= k)%nat) -> lin_quot K (dsize d) ze qs = Ok l ->
    qs <> [] /\ (length l <= k)%nat /\ forall y, peval l y = - (vanish_at K d 1 ze * peval (vals qs y) (zn2 K d ze)).
  Proof.
    intros H E. destruct qs as [|q qs]; [discriminate|]. split; [discriminate|]. unfold lin_quot in E. cbv zeta in E.
    apply Ok_inj in E. rewrite <- E. split.
    - match goal with |- (length (mul_poly K ?p ?c) <= _)%nat => pose proof (length_mul_poly K p c) end.
      etransitivity; [eassumption|]. apply (quot_lin_len _ k); [intros; apply H; now right|]. apply H. now left.
    - intro y. rewrite peval_mul_poly, quot_lin_fold. change (vals (q :: qs) y) with (peval q y :: vals qs y). cbn [peval].
      unfold zn2, vanish_at. rewrite fpow_1. replace (1 + (fpow ze (dsize d) - 1)) with (fpow ze (dsize d) - 1 + 1) by ring. ring.
  Qed.
  (** The pieces of the quotient, combined as the prover and the verifier do. *)
  Lemma recombine_vals n (qs : list pol) x : recombine K n qs x = peval (vals qs x) (fpow x (n + 2)).
  Proof.
    unfold recombine.
    assert (G : forall s, fsum (map (fun ip => fpow x (fst ip * (n + 2)) * peval (snd ip) x) (combine (seq s (length qs)) qs))
      = fpow x (s * (n + 2)) * peval (vals qs x) (fpow x (n + 2))).
    { induction qs as [|q qs IH]; intro s; cbn [length seq combine map]; [cbn; ring|].
      rewrite fsum_cons, IH. cbn [fst snd]. change (vals (q :: qs) x) with (peval q x :: vals qs x). cbn [peval].
      replace (S s * (n + 2))%nat with (s * (n + 2) + (n + 2))%nat by lia. rewrite (fpow_add K x (s * (n + 2))). ring. }
    rewrite G. cbn [Nat.mul fpow]. ring.
  Qed.
  Lemma zn2_pow (d : dom K) ze : zn2 K d ze = fpow ze (dsize d + 2).
  Proof. unfold zn2, vanish_at. rewrite fpow_1, (fpow_add K). cbn [fpow]. ring. Qed.

  (** The identity behind an honest proof's check. *)
  Theorem opening_valid (b : K) (gg : V1) (h : V2) ok (ze zg v u w w' F1b F1z F2b F2z : K) m :
    vg ok = gg -> vh ok = h -> vbeta_h ok = vmul b h ->
    (b - ze) * w = F1b - F1z -> (b - zg) * w' = F2b - F2z ->
    sb_msm K V1 m = vmul (F1b + u * F2b) gg ->
    info_err ok (mk_info K V1 u ze zg (F1z + u * F2z) m (vmul w gg) (vmul w' gg)) = v0.
  Proof.
    intros E1 E2 E3 D1 D2 Em. unfold info_err, info_A, info_B. cbn [in_u in_point in_next in_eval in_comm in_open in_shifted].
    rewrite Em, E1, E2, E3, pe_opp_l. 
    replace (vadd (vmul w gg) (vmul u (vmul w' gg))) with (vmul (w + u * w') gg) by vring.
    replace (vadd _ (vopp (vmul (F1z + u * F2z) gg))) with (vmul (b * w + u * (b * w')) gg).
    - rewrite !pe_mul_l, pe_mul_r. vring.
    - replace (b * w) with (F1b - F1z + ze * w) by (rewrite <- D1; ring).
      replace (b * w') with (F2b - F2z + zg * w') by (rewrite <- D2; ring). vring.
  Qed.
End Check.
