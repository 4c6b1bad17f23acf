(** Proofs about the univariate KZG model: polynomial division, MSMs over powers of
    the trapdoor, and the pairing equations. *)
From Coq Require Import List Arith Lia Bool Ring Field.
From Verif Require Import Base Alg Poly ListAux VRing KzgModel.
Import ListNotations.

Section KzgProofs.
  Variable K : fld.
  Local Open Scope fld_scope.
  Add Field Kkzg : (fth K).

  (** ** Normal form *)
  Lemma coef_pnorm (p : list K) : forall i, coef (pnorm K p) i = coef p i.
  Proof.
    induction p as [|c p IH]; [reflexivity|]. intros i. cbn [pnorm].
    assert (IH' : forall j, coef (pnorm K p) j = coef p j) by apply IH.
    destruct (pnorm K p) as [|d q].
    - destruct (feqb c 0) eqn:E.
      + apply feqb_eq in E. subst. destruct i; [reflexivity|]. rewrite coef_cons_S, <- IH', !coef_nil. reflexivity.
      + destruct i; [reflexivity|]. rewrite !coef_cons_S. apply IH'.
    - destruct i; [reflexivity|]. rewrite !coef_cons_S. apply IH'.
  Qed.
  Lemma peval_pnorm (p : list K) x : peval (pnorm K p) x = peval p x.
  Proof. apply peval_peq. exact (coef_pnorm p). Qed.
  Lemma length_pnorm (p : list K) : (length (pnorm K p) <= length p)%nat.
  Proof.
    induction p as [|c p IH]; [reflexivity|]. cbn [pnorm].
    destruct (pnorm K p); [destruct (feqb c 0)|]; cbn [length] in *; lia.
  Qed.
  Lemma pnorm_last (p : list K) : pnorm K p <> [] -> last (pnorm K p) 0 <> 0.
  Proof.
    induction p as [|c p IH]; [cbn; congruence|]. cbn [pnorm]. revert IH.
    destruct (pnorm K p) as [|d q]; intro IH.
    - destruct (feqb c 0) eqn:E; [congruence|]. intros _. cbn. now apply feqb_neq.
    - intros _. change (last (c :: d :: q) 0) with (last (d :: q) 0). apply IH. discriminate.
  Qed.
  Lemma pnorm_nil_iff (p : list K) : pnorm K p = [] <-> pzero p.
  Proof.
    split.
    - intro E. apply pzero_coef. intro i. rewrite <- coef_pnorm, E. apply coef_nil.
    - intro H. induction p as [|c p IH]; [reflexivity|]. cbn [pnorm].
      rewrite IH by (intros d Hd; apply H; right; auto).
      rewrite (H c) by (left; auto). now rewrite feqb_refl.
  Qed.
  Lemma pnorm_fix (p : list K) : p = [] \/ last p 0 <> 0 -> pnorm K p = p.
  Proof.
    induction p as [|c p IH]; [reflexivity|]. intros [H|H]; [discriminate|]. cbn [pnorm].
    destruct p as [|d p].
    - cbn in *. destruct (feqb c 0) eqn:E; auto. apply feqb_eq in E. congruence.
    - rewrite IH by (right; exact H). reflexivity.
  Qed.
  Lemma pnorm_idem (p : list K) : pnorm K (pnorm K p) = pnorm K p.
  Proof.
    apply pnorm_fix. destruct (pnorm K p) as [|a l] eqn:E; [auto|right].
    rewrite <- E. apply pnorm_last. congruence.
  Qed.
  Lemma pis_zero_iff (p : list K) : pis_zero K p = true <-> pzero p.
  Proof.
    unfold pis_zero, pzero. rewrite forallb_forall. split; intros H c Hc; apply feqb_eq, H; auto.
  Qed.
  Lemma degree_norm (p : list K) : pnorm K p = p -> degree K p = Ok (length p - 1)%nat.
  Proof.
    intro E. unfold degree. destruct (pis_zero K p) eqn:Z.
    - apply pis_zero_iff, pnorm_nil_iff in Z. rewrite Z in E. subst. reflexivity.
    - destruct (feqb (last p 0) 0) eqn:L; [|reflexivity]. apply feqb_eq in L. exfalso.
      destruct p; [discriminate|]. apply (pnorm_last (c :: p)); rewrite E; congruence.
  Qed.
  Lemma peq_pnorm_eq (p q : list K) : pnorm K p = p -> pnorm K q = q -> peq p q -> p = q.
  Proof.
    assert (H : forall p q, pnorm K p = p -> pnorm K q = q -> peq p q -> ~ (length p < length q)%nat).
    { clear. intros p q Ep Eq E Hl. destruct q as [|c q] using rev_ind; [cbn in Hl; lia|].
      assert (L : last (q ++ [c]) 0 <> 0) by (rewrite <- Eq; apply pnorm_last; rewrite Eq; destruct q; discriminate).
      apply L. rewrite last_last. specialize (E (length q)). rewrite coef_over in E.
      - unfold coef in E. rewrite app_nth2, Nat.sub_diag in E by lia. symmetry. exact E.
      - rewrite app_length in Hl. cbn in Hl. lia. }
    intros Ep Eq E. apply peq_length; [|exact E].
    pose proof (H p q Ep Eq E). pose proof (H q p Eq Ep (peq_sym _ _ _ E)). lia.
  Qed.

  (** ** Division *)
  Lemma last_coef (p : list K) : last p 0 = coef p (length p - 1).
  Proof.
    induction p as [|c p IH]; [reflexivity|]. destruct p as [|d p]; [reflexivity|].
    change (last (c :: d :: p) 0) with (last (d :: p) 0). rewrite IH. cbn [length].
    replace (S (S (length p)) - 1)%nat with (S (S (length p) - 1)) by lia. now rewrite coef_cons_S.
  Qed.
  Lemma peval_removelast (p : list K) x : last p 0 = 0 -> peval (removelast p) x = peval p x.
  Proof.
    induction p as [|c p IH]; [reflexivity|]. intro H. destruct p as [|d p].
    - cbn in *. subst. ring.
    - change (removelast (c :: d :: p)) with (c :: removelast (d :: p)).
      rewrite !(peval_cons _ c), IH by exact H. reflexivity.
  Qed.
  Lemma length_removelast {A} (l : list A) : length (removelast l) = pred (length l).
  Proof.
    induction l as [|a l IH]; [reflexivity|]. destruct l as [|b l]; [reflexivity|].
    change (removelast (a :: b :: l)) with (a :: removelast (b :: l)). cbn [length] in *. lia.
  Qed.
  Lemma pdivmod_spec (p d : list K) : d <> [] -> last d 0 <> 0 ->
    let (q, r) := pdivmod K p d in
    length q = (length p - (length d - 1))%nat /\ length r = Nat.min (length p) (length d - 1) /\
    forall x, peval p x = peval q x * peval d x + peval r x.
  Proof.
    intros Hd Hl. assert (Ld : (0 < length d)%nat) by (destruct d; [congruence|cbn; lia]).
    induction p as [|c p IH]; cbn [pdivmod].
    - split; [cbn; lia|split; [cbn; lia|]]. intro x. cbn. ring.
    - destruct (pdivmod K p d) as [q r]. destruct IH as (Lq & Lr & E).
      cbn [length]. destruct (Nat.eqb_spec (S (length r)) (length d)) as [He|He].
      + set (a := last (c :: r) 0 / last d 0).
        assert (L0 : last (psub (c :: r) (pscale a d)) 0 = 0).
        { rewrite last_coef, coef_psub, coef_pscale, length_psub, length_pscale.
          change (length (c :: r)) with (S (length r)). rewrite He, Nat.max_id.
          replace (coef d (length d - 1)) with (last d 0) by apply last_coef.
          replace (coef (c :: r) (length d - 1)) with (last (c :: r) 0)
            by (rewrite last_coef; cbn [length]; rewrite He; reflexivity).
          unfold a. field. exact Hl. }
        split; [|split].
        * cbn [length]. lia.
        * rewrite length_removelast, length_psub, length_pscale. change (length (c :: r)) with (S (length r)). lia.
        * intro x. rewrite peval_removelast by exact L0. rewrite peval_psub, peval_pscale, !peval_cons, E. ring.
      + split; [cbn [length]; lia|split; [cbn [length]; lia|]].
        intro x. rewrite !peval_cons, E. assert (q = []) by (destruct q; [auto|cbn in Lq; lia]). subst. cbn. ring.
  Qed.
  Lemma pdivmod_lin (p : list K) z : pdivmod K p [- z; 1] =
    (pdiv p z, match p with [] => [] | _ => [peval p z] end).
  Proof.
    induction p as [|c p IH]; [reflexivity|]. cbn [pdivmod]. rewrite IH. destruct p as [|d p]; cbn [length Nat.eqb].
    - f_equal. cbn. f_equal. ring.
    - change (pdiv (c :: d :: p) z) with (peval (d :: p) z :: pdiv (d :: p) z).
      f_equal.
      + f_equal. cbn [last]. field. apply f1_neq_0.
      + cbn [last]. unfold psub, pscale, pneg. cbn [map padd removelast]. f_equal.
        rewrite (peval_cons _ c). field. apply f1_neq_0.
  Qed.
  Lemma pquo_lin (p : list K) z : pquo K p [- z; 1] = pnorm K (pdiv p z).
  Proof. unfold pquo. now rewrite pdivmod_lin. Qed.
  (** The divided difference is symmetric. *)
  Lemma pdiv_sym (p : list K) x y : peval (pdiv p x) y = peval (pdiv p y) x.
  Proof.
    destruct (feq_dec x y) as [->|N]; [reflexivity|].
    apply (fmul_cancel_l K (y - x)); [intro H; apply N; symmetry; now apply fsub_eq_0|].
    transitivity (peval p y - peval p x); [rewrite (pdiv_spec _ p x y); ring|].
    rewrite (pdiv_spec _ p y x). ring.
  Qed.
  Lemma coef_pdiv (p : list K) z : forall i, coef (pdiv p z) i = peval (skipn (S i) p) z.
  Proof.
    induction p as [|c p IH]; intro i; [destruct i; reflexivity|].
    destruct p as [|d p]; [destruct i; [|destruct i]; reflexivity|].
    change (pdiv (c :: d :: p) z) with (peval (d :: p) z :: pdiv (d :: p) z).
    destruct i; [reflexivity|]. rewrite coef_cons_S, IH. reflexivity.
  Qed.

  (** ** MSMs over powers of the trapdoor *)
  Section Msm.
    Variable V : vsp K.
    Variables (tau : K) (g : V).
    Definition tpowers (n : nat) : list V := map (fun i => vmul (fpow tau i) g) (seq 0 n).
    Lemma length_tpowers n : length (tpowers n) = n.
    Proof. unfold tpowers. now rewrite map_length, seq_length. Qed.
    Lemma firstn_tpowers k n : firstn k (tpowers n) = tpowers (Nat.min k n).
    Proof. unfold tpowers. now rewrite firstn_map, firstn_seq. Qed.
    Lemma nth_tpowers n i : (i < n)%nat -> nth i (tpowers n) v0 = vmul (fpow tau i) g.
    Proof.
      intro H. unfold tpowers. rewrite (nth_indep _ v0 (vmul (fpow tau 0) g)) by (rewrite map_length, seq_length; auto).
      rewrite (map_nth (fun i => vmul (fpow tau i) g)), seq_nth by auto. reflexivity.
    Qed.
    Lemma msm_cons (b : V) bs (s : K) ss : msm (b :: bs) (s :: ss) = vadd (vmul s b) (msm bs ss).
    Proof. reflexivity. Qed.
    Lemma msm_seq (p : list K) : forall s n,
      msm (map (fun i => vmul (fpow tau i) g) (seq s n)) p = vmul (fpow tau s * peval (firstn n p) tau) g.
    Proof.
      induction p as [|c p IH]; intros s n.
      - unfold msm. rewrite combine_nil. rewrite firstn_nil. cbn. replace (fpow tau s * 0) with (0 : K) by ring.
        now rewrite vmul_0_l.
      - destruct n as [|n].
        + cbn. unfold msm. cbn. replace (fpow tau s * 0) with (0 : K) by ring. now rewrite vmul_0_l.
        + cbn [seq map]. rewrite msm_cons, IH. cbn [firstn]. rewrite peval_cons, <- vmul_mul, <- vmul_add_l, fpow_S.
          f_equal. ring.
    Qed.
    Lemma msm_tpowers n (p : list K) : (length p <= n)%nat -> msm (tpowers n) p = vmul (peval p tau) g.
    Proof.
      intro H. unfold tpowers. rewrite msm_seq, firstn_all2 by auto. cbn [fpow]. f_equal. ring.
    Qed.
    Lemma peval_skip_lz (p : list K) x :
      peval p x = fpow x (num_leading_zeros K p) * peval (skipn (num_leading_zeros K p) p) x.
    Proof.
      induction p as [|c p IH]; [cbn; ring|]. cbn [num_leading_zeros].
      destruct (feqb c 0) eqn:E; [|cbn [fpow skipn]; ring].
      apply feqb_eq in E. subst. cbn [skipn]. rewrite peval_cons, IH, fpow_S. ring.
    Qed.
    Lemma lz_le (p : list K) : (num_leading_zeros K p <= length p)%nat.
    Proof. induction p; cbn; [lia|]. destruct (feqb _ _); cbn; lia. Qed.
    Lemma lz_firstn (p : list K) n : (num_leading_zeros K p <= n)%nat ->
      peval (firstn n p) tau = fpow tau (num_leading_zeros K p)
        * peval (firstn (n - num_leading_zeros K p) (skipn (num_leading_zeros K p) p)) tau.
    Proof.
      revert n. induction p as [|c p IH]; intros n H; [rewrite firstn_nil; cbn; rewrite firstn_nil; cbn; ring|].
      cbn [num_leading_zeros] in *. destruct (feqb c 0) eqn:E.
      - destruct n; [lia|]. apply feqb_eq in E. subst. cbn [firstn skipn]. rewrite peval_cons, IH by lia.
        rewrite fpow_S. cbn [Nat.sub]. ring.
      - cbn [fpow skipn]. rewrite Nat.sub_0_r. ring.
    Qed.
    Lemma msm_poly_tpowers n (p : list K) :
      msm_poly K (tpowers n) p = if (n <? num_leading_zeros K p)%nat then Panic
                                 else Ok (vmul (peval (firstn n p) tau) g).
    Proof.
      unfold msm_poly, slice_from. rewrite length_tpowers.
      destruct (n <? num_leading_zeros K p)%nat eqn:E; [reflexivity|]. cbn [bind]. f_equal.
      apply Nat.ltb_ge in E. unfold tpowers. rewrite skipn_map, skipn_seq, msm_seq. cbn [Nat.add].
      now rewrite <- lz_firstn.
    Qed.
    Lemma msm_poly_ok n (p : list K) : (length p <= n)%nat ->
      msm_poly K (tpowers n) p = Ok (vmul (peval p tau) g).
    Proof.
      intro H. rewrite msm_poly_tpowers, firstn_all2 by auto. pose proof (lz_le p).
      destruct (Nat.ltb_spec n (num_leading_zeros K p)); [lia|reflexivity].
    Qed.
  End Msm.

  (** ** Structured reference strings *)
  Lemma pow_loop_eq (b : K) n : forall s, pow_loop K b (fpow b s) n = map (fpow b) (seq s n).
  Proof.
    induction n as [|n IH]; intro s; [reflexivity|]. cbn [pow_loop seq map]. f_equal.
    replace (fpow b s * b) with (fpow b (S s)) by (rewrite fpow_S; ring). apply IH.
  Qed.
  Lemma powers_eq (b : K) n : 1 :: pow_loop K b b n = map (fpow b) (seq 0 (S n)).
  Proof.
    cbn [seq map fpow]. f_equal. rewrite <- pow_loop_eq. f_equal. cbn. ring.
  Qed.

  Section Srs.
    Variables V1 V2 VT : vsp K.
    Variable e : pairing K V1 V2 VT.
    Notation gen := (gen_srs K V1 V2).

    Lemma gen_powers_g b g h pd vd : powers_of_g (gen b g h pd vd) = tpowers V1 b g (S (max pd vd)).
    Proof. unfold gen_srs. rewrite powers_eq. unfold tpowers. cbn [powers_of_g]. now rewrite map_map. Qed.
    Lemma gen_powers_h b g h pd vd : powers_of_h (gen b g h pd vd) = tpowers V2 b h (S vd).
    Proof.
      unfold gen_srs. rewrite powers_eq. cbn [powers_of_h]. rewrite firstn_map, firstn_seq.
      replace (Nat.min (vd + 1) (S (max pd vd))) with (S vd) by lia. unfold tpowers. now rewrite map_map.
    Qed.
    (** What [trim] returns on a well-formed reference string. *)
    Record vk_for (b : K) (g : V1) (h : V2) (n : nat) (vk : vparam K V1 V2) : Prop := {
      vkf_g : vg vk = g; vkf_h : vh vk = h; vkf_bh : vbeta_h vk = vmul b h;
      vkf_pg : vpowers_of_g vk = tpowers V1 b g n; vkf_ph : vpowers_of_h vk = tpowers V2 b h n }.
    Lemma trim_vd_gen b g h pd vd d v : (d <= max pd vd)%nat -> (1 <= v <= vd)%nat ->
      exists vk, trim_with_verifier_degree K V1 V2 (gen b g h pd vd) d v = Ok (tpowers V1 b g (S d), vk)
                 /\ vk_for b g h (S v) vk.
    Proof.
      intros Hd Hv. eexists. split.
      - unfold trim_with_verifier_degree. rewrite gen_powers_g, gen_powers_h, !length_tpowers.
        destruct (Nat.leb_spec (S (max pd vd)) d); [lia|].
        destruct (Nat.leb_spec (S vd) v); [lia|].
        destruct (Nat.eqb_spec v 0); [lia|].
        unfold slice_incl. rewrite !length_tpowers.
        destruct (Nat.ltb_spec (S (max pd vd)) (d + 1)); [lia|].
        destruct (Nat.ltb_spec (S vd) (v + 1)); [lia|].
        destruct (Nat.ltb_spec (S (max pd vd)) (v + 1)); [lia|].
        rewrite !firstn_tpowers. cbn [bind]. unfold index. cbn [tpowers seq map nth_error bind].
        replace (Nat.min (d + 1) (S (max pd vd))) with (S d) by lia.
        replace (Nat.min (v + 1) (S vd)) with (S v) by lia.
        replace (Nat.min (v + 1) (S (max pd vd))) with (S v) by lia. reflexivity.
      - constructor; cbn; auto. cbn [fpow]. apply vmul_1.
    Qed.
    Lemma trim_vd_inv b g h pd vd d v pk vk :
      trim_with_verifier_degree K V1 V2 (gen b g h pd vd) d v = Ok (pk, vk) ->
      (d <= max pd vd)%nat /\ (1 <= v <= vd)%nat /\ pk = tpowers V1 b g (S d) /\ vk_for b g h (S v) vk.
    Proof.
      intro E. assert (Hd : (d <= max pd vd)%nat).
      { unfold trim_with_verifier_degree in E. rewrite gen_powers_g, length_tpowers in E.
        destruct (Nat.leb_spec (S (max pd vd)) d); [discriminate|lia]. }
      assert (Hv : (1 <= v <= vd)%nat).
      { unfold trim_with_verifier_degree in E. rewrite gen_powers_g, gen_powers_h, !length_tpowers in E.
        destruct (Nat.leb_spec (S (max pd vd)) d); [discriminate|].
        destruct (Nat.leb_spec (S vd) v); [discriminate|].
        destruct (Nat.eqb_spec v 0); [discriminate|lia]. }
      destruct (trim_vd_gen b g h pd vd d v Hd Hv) as (vk' & E' & H'). rewrite E' in E.
      assert (tpowers V1 b g (S d) = pk /\ vk' = vk) as [<- <-] by (split; congruence). auto.
    Qed.
    Lemma trim_inv b g h pd vd d pk vk : trim K V1 V2 (gen b g h pd vd) d None = Ok (pk, vk) ->
      (d <= max pd vd)%nat /\ (1 <= vd)%nat /\ pk = tpowers V1 b g (S d) /\ vk_for b g h 2 vk.
    Proof. intro E. apply trim_vd_inv in E as (? & ? & ? & ?). intuition lia. Qed.

    (** ** The pairing equations *)
    Lemma pe_0_l y : e v0 y = v0.
    Proof. rewrite <- (vmul_0_l K V1 v0), pe_mul_l, vmul_0_l. reflexivity. Qed.
    Lemma pe_opp_l x y : e (vopp x) y = vopp (e x y).
    Proof. rewrite (vopp_mul K V1), pe_mul_l, (vopp_mul K VT). reflexivity. Qed.

    (** The target-group value that [verify] compares with one. *)
    Definition verr (b : K) (g : V1) (h : V2) (c : V1) (z v : K) (w : V1) : VT :=
      e (vadd (vadd (vmul v g) (vopp c)) (vmul (b - z) w)) h.
    Lemma verify_verr b g h n vk c z v w : vk_for b g h n vk ->
      verify K V1 V2 VT e vk c z v w = veqb (verr b g h c z v w) v0.
    Proof.
      intros []. unfold verify, verr. rewrite vkf_g0, vkf_h0, vkf_bh0. f_equal.
      rewrite pe_mul_r, <- pe_mul_l, <- pe_add_l. f_equal. vring.
    Qed.
    Lemma verify_iff b g h n vk c z v w : vk_for b g h n vk ->
      verify K V1 V2 VT e vk c z v w = true <-> verr b g h c z v w = v0.
    Proof. intro H. rewrite (verify_verr _ _ _ _ _ _ _ _ _ H). apply veqb_eq. Qed.
    Lemma verr_scal b g h a z v q : verr b g h (vmul a g) z v (vmul q g) = vmul (v - a + (b - z) * q) (e g h).
    Proof. unfold verr. rewrite <- pe_mul_l. f_equal. vring. Qed.

    Lemma commit_tpowers b g n (p : list K) : pnorm K p = p -> (length p <= S n)%nat ->
      commit K V1 (tpowers V1 b g n) p = Ok (vmul (peval (firstn n p) b) g).
    Proof.
      intros Hp Hl. unfold commit. rewrite degree_norm by auto. cbn [bind]. rewrite length_tpowers.
      destruct (Nat.ltb_spec n (length p - 1)); [lia|]. rewrite msm_poly_tpowers.
      destruct (Nat.ltb_spec n (num_leading_zeros K p)) as [Hz|]; [|reflexivity]. exfalso.
      (* a normalised polynomial has its leading coefficient non-zero *)
      assert (HN : num_leading_zeros K p = length p -> p = []).
      { clear - Hp. intro H. assert (Z : pzero p).
        { clear Hp. induction p as [|c p IH]; [intros ? []|]. cbn in H. destruct (feqb c 0) eqn:E; [|discriminate].
          apply feqb_eq in E. intros d [<-|Hd]; auto. apply IH; auto. }
        apply pnorm_nil_iff in Z. congruence. }
      pose proof (lz_le p). assert (num_leading_zeros K p = length p) as E by lia. rewrite (HN E) in *. cbn in *. lia.
    Qed.
    Lemma open_tpowers b g n (p : list K) z : (length p <= S n)%nat ->
      open K V1 (tpowers V1 b g n) p z = Ok (vmul (peval (pdiv p z) b) g, peval p z).
    Proof.
      intro Hl. unfold open. rewrite pquo_lin.
      rewrite (msm_poly_ok V1 b g n (pnorm K (pdiv p z))) by (pose proof (length_pnorm (pdiv p z)); rewrite length_pdiv in *; lia).
      cbn [bind]. now rewrite peval_pnorm.
    Qed.

    (** ** Batch verification *)
    Definition rnd (rs : nat -> K) (i : nat) : K := match i with 0%nat => 1 | S i' => rs i' end.
    Definition claim := (V1 * K * K * V1)%type.
    Definition cerr_of (b : K) (g : V1) (h : V2) (c : claim) : VT :=
      let '(cm, z, v, w) := c in verr b g h cm z v w.
    Lemma bv_fold b g h rs (cl : list claim) : forall s tc tw gm,
      let '(tc', tw', gm') := fold_left (bv_step K V1 rs) (combine (seq s (length cl)) cl) (tc, tw, gm) in
      e (vadd tc' (vadd (vopp (vmul gm' g)) (vopp (vmul b tw')))) h =
      vadd (e (vadd tc (vadd (vopp (vmul gm g)) (vopp (vmul b tw)))) h)
           (vopp (vsum (map (fun ic => vmul (rnd rs (fst ic)) (cerr_of b g h (snd ic))) (combine (seq s (length cl)) cl)))).
    Proof.
      induction cl as [|[[[cm z] v] w] cl IH]; intros s tc tw gm.
      - cbn. vring.
      - cbn [length seq combine fold_left bv_step map]. rewrite vsum_cons. cbn [fst snd cerr_of].
        specialize (IH (S s)). fold (rnd rs s). set (r := rnd rs s). cbv zeta in IH.
        specialize (IH (vadd tc (vmul r (vadd (vmul z w) cm))) (vadd tw (vmul r w)) (gm + r * v)).
        destruct (fold_left _ _ _) as [[tc' tw'] gm']. rewrite IH.
        set (S0 := vsum _). unfold verr. set (X := vadd (vadd (vmul v g) _) _).
        transitivity (vadd (vadd (e (vadd tc (vadd (vopp (vmul gm g)) (vopp (vmul b tw)))) h) (vopp (vmul r (e X h)))) (vopp S0)); [|vring].
        f_equal. rewrite <- pe_mul_l, <- pe_opp_l, <- pe_add_l. f_equal. unfold X. vring.
    Qed.
    Lemma batch_verify_sum b g h n vk rs cs zs vs ws : vk_for b g h n vk ->
      batch_verify K V1 V2 VT e vk rs cs zs vs ws =
      veqb (vsum (map (fun ic => vmul (rnd rs (fst ic)) (cerr_of b g h (snd ic)))
                   (combine (seq 0 (length (zip4 K V1 cs zs vs ws))) (zip4 K V1 cs zs vs ws)))) v0.
    Proof.
      intros []. unfold batch_verify. set (cl := zip4 K V1 cs zs vs ws).
      pose proof (bv_fold b g h rs cl 0 v0 v0 0) as H.
      destruct (fold_left _ _ _) as [[tc tw] gm]. cbv zeta in H. rewrite vkf_g0, vkf_h0, vkf_bh0.
      rewrite pe_mul_r, <- pe_mul_l, <- pe_add_l.
      replace (vadd (vmul b (vopp tw)) (vadd tc (vopp (vmul gm g)))) with (vadd tc (vadd (vopp (vmul gm g)) (vopp (vmul b tw)))) by vring.
      rewrite H. replace (vadd v0 (vadd (vopp (vmul 0 g)) (vopp (vmul b v0)))) with (v0 : V1) by vring.
      rewrite pe_0_l, vadd_0_l. set (S := vsum _).
      apply eq_true_iff_eq. rewrite !veqb_eq. split; intro E.
      - rewrite <- (vopp_opp K VT S), E. apply vopp_0.
      - rewrite E. apply vopp_0.
    Qed.
  End Srs.
End KzgProofs.
