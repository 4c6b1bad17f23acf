(** One instance of the PLONK argument: the constraint function whose vanishing on the
    domain is proved, its degree, and the code's coset evaluations and linearization of
    it.  Used by C57. *)
From Coq Require Import List Arith ZArith Lia Bool Ring Field.
From Verif Require Import Base Alg Poly VRing KzgModel KzgProofs KzgFft CircuitModel FinalModel PlonkModel LagrangeProofs PlonkPoly.
Import ListNotations.

Section Inst.
  Variable K : fld.
  Local Open Scope fld_scope.
  Add Field Kinst : (fth K).
  Notation pol := (list K).
  Variables V1 V2 : vsp K.
  Notation pkey := (pkey K V1 V2).
  Notation vkey := (vkey K V1 V2).
  Notation oracles := (oracles K).
  Notation sels := (pk_selectors K V1 V2).
  Notation sigs := (pk_sigmas K V1 V2).
  Notation ks pk := (vk_k K V1 V2 (pk_vk K V1 V2 pk)).
  Notation ws := (or_wires K).
  Notation lkp := (pk_plookup K V1 V2).

  Definition vals (ps : list pol) (x : K) : list K := map (fun p => peval p x) ps.
  Lemma nth_vals ps x i : nth i (vals ps x) 0 = peval (nth i ps []) x.
  Proof. unfold vals. change (0 : K) with (peval (@nil K) x) at 1. apply (map_nth (fun p => peval p x)). Qed.
  Lemma length_vals ps x : length (vals ps x) = length ps.
  Proof. apply map_length. Qed.

  Lemma fprod_combine {A B} (f : A * B -> K) (l : list A) (l' : list B) a b k : length l = k -> length l' = k ->
    fprod (map f (combine l l')) = fprod (map (fun i => f (nth i l a, nth i l' b)) (seq 0 k)).
  Proof.
    intros Hl Hl'. subst k. revert l' Hl'. induction l as [|x l IH]; intros [|y l'] H; cbn in H; try discriminate; [reflexivity|].
    cbn [combine map length seq]. rewrite !fprod_cons. f_equal. rewrite IH by lia. rewrite <- seq_shift, map_map. reflexivity.
  Qed.

  (** ** The constraint function *)
  Section Num.
    Variable d : dom K.
    Variables (tau : option K) (al be ga : K).
    Notation n := (dsize d).
    Notation g := (dgen d).
    Definition L1 (x : K) : K := lagv K d 1 0 x.
    Definition Ln (x : K) : K := lagv K d 1 (n - 1) x.

    Definition num_perm (x : K) (kk w : list K) (z zw : K) (sg : list K) : K :=
      al * (z * fprod (map (fun wk => fst wk + snd wk * x * be + ga) (combine w kk)))
      - al * (zw * fprod (map (fun ws => fst ws + snd ws * be + ga) (combine w sg)))
      + al * al * (z - 1) * L1 x.
    Definition num_lookup (t x : K) (w wn : list K) (h1 h1w h2 h2w p pw rt rtw kt ktw tds tdsw ql qlw qds : K) : K :=
      let w_ := fun j => nth j w 0 in
      let wn := fun j => nth j wn 0 in
      let table := eval_merged_table K t rt kt ql (w_ 3%nat) (w_ 4%nat) tds in
      let table_w := eval_merged_table K t rtw ktw qlw (wn 3%nat) (wn 4%nat) tdsw in
      let lookup := eval_merged_lookup_witness K t (w_ 5%nat) (w_ 0%nat) (w_ 1%nat) (w_ 2%nat) ql qds in
      let gb1 := (1 + be) * ga in
      fpow al 3 * ((h1 - h2w) * Ln x) + fpow al 4 * ((p - 1) * L1 x) + fpow al 5 * ((p - 1) * Ln x)
      + fpow al 6 * ((x - finv g) * (p * (1 + be) * (ga + lookup) * (gb1 + table + be * table_w)
                                     - pw * (gb1 + h1 + be * h1w) * (gb1 + h2 + be * h2w))).
    Definition lk_num (oc : oracles) (pk : pkey) (lp : plookup_pk K) (x : K) : K :=
      match tau with
      | None => 0
      | Some t =>
          let xg := x * g in
          let h1 := nth 0 (or_h K oc) [] in let h2 := nth 1 (or_h K oc) [] in
          let ql := last (sels pk) [] in
          num_lookup t x (vals (ws oc) x) (vals (ws oc) xg) (peval h1 x) (peval h1 xg) (peval h2 x) (peval h2 xg)
            (peval (or_prod K oc) x) (peval (or_prod K oc) xg) (peval (lp_range K lp) x) (peval (lp_range K lp) xg)
            (peval (lp_key K lp) x) (peval (lp_key K lp) xg) (peval (lp_table_dom_sep K lp) x) (peval (lp_table_dom_sep K lp) xg)
            (peval ql x) (peval ql xg) (peval (lp_q_dom_sep K lp) x)
      end.
    Definition inst_num (oc : oracles) (pk : pkey) (x : K) : K :=
      quot_circuit K (vals (ws oc) x) (peval (or_pi K oc) x) (vals (sels pk) x)
      + num_perm x (ks pk) (vals (ws oc) x) (peval (or_z K oc) x) (peval (or_z K oc) (x * g)) (vals (sigs pk) x)
      + match lkp pk with None => 0 | Some lp => lk_num oc pk lp x end.

    (** The shape of an instance: numbers and lengths of its polynomials. *)
    Record shape (nw : nat) (oc : oracles) (pk : pkey) : Prop := {
      sh_sel : length (sels pk) = match lkp pk with None => 13%nat | Some _ => 14%nat end;
      sh_sel_len : forall p, In p (sels pk) -> (length p <= n)%nat;
      sh_sig : length (sigs pk) = nw;
      sh_sig_len : forall p, In p (sigs pk) -> (length p <= n)%nat;
      sh_k : length (ks pk) = nw;
      sh_n : vk_n K V1 V2 (pk_vk K V1 V2 pk) = n;
      sh_w : length (ws oc) = nw;
      sh_w_len : forall p, In p (ws oc) -> (length p <= n + 2)%nat;
      sh_z : (length (or_z K oc) <= n + 3)%nat;
      sh_pi : (length (or_pi K oc) <= n)%nat;
      sh_nw : nw = match lkp pk with None => 5%nat | Some _ => 6%nat end;
      sh_lk : forall lp, lkp pk = Some lp ->
        length (or_h K oc) = 2%nat /\ (forall p, In p (or_h K oc) -> (length p <= n + 3)%nat)
        /\ (length (or_prod K oc) <= n + 3)%nat /\ (length (lp_range K lp) <= n)%nat /\ (length (lp_key K lp) <= n)%nat
        /\ (length (lp_table_dom_sep K lp) <= n)%nat /\ (length (lp_q_dom_sep K lp) <= n)%nat }.

    Lemma nth_len {A} (l : list (list A)) k i : (forall p, In p l -> (length p <= k)%nat) -> (length (nth i l []) <= k)%nat.
    Proof.
      intro H. destruct (Nat.lt_ge_cases i (length l)); [apply H, nth_In; auto|]. rewrite nth_overflow by auto. cbn. lia.
    Qed.
    Lemma last_len {A} (l : list (list A)) k : (forall p, In p l -> (length p <= k)%nat) -> (length (last l []) <= k)%nat.
    Proof.
      intro H. destruct l as [|a l]; [cbn; lia|]. apply H. destruct (exists_last (l := a :: l)) as (l' & x & E); [discriminate|].
      rewrite E, last_last. apply in_or_app. right. now left.
    Qed.

    Notation pf := (polyf K).
    Ltac lhs := match goal with |- _ = ?r => let y := fresh "rhs_" in set (y := r) end.
    Ltac rhs := match goal with |- _ = ?y => subst y; reflexivity end.

    Lemma pf_mul f h k k' : (1 <= k)%nat -> (1 <= k')%nat -> pf f k -> pf h k' -> pf (fun x => f x * h x) (k + k' - 1).
    Proof. intros. now apply polyf_mul. Qed.

    Lemma pf_circuit oc pk nw : shape nw oc pk -> (1 <= n)%nat ->
      pf (fun x => quot_circuit K (vals (ws oc) x) (peval (or_pi K oc) x) (vals (sels pk) x)) (6 * n + 5).
    Proof.
      intros H Hn. pose proof (sh_sel_len _ _ _ H) as Hs. pose proof (sh_w_len _ _ _ H) as Hw. pose proof (sh_pi _ _ _ H) as Hp.
      unfold quot_circuit. cbv zeta.
      eapply polyf_ext; [intro x; lhs; rewrite !nth_vals; rhs|].
      assert (Q : forall j, pf (fun x => peval (nth j (sels pk) []) x) n) by (intro j; apply polyf_peval, nth_len; auto).
      assert (W : forall j, pf (fun x => peval (nth j (ws oc) []) x) (n + 2)) by (intro j; apply polyf_peval, nth_len; auto).
      assert (P : pf (fun x => peval (or_pi K oc) x) n) by now apply polyf_peval.
      assert (QW : forall i j, pf (fun x => peval (nth i (sels pk) []) x * peval (nth j (ws oc) []) x) (2 * n + 1)).
      { intros i j. eapply polyf_weaken; [apply (pf_mul _ _ n (n + 2)); auto; lia|lia]. }
      assert (QWW : forall i j k, pf (fun x => peval (nth i (sels pk) []) x * peval (nth j (ws oc) []) x * peval (nth k (ws oc) []) x) (3 * n + 2)).
      { intros i j k. eapply polyf_weaken; [apply (pf_mul _ _ (2 * n + 1) (n + 2)); auto; lia|lia]. }
      assert (Q5 : forall i j, pf (fun x => peval (nth i (sels pk) []) x * fpow (peval (nth j (ws oc) []) x) 5) (6 * n + 5)).
      { intros i j. eapply polyf_weaken; [apply (pf_mul _ _ n (5 * (n + 2 - 1) + 1)); auto; try lia; apply polyf_pow; auto; lia|lia]. }
      assert (QE : pf (fun x => peval (nth 12 (sels pk) []) x * peval (nth 0 (ws oc) []) x * peval (nth 1 (ws oc) []) x
                     * peval (nth 2 (ws oc) []) x * peval (nth 3 (ws oc) []) x * peval (nth 4 (ws oc) []) x) (6 * n + 5)).
      { eapply polyf_weaken; [apply (pf_mul _ _ (5 * n + 4) (n + 2)); auto; try lia|lia].
        eapply polyf_weaken; [apply (pf_mul _ _ (4 * n + 3) (n + 2)); auto; try lia|lia].
        eapply polyf_weaken; [apply (pf_mul _ _ (3 * n + 2) (n + 2)); auto; try lia|lia]. }
      assert (ADD : forall f h, pf f (6 * n + 5) -> pf h (6 * n + 5) -> pf (fun x => f x + h x) (6 * n + 5)).
      { intros f h F G. eapply polyf_weaken; [apply polyf_add; eauto|lia]. }
      assert (WK : forall f k, pf f k -> (k <= 6 * n + 5)%nat -> pf f (6 * n + 5)) by (intros; eapply polyf_weaken; eauto).
      eapply polyf_weaken; [apply (polyf_sub _ _ _ (6 * n + 5) (6 * n + 5)); [|eapply WK; [apply QW|lia]]|lia].
      repeat apply ADD; auto; (eapply WK; [first [apply QE|apply Q5|apply QWW|apply QW|apply P|apply Q]|lia]).
    Qed.

    Lemma length_lag i : (length (lagp K d 1 i) <= n)%nat.
    Proof. rewrite length_lagp. lia. Qed.
    Lemma pf_L1 : pf L1 n.
    Proof. apply polyf_peval, length_lag. Qed.
    Lemma pf_Ln : pf Ln n.
    Proof. apply polyf_peval, length_lag. Qed.

    Lemma pf_perm oc pk nw : shape nw oc pk -> (1 <= n)%nat ->
      pf (fun x => num_perm x (ks pk) (vals (ws oc) x) (peval (or_z K oc) x) (peval (or_z K oc) (x * g)) (vals (sigs pk) x))
        (nw * (n + 1) + n + 3).
    Proof.
      intros H Hn. pose proof (sh_w_len _ _ _ H) as Hw. pose proof (sh_sig_len _ _ _ H) as Hs. pose proof (sh_z _ _ _ H) as Hz.
      assert (W : forall j, pf (fun x => peval (nth j (ws oc) []) x) (n + 2)) by (intro j; apply polyf_peval, nth_len; auto).
      assert (S0 : forall j, pf (fun x => peval (nth j (sigs pk) []) x) n) by (intro j; apply polyf_peval, nth_len; auto).
      assert (Z : pf (fun x => peval (or_z K oc) x) (n + 3)) by now apply polyf_peval.
      assert (ZW : pf (fun x => peval (or_z K oc) (x * g)) (n + 3)) by (apply (polyf_comp_scale K g (fun x => peval (or_z K oc) x)); auto).
      pose proof pf_L1 as L1'.
      assert (HB1 : (1 <= n + 3)%nat) by lia.
      set (B := (nw * (n + 1) + n + 3)%nat).
      assert (P1 : pf (fun x => fprod (map (fun i => peval (nth i (ws oc) []) x + nth i (ks pk) 0 * x * be + ga) (seq 0 nw))) (nw * (n + 1) + 1)).
      { eapply polyf_weaken; [apply (polyf_fprod K (fun i x => peval (nth i (ws oc) []) x + nth i (ks pk) 0 * x * be + ga) (n + 2)); [lia|]|].
        - intros i _. eapply polyf_weaken; [eapply polyf_add; [eapply polyf_add; [apply W|]|apply polyf_const]|].
          + eapply (polyf_ext _ _ (fun x => nth i (ks pk) 0 * be * x)); [intro; ring|]. apply polyf_scale, polyf_id.
          + lia.
        - rewrite seq_length. replace (n + 2 - 1)%nat with (n + 1)%nat by lia. lia. }
      assert (P2 : pf (fun x => fprod (map (fun i => peval (nth i (ws oc) []) x + peval (nth i (sigs pk) []) x * be + ga) (seq 0 nw))) (nw * (n + 1) + 1)).
      { eapply polyf_weaken; [apply (polyf_fprod K (fun i x => peval (nth i (ws oc) []) x + peval (nth i (sigs pk) []) x * be + ga) (n + 2)); [lia|]|].
        - intros i _. eapply polyf_weaken; [eapply polyf_add; [eapply polyf_add; [apply W|]|apply polyf_const]|].
          + eapply (polyf_ext _ _ (fun x => be * peval (nth i (sigs pk) []) x)); [intro; ring|]. apply polyf_scale, S0.
          + lia.
        - rewrite seq_length. replace (n + 2 - 1)%nat with (n + 1)%nat by lia. lia. }
      unfold num_perm.
      eapply polyf_ext.
      { intro x. lhs. rewrite (fprod_combine _ (vals (ws oc) x) (ks pk) 0 0 nw) by (rewrite ?length_vals; apply H).
        rewrite (fprod_combine _ (vals (ws oc) x) (vals (sigs pk) x) 0 0 nw) by (rewrite length_vals; apply H).
        cbn [fst snd]. rhs. }
      eapply polyf_weaken.
      { apply polyf_add; [apply polyf_sub; apply polyf_scale|].
        - eapply polyf_ext; [|exact (pf_mul _ _ _ _ HB1 (Nat.le_add_l 1 (nw * (n + 1))) Z P1)].
          intro x. cbv beta. f_equal. f_equal. apply map_ext. intro i. rewrite nth_vals. reflexivity.
        - eapply polyf_ext; [|exact (pf_mul _ _ _ _ HB1 (Nat.le_add_l 1 (nw * (n + 1))) ZW P2)].
          intro x. cbv beta. f_equal. f_equal. apply map_ext. intro i. rewrite !nth_vals. reflexivity.
        - apply (pf_mul (fun x => al * al * (peval (or_z K oc) x - 1)) L1 (n + 3) n); [lia|lia| |exact L1'].
          apply polyf_scale. eapply polyf_weaken; [apply polyf_sub; [exact Z|apply polyf_const]|lia]. }
      unfold B. pose proof (sh_nw _ _ _ H) as Hnw. clear -Hnw. destruct (lkp pk); subst nw; lia.
    Qed.

    Lemma pf_lookup oc pk nw lp : shape nw oc pk -> lkp pk = Some lp -> (2 <= n)%nat ->
      pf (lk_num oc pk lp) (nw * (n + 1) + n + 3).
    Proof.
      intros H Hl Hn. destruct tau as [t|] eqn:Et.
      2:{ unfold lk_num. rewrite Et. eapply polyf_weaken; [apply polyf_const|]. lia. }
      pose proof (sh_nw _ _ _ H) as Hnw. rewrite Hl in Hnw. subst nw.
      destruct (sh_lk _ _ _ H lp Hl) as (Hh & Hhl & Hp & Hr & Hk & Ht & Hq).
      pose proof (sh_w_len _ _ _ H) as Hw. pose proof (sh_sel_len _ _ _ H) as Hs.
      pose proof pf_L1 as L1'. pose proof pf_Ln as Ln'.
      assert (SH : forall (p : pol) k, (length p <= k)%nat -> pf (fun x => peval p x) k /\ pf (fun x => peval p (x * g)) k).
      { intros p k Hp'. split; [now apply polyf_peval|]. apply (polyf_comp_scale K g (fun x => peval p x)). now apply polyf_peval. }
      assert (W : forall j, pf (fun x => peval (nth j (ws oc) []) x) (n + 2) /\ pf (fun x => peval (nth j (ws oc) []) (x * g)) (n + 2))
        by (intro j; apply SH, nth_len; auto).
      assert (HH : forall j, pf (fun x => peval (nth j (or_h K oc) []) x) (n + 3) /\ pf (fun x => peval (nth j (or_h K oc) []) (x * g)) (n + 3))
        by (intro j; apply SH, nth_len; auto).
      assert (QL : pf (fun x => peval (last (sels pk) []) x) n /\ pf (fun x => peval (last (sels pk) []) (x * g)) n)
        by (apply SH, last_len; auto).
      pose proof (SH _ _ Hp) as PP. pose proof (SH _ _ Hr) as RR. pose proof (SH _ _ Hk) as KK.
      pose proof (SH _ _ Ht) as TT. pose proof (SH _ _ Hq) as QQ. clear SH.
      assert (ADD : forall f h k, pf f k -> pf h k -> pf (fun x => f x + h x) k) by (intros f h k A B; eapply polyf_weaken; [apply polyf_add; eauto|lia]).
      assert (SUB : forall f h k, pf f k -> pf h k -> pf (fun x => f x - h x) k) by (intros f h k A B; eapply polyf_weaken; [apply polyf_sub; eauto|lia]).
      assert (CST : forall c k, (1 <= k)%nat -> pf (fun _ => c) k) by (intros; eapply polyf_weaken; [apply polyf_const|auto]).
      assert (MT : forall fr fk fq f3 f4 fd, pf fr n -> pf fk n -> pf fq n -> pf f3 (n + 2) -> pf f4 (n + 2) -> pf fd n ->
         pf (fun x => eval_merged_table K t (fr x) (fk x) (fq x) (f3 x) (f4 x) (fd x)) (2 * n + 1)).
      { intros fr fk fq f3 f4 fd A1 A2 A3 A4 A5 A6. unfold eval_merged_table.
        apply ADD; [eapply polyf_weaken; [exact A1|lia]|].
        eapply (polyf_weaken _ _ (n + (n + 2) - 1)); [|lia]. apply (pf_mul (fun x => fq x * t)); [lia|lia|eapply polyf_ext; [|apply (polyf_scale K t), A3]; intro; cbv beta; ring|].
        apply ADD; [eapply polyf_weaken; [exact A6|lia]|]. apply polyf_scale. apply ADD; [eapply polyf_weaken; [exact A2|lia]|].
        apply polyf_scale. apply ADD; auto. apply polyf_scale. auto. }
      assert (ML : forall fr f0 f1 f2 fq fd, pf fr (n + 2) -> pf f0 (n + 2) -> pf f1 (n + 2) -> pf f2 (n + 2) -> pf fq n -> pf fd n ->
         pf (fun x => eval_merged_lookup_witness K t (fr x) (f0 x) (f1 x) (f2 x) (fq x) (fd x)) (2 * n + 1)).
      { intros fr f0 f1 f2 fq fd A1 A2 A3 A4 A5 A6. unfold eval_merged_lookup_witness.
        apply ADD; [eapply polyf_weaken; [exact A1|lia]|].
        eapply (polyf_weaken _ _ (n + (n + 2) - 1)); [|lia]. apply (pf_mul (fun x => fq x * t)); [lia|lia|eapply polyf_ext; [|apply (polyf_scale K t), A5]; intro; cbv beta; ring|].
        apply ADD; [eapply polyf_weaken; [exact A6|lia]|]. apply polyf_scale. apply ADD; auto.
        apply polyf_scale. apply ADD; auto. apply polyf_scale. auto. }
      unfold lk_num, num_lookup; rewrite Et; cbv zeta. eapply polyf_ext; [intro x; lhs; rewrite !nth_vals; rhs|].
      assert (PB : pf (fun x => peval (or_prod K oc) x * (1 + be)) (n + 3)).
      { apply (polyf_ext _ _ (fun x => (1 + be) * peval (or_prod K oc) x)); [intro; ring|]. apply polyf_scale, PP. }
      set (B := (6 * (n + 1) + n + 3)%nat).
      assert (WK : forall f k, pf f k -> (k <= B)%nat -> pf f B) by (intros; eapply polyf_weaken; eauto).
      apply ADD; [apply ADD; [apply ADD|]|]; apply polyf_scale.
      - eapply WK; [apply (pf_mul _ Ln (n + 3) n); [lia|lia|apply SUB; apply HH|auto]|unfold B; lia].
      - eapply WK; [apply (pf_mul _ L1 (n + 3) n); [lia|lia|apply SUB; [apply PP|apply CST; lia]|auto]|unfold B; lia].
      - eapply WK; [apply (pf_mul _ Ln (n + 3) n); [lia|lia|apply SUB; [apply PP|apply CST; lia]|auto]|unfold B; lia].
      - eapply WK; [apply (pf_mul (fun x => x - finv g) _ 2 (B - 1)); [lia|unfold B; lia|apply SUB; [apply polyf_id|apply CST; lia]|]|unfold B; lia].
        apply SUB.
        + eapply polyf_weaken; [eapply (pf_mul (fun x => _ * _ * _) _ (n + 3 + (2 * n + 1) - 1) (2 * n + 1)); [lia|lia| |]|unfold B; lia].
          * eapply (pf_mul (fun x => _ * _)); [lia|lia| |].
            -- exact PB.
            -- apply ADD; [apply CST; lia|]. apply ML; first [apply W|apply QL|apply QQ].
          * apply ADD; [apply ADD; [apply CST; lia|]|apply polyf_scale]; apply MT; first [apply W|apply QL|apply RR|apply KK|apply TT].
        + eapply polyf_weaken; [eapply (pf_mul (fun x => _ * _) _ (n + 3 + (n + 3) - 1) (n + 3)); [lia|lia| |]|unfold B; lia].
          * apply pf_mul; [lia|lia|apply PP|]. apply ADD; [apply ADD; [apply CST; lia|apply HH]|apply polyf_scale, HH].
          * apply ADD; [apply ADD; [apply CST; lia|apply HH]|apply polyf_scale, HH].
    Qed.

    Lemma pf_inst oc pk nw : shape nw oc pk -> (2 <= n)%nat -> pf (inst_num oc pk) (nw * (n + 1) + n + 3).
    Proof.
      intros H Hn. unfold inst_num. pose proof (sh_nw _ _ _ H) as Hnw.
      assert (L : pf (fun x => match lkp pk with None => 0 | Some lp => lk_num oc pk lp x end) (nw * (n + 1) + n + 3)).
      { destruct (lkp pk) as [lp|] eqn:E; [eapply pf_lookup; eauto|eapply polyf_weaken; [apply polyf_const|]]. lia. }
      eapply polyf_weaken; [apply polyf_add; [apply polyf_add; [eapply pf_circuit; eauto; lia|eapply pf_perm; eauto; lia]|exact L]|].
      destruct (lkp pk); subst nw; lia.
    Qed.
  End Num.

  (** ** The quotient on the coset *)
  Lemma fft_at (c : K) (qd : dom K) (p : pol) i : (length p <= dsize qd)%nat -> (i < dsize qd)%nat ->
    @nth (car K) i (fft_coset K (self_vsp K) c qd p) (@f0 K) = peval p (c * fpow (dgen qd) i).
  Proof. apply fft_peval. Qed.
  Lemma map_at (c : K) (qd : dom K) (ps : list pol) i : (forall p, In p ps -> (length p <= dsize qd)%nat) -> (i < dsize qd)%nat ->
    map (fun l => nth i l 0) (map (fft_coset K (self_vsp K) c qd) ps) = vals ps (c * fpow (dgen qd) i).
  Proof.
    intros H Hi. rewrite map_map. unfold vals. apply map_ext_in. intros p Hp. apply fft_peval; auto.
  Qed.
  Lemma last_map {A B} (f : A -> B) l a b : l <> [] -> last (map f l) b = f (last l a).
  Proof.
    intro H. destruct (exists_last H) as (l' & x & ->). rewrite map_app. cbn [map]. now rewrite !last_last.
  Qed.

  Section Coset.
    Variables (d qd : dom K) (r : nat) (fgen : K).
    Hypothesis Hd : dom_ok K d.
    Hypothesis Hqd : dom_ok K qd.
    Hypothesis Hr : dsize qd = (dsize d * r)%nat.
    Hypothesis Hr1 : (1 <= r)%nat.
    Hypothesis Hg : fpow (dgen qd) r = dgen d.
    Notation n := (dsize d).
    Notation m := (dsize qd).
    Notation pr := (mk_prover K d qd).
    Notation X k := (fgen * fpow (dgen qd) k).

    Lemma ratio_r : (m / n)%nat = r.
    Proof. pose proof (do_size K d Hd). rewrite Hr, Nat.mul_comm. now rewrite Nat.div_mul by lia. Qed.
    Lemma gen_mod k : fpow (dgen qd) (k mod m) = fpow (dgen qd) k.
    Proof.
      pose proof (do_size K qd Hqd). rewrite (Nat.div_mod k m) at 2 by lia.
      rewrite fpow_add, fpow_mul, (do_one K qd Hqd), fpow_1. ring.
    Qed.
    Lemma X_next k : X ((k + r) mod m) = X k * dgen d.
    Proof. rewrite gen_mod, fpow_add, Hg. ring. Qed.
    Lemma X_pow k : fpow (X k) n = fpow (X (k mod r)) n.
    Proof.
      rewrite !fpow_mult_base. f_equal. rewrite (Nat.div_mod k r) at 1 by lia. rewrite fpow_add.
      rewrite fpow_mult_base. rewrite fpow_mul, Hg.
      replace (fpow (fpow (dgen d) (k / r)) n) with (1 : K); [ring|]. rewrite <- fpow_mul, Nat.mul_comm, fpow_mul.
      now rewrite (do_one K d Hd), fpow_1.
    Qed.

    Lemma quot_perm_ok nn x kk w z zw ch sg p : nn = n -> quot_perm K nn x kk w z zw ch sg = Ok p -> fpow x n - 1 <> 0 ->
      fst p * finv (fpow x n - 1) + snd p
      = num_perm d (ch_alpha K ch) (ch_beta K ch) (ch_gamma K ch) x kk w z zw sg * finv (fpow x n - 1).
    Proof.
      intros -> H Hv. unfold quot_perm in H. apply bind_ok in H as (di & Hdi & H).
      assert (E : (fst p, snd p) = p) by now destruct p. rewrite <- E in H. clear E.
      apply (f_equal (fun o => match o with Ok a => a | _ => p end)) in H.
      pose proof (f_equal fst H) as F1. pose proof (f_equal snd H) as F2. cbn [fst snd] in F1, F2. clear H.
      unfold finvp in Hdi. destruct (feqb _ 0) eqn:E0 in Hdi; [discriminate|]. apply feqb_neq in E0.
      apply (f_equal (fun o => match o with Ok a => a | _ => di end)) in Hdi.
      rewrite <- F1, <- F2, !fold_mul, <- Hdi. unfold num_perm, L1.
      assert (N : x <> 1 * fpow (dgen d) 0).
      { intro Ex. apply E0. rewrite Ex. cbn [fpow]. ring. }
      rewrite (lagv_off K d Hd 1 (f1_neq_0 K) 0 x N). cbn [fpow].
      rewrite fpow_1. replace (finv 1) with (1 : K) by (field; apply f1_neq_0).
      set (P := fprod _). set (Q := fprod _).
      assert (E1 : fnat n <> (0 : K)) by apply (do_inv K d Hd).
      assert (E2 : x - 1 <> 0) by (intro Z0; apply E0; rewrite Z0; ring).
      field. repeat split; auto.
    Qed.
    Lemma quot_lookup_ok x w wn h1 h1w h2 h2w p pw rt rtw kt ktw tds tdsw ql qlw qds ch q : (2 <= n)%nat ->
      quot_lookup K d x w wn h1 h1w h2 h2w p pw rt rtw kt ktw tds tdsw ql qlw qds ch = Ok q ->
      exists t, ch_tau K ch = Some t /\
      fst q * finv (fpow x n - 1) + snd q
      = num_lookup d (ch_alpha K ch) (ch_beta K ch) (ch_gamma K ch) t x w wn h1 h1w h2 h2w p pw rt rtw kt ktw tds tdsw ql qlw qds * finv (fpow x n - 1).
    Proof.
      intros Hn H. unfold quot_lookup in H. rewrite (first_last_coeffs K d Hd 1 (f1_neq_0 K) x Hn) in H. cbn [bind] in H.
      apply bind_ok in H as (vi & Hvi & H). apply bind_ok in H as (t & Ht & H). apply expect_ok in Ht. exists t. split; auto.
      assert (E : (fst q, snd q) = q) by now destruct q. rewrite <- E in H. clear E.
      apply (f_equal (fun o => match o with Ok a => a | _ => q end)) in H.
      pose proof (f_equal fst H) as F1. pose proof (f_equal snd H) as F2. cbn [fst snd] in F1, F2. clear H.
      assert (EV : vanish_at K d 1 x = fpow x n - 1) by (unfold vanish_at; now rewrite fpow_1).
      rewrite EV in *. unfold finvp in Hvi. destruct (feqb _ 0) eqn:E0 in Hvi; [discriminate|]. apply feqb_neq in E0.
      apply (f_equal (fun o => match o with Ok a => a | _ => vi end)) in Hvi.
      rewrite <- F1, <- F2, <- Hvi. unfold num_lookup, L1, Ln. cbv zeta.
      set (T1 := eval_merged_table _ _ _ _ _ _ _ _). set (T2 := eval_merged_table _ _ _ _ _ _ _ _). set (LL := eval_merged_lookup_witness _ _ _ _ _ _ _ _).
      set (A1 := lagv _ _ _ _ _). set (A2 := lagv _ _ _ _ _). set (gi := finv (dgen d)). set (v := fpow x n - 1) in *. clearbody T1 T2 LL A1 A2 gi v.
      cbn [fpow]. ring.
    Qed.

    Lemma quot_instance_ok ch zinv nw oc pk l : shape d nw oc pk -> (2 <= n)%nat -> (n + 3 <= m)%nat ->
      (forall i, (i < r)%nat -> fpow (X i) n - 1 <> 0 /\ nth i zinv 0 = finv (fpow (X i) n - 1)) ->
      quot_instance K V1 V2 fgen pr ch zinv nw oc pk = Ok l ->
      (lkp pk <> None -> exists t, ch_tau K ch = Some t) /\
      length l = m /\ forall k, (k < m)%nat -> fpow (X k) n - 1 <> 0 /\
        nth k l 0 = inst_num d (ch_tau K ch) (ch_alpha K ch) (ch_beta K ch) (ch_gamma K ch) oc pk (X k) * finv (fpow (X k) n - 1).
    Proof.
      intros H Hn Hm Hz E. unfold quot_instance in E. cbv zeta in E. cbn [pr_dom pr_quot] in E. rewrite ratio_r in E.
      apply bind_ok in E as (u & Ha & E). clear u Ha.
      rewrite !(firstn_all2 (n := nw)) in E by (rewrite ?(sh_sig _ _ _ _ H), ?(sh_w _ _ _ _ H); lia).
      apply (map_res_seq _ _ _ 0) in E as [L N].
      assert (LEN : forall p : pol, (length p <= n + 3)%nat -> (length p <= m)%nat) by (intros; lia).
      assert (Hs : forall p, In p (sels pk) -> (length p <= m)%nat) by (intros p Hp; pose proof (sh_sel_len _ _ _ _ H p Hp); lia).
      assert (Hg' : forall p, In p (sigs pk) -> (length p <= m)%nat) by (intros p Hp; pose proof (sh_sig_len _ _ _ _ H p Hp); lia).
      assert (Hw : forall p, In p (ws oc) -> (length p <= m)%nat) by (intros p Hp; pose proof (sh_w_len _ _ _ _ H p Hp); lia).
      assert (Hzz : (length (or_z K oc) <= m)%nat) by (pose proof (sh_z _ _ _ _ H); lia).
      assert (Hpi : (length (or_pi K oc) <= m)%nat) by (pose proof (sh_pi _ _ _ _ H); lia).
      assert (M0 : (0 < m)%nat) by lia.
      assert (J : forall k, ((k + r) mod m < m)%nat) by (intro k; apply Nat.mod_upper_bound; lia).
      assert (Hql : forall k, (k < m)%nat -> nth k (last (map (fft_coset K (self_vsp K) fgen qd) (sels pk)) []) 0 = peval (last (sels pk) []) (X k)).
      { intros k Hk. rewrite (last_map _ _ []).
        - apply fft_peval; auto. apply last_len. auto.
        - intro Z. pose proof (sh_sel _ _ _ _ H) as Hl. rewrite Z in Hl. destruct (lkp pk); discriminate. }
      assert (ST : forall k, (k < m)%nat -> (lkp pk <> None -> exists t, ch_tau K ch = Some t) /\ fpow (X k) n - 1 <> 0 /\
        nth k l 0 = inst_num d (ch_tau K ch) (ch_alpha K ch) (ch_beta K ch) (ch_gamma K ch) oc pk (X k) * finv (fpow (X k) n - 1)).
      { intros k Hk. specialize (N k Hk).
        assert (Ex : dom_element K qd k * fgen = X k) by (unfold dom_element; ring).
        rewrite Ex in N.
        rewrite !map_at in N by auto. rewrite !fft_at in N by auto. rewrite X_next in N.
        destruct (Hz (k mod r)%nat) as [Z1 Z2]; [apply Nat.mod_upper_bound; lia|]. rewrite Z2 in N. rewrite <- X_pow in N.
        rewrite <- X_pow in Z1. clear Z2.
        apply bind_ok in N as (tp & Htp & N). apply bind_ok in N as (tl & Htl & N).
        apply quot_perm_ok in Htp; [|apply H|auto].
        assert (EL : fst tl * finv (fpow (X k) n - 1) + snd tl
          = match lkp pk with None => 0 | Some lp => lk_num d (ch_tau K ch) (ch_alpha K ch) (ch_beta K ch) (ch_gamma K ch) oc pk lp (X k) end
            * finv (fpow (X k) n - 1) /\ (lkp pk <> None -> exists t, ch_tau K ch = Some t)).
        { destruct (lkp pk) as [lp|] eqn:El.
          - apply bind_ok in Htl as (u & Ha & Htl). clear u Ha.
            destruct (sh_lk _ _ _ _ H lp El) as (A1 & A2 & A3 & A4 & A5 & A6 & A7).
            assert (HH : forall i, (length (nth i (or_h K oc) []) <= m)%nat) by (intro i; apply LEN, nth_len; auto).
            rewrite !fft_at in Htl by (auto; lia). rewrite !Hql in Htl by auto. rewrite X_next in Htl.
            apply quot_lookup_ok in Htl as (t & Et & Htl); auto. unfold lk_num. rewrite Et. cbv zeta. split; [exact Htl|eauto].
          - apply (f_equal (fun o => match o with Ok a => a | _ => tl end)) in Htl. rewrite <- Htl. cbn [fst snd]. split; [ring|congruence]. }
        destruct EL as [EL ET]. split; [exact ET|]. split; [exact Z1|].
        apply (f_equal (fun o => match o with Ok a => a | _ => 0 end)) in N. rewrite <- N. unfold inst_num.
        set (v := finv (fpow (X k) n - 1)) in *.
        match goal with |- _ = (?a + ?b + ?c) * v => transitivity (a * v + b * v + c * v); [|ring] end.
        rewrite <- Htp, <- EL, ?fft_at by auto. ring. }
      split; [|split; [exact L|]].
      - destruct (ST 0%nat M0) as (A & _). exact A.
      - intros k Hk. apply (ST k Hk).
    Qed.

    (** ** The quotient polynomial *)
    Lemma vec_add_nth a (l l' : list K) k : length l = m -> length l' = m -> (k < m)%nat ->
      nth k (vec_add_scaled K a l l') 0 = nth k l 0 + a * nth k l' 0.
    Proof.
      intros H1 H2 Hk. unfold vec_add_scaled.
      set (f := fun xy : K * K => fst xy + a * snd xy).
      rewrite (nth_indep _ 0 (f (0, 0))) by (rewrite map_length, combine_length; lia).
      rewrite map_nth, combine_nth by lia. reflexivity.
    Qed.
    Lemma vec_add_len a (l l' : list K) : length l = m -> length l' = m -> length (vec_add_scaled K a l l') = m.
    Proof. intros. unfold vec_add_scaled. rewrite map_length, combine_length. lia. Qed.

    Variables (tau : option K) (al be ga A : K).
    Fixpoint tot (ops : list (oracles * pkey)) (ab x : K) : K :=
      match ops with
      | [] => 0
      | op :: ops' => ab * inst_num d tau al be ga (fst op) (snd op) x + tot ops' (ab * A) x
      end.
    Lemma polyf_tot ops nw : forall ab, (2 <= n)%nat -> (forall op, In op ops -> shape d nw (fst op) (snd op)) ->
      polyf K (tot ops ab) (nw * (n + 1) + n + 3).
    Proof.
      induction ops as [|op ops IH]; intros ab Hn H; cbn [tot].
      - eapply polyf_weaken; [apply polyf_const|]. lia.
      - eapply polyf_weaken; [apply (polyf_add K (fun x => ab * inst_num d tau al be ga (fst op) (snd op) x) _ (nw * (n + 1) + n + 3) (nw * (n + 1) + n + 3))|lia].
        + apply polyf_scale, pf_inst; auto. apply H. now left.
        + apply IH; auto. intros; apply H; now right.
    Qed.
    Lemma tot_0 ops x : forall ab, (forall op, In op ops -> inst_num d tau al be ga (fst op) (snd op) x = 0) -> tot ops ab x = 0.
    Proof.
      induction ops as [|op ops IH]; intros ab H; cbn [tot]; [reflexivity|]. rewrite IH by (intros; apply H; now right).
      rewrite (H op) by now left. ring.
    Qed.

    Lemma quot_fold ch zinv nw ops : ch_tau K ch = tau -> ch_alpha K ch = al -> ch_beta K ch = be -> ch_gamma K ch = ga ->
      (2 <= n)%nat -> (n + 3 <= m)%nat ->
      (forall op, In op ops -> shape d nw (fst op) (snd op)) ->
      (forall op ab, In op ops -> next_alpha_base K ch (is_some (lkp (snd op))) ab = ab * A) ->
      (forall i, (i < r)%nat -> fpow (X i) n - 1 <> 0 /\ nth i zinv 0 = finv (fpow (X i) n - 1)) ->
      forall acc ab res, length acc = m ->
      fold_res (fun st op =>
                   let* l := quot_instance K V1 V2 fgen pr ch zinv nw (fst op) (snd op) in
                   Ok (vec_add_scaled K (snd st) (fst st) l,
                       next_alpha_base K ch (is_some (lkp (snd op))) (snd st))) ops (acc, ab) = Ok res ->
      length (fst res) = m /\ (forall op, In op ops -> lkp (snd op) <> None -> exists t, tau = Some t) /\
      forall k, (k < m)%nat -> nth k (fst res) 0 = nth k acc 0 + tot ops ab (X k) * finv (fpow (X k) n - 1).
    Proof.
      intros C1 C2 C3 C4 Hn Hm. induction ops as [|op ops IH]; intros Hs HA Hz acc ab res La E; cbn [fold_res] in E.
      - apply (f_equal (fun o => match o with Ok a => a | _ => res end)) in E. rewrite <- E. cbn [fst tot]. split; auto.
        split; [intros op []|]. intros k Hk. ring.
      - apply bind_ok in E as (st & Est & E). apply bind_ok in Est as (l & El & Est).
        apply quot_instance_ok in El; auto; [|apply Hs; now left]. destruct El as (T & Ll & Nl).
        apply (f_equal (fun o => match o with Ok a => a | _ => st end)) in Est. rewrite <- Est in E. cbn [fst snd] in E.
        rewrite HA in E by now left.
        apply IH in E; auto; [|intros; apply Hs; now right|intros; apply HA; now right|now apply vec_add_len].
        destruct E as (Lr & T' & Nr). split; auto. split.
        + intros o [->|Ho] Hk; [rewrite <- C1; auto|eauto].
        + intros k Hk. rewrite (Nr k Hk), vec_add_nth by auto. destruct (Nl k Hk) as [_ ->]. rewrite C1, C2, C3, C4. cbn [tot]. ring.
    Qed.

    Lemma quotient_ok ch nw pks ocs q : ch_tau K ch = tau -> ch_alpha K ch = al -> ch_beta K ch = be -> ch_gamma K ch = ga ->
      fgen <> 0 -> (2 <= n)%nat -> (nw * (n + 1) + 3 <= m)%nat -> (n + 3 <= m)%nat ->
      (forall op, In op (combine ocs pks) -> shape d nw (fst op) (snd op)) ->
      (forall op ab, In op (combine ocs pks) -> next_alpha_base K ch (is_some (lkp (snd op))) ab = ab * A) ->
      (forall op j, In op (combine ocs pks) -> (j < n)%nat -> inst_num d tau al be ga (fst op) (snd op) (fpow (dgen d) j) = 0) ->
      compute_quotient_polynomial K V1 V2 fgen pr ch pks ocs nw = Ok q ->
      (forall op, In op (combine ocs pks) -> lkp (snd op) <> None -> exists t, tau = Some t) /\
      forall x, (fpow x n - 1) * peval q x = tot (combine ocs pks) 1 x.
    Proof.
      intros C1 C2 C3 C4 Hf Hn Hm Hm' Hs HA H0 E. unfold compute_quotient_polynomial in E.
      destruct (_ || _) in E; [discriminate|]. cbv zeta in E. cbn [pr_dom pr_quot] in E.
      apply bind_ok in E as (zinv & Hz & E). rewrite ratio_r in Hz. apply (map_res_seq _ _ _ 0) in Hz as [Lz Nz].
      apply bind_ok in E as (res & Er & E).
      apply quot_fold in Er; auto.
      2:{ intros i Hi. specialize (Nz i Hi). unfold finvp, dom_element in Nz. destruct (feqb _ 0) eqn:E0 in Nz; [discriminate|].
          apply feqb_neq in E0. split; [exact E0|]. now apply (f_equal (fun o => match o with Ok a => a | _ => 0 end)) in Nz. }
      2:{ apply repeat_length. }
      destruct Er as (Lr & T & Nr). split; [exact T|]. intro x.
      apply (f_equal (fun o => match o with Ok a => a | _ => q end)) in E. rewrite <- E, peval_pnorm.
      destruct (polyf_tot (combine ocs pks) nw 1 Hn Hs) as (P & LP & EP).
      destruct (divide_vanish K d Hd P) as (t & Lt & Et).
      { intros i Hi. rewrite <- EP. apply tot_0. intros op Hop. now apply H0. }
      rewrite EP, Et. f_equal.
      apply (interp_at K qd Hqd fgen Hf (fun j => nth j (fst res) 0)).
      - now apply coset_ifft_ok.
      - split; [lia|]. intros j Hj. rewrite (Nr j Hj), EP, Et.
        assert (V : fpow (X j) n - 1 <> 0).
        { rewrite X_pow. assert (Hjr : (j mod r < r)%nat) by (apply Nat.mod_upper_bound; lia). specialize (Nz _ Hjr).
          unfold finvp, dom_element in Nz. destruct (feqb _ 0) eqn:E0 in Nz; [discriminate|]. now apply feqb_neq in E0. }
        rewrite nth_repeat. field. auto.
    Qed.
  End Coset.
End Inst.
