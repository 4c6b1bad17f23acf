(** The linearization of one instance: what the prover's polynomial and the verifier's
    scalars evaluate to.  Used by C57. *)
From Coq Require Import List Arith ZArith Lia Bool Ring Field.
From Verif Require Import Base Alg Poly VRing KzgModel KzgProofs KzgFft CircuitModel FinalModel PlonkModel LagrangeProofs PlonkPoly PlonkInst.
Import ListNotations.

Lemma Ok_inj {X A} (a b : A) : @Ok X A a = Ok b -> a = b.
Proof. congruence. Qed.

Section Lin.
  Variable K : fld.
  Local Open Scope fld_scope.
  Add Field Klin : (fth K).
  Notation pol := (list K).
  Variables V1 V2 : vsp K.
  Notation pkey := (pkey K V1 V2).
  Notation vkey := (vkey K V1 V2).
  Notation oracles := (oracles K).
  Notation sels := (pk_selectors K V1 V2).
  Notation sigs := (pk_sigmas K V1 V2).
  Notation ks pk := (vk_k K V1 V2 (pk_vk K V1 V2 pk)).
  Notation ws := (or_wires K).
  Notation lkp := (pk_plookup K V1 V2).
  Notation vals := (vals K).
  Notation shape := (shape K V1 V2).

  Lemma fsum_combine_map {A B C} (f : A -> B -> K) (l : list A) (l' : list C) (h : C -> B) :
    fsum (map (fun ab => f (fst ab) (snd ab)) (combine l (map h l'))) = fsum (map (fun ab => f (fst ab) (h (snd ab))) (combine l l')).
  Proof.
    revert l'. induction l as [|a l IH]; intros [|b l']; cbn [combine map]; try reflexivity. rewrite !fsum_cons, IH. reflexivity.
  Qed.

  (** The scalars of the selectors. *)
  Definition sel_scal (w : list K) : list K :=
    let w0 := nth 0 w 0 in let w1 := nth 1 w 0 in let w2 := nth 2 w 0 in let w3 := nth 3 w 0 in let w4 := nth 4 w 0 in
    [w0; w1; w2; w3; w0 * w1; w2 * w3; fpow w0 5; fpow w1 5; fpow w2 5; fpow w3 5; - w4; 1; w0 * w1 * w2 * w3 * w4].
  Lemma selector_scalars_ok w : (5 <= length w)%nat -> selector_scalars K w = Ok (sel_scal w).
  Proof.
    intro H. unfold selector_scalars. rewrite !(index_lt w _ 0) by lia. reflexivity.
  Qed.
  Lemma circuit_lin w pi sel : (13 <= length sel)%nat ->
    quot_circuit K w pi sel = pi + fsum (map (fun sc => fst sc * snd sc) (combine (sel_scal w) sel)).
  Proof.
    intro H. do 13 (destruct sel as [|? sel]; [cbn in H; lia|]). clear H.
    unfold sel_scal, quot_circuit. cbv zeta.
    set (w0 := nth 0 w 0). set (w1 := nth 1 w 0). set (w2 := nth 2 w 0). set (w3 := nth 3 w 0). set (w4 := nth 4 w 0). clearbody w0 w1 w2 w3 w4.
    cbn [nth combine map]. rewrite !fsum_cons. replace (combine (@nil K) sel) with (@nil (K * K)) by reflexivity.
    cbn [fst snd map]. unfold fsum at 1. cbn [fold_right]. ring.
  Qed.

  Section At.
    Variable d : dom K.
    Hypothesis Hd : dom_ok K d.
    Notation n := (dsize d).
    Notation g := (dgen d).
    Variables (tau : option K) (al be ga ze : K).

    Definition pevals (oc : oracles) (pk : pkey) (nw : nat) : proof_evals K :=
      mk_pe K (vals (ws oc) ze) (vals (firstn (nw - 1) (sigs pk)) ze) (peval (or_z K oc) (ze * g)).
    Definition levals (oc : oracles) (pk : pkey) (lp : plookup_pk K) : plookup_evals K :=
      let h1 := nth 0 (or_h K oc) [] in let h2 := nth 1 (or_h K oc) [] in
      let ql := last (sels pk) [] in let zg := ze * g in
      mk_ple K (peval (lp_range K lp) ze) (peval (lp_key K lp) ze) (peval (lp_table_dom_sep K lp) ze)
                (peval (lp_q_dom_sep K lp) ze) (peval h1 ze) (peval ql ze) (peval (or_prod K oc) zg)
                (peval (lp_range K lp) zg) (peval (lp_key K lp) zg) (peval (lp_table_dom_sep K lp) zg)
                (peval h1 zg) (peval h2 zg) (peval ql zg) (peval (nth 3 (ws oc) []) zg) (peval (nth 4 (ws oc) []) zg).
    Definition opt_levals (oc : oracles) (pk : pkey) : option (plookup_evals K) := option_map (levals oc pk) (lkp pk).

    Definition lk_table (t : K) (oc : oracles) (le : plookup_evals K) : K :=
      eval_merged_table K t (range_table_eval K le) (key_table_eval K le) (q_lookup_eval K le) (nth 3 (vals (ws oc) ze) 0) (nth 4 (vals (ws oc) ze) 0) (table_dom_sep_eval K le).
    Definition lk_table_w (t : K) (le : plookup_evals K) : K :=
      eval_merged_table K t (range_table_next_eval K le) (key_table_next_eval K le) (q_lookup_next_eval K le)
                     (w3_next_eval K le) (w4_next_eval K le) (table_dom_sep_next_eval K le).
    Definition lk_lookup (t : K) (oc : oracles) (le : plookup_evals K) : K :=
      eval_merged_lookup_witness K t (nth 5 (vals (ws oc) ze) 0) (nth 0 (vals (ws oc) ze) 0) (nth 1 (vals (ws oc) ze) 0) (nth 2 (vals (ws oc) ze) 0) (q_lookup_eval K le) (q_dom_sep_eval K le).
    Definition c_z (oc : oracles) (pk : pkey) : K :=
      al * fprod (map (fun wk => fst wk + be * snd wk * ze + ga) (combine (vals (ws oc) ze) (ks pk))) + al * al * L1 K d ze.
    Definition c_s (oc : oracles) (pk : pkey) (nw : nat) : K :=
      - (al * be * peval (or_z K oc) (ze * g)
         * fprod (map (fun ws => fst ws + be * snd ws + ga) (combine (firstn (nw - 1) (vals (ws oc) ze)) (vals (firstn (nw - 1) (sigs pk)) ze)))).
    Definition c_p (t : K) (oc : oracles) (le : plookup_evals K) : K :=
      fpow al 4 * L1 K d ze + fpow al 5 * Ln K d ze
      + fpow al 6 * (ze - finv g) * (1 + be) * (ga + lk_lookup t oc le) * (ga * (1 + be) + lk_table t oc le + be * lk_table_w t le).
    Definition c_h (le : plookup_evals K) : K :=
      - (fpow al 6 * (ze - finv g) * prod_next_eval K le * (ga * (1 + be) + h1_eval K le + be * h1_next_eval K le)).
    (** The linearization polynomial at [y]. *)
    Definition lin_at (oc : oracles) (pk : pkey) (nw : nat) (y : K) : K :=
      fsum (map (fun sc => fst sc * peval (snd sc) y) (combine (sel_scal (vals (ws oc) ze)) (sels pk)))
      + c_z oc pk * peval (or_z K oc) y + c_s oc pk nw * peval (nth (nw - 1) (sigs pk) []) y
      + match lkp pk, tau with
        | Some lp, Some t => c_p t oc (levals oc pk lp) * peval (or_prod K oc) y + c_h (levals oc pk lp) * peval (nth 1 (or_h K oc) []) y
        | _, _ => 0
        end.
    (** The constant term the verifier adds. *)
    Definition const_at (oc : oracles) (pk : pkey) (nw : nat) : K :=
      peval (or_pi K oc) ze - al * al * L1 K d ze
      - al * peval (or_z K oc) (ze * g) * (ga + nth (nw - 1) (vals (ws oc) ze) 0)
        * fprod (map (fun ws => ga + fst ws + be * snd ws) (combine (firstn (nw - 1) (vals (ws oc) ze)) (vals (firstn (nw - 1) (sigs pk)) ze)))
      + match lkp pk with
        | None => 0
        | Some lp =>
            let le := levals oc pk lp in
            fpow al 3 * (Ln K d ze * (h1_eval K le - h2_next_eval K le - al * al) - al * L1 K d ze
              - fpow al 3 * (ze - finv g) * prod_next_eval K le * (ga * (1 + be) + h1_eval K le + be * h1_next_eval K le)
                * (ga * (1 + be) + be * h2_next_eval K le))
        end.

    Lemma split_last {A} (l : list A) k a : length l = S k -> l = firstn k l ++ [nth k l a].
    Proof.
      intro H. rewrite <- (firstn_skipn k l) at 1. f_equal.
      assert (L : length (skipn k l) = 1%nat) by (rewrite skipn_length; lia).
      destruct (skipn k l) as [|x [|y t]] eqn:E; try discriminate. f_equal.
      rewrite <- (firstn_skipn k l), E, app_nth2 by (rewrite firstn_length; lia). rewrite firstn_length, Nat.min_l by lia.
      rewrite Nat.sub_diag. reflexivity.
    Qed.
    Lemma combine_split {A B} (l : list A) (l' : list B) k a b : length l = S k -> length l' = S k ->
      combine l l' = combine (firstn k l) (firstn k l') ++ [(nth k l a, nth k l' b)].
    Proof.
      intros H H'. rewrite (split_last l k a H) at 1. rewrite (split_last l' k b H') at 1.
      assert (E : length (firstn k l) = length (firstn k l')) by (rewrite !firstn_length; lia).
      revert E. generalize (firstn k l) (firstn k l'). induction l0 as [|x l0 IH]; intros [|y l1] E; try discriminate; [reflexivity|].
      cbn [app combine]. f_equal. apply IH. now injection E.
    Qed.
    Lemma fprod_ext_map {A} (f h : A -> K) l : (forall a, f a = h a) -> fprod (map f l) = fprod (map h l).
    Proof. intro H. f_equal. apply map_ext, H. Qed.

    Theorem lin_const nw oc pk : shape d nw oc pk -> (lkp pk <> None -> tau <> None) ->
      inst_num K V1 V2 d tau al be ga oc pk ze = lin_at oc pk nw ze + const_at oc pk nw.
    Proof.
      intros H HT. unfold inst_num.
      assert (Hs : (13 <= length (sels pk))%nat) by (rewrite (sh_sel _ _ _ _ _ _ _ H); destruct (lkp pk); lia).
      rewrite circuit_lin by (rewrite length_vals; exact Hs).
      unfold lin_at, const_at, num_perm, c_z, c_s. change (vals (sels pk) ze) with (map (fun p => peval p ze) (sels pk)). rewrite (fsum_combine_map (fun a b => a * b)).
      destruct nw as [|k]; [pose proof (sh_nw _ _ _ _ _ _ _ H); destruct (lkp pk); discriminate|].
      cbn [Nat.sub]. rewrite Nat.sub_0_r.
      rewrite (combine_split (vals (ws oc) ze) (vals (sigs pk) ze) k 0 0) by (rewrite length_vals; apply H).
      rewrite map_app, fprod_app. cbn [map]. rewrite fprod_cons. unfold fprod at 3. cbn [fold_right fst snd].
      rewrite (nth_vals K (sigs pk)).
      replace (firstn k (vals (sigs pk) ze)) with (vals (firstn k (sigs pk)) ze) by (unfold PlonkInst.vals; now rewrite firstn_map).
      set (CB := combine (firstn k (vals (ws oc) ze)) (vals (firstn k (sigs pk)) ze)).
      rewrite (fprod_ext_map (fun ws0 : K * K => fst ws0 + snd ws0 * be + ga) (fun ws0 => fst ws0 + be * snd ws0 + ga) CB) by (intros [? ?]; cbn; ring).
      rewrite (fprod_ext_map (fun ws0 : K * K => ga + fst ws0 + be * snd ws0) (fun ws0 => fst ws0 + be * snd ws0 + ga) CB) by (intros [? ?]; cbn; ring).
      rewrite (fprod_ext_map (fun wk : K * K => fst wk + snd wk * ze * be + ga) (fun wk => fst wk + be * snd wk * ze + ga)) by (intros [? ?]; cbn; ring).
      set (PS := fprod (map _ CB)). set (PZ := fprod (map _ (combine _ (ks pk)))). set (SS := fsum _). clearbody PS PZ SS.
      destruct (lkp pk) as [lp|] eqn:El.
      - destruct tau as [t|]; [|destruct HT; congruence].
        unfold lk_num, num_lookup, c_p, c_h, lk_table, lk_table_w, lk_lookup, levals. cbv zeta.
        cbn [range_table_eval key_table_eval table_dom_sep_eval q_dom_sep_eval h1_eval q_lookup_eval prod_next_eval range_table_next_eval key_table_next_eval table_dom_sep_next_eval h1_next_eval h2_next_eval q_lookup_next_eval w3_next_eval w4_next_eval].
        rewrite !nth_vals.
        set (T1 := eval_merged_table _ _ _ _ _ _ _ _). set (T2 := eval_merged_table _ _ _ _ _ _ _ _). set (LL := eval_merged_lookup_witness _ _ _ _ _ _ _ _).
        set (A1 := L1 _ _ _). set (A2 := Ln _ _ _). set (gi := finv g). clearbody T1 T2 LL A1 A2 gi. cbn [fpow]. ring.
      - ring.
    Qed.

    Lemma rev_index {X A} (l : list A) a : l <> [] -> @index X A (rev l) 0 = Ok (last l a).
    Proof.
      intro H. destruct (exists_last H) as (l' & x & ->). rewrite rev_app_distr, last_last. reflexivity.
    Qed.
    Lemma sels_neq nw oc pk : shape d nw oc pk -> sels pk <> [].
    Proof. intros H Z. pose proof (sh_sel _ _ _ _ _ _ _ H) as E. rewrite Z in E. destruct (lkp pk); discriminate. Qed.
    Lemma q_lookup_poly_ok nw oc pk lp : shape d nw oc pk -> lkp pk = Some lp -> q_lookup_poly K V1 V2 pk = Ok (last (sels pk) []).
    Proof.
      intros H E. unfold q_lookup_poly. rewrite E. cbn [is_some guard bind]. apply rev_index. eapply sels_neq; eauto.
    Qed.
    Lemma pair2 {A} (l : list A) : length l = 2%nat -> forall a, l = [nth 0 l a; nth 1 l a].
    Proof. intros H a. destruct l as [|x [|y [|z l]]]; try discriminate. reflexivity. Qed.

    Lemma plookup_evals_ok nw oc pk qd le lp : shape d nw oc pk -> lkp pk = Some lp ->
      compute_plookup_evaluations K V1 V2 (mk_prover K d qd) pk ze oc = Ok le -> le = levals oc pk lp.
    Proof.
      intros H E C. unfold compute_plookup_evaluations in C. rewrite E in C.
      destruct (sh_lk _ _ _ _ _ _ _ H lp E) as (Hh & _). rewrite Hh in C. cbn [Nat.eqb negb] in C.
      pose proof (sh_nw _ _ _ _ _ _ _ H) as Hw. rewrite E in Hw. pose proof (sh_w _ _ _ _ _ _ _ H) as Lw.
      rewrite !(index_lt (or_h K oc) _ []) in C by lia. rewrite !(index_lt (ws oc) _ []) in C by lia.
      rewrite (q_lookup_poly_ok nw oc pk lp H E) in C. cbn [bind] in C. apply Ok_inj in C. rewrite <- C. reflexivity.
    Qed.

    Lemma lin_instance_ok nw oc pk ch qd ab l : shape d nw oc pk ->
      ch_tau K ch = tau -> ch_alpha K ch = al -> ch_beta K ch = be -> ch_gamma K ch = ga -> ch_zeta K ch = ze -> (2 <= n)%nat ->
      lin_instance K V1 V2 (mk_prover K d qd) ab pk ch oc (pevals oc pk nw) (opt_levals oc pk) = Ok l ->
      (length l <= n + 3)%nat /\ forall y, peval l y = ab * lin_at oc pk nw y.
    Proof.
      intros H C1 C2 C3 C4 C5 Hn E. unfold lin_instance in E.
      pose proof (sh_nw _ _ _ _ _ _ _ H) as Hw. pose proof (sh_w _ _ _ _ _ _ _ H) as Lw.
      assert (W5 : (5 <= nw)%nat) by (destruct (lkp pk); lia).
      apply bind_ok in E as (rc & Hrc & E). apply bind_ok in E as (rp & Hrp & E). cbv zeta in E. apply bind_ok in E as (lt & Hlt & E).
      assert (RC : (length rc <= n + 3)%nat /\ forall y, peval rc y = fsum (map (fun sc => fst sc * peval (snd sc) y) (combine (sel_scal (vals (ws oc) ze)) (sels pk)))).
      { unfold lin_circuit in Hrc. cbn [pevals wires_evals] in Hrc. rewrite selector_scalars_ok in Hrc by (rewrite length_vals; lia). cbn [bind] in Hrc.
        apply bind_ok in Hrc as (u & _ & Hrc). apply Ok_inj in Hrc. rewrite <- Hrc. split.
        - apply (length_fold_paddp K (fun sp : K * pol => mul_poly K (snd sp) (fst sp))); [|cbn; lia]. intros [s p] Hp. cbn [fst snd].
          pose proof (length_mul_poly K p s). apply in_combine_r in Hp. pose proof (sh_sel_len _ _ _ _ _ _ _ H p Hp). lia.
        - intro y. rewrite (peval_fold_paddp K (fun sp : K * pol => mul_poly K (snd sp) (fst sp))). cbn [peval].
          rewrite (fsum_map_ext K _ (fun sc => fst sc * peval (snd sc) y)) by (intros [s p] _; cbn [fst snd]; apply peval_mul_poly). ring. }
      assert (RP : (length rp <= n + 3)%nat /\ forall y, peval rp y = c_z oc pk * peval (or_z K oc) y + c_s oc pk nw * peval (nth (nw - 1) (sigs pk) []) y).
      { unfold lin_perm in Hrp. cbn [pevals wires_evals sigma_evals perm_next_eval pr_dom] in Hrp. rewrite C5 in Hrp.
        rewrite (first_coeff K d Hd 1 (f1_neq_0 K)) in Hrp. cbn [bind] in Hrp.
        apply bind_ok in Hrp as (u & _ & Hrp). apply bind_ok in Hrp as (u' & _ & Hrp). clear u u'.
        rewrite length_vals, Lw in Hrp. rewrite (index_lt (sigs pk) _ []) in Hrp by (rewrite (sh_sig _ _ _ _ _ _ _ H); lia).
        cbn [bind] in Hrp. apply Ok_inj in Hrp. rewrite <- Hrp. split.
        - match goal with |- (length (paddp K ?p ?q) <= _)%nat => pose proof (length_paddp K p q) end.
          match goal with H : (_ <= max (length (mul_poly K ?a ?b)) (length (mul_poly K ?c ?e)))%nat |- _ => pose proof (length_mul_poly K a b); pose proof (length_mul_poly K c e) end.
          pose proof (sh_z _ _ _ _ _ _ _ H). pose proof (nth_len (sigs pk) n (nw - 1) (sh_sig_len _ _ _ _ _ _ _ H)). lia.
        - intro y. rewrite peval_paddp, !peval_mul_poly, !fold_mul, C2, C3, C4. unfold c_z, c_s, L1. reflexivity. }
      unfold opt_levals in Hlt.
      assert (LT : (length lt <= n + 3)%nat /\ forall y, peval lt y = lin_at oc pk nw y).
      { unfold lin_at. destruct RC as [RC1 RC2]. destruct RP as [RP1 RP2].
        pose proof (length_paddp K rc rp) as Lcp.
        destruct (lkp pk) as [lp|] eqn:El; cbn [option_map] in Hlt.
        - apply bind_ok in Hlt as (rl & Hrl & Hlt). apply Ok_inj in Hlt. rewrite <- Hlt. unfold lin_lookup in Hrl. cbn [pr_dom] in Hrl. rewrite C5 in Hrl.
          rewrite (first_last_coeffs K d Hd 1 (f1_neq_0 K) ze Hn) in Hrl. cbn [bind] in Hrl.
          apply bind_ok in Hrl as (t & Ht & Hrl). apply expect_ok in Ht. rewrite C1 in Ht. rewrite Ht.
          cbn [pevals wires_evals] in Hrl. rewrite !(index_lt (vals (ws oc) ze) _ 0) in Hrl by (rewrite length_vals; lia). cbn [bind] in Hrl.
          destruct (sh_lk _ _ _ _ _ _ _ H lp El) as (Hh & Hhl & Hp & _). rewrite (index_lt (or_h K oc) _ []) in Hrl by lia. cbn [bind] in Hrl.
          apply Ok_inj in Hrl. rewrite <- Hrl. split.
          + match goal with |- (length (paddp K ?p ?q) <= _)%nat => pose proof (length_paddp K p q) end.
            match goal with H : context [length (paddp K (mul_poly K ?a ?b) (mul_poly K ?c ?e))] |- _ =>
              pose proof (length_paddp K (mul_poly K a b) (mul_poly K c e)); pose proof (length_mul_poly K a b); pose proof (length_mul_poly K c e) end.
            pose proof (nth_len (or_h K oc) (n + 3) 1 Hhl). lia.
          + intro y. rewrite !peval_paddp, RC2, RP2, !peval_mul_poly, C2, C3, C4. cbn [fst snd].
            unfold c_p, c_h, lk_table, lk_table_w, lk_lookup, L1, Ln. cbn [fpow]. ring.
        - apply Ok_inj in Hlt. rewrite <- Hlt. split; [lia|]. intro y. rewrite !peval_paddp, RC2, RP2. ring. }
      destruct LT as [LT1 LT2]. apply Ok_inj in E. rewrite <- E. split.
      - pose proof (length_mul_poly K lt ab). lia.
      - intro y. now rewrite peval_mul_poly, LT2.
    Qed.

    (** ** The verifier's side: every commitment is the value at [b] times the base [gg] *)
    Variables (b : K) (gg : V1).
    Definition Cm (p : pol) : V1 := vmul (peval p b) gg.
    Record lk_proof_ok (oc : oracles) (pk : pkey) (lk : option (plookup_proof K V1)) : Prop := {
      lpo : lk = option_map (fun lp => mk_plp K V1 (map Cm (or_h K oc)) (Cm (or_prod K oc)) (levals oc pk lp)) (lkp pk) }.
    Record vk_comms (pk : pkey) : Prop := {
      vc_sel : vk_selectors K V1 V2 (pk_vk K V1 V2 pk) = map Cm (sels pk);
      vc_sig : vk_sigmas K V1 V2 (pk_vk K V1 V2 pk) = map Cm (sigs pk);
      vc_lk : vk_plookup K V1 V2 (pk_vk K V1 V2 pk) = option_map (fun lp => mk_plookup_vk K V1 (Cm (lp_range K lp)) (Cm (lp_key K lp))
                (Cm (lp_table_dom_sep K lp)) (Cm (lp_q_dom_sep K lp))) (lkp pk) }.
    Notation smsm l := (vsum (map (fun sb : K * V1 => vmul (fst sb) (snd sb)) l)).

    Lemma lin_const_instance_ok nw oc pk ch lk pi : shape d nw oc pk -> lk_proof_ok oc pk lk ->
      ch_alpha K ch = al -> ch_beta K ch = be -> ch_gamma K ch = ga -> ch_zeta K ch = ze ->
      evaluate_pi_poly K d pi ze (vk_merged K V1 V2 (pk_vk K V1 V2 pk)) = Ok (peval (or_pi K oc) ze) ->
      lin_const_instance K V1 V2 d ch (L1 K d ze) (Ln K d ze) (al * al) (al * al * al) (pevals oc pk nw) lk pi (pk_vk K V1 V2 pk)
      = Ok (const_at oc pk nw).
    Proof.
      intros H [->] C2 C3 C4 C5 Hpi. unfold lin_const_instance. rewrite C5, Hpi. cbn [bind].
      pose proof (sh_nw _ _ _ _ _ _ _ H) as Hw. pose proof (sh_w _ _ _ _ _ _ _ H) as Lw.
      assert (E : (if is_some (option_map (fun lp => mk_plp K V1 (map Cm (or_h K oc)) (Cm (or_prod K oc)) (levals oc pk lp)) (lkp pk)) then 6%nat else 5%nat) = nw)
        by (destruct (lkp pk); auto).
      rewrite E. cbn [pevals wires_evals sigma_evals perm_next_eval].
      assert (Es : slice (vals (ws oc) ze) 0 (nw - 1) = @Ok perr _ (firstn (nw - 1) (vals (ws oc) ze))).
      { unfold slice. rewrite Nat.sub_0_r. cbn [skipn]. destruct (Nat.ltb_spec (nw - 1) 0); [lia|].
        destruct (Nat.ltb_spec (length (vals (ws oc) ze)) (nw - 1)) as [X|]; [rewrite length_vals in X; lia|]. reflexivity. }
      rewrite Es. cbn [bind]. rewrite (index_lt (vals (ws oc) ze) _ 0) by (rewrite length_vals; destruct (lkp pk); lia). cbn [bind].
      unfold const_at. rewrite fold_mul, C2, C3, C4.
      destruct (lkp pk) as [lp|]; cbn [option_map lk_evals]; f_equal; [|ring]. cbv zeta. cbn [fpow]. ring.
    Qed.

    Lemma vmul_vsum_map {A} (f : A -> K) (l : list A) : vmul (fsum (map f l)) gg = vsum (map (fun a => vmul (f a) gg) l).
    Proof.
      induction l as [|a l IH]; cbn [map]; [unfold fsum; cbn; apply vmul_0_l|]. rewrite fsum_cons, vsum_cons, <- IH. vring.
    Qed.
    Lemma combine_map_r {A B C} (f : B -> C) (l : list A) (l' : list B) : combine l (map f l') = map (fun ab => (fst ab, f (snd ab))) (combine l l').
    Proof. revert l'. induction l as [|a l IH]; intros [|b' l']; cbn; auto. now rewrite IH. Qed.

    Lemma lin_terms_ok nw oc pk ch lk base : shape d nw oc pk -> lk_proof_ok oc pk lk -> vk_comms pk ->
      ch_tau K ch = tau -> ch_alpha K ch = al -> ch_beta K ch = be -> ch_gamma K ch = ga -> ch_zeta K ch = ze ->
      (lkp pk <> None -> tau <> None) ->
      exists ts, lin_terms_instance K V1 V2 d ch (L1 K d ze) (Ln K d ze) (al * al) (al * al * (al * al)) (al * al * (al * al * al)) (al * al * (al * al) * (al * al))
          (map Cm (ws oc)) (Cm (or_z K oc)) (pevals oc pk nw) lk (pk_vk K V1 V2 pk) base = Ok ts
        /\ smsm ts = vmul (base * lin_at oc pk nw b) gg.
    Proof.
      intros H [->] VC C1 C2 C3 C4 C5 HT. pose proof (sh_nw _ _ _ _ _ _ _ H) as Hw. pose proof (sh_w _ _ _ _ _ _ _ H) as Lw.
      assert (W5 : (5 <= nw)%nat) by (destruct (lkp pk); lia).
      unfold lin_terms_instance. rewrite C2, C3, C4, C5. cbn [pevals wires_evals sigma_evals perm_next_eval]. rewrite map_length, Lw.
      assert (E1 : (1 <=? nw)%nat = true) by (apply Nat.leb_le; lia). rewrite E1. cbn [assert_p bind].
      rewrite (vc_sig _ VC), <- map_rev.
      assert (ES : rev (sigs pk) = nth (nw - 1) (sigs pk) [] :: rev (firstn (nw - 1) (sigs pk))).
      { rewrite (split_last (sigs pk) (nw - 1) []) at 1 by (rewrite (sh_sig _ _ _ _ _ _ _ H); lia). now rewrite rev_app_distr. }
      rewrite ES. cbn [map bind]. rewrite selector_scalars_ok by (rewrite length_vals; lia). cbn [bind]. rewrite (vc_sel _ VC).
      set (SEL := map (fun sc : K * V1 => (fst sc * base, snd sc)) (combine (sel_scal (vals (ws oc) ze)) (map Cm (sels pk)))).
      assert (MSEL : smsm SEL = vmul (base * fsum (map (fun sc => fst sc * peval (snd sc) b) (combine (sel_scal (vals (ws oc) ze)) (sels pk)))) gg).
      { unfold SEL. rewrite combine_map_r, !map_map. cbn [fst snd].
        rewrite <- fsum_map_scale, vmul_vsum_map. f_equal. apply map_ext. intros [s p]. cbn [fst snd]. unfold Cm. vring. }
      rewrite !fold_mul. unfold lin_at.
      assert (PZ : fprod (map (fun a : K * K => be * snd a * ze + ga + fst a) (combine (vals (ws oc) ze) (ks pk)))
        = fprod (map (fun wk => fst wk + be * snd wk * ze + ga) (combine (vals (ws oc) ze) (ks pk)))) by (apply fprod_ext_map; intros [? ?]; cbn; ring).
      assert (PS : fprod (map (fun a : K * K => be * snd a + ga + fst a) (combine (firstn (nw - 1) (vals (ws oc) ze)) (vals (firstn (nw - 1) (sigs pk)) ze)))
        = fprod (map (fun wk => fst wk + be * snd wk + ga) (combine (firstn (nw - 1) (vals (ws oc) ze)) (vals (firstn (nw - 1) (sigs pk)) ze))))
        by (apply fprod_ext_map; intros [? ?]; cbn; ring).
      rewrite PZ, PS. clear PZ PS.
      destruct (lkp pk) as [lp|] eqn:El; cbn [option_map].
      - destruct tau as [t|] eqn:Et; [|destruct HT; congruence]. rewrite C1. cbn [expect bind].
        rewrite !(index_lt (vals (ws oc) ze) _ 0) by (rewrite length_vals; lia). cbn [bind lk_h_comms lk_prod_comm lk_evals].
        destruct (sh_lk _ _ _ _ _ _ _ H lp El) as (Hh & _). rewrite (index_lt (map Cm (or_h K oc)) _ (Cm [])) by (rewrite map_length; lia). cbn [bind].
        rewrite map_nth. eexists. split; [reflexivity|]. cbn [map]. rewrite map_app, !vsum_cons, vsum_app, MSEL. cbn [map fst snd]. rewrite !vsum_cons.
        unfold Cm, c_z, c_s, c_p, c_h, lk_table, lk_table_w, lk_lookup. cbn [map vsum fold_right fpow]. rewrite vadd_0_r. vring.
      - eexists. split; [reflexivity|]. rewrite app_nil_r. cbn [map]. rewrite !vsum_cons, MSEL. cbn [fst snd].
        unfold Cm, c_z, c_s. vring.
    Qed.
  End At.
End Lin.
