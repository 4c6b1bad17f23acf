(** The constraint function of an honest instance vanishes on the evaluation domain.
    Used by C57. *)
From Coq Require Import List Arith ZArith Lia Bool Ring Field.
From Verif Require Import Base ListAux Alg Poly KzgModel KzgProofs KzgFft CircuitModel CircuitProofs SatProofs FinalModel PermProofs
  CosetProofs FinalProps PlonkModel LagrangeProofs PlonkPoly PlonkInst PlonkLin.
Import ListNotations.

Section Vanish.
  Variable K : fld.
  Local Open Scope fld_scope.
  Add Field Kvan : (fth K).
  Notation pol := (list K).
  Variables V1 V2 : vsp K.
  Variable ta : nat.
  Variable root : K.
  Variable coset_rnd : list K.
  Notation circuit := (circuit K).
  Notation pkey := (pkey K V1 V2).
  Notation oracles := (oracles K).
  Notation sels := (pk_selectors K V1 V2).
  Notation sigs := (pk_sigmas K V1 V2).
  Notation vkof := (pk_vk K V1 V2).
  Notation ks pk := (vk_k K V1 V2 (pk_vk K V1 V2 pk)).
  Notation ws := (or_wires K).
  Notation lkp := (pk_plookup K V1 V2).
  Notation eval_domain := (eval_domain K ta root).
  Notation coset_ks := (coset_ks K coset_rnd).

  (** A finalized circuit whose own witness satisfies it, with the public input the prover reads off it. *)
  Record provable (c : circuit) : Prop := {
    pv_gates : length (gates c) = domain c;
    pv_cols : columns_ok c;
    pv_perm : perm_encodes c (wire_perm c);
    pv_gate : forall j, (j < domain c)%nat -> gsat (wit K c) (nth j (pub_input_vec K c) 0) (gate_at K c j) (row_at K c j) }.

  Definition sel_fns (c : circuit) : list (gate K -> K) :=
    [q_lc0; q_lc1; q_lc2; q_lc3; q_mul0; q_mul1; q_hash0; q_hash1; q_hash2; q_hash3; q_o; q_c; q_ecc]
       ++ if support_lookup c then [q_lookup] else [].

  (** The proving key's polynomials carry the circuit on the domain. *)
  Record key_sem (d : dom K) (c : circuit) (pk : pkey) : Prop := {
    km_dom : dsize d = domain c;
    km_n : vk_n K V1 V2 (vkof pk) = dsize d;
    km_in : vk_inputs K V1 V2 (vkof pk) = num_inputs c;
    km_k : coset_ks (num_wire_types c) (dsize d) = Ok (ks pk);
    km_sel_n : length (sels pk) = length (sel_fns c);
    km_sel_len : forall p, In p (sels pk) -> (length p <= dsize d)%nat;
    km_sel : forall j, (j < dsize d)%nat -> vals K (sels pk) (fpow (dgen d) j) = map (fun f => f (gate_at K c j)) (sel_fns c);
    km_sig_n : length (sigs pk) = num_wire_types c;
    km_sig_len : forall p, In p (sigs pk) -> (length p <= dsize d)%nat;
    km_sig : forall i j, (i < num_wire_types c)%nat -> (j < dsize d)%nat ->
      let s := nth (i * dsize d + j) (wire_perm c) (0, 0)%nat in
      peval (nth i (sigs pk) []) (fpow (dgen d) j) = nth (fst s * dsize d + snd s) (ext_id K (ks pk) (dgen d) (dsize d)) 0;
    km_none : support_lookup c = false -> lkp pk = None;
    km_some : support_lookup c = true -> exists lp rt, lkp pk = Some lp /\ range_table K c = Ok rt
      /\ (length (lp_range K lp) <= dsize d)%nat /\ (length (lp_key K lp) <= dsize d)%nat
      /\ (length (lp_table_dom_sep K lp) <= dsize d)%nat /\ (length (lp_q_dom_sep K lp) <= dsize d)%nat
      /\ forall j, (j < dsize d)%nat ->
           peval (lp_range K lp) (fpow (dgen d) j) = nth j rt 0
           /\ peval (lp_key K lp) (fpow (dgen d) j) = table_key (gate_at K c j)
           /\ peval (lp_table_dom_sep K lp) (fpow (dgen d) j) = table_dom_sep (gate_at K c j)
           /\ peval (lp_q_dom_sep K lp) (fpow (dgen d) j) = q_dom_sep (gate_at K c j) }.

  (** What the first rounds leave in an instance's oracles. *)
  Record honest_lk (d : dom K) (t be ga : K) (c : circuit) (oc : oracles) : Prop := {
    hl_h : length (or_h K oc) = 2%nat;
    hl_h_len : forall p, In p (or_h K oc) -> (length p <= dsize d + 3)%nat;
    hl_p_len : (length (or_prod K oc) <= dsize d + 3)%nat;
    hl_vals : exists rt s, range_table K c = Ok rt
      /\ lookup_sorted_vec K (dsize d) (merged_table K c t rt) (lookup_values K c t) = Ok s
      /\ (forall j, (S j < dsize d - 1)%nat -> lookup_den K (dsize d) s be ga j <> 0)
      /\ forall j, (j < dsize d)%nat ->
           peval (nth 0 (or_h K oc) []) (fpow (dgen d) j) = nth j s 0
           /\ peval (nth 1 (or_h K oc) []) (fpow (dgen d) j) = nth (dsize d - 1 + j) s 0
           /\ peval (or_prod K oc) (fpow (dgen d) j)
              = nth j (lookup_prod_vec K (dsize d) (merged_table K c t rt) (lookup_values K c t) s be ga) 0 }.
  Record honest (d : dom K) (tau : option K) (be ga : K) (kk : list K) (c : circuit) (oc : oracles) : Prop := {
    ho_w : length (ws oc) = num_wire_types c;
    ho_w_len : forall p, In p (ws oc) -> (length p <= dsize d + 2)%nat;
    ho_w_at : forall i j, (i < num_wire_types c)%nat -> (j < dsize d)%nat ->
      peval (nth i (ws oc) []) (fpow (dgen d) j) = wit K c (wire_variable c i j);
    ho_pi_len : (length (or_pi K oc) <= dsize d)%nat;
    ho_pi : forall x, peval (or_pi K oc) x = peval (ipoly K d (pub_input_vec K c)) x;
    ho_z_len : (length (or_z K oc) <= dsize d + 3)%nat;
    ho_den : let n := dsize d in let ids := ext_id K kk (dgen d) n in
      forall j, (S j < n)%nat -> perm_den K (num_wire_types c) n (fun i j => wit K c (wire_variable c i j)) ids (wire_perm c) be ga j <> 0;
    ho_z : forall j, (j < dsize d)%nat -> peval (or_z K oc) (fpow (dgen d) j)
      = nth j (compute_prod_permutation K c (ext_id K kk (dgen d) (dsize d)) be ga) 0;
    ho_lk : support_lookup c = true -> exists t, tau = Some t /\ honest_lk d t be ga c oc }.

  Lemma shape_ok d tau be ga c pk oc : dom_ok K d -> key_sem d c pk -> honest d tau be ga (ks pk) c oc ->
    shape K V1 V2 d (num_wire_types c) oc pk.
  Proof.
    intros Hd M H. destruct M, H.
    assert (Hk : length (ks pk) = num_wire_types c).
    { unfold PlonkModel.coset_ks in km_k0. destruct (compute_coset_representatives _ _ _ _) as [r|] eqn:E; [|discriminate].
      apply lift_c_ok in km_k0. subst r. apply coset_representatives_spec in E; [apply E|]. apply (do_size K d Hd). }
    unfold sel_fns, num_wire_types, support_lookup in *.
    destruct (ptype c) eqn:Et.
    - rewrite (km_none0 eq_refl) in *. split; rewrite ?(km_none0 eq_refl); auto; try discriminate.
    - destruct (km_some0 eq_refl) as (lp & rt & E & _ & ? & ? & ? & ? & _).
      split; rewrite ?E; auto. intros lp' E'. injection E' as <-.
      destruct (ho_lk0 eq_refl) as (t & _ & [? ? ? _]). auto 10.
  Qed.

  Lemma L1_at d j : dom_ok K d -> (j < dsize d)%nat -> L1 K d (fpow (dgen d) j) = if (j =? 0)%nat then 1 else 0.
  Proof.
    intros Hd Hj. destruct (lagp_ok K d Hd 1 (f1_neq_0 K) 0 (do_size K d Hd)) as [_ E]. specialize (E j Hj).
    unfold L1. rewrite <- E. unfold lagv. f_equal. ring.
  Qed.
  Lemma Ln_at d j : dom_ok K d -> (j < dsize d)%nat -> Ln K d (fpow (dgen d) j) = if (j =? dsize d - 1)%nat then 1 else 0.
  Proof.
    intros Hd Hj. destruct (lagp_ok K d Hd 1 (f1_neq_0 K) (dsize d - 1) ltac:(lia)) as [_ E]. specialize (E j Hj).
    unfold Ln. rewrite <- E. unfold lagv. f_equal. ring.
  Qed.
  Lemma next_pt d j : dom_ok K d -> (j < dsize d)%nat -> fpow (dgen d) j * dgen d = fpow (dgen d) (S j mod dsize d).
  Proof.
    intros Hd Hj. replace (fpow (dgen d) j * dgen d) with (fpow (dgen d) (S j)) by (rewrite fpow_S; ring). destruct (Nat.eq_dec (S j) (dsize d)) as [E|E].
    - rewrite E, Nat.mod_same, (do_one K d Hd) by lia. reflexivity.
    - rewrite Nat.mod_small by lia. reflexivity.
  Qed.

  Theorem inst_zero d tau al be ga c pk oc j : dom_ok K d -> (2 <= dsize d)%nat -> provable c -> key_sem d c pk ->
    honest d tau be ga (ks pk) c oc -> (j < dsize d)%nat -> inst_num K V1 V2 d tau al be ga oc pk (fpow (dgen d) j) = 0.
  Proof.
    intros Hd H2 P M H Hj. set (x := fpow (dgen d) j). set (n := dsize d) in *.
    pose proof (km_dom _ _ _ M) as Dn. fold n in Dn.
    set (nw := num_wire_types c) in *.
    assert (Nw : (5 <= nw <= 6)%nat) by (unfold nw, num_wire_types; destruct (ptype c); lia).
    set (j' := (S j mod n)%nat). assert (Hj' : (j' < n)%nat) by (apply Nat.mod_upper_bound; lia).
    assert (NX : x * dgen d = fpow (dgen d) j') by (apply next_pt; auto).
    set (w := fun i => wit K c (wire_variable c i j)).
    assert (W : vals K (ws oc) x = map w (seq 0 nw)).
    { apply (nth_ext _ _ 0 0); [rewrite length_vals, map_length, seq_length; apply (ho_w _ _ _ _ _ _ _ H)|].
      intros i Hi. rewrite length_vals, (ho_w _ _ _ _ _ _ _ H) in Hi. fold nw in Hi.
      rewrite nth_vals, nth_map_seq by auto. unfold x. now rewrite (ho_w_at _ _ _ _ _ _ _ H i j Hi Hj). }
    (* the gate *)
    assert (G : quot_circuit K (vals K (ws oc) x) (peval (or_pi K oc) x) (vals K (sels pk) x) = 0).
    { rewrite W. unfold x at 2. rewrite (km_sel _ _ _ M j Hj). rewrite (ho_pi _ _ _ _ _ _ _ H).
      unfold x. rewrite (ipoly_at K d Hd _ j Hj).
      pose proof (pv_gate c P j ltac:(lia)) as Hg. unfold gsat, gate_expected, gate_output, pow5 in Hg.
      unfold quot_circuit, sel_fns. cbv zeta.
      assert (E : forall i, (i < 5)%nat -> nth i (map w (seq 0 nw)) 0 = wit K c (wire_of i (row_at K c j))).
      { intros i Hi. rewrite nth_map_seq by lia. unfold w, wire_variable. destruct (Nat.ltb_spec i 5); [reflexivity|lia]. }
      rewrite !E by lia. cbn [wire_of].
      rewrite !map_app. cbn [map app nth]. cbn [fpow]. apply fsub_eq_0 in Hg. etransitivity; [|exact Hg]. ring. }
    (* the permutation argument *)
    assert (Pm : num_perm K d al be ga x (ks pk) (vals K (ws oc) x) (peval (or_z K oc) x)
                   (peval (or_z K oc) (x * dgen d)) (vals K (sigs pk) x) = 0).
    { pose proof (honest_product_encodes c (pv_perm c P) (pv_cols c P) (witness c) (ext_id K (ks pk) (dgen d) n) be ga) as HP.
      cbv zeta in HP. rewrite <- Dn in HP. fold nw in HP.
      destruct HP as (_ & Z0 & Zs).
      { intros i Hi. pose proof (ho_den _ _ _ _ _ _ _ H i Hi) as X. exact X. }
      specialize (Zs j Hj).
      assert (Ew : with_witness c (witness c) = c) by (destruct c; reflexivity). rewrite Ew in Zs, Z0.
      assert (Sh : length (ks pk) = nw) by (apply (sh_k _ _ _ _ _ _ _ (shape_ok d tau be ga c pk oc Hd M H))).
      unfold num_perm. rewrite NX, (ho_z _ _ _ _ _ _ _ H j' Hj').
      rewrite (ho_z _ _ _ _ _ _ _ H j Hj : peval (or_z K oc) x = _).
      rewrite W.
      rewrite (fprod_combine K _ _ _ 0 0 nw) by (rewrite ?map_length, ?seq_length; auto).
      rewrite (fprod_combine K _ _ _ 0 0 nw) by (rewrite ?map_length, ?seq_length; auto; rewrite length_vals; apply (km_sig_n _ _ _ M)).
      set (zj := nth j _ 0) in *. set (zs := nth j' _ 0) in *.
      assert (E1 : map (fun i => fst (nth i (map w (seq 0 nw)) 0, nth i (ks pk) 0) + snd (nth i (map w (seq 0 nw)) 0, nth i (ks pk) 0) * x * be + ga) (seq 0 nw)
        = map (fun i => asg (witness c) (wire_variable c i j) + ga + be * nth (i * n + j) (ext_id K (ks pk) (dgen d) n) 0) (seq 0 nw)).
      { apply map_ext_in. intros i Hi. apply in_seq in Hi. cbn [fst snd]. rewrite nth_map_seq by lia.
        rewrite ext_id_nth by lia. unfold w, wit, asg, x. ring. }
      assert (E2 : map (fun i => fst (nth i (map w (seq 0 nw)) 0, nth i (vals K (sigs pk) x) 0) + snd (nth i (map w (seq 0 nw)) 0, nth i (vals K (sigs pk) x) 0) * be + ga) (seq 0 nw)
        = map (fun i => asg (witness c) (wire_variable c i j) + ga + be * nth (fst (nth (i * n + j) (wire_perm c) (0, 0)%nat) * n + snd (nth (i * n + j) (wire_perm c) (0, 0)%nat)) (ext_id K (ks pk) (dgen d) n) 0) (seq 0 nw)).
      { apply map_ext_in. intros i Hi. apply in_seq in Hi. cbn [fst snd]. rewrite nth_map_seq by lia.
        rewrite nth_vals. pose proof (km_sig _ _ _ M i j ltac:(fold nw; lia) Hj) as S. cbv zeta in S. unfold x. rewrite S. unfold w, wit, asg. fold n. ring. }
      cbn [fst snd] in *. rewrite E1, E2.
      rewrite (L1_at d j Hd Hj : L1 K d x = _).
      assert (B : (zj - 1) * (if (j =? 0)%nat then 1 else 0) = 0).
      { destruct (Nat.eqb_spec j 0) as [->|]; [|ring]. unfold zj. rewrite Z0. ring. }
      change (nth (S j mod n) _ 0) with zs in Zs. apply fsub_eq_0 in Zs.
      set (A := fprod _) in *. set (A' := fprod _) in Zs |- *.
      transitivity (- al * (zs * A - zj * A') + al * al * ((zj - 1) * (if (j =? 0)%nat then 1 else 0))); [ring|].
      rewrite Zs, B. ring. }
    unfold inst_num. rewrite G, Pm.
    destruct (support_lookup c) eqn:Es.
    2:{ rewrite (km_none _ _ _ M Es). ring. }
    destruct (km_some _ _ _ M Es) as (lp & rt & -> & Hrt & _ & _ & _ & _ & Hlp).
    destruct (ho_lk _ _ _ _ _ _ _ H Es) as (t & -> & [Lh _ _ (rt' & s & Hrt' & Hs & Hden & Hv)]).
    assert (rt' = rt) as -> by congruence. clear Hrt'.
    assert (N6 : nw = 6%nat) by (unfold nw, num_wire_types, support_lookup in *; destruct (ptype c); congruence).
    set (tb := merged_table K c t rt) in *. set (lk := lookup_values K c t) in *.
    destruct (C32_lookup_product n tb lk s be ga H2) as (Lz & Z0 & Zl & Zs).
    { unfold tb, merged_table. rewrite map_length, seq_length. auto. }
    { unfold lk, lookup_values. rewrite map_length, seq_length, Dn. auto. }
    { exact Hs. }
    { intros i Hi. specialize (Hden i Hi). unfold lookup_den in Hden. fold n in Hden. unfold pair_factor.
      split; intro E0; apply Hden; rewrite E0; ring. }
    set (z := lookup_prod_vec K n tb lk s be ga) in *.
    unfold lk_num, num_lookup. cbv zeta. rewrite NX.
    destruct (Hlp j Hj) as (R1 & R2 & R3 & R4). destruct (Hlp j' Hj') as (R1' & R2' & R3' & _).
    destruct (Hv j Hj) as (V1' & V2' & V3'). destruct (Hv j' Hj') as (W1' & W2' & W3'). fold x in R1, R2, R3, R4, V1', V2', V3'.
    rewrite R1, R2, R3, R4, R1', R2', R3', V1', V2', V3', W1', W2', W3'. fold n. fold z.
    rewrite !(L1_at d j Hd Hj : L1 K d x = _), !(Ln_at d j Hd Hj : Ln K d x = _). fold n.
    assert (QL : forall i, (i < n)%nat -> peval (last (sels pk) []) (fpow (dgen d) i) = q_lookup (gate_at K c i)).
    { intros i Hi. pose proof (km_sel _ _ _ M i Hi) as S. apply (f_equal (fun l => last l 0)) in S.
      unfold vals in S. rewrite (last_map (fun p => peval p (fpow (dgen d) i)) _ [] 0) in S.
      - rewrite S. unfold sel_fns. rewrite Es. reflexivity.
      - intro E0. pose proof (km_sel_n _ _ _ M) as L0. rewrite E0 in L0. unfold sel_fns in L0. rewrite app_length in L0. discriminate. }
    rewrite (QL j' Hj'). rewrite !(QL j Hj : peval _ x = _).
    rewrite !nth_vals.
    assert (Wj : forall i k, (i < 6)%nat -> (k < n)%nat -> peval (nth i (ws oc) []) (fpow (dgen d) k) = wit K c (wire_variable c i k)).
    { intros i k Hi Hk. apply (ho_w_at _ _ _ _ _ _ _ H); auto. fold nw. lia. }
    rewrite !Wj by (auto; lia).
    assert (Wx : forall i, (i < 6)%nat -> peval (nth i (ws oc) []) x = wit K c (wire_variable c i j)) by (intros; now apply Wj).
    rewrite !Wx by lia.
    assert (TB : forall i, (i < n)%nat -> eval_merged_table K t (nth i rt 0) (table_key (gate_at K c i)) (q_lookup (gate_at K c i))
               (wit K c (wire_variable c 3 i)) (wit K c (wire_variable c 4 i)) (table_dom_sep (gate_at K c i)) = nth i tb 0).
    { intros i Hi. unfold tb, merged_table. rewrite nth_map_seq by lia. reflexivity. }
    rewrite (TB j Hj), (TB j' Hj').
    match goal with |- context [eval_merged_lookup_witness K ?a1 ?a2 ?a3 ?a4 ?a5 ?a6 ?a7] =>
      set (lkj := eval_merged_lookup_witness K a1 a2 a3 a4 a5 a6 a7) end.
    assert (B3 : (nth j s 0 - nth (n - 1 + j') s 0) * (if (j =? n - 1)%nat then 1 else 0) = 0).
    { destruct (Nat.eqb_spec j (n - 1)) as [->|]; [|ring].
      replace j' with 0%nat by (unfold j'; replace (S (n - 1)) with n by lia; rewrite Nat.mod_same; lia).
      rewrite Nat.add_0_r. ring. }
    assert (B4 : (nth j z 0 - 1) * (if (j =? 0)%nat then 1 else 0) = 0).
    { destruct (Nat.eqb_spec j 0) as [->|]; [rewrite Z0|]; ring. }
    assert (B5 : (nth j z 0 - 1) * (if (j =? n - 1)%nat then 1 else 0) = 0).
    { destruct (Nat.eqb_spec j (n - 1)) as [->|]; [rewrite Zl|]; ring. }
    assert (B6 : (x - finv (dgen d)) * (nth j z 0 * (1 + be) * (ga + lkj) * ((1 + be) * ga + nth j tb 0 + be * nth j' tb 0)
       - nth j' z 0 * ((1 + be) * ga + nth j s 0 + be * nth j' s 0) * ((1 + be) * ga + nth (n - 1 + j) s 0 + be * nth (n - 1 + j') s 0)) = 0).
    { destruct (Nat.eq_dec j (n - 1)) as [->|Nj].
      - assert (x - finv (dgen d) = 0) as ->; [|ring]. unfold x. rewrite (winv K d Hd). fold n. ring.
      - assert (Ej : j' = S j) by (unfold j'; rewrite Nat.mod_small; lia).
        rewrite Ej. specialize (Zs j ltac:(lia)). unfold pair_factor in Zs.
        assert (El : nth j lk 0 = lkj).
        { unfold lk, lookup_values. rewrite nth_map_seq by lia. reflexivity. }
        rewrite El in Zs. replace (n - 1 + S j)%nat with (n + j)%nat by lia.
        apply fsub_eq_0 in Zs.
        match type of Zs with ?X = 0 => match goal with |- _ * ?Y = 0 => assert (Y = - X) as -> by ring end end.
        rewrite Zs. ring. }
    rewrite B3, B4, B5, B6. ring.
  Qed.
End Vanish.
