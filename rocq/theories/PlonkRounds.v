(** What the prover's rounds and the preprocessing leave behind, and the domains they
    work on.  Used by C57. *)
From Coq Require Import List Arith ZArith Lia Bool Ring Field.
From Verif Require Import Base ListAux Alg Poly KzgModel KzgProofs KzgFft CircuitModel CircuitProofs SatProofs FinalModel PermProofs
  CosetProofs FinalProps PlonkModel LagrangeProofs PlonkPoly PlonkInst PlonkLin PlonkVanish.
Import ListNotations.

Section Rounds.
  Variable K : fld.
  Local Open Scope fld_scope.
  Add Field Krnd : (fth K).
  Notation pol := (list K).
  Variables V1 V2 : vsp K.
  Variable ta : nat.
  Variable root : K.
  Variable coset_rnd : list K.
  Notation circuit := (circuit K).
  Notation pkey := (pkey K V1 V2).
  Notation eval_domain := (eval_domain K ta root).
  Notation coset_ks := (coset_ks K coset_rnd).
  Notation radix2 := (radix2_new K ta root).
  Hypothesis Hroot : root_ok K ta root.

  (** ** Domains *)
  Lemma radix2_dsize n d : radix2 n = Some d -> dsize d = (2 ^ Nat.log2_up n)%nat.
  Proof. unfold radix2_new. destruct (_ <=? _)%nat; intro E; inversion E; reflexivity. Qed.
  Lemma radix2_again n d : radix2 n = Some d -> radix2 (dsize d) = Some d.
  Proof.
    intro E. rewrite (radix2_dsize _ _ E). unfold radix2_new in *. rewrite Nat.log2_up_pow2 by lia. exact E.
  Qed.
  Lemma radix2_pow2 l d : radix2 (2 ^ l)%nat = Some d -> dsize d = (2 ^ l)%nat.
  Proof. intro E. rewrite (radix2_dsize _ _ E), Nat.log2_up_pow2 by lia. reflexivity. Qed.
  (** The quotient's domain refines the circuit's. *)
  Lemma quot_domain n m d qd : (n <= m)%nat -> radix2 n = Some d -> radix2 m = Some qd ->
    exists r, dsize qd = (dsize d * r)%nat /\ (1 <= r)%nat /\ fpow (dgen qd) r = dgen d /\ (m <= dsize qd)%nat.
  Proof.
    intros Hnm E E'. pose proof (radix2_dsize _ _ E') as S'. unfold radix2_new in *.
    pose proof (Nat.log2_up_le_mono n m Hnm) as HL.
    destruct (Nat.leb_spec (Nat.log2_up n) ta) as [H|]; [|discriminate]. destruct (Nat.leb_spec (Nat.log2_up m) ta) as [H'|]; [|discriminate].
    injection E as <-. injection E' as <-. cbn [dsize dgen] in *.
    exists (2 ^ (Nat.log2_up m - Nat.log2_up n))%nat. split; [|split; [|split]].
    - rewrite <- Nat.pow_add_r. f_equal. lia.
    - apply Nat.neq_0_lt_0, Nat.pow_nonzero. lia.
    - rewrite <- fpow_mul, <- Nat.pow_add_r. f_equal. f_equal. lia.
    - apply log2_up_pow2_ge.
  Qed.
  Lemma ratio_ge n nw : (1 <= n)%nat -> (nw * (n + 1) + 3 <= n * domain_size_ratio n nw)%nat.
  Proof.
    intro Hn. unfold domain_size_ratio. pose proof (Nat.div_mod (nw * (n + 1) + 2) n ltac:(lia)).
    pose proof (Nat.mod_upper_bound (nw * (n + 1) + 2) n ltac:(lia)). nia.
  Qed.
  Lemma prover_new_ok n nw pr d : (1 <= n)%nat -> radix2 n = Some d -> dsize d = n -> prover_new K ta root n nw = Ok pr ->
    exists qd r, pr = mk_prover K d qd /\ dom_ok K qd /\ dsize qd = (dsize d * r)%nat /\ (1 <= r)%nat /\ fpow (dgen qd) r = dgen d
      /\ (nw * (n + 1) + 3 <= dsize qd)%nat.
  Proof.
    intros Hn E S H. unfold prover_new in H. rewrite E in H. destruct (radix2 (n * domain_size_ratio n nw)) as [qd|] eqn:E'; [|discriminate].
    apply Ok_inj in H. subst pr. pose proof (ratio_ge n nw Hn) as R.
    destruct (quot_domain n (n * domain_size_ratio n nw) d qd) as (r & H1 & H2 & H3 & H4); auto.
    { unfold domain_size_ratio. nia. }
    exists qd, r. split; [auto|]. split; [eapply radix2_ok; eauto|]. split; [auto|]. split; [auto|]. split; [auto|]. now apply (Nat.le_trans _ _ _ R).
  Qed.

  Section Fixed.
    Variables (d qd : dom K) (b : K) (gg : V1).
    Hypothesis Hd : dom_ok K d.
    Notation n := (dsize d).
    Notation pr := (mk_prover K d qd).
    Notation ck := (tpowers K V1 b gg (dsize d + 3)).
    Notation Cm := (Cm K V1 b gg).
    Variable c : circuit.
    Hypothesis Ec : eval_domain c = Ok d.
    Hypothesis Hdc : dsize d = domain c.
    Hypothesis Hc : columns_ok c.

    Lemma wire_cols_at i : (i < num_wire_types c)%nat -> exists col, nth_error (wire_cols K c) i = Some col /\ length col = n
      /\ (forall j, (j < n)%nat -> nth j col 0%nat = wire_variable c i j).
    Proof.
      intro Hi. rewrite wire_cols_nth. unfold wire_variable. destruct Hc as [_ Hrow Hrange _ _]. destruct (Nat.ltb_spec i 5) as [H5|H5].
      - eexists. split; [reflexivity|]. rewrite map_length. split; [congruence|]. intros j Hj.
        rewrite (nth_indep _ 0%nat (wire_of i (mk_row 0 0 0 0 0))) by (rewrite map_length; congruence). apply map_nth.
      - unfold num_wire_types in Hi. destruct (ptype c) as [|bb] eqn:Et; [lia|]. destruct (Nat.eqb_spec i 5); [|lia].
        eexists. split; [reflexivity|]. split; [rewrite (Hrange bb) by auto; congruence|]. reflexivity.
    Qed.
    Lemma length_wire_cols : length (wire_cols K c) = num_wire_types c.
    Proof. unfold wire_cols, num_wire_types. rewrite app_length, map_length, seq_length. destruct (ptype c); reflexivity. Qed.

    Lemma round1_ok rnd i cs w pi : run_1st_round K V1 ta root pr rnd i ck c = Ok (cs, w, pi) ->
      cs = map Cm w /\ length w = num_wire_types c /\ (forall p, In p w -> (length p <= n + 2)%nat)
      /\ (forall i j, (i < num_wire_types c)%nat -> (j < n)%nat -> peval (nth i w []) (fpow (dgen d) j) = wit K c (wire_variable c i j))
      /\ pi = ipoly K d (pub_input_vec K c).
    Proof.
      intro H. unfold run_1st_round in H. apply bind_ok in H as (w0 & Hw & H). apply bind_ok in H as (cs' & Hcs & H).
      apply bind_ok in H as (pi' & Hpi & H). apply Ok_inj in H. injection H as -> Ew ->. apply lift_pcs_ok in Hcs.
      unfold compute_wire_polynomials in Hw. rewrite Ec in Hw. cbn [bind] in Hw. apply bind_ok in Hw as (u & _ & Hw).
      apply map_res_ok in Hw as [L0 N0]. rewrite length_wire_cols in L0. cbn [pr_dom] in *.
      assert (P0 : forall k, (k < num_wire_types c)%nat -> (length (nth k w0 []) <= n)%nat
                   /\ forall j, (j < n)%nat -> peval (nth k w0 []) (fpow (dgen d) j) = wit K c (wire_variable c k j)).
      { intros k Hk. destruct (wire_cols_at k Hk) as (col & Ecol & Lcol & Ncol). specialize (N0 k col [] Ecol).
        apply bind_ok in N0 as (l & Hl & E). apply Ok_inj in E. rewrite <- E. split; [now apply length_ipoly|]. intros j Hj.
        rewrite ipoly_at by auto. apply map_res_ok in Hl as [Ll Nl]. specialize (Nl j (nth j col 0%nat) 0 ltac:(apply nth_error_nth'; lia)).
        apply index_nth with (d := 0) in Nl as [_ ->]. now rewrite Ncol. }
      assert (Lw : length w = num_wire_types c).
      { rewrite <- Ew, map_length, combine_length, seq_length. lia. }
      assert (Pw : forall k, (k < num_wire_types c)%nat -> nth k w [] = mask_polynomial K d (rnd_wire K rnd i k) (nth k w0 []) 1).
      { intros k Hk. rewrite <- Ew. rewrite (nth_indep _ [] (mask_polynomial K d (rnd_wire K rnd i (fst (0%nat, [] : pol))) (snd (0%nat, [] : pol)) 1))
          by (rewrite map_length, combine_length, seq_length; lia).
        rewrite (map_nth (fun jp : nat * pol => mask_polynomial K d (rnd_wire K rnd i (fst jp)) (snd jp) 1)), combine_nth by (apply seq_length).
        cbn [fst snd]. rewrite seq_nth by lia. reflexivity. }
      assert (Bw : forall p, In p w -> (length p <= n + 2)%nat).
      { intros p Hp. apply In_nth with (d := []) in Hp as (k & Hk & <-). rewrite Pw by lia.
        pose proof (length_mask K d (rnd_wire K rnd i k) (nth k w0 []) 1). destruct (P0 k ltac:(lia)). lia. }
      split; [|split; [auto|split; [auto|split]]].
      - rewrite Ew in Hcs. apply batch_commit_ok in Hcs; [exact Hcs|]. intros p Hp. specialize (Bw p Hp). lia.
      - intros k j Hk Hj. rewrite Pw, mask_at by auto. now apply P0.
      - unfold compute_pub_input_polynomial in Hpi. rewrite Ec in Hpi. cbn [bind] in Hpi. now apply Ok_inj in Hpi.
    Qed.

    Lemma mask_h f l : (length (mask_polynomial K d f (ipoly K d l) 2) <= n + 3)%nat
      /\ forall j, (j < n)%nat -> peval (mask_polynomial K d f (ipoly K d l) 2) (fpow (dgen d) j) = nth j l 0.
    Proof.
      split; [|intros; now rewrite mask_at, ipoly_at by auto].
      pose proof (length_mask K d f (ipoly K d l) 2). pose proof (length_ipoly K d Hd l). lia.
    Qed.

    Lemma nth_firstn_lt {A} (l : list A) k j x : (j < k)%nat -> nth j (firstn k l) x = nth j l x.
    Proof. revert k j. induction l as [|a l IH]; intros [|k] [|j] H; cbn; try lia; auto. apply IH. lia. Qed.
    Lemma nth_skipn_at {A} (l : list A) k j x : nth j (skipn k l) x = nth (k + j) l x.
    Proof. revert k. induction l as [|a l IH]; intros [|k]; cbn; auto; now destruct j. Qed.

    Lemma round15_ok rnd i t cs hs s table : run_plookup_1st_round K V1 ta root pr rnd i ck c t = Ok (cs, hs, s, table) ->
      cs = map Cm hs /\ length hs = 2%nat /\ (forall p, In p hs -> (length p <= n + 3)%nat)
      /\ exists rt, range_table K c = Ok rt /\ table = merged_table K c t rt
         /\ lookup_sorted_vec K n (merged_table K c t rt) (lookup_values K c t) = Ok s
         /\ forall j, (j < n)%nat -> peval (nth 0 hs []) (fpow (dgen d) j) = nth j s 0
                                    /\ peval (nth 1 hs []) (fpow (dgen d) j) = nth (n - 1 + j) s 0.
    Proof.
      intro H. unfold run_plookup_1st_round in H. apply bind_ok in H as (table' & Ht & H). apply bind_ok in H as ([[s' h1] h2] & Hs & H).
      apply bind_ok in H as (cs' & Hcs & H). apply Ok_inj in H. injection H as -> Eh -> ->. apply lift_pcs_ok in Hcs. cbn [pr_dom] in *.
      unfold compute_merged_lookup_table in Ht. apply bind_ok in Ht as (rt & Hrt & Ht). apply lift_c_ok in Hrt. apply Ok_inj in Ht. subst table.
      unfold compute_lookup_sorted_vec_polynomials in Hs. apply bind_ok in Hs as (u & _ & Hs). rewrite Ec in Hs. cbn [bind] in Hs.
      apply bind_ok in Hs as (u1 & _ & Hs). apply bind_ok in Hs as (u2 & _ & Hs). apply bind_ok in Hs as (s0 & Hs0 & Hs).
      apply lift_c_ok in Hs0. apply Ok_inj in Hs. injection Hs as -> <- <-.
      destruct (mask_h (rnd_h1 K rnd i) (firstn n s)) as [L1 P1]. destruct (mask_h (rnd_h2 K rnd i) (skipn (n - 1) s)) as [L2 P2].
      assert (B : forall p, In p hs -> (length p <= n + 3)%nat) by (rewrite <- Eh; intros p [<-|[<-|[]]]; auto).
      split; [|split; [rewrite <- Eh; reflexivity|split; [exact B|]]].
      - rewrite Eh in Hcs. now apply batch_commit_ok in Hcs.
      - exists rt. split; [auto|]. split; [auto|]. split; [auto|]. intros j Hj. rewrite <- Eh. cbn [nth].
        rewrite P1, P2 by auto. split; [now apply nth_firstn_lt|apply nth_skipn_at].
    Qed.

    Lemma forallb_seq (f : nat -> bool) k : forallb f (seq 0 k) = true -> forall j, (j < k)%nat -> f j = true.
    Proof. intros H j Hj. rewrite forallb_forall in H. apply H, in_seq. lia. Qed.

    Lemma round2_ok rnd i be ga kk cm z : coset_ks (num_wire_types c) n = Ok kk ->
      run_2nd_round K V1 ta root coset_rnd pr rnd i ck c be ga = Ok (cm, z) ->
      cm = Cm z /\ (length z <= n + 3)%nat
      /\ (forall j, (S j < n)%nat -> perm_den K (num_wire_types c) n (fun i j => wit K c (wire_variable c i j)) (ext_id K kk (dgen d) n) (wire_perm c) be ga j <> 0)
      /\ forall j, (j < n)%nat -> peval z (fpow (dgen d) j) = nth j (compute_prod_permutation K c (ext_id K kk (dgen d) n) be ga) 0.
    Proof.
      intros Hk H. unfold run_2nd_round in H. apply bind_ok in H as (z0 & Hz & H). apply bind_ok in H as (cm' & Hcm & H).
      apply Ok_inj in H. injection H as -> Ez. apply lift_pcs_ok in Hcm. cbn [pr_dom] in *.
      unfold compute_prod_permutation_polynomial in Hz. rewrite Ec in Hz. cbn [bind] in Hz. unfold ext_ids in Hz. rewrite Hk in Hz. cbn [bind] in Hz.
      apply bind_ok in Hz as (u & Hu & Hz). apply assert_ok in Hu. apply Ok_inj in Hz. subst z0.
      destruct (mask_h (rnd_z K rnd i) (compute_prod_permutation K c (ext_id K kk (dgen d) n) be ga)) as [L P].
      rewrite Ez in *. split; [|split; [auto|split; [|auto]]].
      - now apply commit_ok in Hcm.
      - intros j Hj. apply (forallb_seq _ _ Hu j ltac:(lia)) in Hj as Hx || pose proof (forallb_seq _ _ Hu j ltac:(lia)) as Hx.
        apply negb_true_iff, feqb_neq in Hx. exact Hx.
    Qed.

    Lemma round25_ok rnd i t be ga s rt cm p : lookup_sorted_vec K n (merged_table K c t rt) (lookup_values K c t) = Ok s ->
      run_plookup_2nd_round K V1 ta root pr rnd i ck c (Some t) be ga (Some (merged_table K c t rt)) (Some s) = Ok (cm, p) ->
      cm = Cm p /\ (length p <= n + 3)%nat
      /\ (forall j, (S j < n - 1)%nat -> lookup_den K n s be ga j <> 0)
      /\ forall j, (j < n)%nat -> peval p (fpow (dgen d) j)
           = nth j (lookup_prod_vec K n (merged_table K c t rt) (lookup_values K c t) s be ga) 0.
    Proof.
      intros Hs H. unfold run_plookup_2nd_round in H. cbn [is_some guard expect bind] in H.
      apply bind_ok in H as (p0 & Hp & H). apply bind_ok in H as (cm' & Hcm & H).
      apply Ok_inj in H. injection H as -> Ep. apply lift_pcs_ok in Hcm. cbn [pr_dom] in *.
      unfold compute_lookup_prod_polynomial in Hp. apply bind_ok in Hp as (u & _ & Hp). rewrite Ec in Hp. cbn [bind] in Hp.
      apply bind_ok in Hp as (u1 & _ & Hp). apply bind_ok in Hp as (u2 & _ & Hp). apply bind_ok in Hp as (u3 & _ & Hp).
      apply bind_ok in Hp as (u4 & _ & Hp). apply bind_ok in Hp as (u5 & Hu & Hp). apply assert_ok in Hu. apply Ok_inj in Hp. subst p0.
      destruct (mask_h (rnd_prod K rnd i) (lookup_prod_vec K n (merged_table K c t rt) (lookup_values K c t) s be ga)) as [L P].
      rewrite Ep in *. split; [|split; [auto|split; [|auto]]].
      - now apply commit_ok in Hcm.
      - intros j Hj. pose proof (forallb_seq _ _ Hu j ltac:(lia)) as Hx. apply negb_true_iff, feqb_neq in Hx. exact Hx.
    Qed.

    (** ** Preprocessing *)
    Lemma vals_ipoly ls j : (j < n)%nat -> vals K (map (ipoly K d) ls) (fpow (dgen d) j) = map (fun l => nth j l 0) ls.
    Proof. intro Hj. unfold vals. rewrite map_map. apply map_ext. intro l. now apply ipoly_at. Qed.

    Lemma gate_col (f : gate K -> K) j : length (gates c) = domain c -> (j < n)%nat -> nth j (map f (gates c)) 0 = f (gate_at K c j).
    Proof.
      intros Hg Hj. rewrite (nth_indep _ 0 (f (padding_gate K))) by (rewrite map_length; lia). apply map_nth.
    Qed.

    Hypothesis Hgates : length (gates c) = domain c.
    Hypothesis Hperm : perm_encodes c (wire_perm c).

    Theorem preprocess_ok h pd vd pk vk :
      preprocess K V1 V2 ta root coset_rnd (gen_srs K V1 V2 b gg h pd vd) c = Ok (pk, vk) ->
      vk = pk_vk K V1 V2 pk /\ key_sem K V1 V2 coset_rnd d c pk /\ vk_comms K V1 V2 b gg pk /\ pk_ck K V1 V2 pk = ck
      /\ vk_merged K V1 V2 vk = false /\ vk_for K V1 V2 b gg h 2 (vk_open K V1 V2 vk).
    Proof.
      intro H. unfold preprocess in H. rewrite Ec in H. cbn [bind] in H. destruct (_ <? _)%nat in H; [discriminate|].
      apply bind_ok in H as (sels & Hsel & H). apply bind_ok in H as (sigs & Hsig & H). apply bind_ok in H as (lp & Hlp & H).
      apply bind_ok in H as ([ck' ok] & Htr & H). cbn [fst snd] in H. apply lift_pcs_ok in Htr.
      unfold trim_srs in Htr. apply trim_vd_inv in Htr as (_ & _ & -> & Hok).
      apply bind_ok in H as (selc & Hselc & H). apply bind_ok in H as (sigc & Hsigc & H). apply bind_ok in H as (lv & Hlv & H).
      apply bind_ok in H as (kk & Hk & H). apply lift_pcs_ok in Hselc. apply lift_pcs_ok in Hsigc.
      apply Ok_inj in H. injection H as <- <-. cbn [pk_vk pk_ck vk_merged vk_open].
      replace (S (n + 2))%nat with (n + 3)%nat in * by lia.
      unfold compute_selector_polynomials in Hsel. rewrite Ec in Hsel. cbn [bind] in Hsel. apply bind_ok in Hsel as (u & _ & Hsel).
      apply Ok_inj in Hsel.
      assert (Bsel : forall p, In p sels -> (length p <= n)%nat).
      { rewrite <- Hsel. intros p Hp. apply in_map_iff in Hp as (l & <- & _). now apply length_ipoly. }
      unfold compute_extended_permutation_polynomials in Hsig. rewrite Ec in Hsig. cbn [bind] in Hsig.
      unfold ext_ids in Hsig. rewrite Hk in Hsig. cbn [bind] in Hsig. apply bind_ok in Hsig as (ep & Hep & Hsig).
      apply (map_res_seq _ _ _ []) in Hsig as [Lsig Nsig].
      assert (Psig : forall i, (i < num_wire_types c)%nat -> nth i sigs [] = ipoly K d (firstn n (skipn (i * n) ep)) /\ ((i + 1) * n <= length ep)%nat).
      { intros i Hi. specialize (Nsig i Hi). apply bind_ok in Nsig as (s & Hs & E). apply Ok_inj in E. rewrite <- E.
        apply slice_ok in Hs as (_ & Hle & ->). replace ((i + 1) * n - i * n)%nat with n by lia. auto. }
      assert (Bsig : forall p, In p sigs -> (length p <= n)%nat).
      { intros p Hp. apply In_nth with (d := []) in Hp as (k & Hkk & <-). destruct (Psig k ltac:(lia)) as [-> _]. now apply length_ipoly. }
      unfold compute_extended_permutation in Hep. apply bind_ok in Hep as (ep' & Hep & H). apply bind_ok in H as (u' & Hu & H).
      apply Ok_inj in H. subst ep'. apply guard_ok, Nat.eqb_eq in Hu. apply map_res_ok in Hep as [Lep Nep].
      split; [reflexivity|]. split; [|split; [|split; [reflexivity|split; [reflexivity|exact Hok]]]].
      - constructor; cbn [pk_vk vk_n vk_inputs vk_k pk_selectors pk_sigmas pk_plookup]; auto.
        + rewrite <- Hsel, map_length. unfold all_selectors, sel_fns. now rewrite map_length.
        + intros j Hj. rewrite <- Hsel, vals_ipoly by auto. unfold all_selectors, sel_fns. rewrite map_map. apply map_ext. intro f. now apply gate_col.
        + intros i j Hi Hj. destruct (Psig i Hi) as [-> Hle]. cbv zeta. rewrite ipoly_at, nth_firstn_lt, nth_skipn_at by auto.
          assert (Hlt : (i * n + j < length (wire_perm c))%nat) by nia.
          specialize (Nep (i * n + j)%nat (nth (i * n + j) (wire_perm c) (0, 0)%nat) 0 ltac:(apply nth_error_nth'; auto)).
          assert (Hr : (fst (nth (i * n + j) (wire_perm c) (0, 0)%nat) < num_wire_types c)%nat).
          { pose proof (pe_slot _ _ Hperm (i, j)) as Hs. unfold is_slot, sigma, enc in Hs. cbn [fst snd] in Hs. rewrite <- Hdc in Hs. apply Hs. auto. }
          destruct (Nat.leb_spec (num_wire_types c) (fst (nth (i * n + j) (wire_perm c) (0, 0)%nat))); [lia|].
          apply index_nth with (d := 0) in Nep as [_ ->]. reflexivity.
        + intro Hs. rewrite Hs in Hlp. now apply Ok_inj in Hlp.
        + intro Hs. rewrite Hs in Hlp. apply bind_ok in Hlp as (rtp & Hrt & Hlp). apply bind_ok in Hlp as (kt & Hkt & Hlp).
          apply bind_ok in Hlp as (tds & Htds & Hlp). apply bind_ok in Hlp as (qds & Hqds & Hlp). apply Ok_inj in Hlp. subst lp.
          unfold compute_range_table_polynomial in Hrt. apply bind_ok in Hrt as (rt & Hrt & E). rewrite Ec in E. cbn [bind] in E. apply Ok_inj in E.
          apply lift_c_ok in Hrt.
          assert (G : forall f p, compute_gate_column_polynomial K ta root f c = Ok p -> p = ipoly K d (map f (gates c))).
          { intros f p E'. unfold compute_gate_column_polynomial in E'. rewrite Hs, Ec in E'. cbn [guard bind] in E'. now apply Ok_inj in E'. }
          apply G in Hkt, Htds, Hqds. subst rtp kt tds qds.
          eexists. exists rt. split; [reflexivity|]. split; [auto|]. cbn [lp_range lp_key lp_table_dom_sep lp_q_dom_sep].
          split; [now apply length_ipoly|]. split; [now apply length_ipoly|]. split; [now apply length_ipoly|]. split; [now apply length_ipoly|].
          intros j Hj. rewrite !ipoly_at by auto. rewrite !gate_col by auto. auto.
      - constructor; cbn [pk_vk vk_selectors vk_sigmas vk_plookup pk_selectors pk_sigmas pk_plookup].
        + apply batch_commit_ok in Hselc; [exact Hselc|]. intros p Hp. specialize (Bsel p Hp). lia.
        + apply batch_commit_ok in Hsigc; [exact Hsigc|]. intros p Hp. specialize (Bsig p Hp). lia.
        + destruct lp as [lp|]; [|now apply Ok_inj in Hlv].
          destruct (support_lookup c) eqn:Hs; [|discriminate].
          assert (B : (length (lp_range K lp) <= n /\ length (lp_key K lp) <= n /\ length (lp_table_dom_sep K lp) <= n /\ length (lp_q_dom_sep K lp) <= n)%nat).
          { apply bind_ok in Hlp as (rtp & Hrt & Hlp). apply bind_ok in Hlp as (kt & Hkt & Hlp).
            apply bind_ok in Hlp as (tds & Htds & Hlp). apply bind_ok in Hlp as (qds & Hqds & Hlp). apply Ok_inj in Hlp. injection Hlp as <-.
            unfold compute_range_table_polynomial in Hrt. apply bind_ok in Hrt as (rt & _ & E). rewrite Ec in E. cbn [bind] in E. apply Ok_inj in E.
            assert (G : forall f p, compute_gate_column_polynomial K ta root f c = Ok p -> (length p <= n)%nat).
            { intros f p E'. unfold compute_gate_column_polynomial in E'. rewrite Hs, Ec in E'. cbn [guard bind] in E'. apply Ok_inj in E'.
              subst p. now apply length_ipoly. }
            subst rtp. cbn. repeat split; eauto. now apply length_ipoly. }
          apply bind_ok in Hlv as (a1 & H1 & Hlv). apply bind_ok in Hlv as (a2 & H2 & Hlv). apply bind_ok in Hlv as (a3 & H3 & Hlv).
          apply bind_ok in Hlv as (a4 & H4 & Hlv). apply Ok_inj in Hlv. rewrite <- Hlv. cbn [option_map].
          apply lift_pcs_ok in H1. apply lift_pcs_ok in H2. apply lift_pcs_ok in H3. apply lift_pcs_ok in H4.
          apply commit_ok in H1; [|lia]. apply commit_ok in H2; [|lia]. apply commit_ok in H3; [|lia]. apply commit_ok in H4; [|lia].
          subst. reflexivity.
    Qed.
  End Fixed.
End Rounds.
