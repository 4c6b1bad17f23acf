(** The opening step: aggregation of the commitments and evaluations by the verifier and
    the batched witnesses of the prover.  Used by C57 and C58. *)
From Coq Require Import List Arith ZArith Lia Bool Ring Field.
From Verif Require Import Base Alg Poly VRing KzgModel KzgProofs KzgFft CircuitModel FinalModel PlonkModel LagrangeProofs PlonkPoly PlonkInst PlonkLin.
Import ListNotations.

(** A loop over indices into lists that are images of the same list. *)
Lemma fold_res_seq {X A B C} (f : B -> nat * C -> outcome X B) (h : A -> C) (f' : B -> A -> outcome X B) (l : list A) : forall s st,
  (forall st i a, nth_error l i = Some a -> f st ((s + i)%nat, h a) = f' st a) ->
  fold_res f (combine (seq s (length l)) (map h l)) st = fold_res f' l st.
Proof.
  induction l as [|a l IH]; intros s st H; [reflexivity|]. cbn [length seq map combine fold_res].
  pose proof (H st 0%nat a eq_refl) as E. rewrite Nat.add_0_r in E. rewrite E. destruct (f' st a); cbn [bind]; [|reflexivity|reflexivity].
  apply IH. intros st' i a' Hi. rewrite <- (H st' (S i) a' Hi). f_equal. f_equal. lia.
Qed.
Lemma map_res_seq_map {X A B C} (f : nat * C -> outcome X B) (h : A -> C) (f' : A -> outcome X B) (l : list A) : forall s,
  (forall i a, nth_error l i = Some a -> f ((s + i)%nat, h a) = f' a) ->
  map_res f (combine (seq s (length l)) (map h l)) = map_res f' l.
Proof.
  induction l as [|a l IH]; intros s H; [reflexivity|]. cbn [length seq map combine map_res].
  pose proof (H 0%nat a eq_refl) as E. rewrite Nat.add_0_r in E. rewrite E. destruct (f' a); cbn [bind]; [|reflexivity|reflexivity].
  rewrite IH; [reflexivity|]. intros i a' Hi. rewrite <- (H (S i) a' Hi). f_equal. f_equal. lia.
Qed.
Lemma index_map {X A B} (f : A -> B) l i a : nth_error l i = Some a -> @index X B (map f l) i = Ok (f a).
Proof. intro H. unfold index. now rewrite (map_nth_error f i l H). Qed.

Section Open.
  Variable K : fld.
  Local Open Scope fld_scope.
  Add Field Kopn : (fth K).
  Notation pol := (list K).
  Variables V1 V2 : vsp K.
  Notation pkey := (pkey K V1 V2).
  Notation oracles := (oracles K).
  Notation sels := (pk_selectors K V1 V2).
  Notation sigs := (pk_sigmas K V1 V2).
  Notation ws := (or_wires K).
  Notation lkp := (pk_plookup K V1 V2).
  Notation vals := (vals K).
  Notation shape := (shape K V1 V2).
  Notation smsm l := (vsum (map (fun sb : K * V1 => vmul (fst sb) (snd sb)) l)).
  Definition dot (l l' : list K) : K := fsum (map (fun eb => fst eb * snd eb) (combine l l')).

  Lemma vals_app ps qs x : vals (ps ++ qs) x = vals ps x ++ vals qs x.
  Proof. apply map_app. Qed.
  Lemma dot_app a b c e : length a = length c -> dot (a ++ b) (c ++ e) = dot a c + dot b e.
  Proof.
    intro H. unfold dot. revert c H. induction a as [|x a IH]; intros [|y c] H; try discriminate; cbn [app combine map].
    - unfold fsum at 2. cbn. ring.
    - rewrite !fsum_cons, IH by (cbn in H; lia). ring.
  Qed.
  Lemma dot_nil : dot [] [] = 0.
  Proof. reflexivity. Qed.

  Section Comm.
    Variables (b : K) (gg : V1).
    Notation Cm := (Cm K V1 b gg).
    Lemma add_comms_snd r (cs : list V1) : forall base, snd (add_comms K V1 r base cs) = base * fpow r (length cs).
    Proof.
      induction cs as [|c cs IH]; intro base; cbn [add_comms length]; [cbn; ring|]. cbn [snd]. rewrite IH. cbn [fpow]. ring.
    Qed.
    Lemma add_comms_len r (cs : list V1) : forall base, length (fst (add_comms K V1 r base cs)) = length cs.
    Proof. induction cs as [|c cs IH]; intro base; cbn [add_comms length fst]; [reflexivity|]. now rewrite IH. Qed.
    Lemma add_comms_msm r (ps : list pol) : forall base,
      smsm (fst (add_comms K V1 r base (map Cm ps))) = vmul (base * peval (vals ps b) r) gg.
    Proof.
      induction ps as [|p ps IH]; intro base; cbn [map add_comms fst].
      - cbn. symmetry. replace (base * 0) with (0 : K) by ring. apply vmul_0_l.
      - rewrite vsum_cons, IH. cbn [fst snd]. unfold PlonkInst.vals. cbn [map peval]. unfold PlonkLin.Cm. vring.
    Qed.
    Lemma add_comms_dot r x (ps : list pol) (f : pol -> V1) : forall base,
      dot (vals ps x) (map fst (fst (add_comms K V1 r base (map f ps)))) = base * peval (vals ps x) r.
    Proof.
      induction ps as [|p ps IH]; intro base; cbn [map add_comms fst PlonkInst.vals].
      - unfold dot. cbn. ring.
      - unfold dot in *. cbn [combine map]. rewrite fsum_cons. unfold PlonkInst.vals in IH. rewrite IH. cbn [fst snd peval]. ring.
    Qed.

    (** The polynomials opened at the two points. *)
    Variable d : dom K.
    Hypothesis Hd : dom_ok K d.
    Notation n := (dsize d).
    Notation g := (dgen d).
    Definition open_l (nw : nat) (oc : oracles) (pk : pkey) : list pol :=
      (ws oc ++ firstn (nw - 1) (sigs pk)) ++
      match lkp pk with
      | Some lp => [lp_range K lp; lp_key K lp; nth 0 (or_h K oc) []; last (sels pk) []; lp_table_dom_sep K lp; lp_q_dom_sep K lp]
      | None => []
      end.
    Definition shift_l (oc : oracles) (pk : pkey) : list pol :=
      or_z K oc ::
      match lkp pk with
      | Some lp => [or_prod K oc; lp_range K lp; lp_key K lp; nth 0 (or_h K oc) []; nth 1 (or_h K oc) []; last (sels pk) [];
                    nth 3 (ws oc) []; nth 4 (ws oc) []; lp_table_dom_sep K lp]
      | None => []
      end.

    Lemma open_polys_ok nw oc pk l : shape d nw oc pk -> open_polys K V1 V2 oc pk = Ok l -> l = open_l nw oc pk.
    Proof.
      intros H E. unfold open_polys in E. apply bind_ok in E as (u & _ & E). apply bind_ok in E as (lk & Hlk & E).
      apply Ok_inj in E. rewrite <- E. unfold open_l. rewrite (sh_sig _ _ _ _ _ _ _ H), <- app_assoc. do 2 f_equal.
      destruct (lkp pk) as [lp|] eqn:El; [|now apply Ok_inj in Hlk].
      destruct (sh_lk _ _ _ _ _ _ _ H lp El) as (Hh & _). rewrite Hh in Hlk. cbn [Nat.eqb] in Hlk. unfold plookup_open_polys in Hlk.
      rewrite (index_lt (or_h K oc) _ []) in Hlk by lia. rewrite (q_lookup_poly_ok K V1 V2 d nw oc pk lp H El) in Hlk.
      cbn [bind] in Hlk. now apply Ok_inj in Hlk.
    Qed.
    Lemma shifted_open_polys_ok nw oc pk l : shape d nw oc pk -> shifted_open_polys K V1 V2 oc pk = Ok l -> l = shift_l oc pk.
    Proof.
      intros H E. unfold shifted_open_polys in E. apply bind_ok in E as (lk & Hlk & E).
      apply Ok_inj in E. rewrite <- E. unfold shift_l. f_equal.
      pose proof (sh_nw _ _ _ _ _ _ _ H) as Hw. pose proof (sh_w _ _ _ _ _ _ _ H) as Lw.
      destruct (lkp pk) as [lp|] eqn:El; [|now apply Ok_inj in Hlk].
      destruct (sh_lk _ _ _ _ _ _ _ H lp El) as (Hh & _). rewrite Hh in Hlk. cbn [Nat.eqb] in Hlk. unfold plookup_shifted_open_polys in Hlk.
      rewrite !(index_lt (or_h K oc) _ []) in Hlk by lia. rewrite (q_lookup_poly_ok K V1 V2 d nw oc pk lp H El) in Hlk.
      rewrite !(index_lt (ws oc) _ []) in Hlk by lia. cbn [bind] in Hlk. now apply Ok_inj in Hlk.
    Qed.
    Lemma open_l_len nw oc pk p : shape d nw oc pk -> In p (open_l nw oc pk) -> (length p <= n + 3)%nat.
    Proof.
      intros H Hp. unfold open_l in Hp. rewrite !in_app_iff in Hp. destruct Hp as [[Hp|Hp]|Hp].
      - pose proof (sh_w_len _ _ _ _ _ _ _ H p Hp). lia.
      - assert (Hp' : In p (sigs pk)) by (rewrite <- (firstn_skipn (nw - 1) (sigs pk)); apply in_or_app; now left). clear Hp. rename Hp' into Hp. pose proof (sh_sig_len _ _ _ _ _ _ _ H p Hp). lia.
      - destruct (lkp pk) as [lp|] eqn:El; [|destruct Hp].
        destruct (sh_lk _ _ _ _ _ _ _ H lp El) as (Hh & Hl & Hq & H1 & H2 & H3 & H4).
        pose proof (last_len (sels pk) n (sh_sel_len _ _ _ _ _ _ _ H)). pose proof (nth_len (or_h K oc) _ 0 Hl).
        cbn [In] in Hp. repeat destruct Hp as [<-|Hp]; try lia.
    Qed.
    Lemma shift_l_len nw oc pk p : shape d nw oc pk -> In p (shift_l oc pk) -> (length p <= n + 3)%nat.
    Proof.
      intros H Hp. unfold shift_l in Hp. destruct Hp as [<-|Hp].
      - apply (sh_z _ _ _ _ _ _ _ H).
      - destruct (lkp pk) as [lp|] eqn:El; [|destruct Hp].
        destruct (sh_lk _ _ _ _ _ _ _ H lp El) as (Hh & Hl & Hq & H1 & H2 & H3 & H4).
        pose proof (last_len (sels pk) n (sh_sel_len _ _ _ _ _ _ _ H)). pose proof (nth_len (or_h K oc) _ 0 Hl). pose proof (nth_len (or_h K oc) _ 1 Hl).
        pose proof (nth_len (ws oc) _ 3 (sh_w_len _ _ _ _ _ _ _ H)). pose proof (nth_len (ws oc) _ 4 (sh_w_len _ _ _ _ _ _ _ H)).
        cbn [In] in Hp. repeat destruct Hp as [<-|Hp]; try lia.
    Qed.

    Variables (ze v : K).
    Definition lkproof (oc : oracles) (pk : pkey) : option (plookup_proof K V1) :=
      option_map (fun lp => mk_plp K V1 (map Cm (or_h K oc)) (Cm (or_prod K oc)) (levals K V1 V2 d ze oc pk lp)) (lkp pk).

    Lemma agg_ok nw oc pk vb uvb : shape d nw oc pk -> vk_comms K V1 V2 b gg pk ->
      exists L, agg_instance K V1 V2 v vb uvb (map Cm (ws oc)) (Cm (or_z K oc)) (lkproof oc pk) (pk_vk K V1 V2 pk)
          = Ok (L, vb * fpow v (length (open_l nw oc pk)), uvb * fpow v (length (shift_l oc pk)))
        /\ smsm L = vmul (vb * peval (vals (open_l nw oc pk) b) v + uvb * peval (vals (shift_l oc pk) b) v) gg
        /\ length (evals_instance K V1 (pevals K V1 V2 d ze oc pk nw) (lkproof oc pk)) = length L
        /\ dot (evals_instance K V1 (pevals K V1 V2 d ze oc pk nw) (lkproof oc pk)) (map fst L)
           = vb * peval (vals (open_l nw oc pk) ze) v + uvb * peval (vals (shift_l oc pk) (ze * g)) v.
    Proof.
      intros H VC. pose proof (sh_nw _ _ _ _ _ _ _ H) as Hw. pose proof (sh_w _ _ _ _ _ _ _ H) as Lw.
      assert (W5 : (5 <= nw)%nat) by (destruct (lkp pk); lia).
      unfold agg_instance, lkproof, evals_instance, open_l, shift_l. rewrite map_length, Lw.
      assert (E1 : (1 <=? nw)%nat = true) by (apply Nat.leb_le; lia). rewrite E1. cbn [assert_p bind].
      rewrite (vc_sig _ _ _ _ _ _ VC), firstn_map, !add_comms_snd, !map_length, Lw.
      assert (LS : length (firstn (nw - 1) (sigs pk)) = (nw - 1)%nat) by (rewrite firstn_length, (sh_sig _ _ _ _ _ _ _ H); lia).
      rewrite !LS.
      destruct (lkp pk) as [lp|] eqn:El; cbn [option_map].
      - unfold plookup_open_comms, plookup_shifted_open_comms, q_lookup_comm. rewrite (vc_lk _ _ _ _ _ _ VC), El. cbn [option_map expect bind is_some guard lk_h_comms lk_prod_comm].
        destruct (sh_lk _ _ _ _ _ _ _ H lp El) as (Hh & _). rewrite !(index_lt (map Cm (or_h K oc)) _ (Cm [])) by (rewrite map_length; lia).
        rewrite (vc_sel _ _ _ _ _ _ VC), <- map_rev.
        assert (IL : @index perr _ (map Cm (rev (sels pk))) 0 = Ok (Cm (last (sels pk) []))).
        { pose proof (rev_index (X:=perr) (sels pk) [] (sels_neq K V1 V2 d nw oc pk H)) as R. apply index_ok in R.
          exact (index_map Cm _ _ _ R). }
        rewrite IL. rewrite !(index_lt (map Cm (ws oc)) _ (Cm [])) by (rewrite map_length; lia). cbn [bind]. rewrite !map_nth.
        cbn [lv_range lv_key lv_table_dom_sep lv_q_dom_sep].
        eexists. split; [|split; [|split]].
        + f_equal. f_equal; [f_equal|].
          * rewrite add_comms_snd, !app_length, LS, Lw. cbn [length]. rewrite !(fpow_add K). ring.
          * rewrite add_comms_snd. cbn [length]. rewrite !(fpow_S K). cbn [fpow]. ring.
        + rewrite !map_app, !vsum_app.
          change [Cm (lp_range K lp); Cm (lp_key K lp); Cm (nth 0 (or_h K oc) []); Cm (last (sels pk) []); Cm (lp_table_dom_sep K lp); Cm (lp_q_dom_sep K lp)]
            with (map Cm [lp_range K lp; lp_key K lp; nth 0 (or_h K oc) []; last (sels pk) []; lp_table_dom_sep K lp; lp_q_dom_sep K lp]).
          change [Cm (or_prod K oc); Cm (lp_range K lp); Cm (lp_key K lp); Cm (nth 0 (or_h K oc) []); Cm (nth 1 (or_h K oc) []); Cm (last (sels pk) []);
              Cm (nth 3 (ws oc) []); Cm (nth 4 (ws oc) []); Cm (lp_table_dom_sep K lp)]
            with (map Cm [or_prod K oc; lp_range K lp; lp_key K lp; nth 0 (or_h K oc) []; nth 1 (or_h K oc) []; last (sels pk) []; nth 3 (ws oc) []; nth 4 (ws oc) []; lp_table_dom_sep K lp]).
          change [Cm (or_z K oc)] with (map Cm [or_z K oc]).
          rewrite !add_comms_msm.
          set (A := [lp_range K lp; lp_key K lp; nth 0 (or_h K oc) []; last (sels pk) []; lp_table_dom_sep K lp; lp_q_dom_sep K lp]).
          set (B := [or_prod K oc; lp_range K lp; lp_key K lp; nth 0 (or_h K oc) []; nth 1 (or_h K oc) []; last (sels pk) []; nth 3 (ws oc) []; nth 4 (ws oc) []; lp_table_dom_sep K lp]).
          rewrite !vals_app, !peval_app, !app_length, !length_vals, LS, Lw. rewrite (fpow_add K).
          change (vals (or_z K oc :: B) b) with (peval (or_z K oc) b :: vals B b).
          change (vals [or_z K oc] b) with [peval (or_z K oc) b]. cbn [peval map length fpow]. vring.
        + cbn [pevals wires_evals sigma_evals perm_next_eval]. rewrite !app_length, !add_comms_len, !map_length, !length_vals, LS, Lw. reflexivity.
        + cbn [pevals wires_evals sigma_evals perm_next_eval lk_evals]. rewrite !map_app.
          rewrite !dot_app by (rewrite ?map_length, ?add_comms_len, ?map_length, ?length_vals, ?LS, ?Lw; reflexivity).
          set (A := [lp_range K lp; lp_key K lp; nth 0 (or_h K oc) []; last (sels pk) []; lp_table_dom_sep K lp; lp_q_dom_sep K lp]).
          set (B := [or_prod K oc; lp_range K lp; lp_key K lp; nth 0 (or_h K oc) []; nth 1 (or_h K oc) []; last (sels pk) []; nth 3 (ws oc) []; nth 4 (ws oc) []; lp_table_dom_sep K lp]).
          change (evals_vec K (levals K V1 V2 d ze oc pk lp)) with (vals A ze).
          change (next_evals_vec K (levals K V1 V2 d ze oc pk lp)) with (vals B (ze * g)).
          change [peval (or_z K oc) (ze * g)] with (vals [or_z K oc] (ze * g)).
          change [Cm (lp_range K lp); Cm (lp_key K lp); Cm (nth 0 (or_h K oc) []); Cm (last (sels pk) []); Cm (lp_table_dom_sep K lp); Cm (lp_q_dom_sep K lp)] with (map Cm A).
          change [Cm (or_prod K oc); Cm (lp_range K lp); Cm (lp_key K lp); Cm (nth 0 (or_h K oc) []); Cm (nth 1 (or_h K oc) []); Cm (last (sels pk) []);
              Cm (nth 3 (ws oc) []); Cm (nth 4 (ws oc) []); Cm (lp_table_dom_sep K lp)] with (map Cm B).
          change [Cm (or_z K oc)] with (map Cm [or_z K oc]).
          rewrite !add_comms_dot.
          rewrite !vals_app, !peval_app, !app_length, !length_vals, LS, Lw. rewrite (fpow_add K).
          change (vals (or_z K oc :: B) (ze * g)) with (peval (or_z K oc) (ze * g) :: vals B (ze * g)).
          change (vals [or_z K oc] (ze * g)) with [peval (or_z K oc) (ze * g)]. cbn [peval map length fpow]. ring.
      - eexists. split; [|split; [|split]].
        + f_equal. f_equal. f_equal. rewrite !app_length, LS, Lw. cbn [length]. rewrite Nat.add_0_r, (fpow_add K). ring.
        + rewrite !map_app, !vsum_app. change [Cm (or_z K oc)] with (map Cm [or_z K oc]).
          rewrite !add_comms_msm, app_nil_r.
          rewrite !vals_app, !peval_app, !length_vals, Lw. vring.
        + cbn [pevals wires_evals sigma_evals perm_next_eval]. rewrite !app_length, !add_comms_len, !map_length, !length_vals, LS, Lw. reflexivity.
        + cbn [pevals wires_evals sigma_evals perm_next_eval]. rewrite !map_app, !app_nil_r.
          rewrite !dot_app by (rewrite ?map_length, ?add_comms_len, ?map_length, ?length_vals, ?LS, ?Lw; reflexivity).
          change [peval (or_z K oc) (ze * g)] with (vals [or_z K oc] (ze * g)).
          change [Cm (or_z K oc)] with (map Cm [or_z K oc]).
          rewrite !add_comms_dot, !vals_app, !peval_app, !length_vals, Lw. ring.
    Qed.

    (** ** All instances of a batch, with their weights *)
    Notation op := (oracles * pkey * list K)%type.
    Notation oco o := (fst (fst o)).
    Notation pko o := (snd (fst o)).
    Notation vko o := (pk_vk K V1 V2 (snd (fst o))).
    Variables (nw : nat) (tau : option K) (al be ga u : K).
    Notation lin_at := (lin_at K V1 V2 d tau al be ga ze).
    Notation const_at := (const_at K V1 V2 d al be ga ze).
    Notation pevals := (pevals K V1 V2 d ze).
    Definition ch5 : challenges K := mk_ch K tau al be ga ze v u.
    Record op_ok (o : op) : Prop := {
      oo_shape : shape d nw (oco o) (pko o);
      oo_comms : vk_comms K V1 V2 b gg (pko o);
      oo_tau : lkp (pko o) <> None -> tau <> None;
      oo_inputs : length (snd o) = vk_inputs K V1 V2 (vko o);
      oo_pi : evaluate_pi_poly K d (snd o) ze (vk_merged K V1 V2 (vko o)) = Ok (peval (or_pi K (oco o)) ze) }.
    Definition wsum (f : op -> K) (wl : list (op * K)) : K := fsum (map (fun oa => snd oa * f (fst oa)) wl).
    Definition bp_of (ops : list op) (qs : list pol) (W W' : V1) : batch_proof K V1 :=
      mk_bp K V1 (map (fun o => map Cm (ws (oco o))) ops) (map (fun o => Cm (or_z K (oco o))) ops)
        (map (fun o => pevals (oco o) (pko o) nw) ops) (map (fun o => lkproof (oco o) (pko o)) ops) (map Cm qs) W W'.

    Lemma const_ok (wl : list (op * K)) qs W W' : (forall oa, In oa wl -> op_ok (fst oa)) ->
      compute_lin_poly_constant_term K V1 V2 d ch5 (map (fun o => vko o) (map fst wl)) (map snd (map fst wl)) (bp_of (map fst wl) qs W W')
        (L1 K d ze) (Ln K d ze) (al * al) (al * al * al) (map snd wl)
      = Ok (wsum (fun o => const_at (oco o) (pko o) nw) wl).
    Proof.
      intro H. unfold compute_lin_poly_constant_term, bp_len, bp_of. cbn [bp_perms bp_evals bp_plookups]. rewrite !map_length, !Nat.eqb_refl. cbn [negb orb].
      unfold wsum. replace (fsum _) with (0 + fsum (map (fun oa : op * K => snd oa * const_at (oco (fst oa)) (pko (fst oa)) nw) wl)) by ring.
      generalize (0 : K). induction wl as [|[o a] wl IH]; intro acc; cbn [map combine fold_res].
      - unfold fsum. cbn. f_equal. ring.
      - pose proof (H (o, a) (or_introl eq_refl)) as Ho. cbn [fst snd] in *.
        rewrite (lin_const_instance_ok K V1 V2 d al be ga ze b gg nw (oco o) (pko o) ch5 (lkproof (oco o) (pko o)) (snd o)); try reflexivity.
        + cbn [bind]. rewrite IH by (intros; apply H; now right). rewrite fsum_cons. cbn [fst snd]. f_equal. ring.
        + apply (oo_shape _ Ho).
        + constructor. reflexivity.
        + apply (oo_pi _ Ho).
    Qed.

    Lemma lin_terms_all (wl : list (op * K)) : (forall oa, In oa wl -> op_ok (fst oa)) ->
      exists ts, map_res (fun oa : op * K => lin_terms_instance K V1 V2 d ch5 (L1 K d ze) (Ln K d ze) (al * al) (al * al * (al * al)) (al * al * (al * al * al)) (al * al * (al * al) * (al * al))
           (map Cm (ws (oco (fst oa)))) (Cm (or_z K (oco (fst oa)))) (pevals (oco (fst oa)) (pko (fst oa)) nw) (lkproof (oco (fst oa)) (pko (fst oa))) (vko (fst oa)) (snd oa)) wl = Ok ts
        /\ smsm (concat ts) = vmul (wsum (fun o => lin_at (oco o) (pko o) nw b) wl) gg.
    Proof.
      intro H. induction wl as [|[o a] wl IH].
      - exists []. split; [reflexivity|]. cbn. now rewrite vmul_0_l.
      - destruct IH as (ts & E & S); [intros; apply H; now right|]. pose proof (H (o, a) (or_introl eq_refl)) as Ho. cbn [fst snd] in *.
        destruct (lin_terms_ok K V1 V2 d tau al be ga ze b gg nw (oco o) (pko o) ch5 (lkproof (oco o) (pko o)) a) as (t & Et & St); try reflexivity;
          try apply Ho; [constructor; reflexivity|].
        exists (t :: ts). split.
        + cbn [map_res]. cbn [fst snd]. rewrite Et. cbn [bind]. now rewrite E.
        + cbn [concat]. rewrite map_app, vsum_app, St, S. unfold wsum. cbn [map]. rewrite fsum_cons. cbn [fst snd]. vring.
    Qed.
    Lemma quot_terms_msm zn2 (qs : list pol) : forall c, smsm (quot_terms K V1 zn2 c (map Cm qs)) = vmul (c * peval (vals qs b) zn2) gg.
    Proof.
      induction qs as [|q qs IH]; intro c; cbn [map quot_terms].
      - cbn. replace (c * 0) with (0 : K) by ring. now rewrite vmul_0_l.
      - rewrite vsum_cons, IH. cbn [fst snd]. change (vals (q :: qs) b) with (peval q b :: vals qs b). cbn [peval]. unfold PlonkLin.Cm. vring.
    Qed.
    Definition zn2 : K := (1 + vanish_at K d 1 ze) * ze * ze.
    Lemma combine_fst_snd {A B} (l : list (A * B)) : combine (map fst l) (map snd l) = l.
    Proof. induction l as [|[a b'] l IH]; cbn; congruence. Qed.
    Lemma lin_scalars_ok (wl : list (op * K)) qs W W' : (forall oa, In oa wl -> op_ok (fst oa)) -> qs <> [] ->
      exists m, linearization_scalars_and_bases K V1 V2 d (map (fun o => vko o) (map fst wl)) ch5 (vanish_at K d 1 ze) (L1 K d ze) (Ln K d ze)
          (bp_of (map fst wl) qs W W') (al * al) (al * al * (al * al)) (al * al * (al * al * al)) (al * al * (al * al) * (al * al)) (map snd wl) = Ok m
        /\ sb_msm K V1 m = vmul (wsum (fun o => lin_at (oco o) (pko o) nw b) wl - vanish_at K d 1 ze * peval (vals qs b) zn2) gg.
    Proof.
      intros H Hq. destruct (lin_terms_all wl H) as (ts & E & S).
      unfold linearization_scalars_and_bases, bp_len, bp_of. cbn [bp_perms bp_evals bp_plookups bp_wires bp_quots]. rewrite !map_length, !Nat.eqb_refl. cbn [negb orb].
      assert (EC : combine (map (fun o : op => vko o) (map fst wl)) (map snd wl) = map (fun oa => (vko (fst oa), snd oa)) wl).
      { clear. induction wl as [|[o a] wl IH]; cbn; congruence. }
      rewrite EC.
      rewrite (map_res_seq_map _ (fun oa : op * K => (vko (fst oa), snd oa)) (fun oa : op * K => lin_terms_instance K V1 V2 d ch5 (L1 K d ze) (Ln K d ze) (al * al) (al * al * (al * al)) (al * al * (al * al * al)) (al * al * (al * al) * (al * al))
           (map Cm (ws (oco (fst oa)))) (Cm (or_z K (oco (fst oa)))) (pevals (oco (fst oa)) (pko (fst oa)) nw) (lkproof (oco (fst oa)) (pko (fst oa))) (vko (fst oa)) (snd oa))).
      - rewrite E. cbn [bind]. replace (negb (length qs =? 0)%nat) with true by (destruct qs; [congruence|reflexivity]). cbn [guard bind].
        eexists. split; [reflexivity|]. rewrite sb_pushes_msm, map_app, vsum_app, S. rewrite quot_terms_msm. unfold zn2, sb_msm. cbn. vring.
      - intros i oa Hi. cbn [Nat.add]. pose proof (map_nth_error fst i wl Hi) as Hf.
        rewrite (index_map _ _ i _ Hf). cbn [bind]. rewrite (index_map _ _ i _ Hf). cbn [bind]. rewrite (index_map _ _ i _ Hf). cbn [bind].
        rewrite (index_map _ _ i _ Hf). cbn [bind]. reflexivity.
    Qed.

    Definition OP (ops : list op) : list pol := concat (map (fun o => open_l nw (oco o) (pko o)) ops).
    Definition SP (ops : list op) : list pol := concat (map (fun o => shift_l (oco o) (pko o)) ops).
    Definition EVS (ops : list op) : list K := concat (map (fun o => evals_instance K V1 (pevals (oco o) (pko o) nw) (lkproof (oco o) (pko o))) ops).
    Lemma agg_fold (ops : list op) : (forall o, In o ops -> op_ok o) -> forall ps vb uvb,
      exists L vb' uvb', fold_res (fun st (o : op) => let '(ps, vb, uvb) := st in
                   let* x := agg_instance K V1 V2 v vb uvb (map Cm (ws (oco o))) (Cm (or_z K (oco o))) (lkproof (oco o) (pko o)) (vko o) in
                   Ok (ps ++ fst (fst x), snd (fst x), snd x)) ops (ps, vb, uvb) = Ok (ps ++ L, vb', uvb')
        /\ smsm L = vmul (vb * peval (vals (OP ops) b) v + uvb * peval (vals (SP ops) b) v) gg
        /\ length (EVS ops) = length L
        /\ dot (EVS ops) (map fst L) = vb * peval (vals (OP ops) ze) v + uvb * peval (vals (SP ops) (ze * g)) v.
    Proof.
      intro H. induction ops as [|o ops IH]; intros ps vb uvb.
      - exists [], vb, uvb. split; [cbn; now rewrite app_nil_r|]. split; [|split; [reflexivity|]].
        + cbn. replace (vb * 0 + uvb * 0) with (0 : K) by ring. now rewrite vmul_0_l.
        + cbn. ring.
      - pose proof (H o (or_introl eq_refl)) as Ho.
        destruct (agg_ok nw (oco o) (pko o) vb uvb (oo_shape _ Ho) (oo_comms _ Ho)) as (L & E & S & Ln' & D).
        destruct (IH ltac:(intros; apply H; now right) (ps ++ L) (vb * fpow v (length (open_l nw (oco o) (pko o)))) (uvb * fpow v (length (shift_l (oco o) (pko o)))))
          as (L' & vb' & uvb' & E' & S' & Ln'' & D').
        exists (L ++ L'), vb', uvb'. split; [|split; [|split]].
        + cbn [fold_res]. rewrite E. cbn [bind fst snd]. rewrite E'. now rewrite app_assoc.
        + unfold OP, SP. cbn [map concat]. rewrite map_app, vsum_app, S, S', !vals_app, !peval_app, !length_vals. fold (OP ops) (SP ops). vring.
        + unfold EVS. cbn [map concat]. rewrite !app_length, Ln'. fold (EVS ops). now rewrite Ln''.
        + unfold EVS. cbn [map concat]. rewrite map_app, dot_app by (now rewrite map_length). fold (EVS ops). rewrite D, D'.
          unfold OP, SP. cbn [map concat]. rewrite !vals_app, !peval_app, !length_vals. fold (OP ops) (SP ops). ring.
    Qed.

    Lemma evs_eq (ops : list op) : concat (map (fun x => evals_instance K V1 (fst x) (snd x))
        (combine (map (fun o => pevals (oco o) (pko o) nw) ops) (map (fun o => lkproof (oco o) (pko o)) ops))) = EVS ops.
    Proof. unfold EVS. induction ops as [|o ops IH]; [reflexivity|]. cbn [map combine concat]. now rewrite IH. Qed.

    Notation T := (transcript K V1 V2).
    Theorem prepare_ok (T : T) (wl : list (op * K)) qs W W' extra A : (2 <= n)%nat -> wl <> [] ->
      (forall oa, In oa wl -> op_ok (fst oa)) -> qs <> [] ->
      A = (if (nw =? 6)%nat then al * al * al * (al * al * (al * al)) else al * al * al) ->
      map snd wl = alpha_bases_from K 1 A (length wl) ->
      compute_challenges K V1 V2 T (map (fun o => vko o) (map fst wl)) (map snd (map fst wl)) (bp_of (map fst wl) qs W W') extra = Ok ch5 ->
      exists m, prepare_pcs_info K V1 V2 T d (map (fun o => vko o) (map fst wl)) (map snd (map fst wl)) (bp_of (map fst wl) qs W W') extra
        = Ok (mk_info K V1 u ze (ze * g)
               (v * peval (vals (OP (map fst wl)) ze) v + u * peval (vals (SP (map fst wl)) (ze * g)) v - wsum (fun o => const_at (oco o) (pko o) nw) wl) m W W')
        /\ sb_msm K V1 m = vmul (wsum (fun o => lin_at (oco o) (pko o) nw b) wl - vanish_at K d 1 ze * peval (vals qs b) zn2
             + v * peval (vals (OP (map fst wl)) b) v + u * peval (vals (SP (map fst wl)) b) v) gg.
    Proof.
      intros Hn Hwl H Hq HA Hb Hch.
      destruct (lin_scalars_ok wl qs W W' H Hq) as (m & Em & Sm).
      assert (H' : forall o, In o (map fst wl) -> op_ok o) by (intros o Ho; apply in_map_iff in Ho as (oa & <- & Ho); auto).
      destruct (agg_fold (map fst wl) H' [] v u) as (L & vb' & uvb' & EL & SL & LL & DL).
      unfold prepare_pcs_info. rewrite Hch.
      unfold bp_len. replace (bp_perms K V1 (bp_of (map fst wl) qs W W')) with (map (fun o : op => Cm (or_z K (oco o))) (map fst wl)) by reflexivity.
      rewrite !map_length, !Nat.eqb_refl. replace (length wl =? 0)%nat with false by (destruct wl; [congruence|reflexivity]). cbn [negb orb].
      assert (EC : combine (map snd (map fst wl)) (map (fun o : op => vko o) (map fst wl)) = map (fun oa : op * K => (snd (fst oa), vko (fst oa))) wl).
      { clear. induction wl as [|[o a] wl IH]; cbn; congruence. }
      rewrite EC.
      rewrite (map_res_seq_map _ (fun oa : op * K => (snd (fst oa), vko (fst oa))) (fun _ : op * K => Ok tt)).
      2:{ intros i oa Hi. cbn [Nat.add]. unfold check_vk. pose proof (H oa (nth_error_In _ _ Hi)) as Ho.
          rewrite (oo_inputs _ Ho), Nat.eqb_refl. cbn [guard bind].
          assert (EI : @index perr _ (bp_plookups K V1 (bp_of (map fst wl) qs W W')) i = Ok (lkproof (oco (fst oa)) (pko (fst oa)))).
          { unfold bp_of. cbn [bp_plookups]. exact (index_map _ _ i _ (map_nth_error fst i wl Hi)). }
          rewrite EI. cbn [bind]. rewrite (vc_lk _ _ _ _ _ _ (oo_comms _ Ho)), (sh_n _ _ _ _ _ _ _ (oo_shape _ Ho)), Nat.eqb_refl.
          unfold lkproof. destruct (lkp (pko (fst oa))); reflexivity. }
      rewrite (map_res_map (fun _ : op * K => Ok tt) (fun _ => tt)) by reflexivity. cbn [bind].
      destruct wl as [|[o0 a0] wl']; [congruence|]. cbn [map index nth_error bind fst snd length] in *.
      rewrite Nat.sub_succ, Nat.sub_0_r.
      pose proof (H (o0, a0) (or_introl eq_refl)) as Ho0. cbn [fst] in Ho0.
      cbn [ch5 ch_alpha ch_zeta ch_u].
      assert (EB : 1 :: alpha_bases_from K (if is_some (vk_plookup K V1 V2 (vko o0)) then al * al * al * (al * al * (al * al)) else al * al * al)
                          (if is_some (vk_plookup K V1 V2 (vko o0)) then al * al * al * (al * al * (al * al)) else al * al * al) (length wl') = a0 :: map snd wl').
      { assert (EA : (if is_some (vk_plookup K V1 V2 (vko o0)) then al * al * al * (al * al * (al * al)) else al * al * al) = A).
        { rewrite HA, (vc_lk _ _ _ _ _ _ (oo_comms _ Ho0)), (sh_nw _ _ _ _ _ _ _ (oo_shape _ Ho0)). destruct (lkp (pko o0)); reflexivity. }
        rewrite EA, Hb. cbn [alpha_bases_from]. replace (1 * A) with A by ring. reflexivity. }
      rewrite EB. rewrite (first_last_coeffs K d Hd 1 (f1_neq_0 K) ze Hn). cbn [bind fst snd].
      pose proof (const_ok ((o0, a0) :: wl') qs W W' H) as EK. cbn [map fst snd] in EK. unfold L1, Ln in *. rewrite EK. cbn [bind].
      unfold aggregate_poly_commitments. unfold bp_len. cbn [bp_of bp_perms map length]. rewrite !map_length, Nat.eqb_refl. cbn [negb].
      rewrite Em. cbn [bind].
      pose proof (fold_res_seq (fun st iv => let '(ps, vb, uvb) := st in let '(i, vk) := iv in
                   let* wcs := index (bp_wires K V1 (bp_of (o0 :: map fst wl') qs W W')) i in
                   let* zc := index (bp_perms K V1 (bp_of (o0 :: map fst wl') qs W W')) i in
                   let* lk := index (bp_plookups K V1 (bp_of (o0 :: map fst wl') qs W W')) i in
                   let* x := agg_instance K V1 V2 v vb uvb wcs zc lk vk in
                   Ok (ps ++ fst (fst x), snd (fst x), snd x)) (fun o : op => vko o) (fun st (o : op) => let '(ps, vb, uvb) := st in
                   let* x := agg_instance K V1 V2 v vb uvb (map Cm (ws (oco o))) (Cm (or_z K (oco o))) (lkproof (oco o) (pko o)) (vko o) in
                   Ok (ps ++ fst (fst x), snd (fst x), snd x)) (o0 :: map fst wl') 0 ([], v, u)) as EF.
      assert (HF : fold_res (fun st iv => let '(ps, vb, uvb) := st in let '(i, vk) := iv in
                   let* wcs := index (bp_wires K V1 (bp_of (o0 :: map fst wl') qs W W')) i in
                   let* zc := index (bp_perms K V1 (bp_of (o0 :: map fst wl') qs W W')) i in
                   let* lk := index (bp_plookups K V1 (bp_of (o0 :: map fst wl') qs W W')) i in
                   let* x := agg_instance K V1 V2 v vb uvb wcs zc lk vk in
                   Ok (ps ++ fst (fst x), snd (fst x), snd x)) (combine (seq 0 (length (o0 :: map fst wl'))) (map (fun o : op => vko o) (o0 :: map fst wl'))) ([], v, u) = Ok (L, vb', uvb')).
      { rewrite EF; [exact EL|]. intros [[ps vb] uvb] i o Hi. cbn [Nat.add]. unfold bp_of. cbn [bp_wires bp_perms bp_plookups].
        rewrite (index_map _ _ i _ Hi). cbn [bind]. rewrite (index_map _ _ i _ Hi). cbn [bind].
        rewrite (index_map _ _ i _ Hi). cbn [bind]. reflexivity. }
      cbn [map length] in HF. rewrite map_length in HF. cbn [ch_v ch_u]. unfold bp_of in HF. cbn [bp_wires bp_perms bp_plookups map] in HF.
      cbn [bp_wires bp_perms bp_plookups bp_evals].
      match goal with |- context [@fold_res ?X ?A ?B ?f ?l ?s] => replace (@fold_res X A B f l s) with (@Ok perr _ (L, vb', uvb')) by (symmetry; exact HF) end.
      cbn [bind fst snd].
      unfold aggregate_evaluations.
      pose proof (evs_eq (o0 :: map fst wl')) as EE. cbv zeta.
      match goal with |- context [@concat ?A ?l] => replace (@concat A l) with (EVS (o0 :: map fst wl')) by (symmetry; exact EE) end.
      cbn [bp_of bp_evals bp_plookups map length]. rewrite !map_length, Nat.eqb_refl. cbn [assert_p bind].
      rewrite LL, Nat.eqb_refl. cbn [guard bind].
      eexists. split; [f_equal; f_equal|].
      - rewrite (fold_add K (fun eb : K * K => fst eb * snd eb)). fold (dot (EVS (o0 :: map fst wl')) (map fst L)). rewrite DL. ring.
      - rewrite sb_pushes_msm, Sm, SL. vring.
    Qed.
  End Comm.
End Open.
