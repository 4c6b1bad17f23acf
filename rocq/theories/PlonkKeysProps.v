(** C85: preprocessing depends on the length of the reference string only, and arguments
    whose numbers do not fit are reported as errors by the prover and the verifiers. *)
From Coq Require Import String List Arith ZArith Lia Bool.
From Verif Require Import Base ListAux Alg Poly VRing KzgModel KzgProofs KzgFft CircuitModel CircuitProofs SatProofs SatGadget BuiltProofs FinalModel FinalProofs FinalizeProofs PermProofs
  CosetProofs FinalProps PlonkModel LagrangeProofs PlonkPoly PlonkLin PlonkVanish PlonkRounds PlonkProps PlonkCases.
Import ListNotations.

Lemma map_res_in {X A B} (f : A -> outcome X B) l : (forall a, In a l -> exists b, f a = Ok b) -> exists r, map_res f l = Ok r /\ length r = length l.
Proof.
  induction l as [|a l IH]; intro H; [exists []; split; reflexivity|]. destruct (H a) as [b Hb]; [now left|].
  destruct IH as (r & Hr & Lr); [intros; apply H; now right|]. exists (b :: r). cbn [map_res]. rewrite Hb. cbn [bind]. rewrite Hr. cbn [bind length]. auto.
Qed.

Section Keys.
  Variable K : fld.
  Local Open Scope fld_scope.
  Variables V1 V2 VT : vsp K.
  Variable e : pairing K V1 V2 VT.
  Variable T : transcript K V1 V2.
  Variable ta : nat.
  Variable root fgen : K.
  Variable coset_rnd : list K.
  Hypothesis Hroot : root_ok K ta root.
  Notation circuit := (circuit K).
  Notation preprocess := (preprocess K V1 V2 ta root coset_rnd).
  Notation coset_ks := (coset_ks K coset_rnd).

  Lemma commit_norm (ck : list V1) (p : list K) : pnorm K p = p -> (length p <= length ck)%nat -> exists x, commit K V1 ck p = Ok x.
  Proof.
    intros Hn Hl. unfold commit. rewrite degree_norm by exact Hn. cbn [bind].
    destruct (Nat.ltb_spec (length ck) (length p - 1)); [lia|]. unfold msm_poly, slice_from.
    pose proof (lz_le K p). destruct (Nat.ltb_spec (length ck) (num_leading_zeros K p)); [lia|]. cbn [bind]. eauto.
  Qed.
  Lemma length_ext_id (ks : list K) om n : length (ext_id K ks om n) = (length ks * n)%nat.
  Proof.
    unfold ext_id. induction ks as [|k ks IH]; [reflexivity|]. cbn [map concat length]. rewrite app_length, map_length, seq_length, IH. lia.
  Qed.

  (** Everything preprocessing needs of a circuit. *)
  Section One.
    Variables (d : dom K) (c : circuit) (ks : list K).
    Hypothesis Hd : dom_ok K d.
    Hypothesis Ec : eval_domain K ta root c = Ok d.
    Hypothesis Hdc : dsize d = domain c.
    Hypothesis Hgates : length (gates c) = domain c.
    Hypothesis Hperm : perm_encodes c (wire_perm c).
    Hypothesis Hlen : length (wire_perm c) = (num_wire_types c * domain c)%nat.
    Hypothesis Hks : coset_ks (num_wire_types c) (domain c) = Ok ks.
    Hypothesis Lks : length ks = num_wire_types c.
    Hypothesis Hrange : forall b, ptype c = Ultra b -> (2 ^ b <= domain c)%nat.
    Notation n := (domain c).

    Lemma selectors_run : exists ps, compute_selector_polynomials K ta root c = Ok ps /\ forall p, In p ps -> pnorm K p = p /\ (length p <= n)%nat.
    Proof.
      unfold compute_selector_polynomials. rewrite Ec. cbn [bind]. unfold num_gates. rewrite Hgates, Hdc, Nat.leb_refl. cbn [guard bind].
      eexists. split; [reflexivity|]. intros p Hp. apply in_map_iff in Hp as (l & <- & _). rewrite <- Hdc. split; [apply ipoly_norm|now apply length_ipoly].
    Qed.
    Lemma sigmas_run : exists ps, compute_extended_permutation_polynomials K ta root coset_rnd c = Ok ps
      /\ forall p, In p ps -> pnorm K p = p /\ (length p <= n)%nat.
    Proof.
      unfold compute_extended_permutation_polynomials. rewrite Ec. cbn [bind]. unfold ext_ids. rewrite Hdc, Hks. cbn [bind].
      unfold compute_extended_permutation.
      destruct (map_res_in (fun s : nat * nat => if (num_wire_types c <=? fst s)%nat then Ok 0
          else index (ext_id K ks (dgen d) n) (fst s * n + snd s)%nat : outcome perr K) (wire_perm c)) as (l & El & Ll).
      { intros s Hs. apply In_nth with (d := (0, 0)%nat) in Hs as (k & Hk & Es).
        assert (Hn : (0 < n)%nat) by (destruct n; [rewrite Hlen in Hk; lia|lia]).
        pose proof (pe_slot _ _ Hperm (k / n, k mod n)%nat) as Hslot. unfold is_slot, sigma, enc in Hslot. cbn [fst snd] in Hslot.
        replace (k / n * n + k mod n)%nat with k in Hslot by (rewrite Nat.mul_comm; apply Nat.div_mod; lia).
        rewrite Es in Hslot. destruct Hslot as [Hf Hs].
        { split; [apply Nat.div_lt_upper_bound; [lia|rewrite Nat.mul_comm, <- Hlen; exact Hk]|apply Nat.mod_upper_bound; lia]. }
        destruct (Nat.leb_spec (num_wire_types c) (fst s)); [lia|]. unfold index.
        destruct (nth_error (ext_id K ks (dgen d) n) (fst s * n + snd s)) eqn:E; [eauto|]. apply nth_error_None in E. rewrite length_ext_id, Lks in E.
        exfalso. assert ((fst s + 1) * n <= num_wire_types c * n)%nat by (apply Nat.mul_le_mono_r; lia). lia. }
      rewrite El. cbn [bind]. rewrite Ll, Hlen, Nat.eqb_refl. cbn [guard bind].
      destruct (map_res_in (fun i => let* s := slice l (i * n) ((i + 1) * n) in Ok (ipoly K d s) : outcome perr (list K)) (seq 0 (num_wire_types c))) as (ps & Eps & _).
      { intros i Hi. apply in_seq in Hi. unfold slice. assert ((i + 1) * n <= length l)%nat by (rewrite Ll, Hlen; apply Nat.mul_le_mono_r; lia).
        destruct (Nat.ltb_spec ((i + 1) * n) (i * n)); [lia|]. destruct (Nat.ltb_spec (length l) ((i + 1) * n)); [lia|]. cbn [orb bind]. eauto. }
      rewrite Eps. eexists. split; [reflexivity|]. intros p Hp. apply In_nth with (d := []) in Hp as (k & Hk & <-).
      apply (map_res_seq _ _ _ []) in Eps as [Lps Nps]. specialize (Nps k ltac:(lia)). apply bind_ok in Nps as (s & _ & E). apply Ok_inj in E. rewrite <- E, <- Hdc.
      split; [apply ipoly_norm|now apply length_ipoly].
    Qed.
    Lemma gate_column_run f : support_lookup c = true -> exists p, compute_gate_column_polynomial K ta root f c = Ok p /\ pnorm K p = p /\ (length p <= n)%nat.
    Proof.
      intro Hs. unfold compute_gate_column_polynomial. rewrite Hs, Ec. cbn [guard bind]. eexists. split; [reflexivity|]. rewrite <- Hdc.
      split; [apply ipoly_norm|now apply length_ipoly].
    Qed.
    Lemma range_run : support_lookup c = true -> is_finalized c = true -> exists p, compute_range_table_polynomial K ta root c = Ok p /\ pnorm K p = p /\ (length p <= n)%nat.
    Proof.
      intros Hs Hf. unfold compute_range_table_polynomial, range_table. rewrite Hf. unfold support_lookup in Hs. destruct (ptype c) as [|b] eqn:Et; [discriminate|].
      specialize (Hrange b eq_refl). cbn [negb]. destruct (Nat.ltb_spec n (2 ^ b)); [lia|]. cbn [lift_c bind]. rewrite Ec. cbn [bind]. eexists. split; [reflexivity|].
      rewrite <- Hdc. split; [apply ipoly_norm|now apply length_ipoly].
    Qed.

    Lemma preprocess_run (s : srs K V1 V2) : is_finalized c = true -> (2 <= length (powers_of_h s))%nat ->
      (n + 3 <= length (powers_of_g s))%nat ->
      exists pk vk, preprocess s c = Ok (pk, vk) /\ vk = pk_vk K V1 V2 pk /\ vk_n K V1 V2 vk = n /\ vk_inputs K V1 V2 vk = num_inputs c
        /\ pk_ck K V1 V2 pk = firstn (n + 3) (powers_of_g s).
    Proof.
      intros Hf Hh Hg. unfold PlonkModel.preprocess. rewrite Ec. cbn [bind]. rewrite Hdc. unfold max_degree.
      destruct (Nat.ltb_spec (length (powers_of_g s)) (n + 2)); [lia|].
      destruct selectors_run as (sels & -> & Bsel). destruct sigmas_run as (sigs & -> & Bsig). cbn [bind].
      assert (Hlp : exists lp, (if support_lookup c
                  then
                    let* rt := compute_range_table_polynomial K ta root c in
                    let* kt := compute_gate_column_polynomial K ta root (@table_key K) c in
                    let* tds := compute_gate_column_polynomial K ta root (@table_dom_sep K) c in
                    let* qds := compute_gate_column_polynomial K ta root (@q_dom_sep K) c in
                    Ok (Some (mk_plookup_pk K rt kt tds qds))
                  else Ok None) = Ok lp /\ match lp with None => True | Some lp => forall p, In p [lp_range K lp; lp_key K lp; lp_table_dom_sep K lp; lp_q_dom_sep K lp] ->
                    pnorm K p = p /\ (length p <= n)%nat end).
      { destruct (support_lookup c) eqn:Hs; [|exists None; auto].
        destruct (range_run Hs Hf) as (p1 & -> & ?). destruct (gate_column_run (@table_key K) Hs) as (p2 & -> & ?).
        destruct (gate_column_run (@table_dom_sep K) Hs) as (p3 & -> & ?). destruct (gate_column_run (@q_dom_sep K) Hs) as (p4 & -> & ?). cbn [bind].
        eexists. split; [reflexivity|]. cbn [lp_range lp_key lp_table_dom_sep lp_q_dom_sep]. intros p [<-|[<-|[<-|[<-|[]]]]]; auto. }
      destruct Hlp as (lp & -> & Blp). cbn [bind].
      unfold trim_srs, trim_with_verifier_degree. destruct (Nat.leb_spec (length (powers_of_g s)) (n + 2)); [lia|].
      destruct (Nat.leb_spec (length (powers_of_h s)) 1); [lia|]. cbn [Nat.eqb].
      unfold slice_incl. destruct (Nat.ltb_spec (length (powers_of_g s)) (n + 2 + 1)); [lia|]. cbn [bind].
      destruct (powers_of_g s) as [|g0 gs] eqn:Eg; [cbn in Hg; lia|]. rewrite <- Eg in *. replace (index (powers_of_g s) 0) with (Ok g0 : pres V1) by (rewrite Eg; reflexivity). cbn [bind].
      destruct (Nat.ltb_spec (length (powers_of_h s)) (1 + 1)); [lia|]. cbn [bind].
      destruct (Nat.ltb_spec (length (powers_of_g s)) (1 + 1)); [lia|]. cbn [bind lift_pcs fst snd].
      replace (n + 2 + 1)%nat with (n + 3)%nat by lia.
      set (ck := firstn (n + 3) (powers_of_g s)).
      assert (Lck : length ck = (n + 3)%nat) by (unfold ck; rewrite firstn_length; lia).
      assert (Hc : forall p, pnorm K p = p /\ (length p <= n)%nat -> exists x, commit K V1 ck p = Ok x) by (intros p [Hp Hl]; apply commit_norm; [auto|lia]).
      unfold batch_commit. destruct (map_res_in (commit K V1 ck) sels) as (sc & -> & _); [intros; apply Hc, Bsel; auto|].
      destruct (map_res_in (commit K V1 ck) sigs) as (gc & -> & _); [intros; apply Hc, Bsig; auto|]. cbn [lift_pcs bind].
      destruct lp as [lp|].
      - destruct (Hc _ (Blp (lp_range K lp) (or_introl eq_refl))) as [x1 ->]. destruct (Hc _ (Blp (lp_key K lp) (or_intror (or_introl eq_refl)))) as [x2 ->].
        destruct (Hc _ (Blp (lp_table_dom_sep K lp) (or_intror (or_intror (or_introl eq_refl))))) as [x3 ->].
        destruct (Hc _ (Blp (lp_q_dom_sep K lp) (or_intror (or_intror (or_intror (or_introl eq_refl)))))) as [x4 ->]. cbn [lift_pcs bind].
        rewrite Hks. cbn [bind]. do 2 eexists. split; [reflexivity|]. repeat split.
      - cbn [bind]. rewrite Hks. cbn [bind]. do 2 eexists. split; [reflexivity|]. repeat split.
    Qed.
  End One.

  (** A circuit finalized through the public operations. *)
  Lemma finalized_run (c c' : circuit) tabs ks : reached c tabs -> tables_clear c -> finalize_for_arithmetization K ta c = (Ok tt, c') ->
    coset_ks (num_wire_types c') (domain c') = Ok ks ->
    exists d, eval_domain K ta root c' = Ok d /\ dom_ok K d /\ dsize d = domain c' /\ length (gates c') = domain c' /\ perm_encodes c' (wire_perm c')
      /\ length (wire_perm c') = (num_wire_types c' * domain c')%nat /\ length ks = num_wire_types c'
      /\ (forall b, ptype c' = Ultra b -> (2 ^ b <= domain c')%nat) /\ is_finalized c' = true.
  Proof.
    intros R TC E Hk. pose proof (reached_inv _ _ R) as (B & _). destruct (finalized_encodes ta c c' tabs R TC E) as [Hperm Hcols].
    destruct (radix2_size ta (slots_needed K c)) as [n0|] eqn:Er.
    2:{ exfalso. unfold finalize_for_arithmetization, is_finalized in E.
        rewrite (wf_open _ (gd_wf _ (bt_good _ B))) in E. cbn [Nat.eqb negb] in E. rewrite Er in E. discriminate. }
    destruct (finalize_ok ta c n0 B TC Er) as (c2 & E2 & F & D). rewrite E in E2. inversion E2; subst c2. clear E2.
    destruct (ff_dom _ _ _ F) as (l & El & Hl).
    assert (Hfin : is_finalized c' = true). { unfold is_finalized. pose proof (ff_dom2 _ _ _ F). destruct (domain c') as [|[|k]]; [lia|lia|reflexivity]. }
    assert (Hd : exists d, radix2_new K ta root (domain c') = Some d).
    { rewrite El. unfold radix2_new. rewrite Nat.log2_up_pow2 by lia. destruct (Nat.leb_spec l ta); [eauto|lia]. }
    destruct Hd as [d Hd]. exists d. split; [unfold eval_domain; rewrite Hfin, Hd; reflexivity|]. split; [eapply radix2_ok; eauto|].
    split; [rewrite El in Hd |- *; eapply radix2_pow2; eauto|]. split; [apply (ff_gates _ _ _ F)|]. split; [exact Hperm|].
    split. { destruct (wire_permutation_spec c' Hcols) as (p & Ep & Lp & _). rewrite (ff_perm _ _ _ F) in Ep. apply Ok_inj in Ep. now rewrite Ep. }
    split.
    { unfold PlonkModel.coset_ks in Hk. destruct (compute_coset_representatives _ _ _ _) as [r|] eqn:Ec; [|discriminate]. apply lift_c_ok in Hk. subst r.
      apply coset_representatives_spec in Ec; [apply Ec|]. pose proof (ff_dom2 _ _ _ F). lia. }
    split; [|exact Hfin]. intros b Hb. rewrite (ff_type _ _ _ F) in Hb. pose proof (ff_slots _ _ _ F) as Hs. unfold slots_needed in Hs. rewrite Hb in Hs. lia.
  Qed.

  (** ** Preprocessing a finalized circuit *)

  (** A reference string with three powers more than the domain has elements is enough. *)
  Theorem C85_preprocess_succeeds (s : srs K V1 V2) (c c' : circuit) tabs ks : reached c tabs -> tables_clear c ->
    finalize_for_arithmetization K ta c = (Ok tt, c') -> coset_ks (num_wire_types c') (domain c') = Ok ks ->
    (2 <= length (powers_of_h s))%nat -> (domain c' + 3 <= length (powers_of_g s))%nat ->
    exists pk vk, preprocess s c' = Ok (pk, vk) /\ vk = pk_vk K V1 V2 pk /\ vk_n K V1 V2 vk = domain c' /\ vk_inputs K V1 V2 vk = num_inputs c'
      /\ pk_ck K V1 V2 pk = firstn (domain c' + 3) (powers_of_g s).
  Proof.
    intros R TC E Hk Hh Hg. destruct (finalized_run c c' tabs ks R TC E Hk) as (d & Ed & Hok & Hn & Hgt & Hp & Hl & Lk & Hr & Hf).
    exact (preprocess_run d c' ks Hok Ed Hn Hgt Hp Hl Hk Lk Hr s Hf Hh Hg).
  Qed.

  (** With fewer than two powers more, the index is reported as too large. *)
  Theorem C85_preprocess_too_short (s : srs K V1 V2) (c c' : circuit) tabs ks : reached c tabs -> tables_clear c ->
    finalize_for_arithmetization K ta c = (Ok tt, c') -> coset_ks (num_wire_types c') (domain c') = Ok ks ->
    (length (powers_of_g s) < domain c' + 2)%nat -> preprocess s c' = Err IndexTooLarge.
  Proof.
    intros R TC E Hk Hg. destruct (finalized_run c c' tabs ks R TC E Hk) as (d & Ed & _ & Hn & _).
    unfold PlonkModel.preprocess. rewrite Ed. cbn [bind]. rewrite Hn. unfold max_degree.
    destruct (Nat.ltb_spec (length (powers_of_g s)) (domain c' + 2)); [reflexivity|lia].
  Qed.

  (** With exactly two powers more the string is too short as well, but the check lets it
      pass and the error comes from the commitment scheme. *)
  Theorem C85_preprocess_boundary (s : srs K V1 V2) (c c' : circuit) tabs ks : reached c tabs -> tables_clear c ->
    finalize_for_arithmetization K ta c = (Ok tt, c') -> coset_ks (num_wire_types c') (domain c') = Ok ks ->
    length (powers_of_g s) = (domain c' + 2)%nat -> preprocess s c' = Err (PcsErr InvalidParameters).
  Proof.
    intros R TC E Hk Hg. destruct (finalized_run c c' tabs ks R TC E Hk) as (d & Ed & Hok & Hn & Hgt & Hp & Hl & Lk & Hr & Hf).
    unfold PlonkModel.preprocess. rewrite Ed. cbn [bind]. rewrite Hn. unfold max_degree. rewrite Hg.
    destruct (Nat.ltb_spec (domain c' + 2) (domain c' + 2)); [lia|].
    destruct (selectors_run d c' Hok Ed Hn Hgt) as (sels & -> & _). destruct (sigmas_run d c' ks Hok Ed Hn Hgt Hp Hl Hk Lk Hr) as (sigs & -> & _). cbn [bind].
    match goal with |- bind ?x _ = _ => assert (Hx : exists lp, x = Ok lp) end.
    { destruct (support_lookup c') eqn:Hs; [|eauto].
      assert (HR : exists p, compute_range_table_polynomial K ta root c' = Ok p) by (edestruct (range_run d c') as (p & Ep & _); eauto). destruct HR as [p1 ->]. assert (HC : forall f, exists p, compute_gate_column_polynomial K ta root f c' = Ok p) by (intro f; edestruct (gate_column_run d c') as (p & Ep & _); eauto). destruct (HC (@table_key K)) as [p2 ->].
      destruct (HC (@table_dom_sep K)) as [p3 ->]. destruct (HC (@q_dom_sep K)) as [p4 ->]. cbn [bind]. eauto. }
    destruct Hx as [lp ->]. cbn [bind]. unfold trim_srs, trim_with_verifier_degree. rewrite Hg, Nat.leb_refl.
    destruct (Nat.eqb_spec (domain c' + 2) 0); [lia|]. reflexivity.
  Qed.

  (** A circuit that is not finalized has no keys. *)
  Theorem C85_preprocess_open (s : srs K V1 V2) (c : circuit) : is_finalized c = false -> preprocess s c = Err (CircErr UnfinalizedCircuit).
  Proof. intro H. unfold PlonkModel.preprocess, eval_domain. now rewrite H. Qed.

  (** ** Arguments whose numbers do not fit *)
  Theorem C85_batch_verify_refuses vks pis ps extras :
    ~ (length vks = length ps /\ length pis = length ps /\ length extras = length ps /\ ps <> []) ->
    batch_verify K V1 V2 VT e T ta root vks pis ps extras = Err ParamError.
  Proof.
    intro H. unfold batch_verify.
    destruct (Nat.eqb_spec (length pis) (length ps)) as [E1|E1]; [|reflexivity].
    destruct (Nat.eqb_spec (length vks) (length ps)) as [E2|E2]; [|reflexivity].
    destruct (Nat.eqb_spec (length extras) (length ps)) as [E3|E3]; [|reflexivity]. cbn [negb orb].
    destruct vks as [|vk vks]; [reflexivity|]. exfalso. apply H. repeat split; auto. intros ->. discriminate.
  Qed.
  (** A batch proof speaks about as many instances as there are keys and public inputs. *)
  Theorem C85_batch_proof_refuses vks pis b d : (forall vk0, hd_error vks = Some vk0 -> verifier_new K ta root (vk_n K V1 V2 vk0) = Ok d) ->
    ~ (length vks = bp_len K V1 b /\ length pis = length vks /\ vks <> []) ->
    verify_batch_proof K V1 V2 VT e T ta root vks pis b = Err ParamError.
  Proof.
    intros Hd H. unfold verify_batch_proof. destruct vks as [|vk0 vks]; [reflexivity|]. rewrite (Hd vk0 eq_refl). cbn [bind].
    unfold prepare_pcs_info. destruct (Nat.eqb_spec (length (vk0 :: vks)) (bp_len K V1 b)) as [E1|]; [|reflexivity].
    destruct (Nat.eqb_spec (length (vk0 :: vks)) (length pis)) as [E2|]; [|reflexivity]. exfalso. apply H. repeat split; auto; discriminate.
  Qed.
  (** One key with the wrong number of public inputs is enough for a refusal before any
      challenge is drawn. *)
  Theorem C85_public_input_count vk pi p extra d : verifier_new K ta root (vk_n K V1 V2 vk) = Ok d ->
    length pi <> vk_inputs K V1 V2 vk -> verify_proof K V1 V2 VT e T ta root vk pi p extra = Err ParamError.
  Proof.
    intros Hd H. unfold verify_proof, batch_verify. cbn [length Nat.eqb negb orb combine map_res]. rewrite Hd. cbn [bind].
    unfold prepare_pcs_info, bp_len. cbn [batch_of_proof bp_wires bp_evals bp_perms length Nat.eqb negb orb combine seq map_res]. unfold check_vk.
    destruct (Nat.eqb_spec (length pi) (vk_inputs K V1 V2 vk)); [contradiction|]. reflexivity.
  Qed.
  (** A key with lookups does not accept a proof without a lookup part, nor the reverse. *)
  Theorem C85_lookup_part vk pi p extra d : verifier_new K ta root (vk_n K V1 V2 vk) = Ok d ->
    is_some (vk_plookup K V1 V2 vk) <> is_some (pf_plookup K V1 p) -> verify_proof K V1 V2 VT e T ta root vk pi p extra = Err ParamError.
  Proof.
    intros Hd H. unfold verify_proof, batch_verify. cbn [length Nat.eqb negb orb combine map_res]. rewrite Hd. cbn [bind].
    unfold prepare_pcs_info, bp_len. cbn [batch_of_proof bp_wires bp_evals bp_perms length Nat.eqb negb orb combine seq map_res]. unfold check_vk.
    destruct (Nat.eqb (length pi) (vk_inputs K V1 V2 vk)); [|reflexivity]. cbn [guard bind batch_of_proof bp_plookups index nth_error].
    destruct (Bool.eqb _ _) eqn:E; [apply Bool.eqb_prop in E; contradiction|]. reflexivity.
  Qed.
  (** The prover wants one key per circuit. *)
  Theorem C85_batch_prove_refuses rnd cs pks : ~ (length cs = length pks /\ cs <> []) ->
    batch_prove K V1 V2 T ta root fgen coset_rnd rnd cs pks = Err ParamError.
  Proof.
    intro H. unfold batch_prove, batch_prove_internal. destruct (Nat.eqb_spec (length cs) 0) as [E0|E0]; [reflexivity|].
    destruct (Nat.eqb_spec (length cs) (length pks)); [|reflexivity].
    exfalso. apply H. split; [assumption|]. intros ->. now apply E0.
  Qed.
  (** A key made for another domain size, another number of public inputs or another kind
      of circuit is refused by the prover. *)
  Theorem C85_prove_other_key rnd c pk extra d : eval_domain K ta root c = Ok d ->
    (vk_n K V1 V2 (pk_vk K V1 V2 pk) <> dsize d \/ vk_inputs K V1 V2 (pk_vk K V1 V2 pk) <> num_inputs c
     \/ is_some (pk_plookup K V1 V2 pk) <> support_lookup c) ->
    prove K V1 V2 T ta root fgen coset_rnd rnd c pk extra = Err ParamError.
  Proof.
    intros Hd H. unfold prove, batch_prove_internal. cbn [length Nat.eqb negb index nth_error bind]. rewrite Hd. cbn [bind combine map_res fst snd].
    unfold check_instance. rewrite Hd. cbn [bind]. rewrite Nat.eqb_refl. cbn [guard bind].
    destruct (Nat.eqb_spec (vk_n K V1 V2 (pk_vk K V1 V2 pk)) (dsize d)); [|reflexivity]. cbn [guard bind].
    destruct (Nat.eqb_spec (num_inputs c) (vk_inputs K V1 V2 (pk_vk K V1 V2 pk))); [|reflexivity]. cbn [guard bind].
    destruct (Bool.eqb _ _) eqn:E; [|reflexivity]. apply Bool.eqb_prop in E. exfalso. destruct H as [H|[H|H]]; congruence.
  Qed.
End Keys.

(** *** Instances: a circuit with lookups over four gates; a reference string with seven
    powers is long enough for it, one with six or five is not. *)
Definition srs_of (k : nat) := gen_srs F193 S193 S193 (e193 5) (e193 3) (e193 7) k 1.
Notation pre193 := (preprocess F193 S193 S193 6 g193 cr193).
Lemma lkc_hyps : (exists t, reached (lk193 5) t) /\ tables_clear (lk193 5) /\ finalize_for_arithmetization F193 6 (lk193 5) = (Ok tt, lkc)
  /\ (exists ks, coset_ks F193 cr193 (num_wire_types lkc) (domain lkc) = Ok ks) /\ domain lkc = 4%nat /\ num_inputs lkc = 1%nat.
Proof.
  split; [exact (lk193_reached 5)|]. split; [right; vm_compute; repeat constructor|]. split; [unfold lkc, fin193; apply ok_tt; vm_compute; reflexivity|].
  split; [|split; vm_compute; reflexivity].
  assert (E : isok (coset_ks F193 cr193 (num_wire_types lkc) (domain lkc)) = true) by (vm_compute; reflexivity).
  destruct (coset_ks F193 cr193 (num_wire_types lkc) (domain lkc)) as [ks| |]; try discriminate. eauto.
Qed.
Theorem C85_preprocess_instance :
  (exists pk vk, pre193 (srs_of 6) lkc = Ok (pk, vk) /\ vk_n _ _ _ vk = 4%nat /\ vk_inputs _ _ _ vk = 1%nat)
  /\ pre193 (srs_of 5) lkc = Err (PcsErr InvalidParameters) /\ pre193 (srs_of 4) lkc = Err IndexTooLarge
  /\ pre193 (srs_of 6) (lk193 5) = Err (CircErr UnfinalizedCircuit).
Proof.
  destruct lkc_hyps as ((t & R) & TC & E & (ks & Hk) & Hn & Hi). split; [|split; [|split]].
  - destruct (C85_preprocess_succeeds F193 S193 S193 6 g193 cr193 root193 (srs_of 6) (lk193 5) lkc t ks R TC E Hk) as (pk & vk & H & _ & H1 & H2 & _).
    + vm_compute. lia.
    + rewrite Hn. vm_compute. lia.
    + exists pk, vk. rewrite <- Hn, <- Hi. auto.
  - apply (C85_preprocess_boundary F193 S193 S193 6 g193 cr193 root193 (srs_of 5) (lk193 5) lkc t ks R TC E Hk). rewrite Hn. vm_compute. reflexivity.
  - apply (C85_preprocess_too_short F193 S193 S193 6 g193 cr193 root193 (srs_of 4) (lk193 5) lkc t ks R TC E Hk). rewrite Hn. vm_compute. lia.
  - apply C85_preprocess_open. vm_compute. reflexivity.
Qed.
(** A valid proof in a batch with a missing message, with a public input too many, and
    under the key of a circuit with lookups. *)
Theorem C85_refusals_instance :
  batch_verify F193 S193 S193 S193 e193p T193 6 g193 [sqvk 5] [[e193 49]] [sqp 5 1] [] = Err ParamError
  /\ verify193 (sqvk 5) [e193 49; e193 49] (sqp 5 1) None = Err ParamError
  /\ verify193 (vk193 5 lkc) [e193 5] (sqp 5 1) None = Err ParamError
  /\ verify193 (sqvk 5) [e193 49] (sqp 5 1) None = Ok tt
  /\ prove193 (rnd193 1) sqc (pk193 5 lkc) None = Err ParamError.
Proof.
  assert (Hd : exists d, verifier_new F193 6 g193 4 = Ok d) by (eexists; reflexivity). destruct Hd as [d Hd].
  assert (H1 : vk_n _ _ _ (sqvk 5) = 4%nat) by (vm_compute; reflexivity).
  assert (H2 : vk_n _ _ _ (vk193 5 lkc) = 4%nat) by (vm_compute; reflexivity).
  split; [|split; [|split; [|split]]].
  - apply C85_batch_verify_refuses. cbn [length]. intros (_ & _ & H & _). discriminate.
  - apply (C85_public_input_count F193 S193 S193 S193 e193p T193 6 g193 _ _ _ _ d); [now rewrite H1|]. vm_compute. discriminate.
  - apply (C85_lookup_part F193 S193 S193 S193 e193p T193 6 g193 _ _ _ _ d); [now rewrite H2|]. vm_compute. discriminate.
  - exact j1_ok.
  - assert (Hs : exists d', eval_domain F193 6 g193 sqc = Ok d') by (eexists; unfold eval_domain; reflexivity). destruct Hs as [d' Hs].
    apply (C85_prove_other_key F193 S193 S193 T193 6 g193 (e193 5) cr193 _ _ _ _ d' Hs). right. right. vm_compute. discriminate.
Qed.
Print Assumptions C85_preprocess_succeeds.
Print Assumptions C85_preprocess_boundary.
Print Assumptions C85_refusals_instance.
