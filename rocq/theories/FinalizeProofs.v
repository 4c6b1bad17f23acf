(** [finalize_for_arithmetization] as a whole. *)

From Coq Require Import List Arith ZArith Bool Lia Sorted Permutation.
From Verif Require Import Base ListAux Alg CircuitModel CircuitProofs GadgetProofs BitProofs RangeLookup SatProofs SatGadget
  FinalModel FinalProofs PermProofs.
Import ListNotations.

Lemma radix2_size_spec ta k n : radix2_size ta k = Some n -> 2 <= k ->
  k <= n /\ 2 <= n /\ exists l, n = 2 ^ l /\ l <= ta.
Proof.
  unfold radix2_size. destruct (Nat.leb_spec (Nat.log2_up k) ta); [|discriminate]. intros E Hk. inversion E; subst.
  pose proof (Nat.log2_up_spec k ltac:(lia)). split; [lia|]. split; [lia|]. eauto.
Qed.

Section Finalize.
  Context {K : fld}.
  Variable ta : nat.
  Variable zval : K -> Z.
  Variable p : Z.
  Variable nb L : nat.
  Hypothesis HF : pfield K zval p nb L.
  Implicit Types c : circuit K.

  Record finalized_from c c' : Prop := {
    ff_vars : num_vars c' = num_vars c;
    ff_wit : witness c' = witness c;
    ff_type : ptype c' = ptype c;
    ff_dom : exists l, domain c' = 2 ^ l /\ l <= ta;
    ff_dom2 : 2 <= domain c';
    ff_slots : slots_needed K c <= domain c';
    ff_gates : length (gates c') = domain c';
    ff_cols : columns_ok c';
    ff_pub : pub_ids c' = seq 0 (num_inputs c);
    ff_pub_rows : forall k id, nth_error (pub_ids c) k = Some id ->
        nth_error (gates c') k = nth_error (gates c) id /\ nth_error (rows c') k = nth_error (rows c) id;
    ff_has : forall g r, hasgr c' g r <->
        hasgr c g r \/ (length (gates c) < domain c' /\ g = padding_gate K /\ r = zero_row);
    ff_range : range_col c' = match ptype c with Turbo => range_col c | Ultra _ => vresize (domain c') 0%nat (range_col c) end;
    ff_gperm : Permutation (gates c') (gates c ++ repeat (padding_gate K) (domain c' - length (gates c)));
    ff_perm : compute_wire_permutation K c' = Ok (wire_perm c') }.

  Lemma slots_ge c : length (gates c) <= slots_needed K c.
  Proof. unfold slots_needed, num_gates. destruct (ptype c); lia. Qed.

  Lemma vresize_Forall {A} (P : A -> Prop) n d l : Forall P l -> P d -> Forall P (vresize n d l).
  Proof.
    intros H Hd. unfold vresize. apply Forall_forall. intros x Hx.
    assert (Hin : In x (l ++ repeat d (n - length l))).
    { rewrite <- (firstn_skipn n (l ++ repeat d (n - length l))). apply in_or_app; auto. }
    apply in_app_or in Hin as [Hin|Hin].
    - rewrite Forall_forall in H; auto.
    - apply repeat_spec in Hin. now subst.
  Qed.

  Theorem finalize_ok c n : built c -> tables_clear c -> radix2_size ta (slots_needed K c) = Some n ->
    exists c', finalize_for_arithmetization K ta c = (Ok tt, c') /\ finalized_from c c' /\ domain c' = n.
  Proof.
    intros B T R. pose proof (bt_good _ B) as G. pose proof (gd_wf _ G) as W. pose proof (gd_bd _ G) as Bd.
    assert (H2 : 2 <= length (gates c)).
    { assert (1 < length (gates c)) by (apply nth_error_Some; rewrite (gd_g1 _ G); discriminate). lia. }
    pose proof (slots_ge c) as Hs.
    destruct (radix2_size_spec _ _ _ R ltac:(lia)) as (Hn & Hn2 & l & El & Hl).
    unfold finalize_for_arithmetization, is_finalized at 1. rewrite (wf_open _ W). cbn [Nat.eqb negb].
    rewrite R. unfold is_finalized; cbn [domain set_domain].
    destruct (Nat.eqb_spec n 1); [lia|]. cbn [negb].
    destruct (pad_rearrange_ok c n B T ltac:(lia) Hn2) as (c2 & E & E1 & E2 & E3 & E4 & E5 & E6 & E7 & E8 & E9 & E10 & E11).
    { intros b Eb. unfold slots_needed in Hn. rewrite Eb in Hn. lia. }
    rewrite E.
    assert (Hcol : columns_ok c2).
    { split.
      - lia.
      - lia.
      - intros b Eb. rewrite E5. rewrite E3 in Eb. rewrite Eb, vresize_length. auto.
      - apply Forall_forall. intros r Hr. apply In_nth_error in Hr as [j Hj].
        destruct (nth_error (gates c2) j) as [g|] eqn:Eg.
        + destruct (proj1 (E9 g r) (ex_intro _ j (conj Eg Hj))) as [(j' & _ & A)|(_ & _ & ->)].
          * rewrite E1. eapply bd_row_lt; eauto.
          * rewrite E1. pose proof (wf_two _ W). unfold row_lt; cbn. lia.
        + apply nth_error_None in Eg. assert (j < length (rows c2)) by (apply nth_error_Some; congruence). lia.
      - intros b Eb. rewrite E5, E1. rewrite E3 in Eb. rewrite Eb. apply vresize_Forall; [apply (bd_range _ Bd)|].
        pose proof (wf_two _ W). lia. }
    destruct (wire_permutation_spec c2 Hcol) as (P & EP & _). rewrite EP.
    eexists; split; [reflexivity|]. split; [|exact E4].
    split; cbn [set_perm num_vars witness ptype domain gates rows pub_ids range_col wire_perm]; auto; try congruence.
    all: try (rewrite E4; eauto; fail).
    all: try (rewrite E4; lia).
    destruct Hcol. split; auto.
  Qed.

  Lemma finalized_bounded c c' : built c -> finalized_from c c' -> bounded c'.
  Proof.
    intros B F. pose proof (ff_cols _ _ F) as C. split.
    - rewrite (co_rows _ C), (ff_gates _ _ F). auto.
    - apply (co_row_lt _ C).
    - destruct (ptype c') eqn:Et; [|eapply co_range_lt; eauto].
      rewrite (ff_range _ _ F), <- (ff_type _ _ F), Et, (ff_vars _ _ F). apply (bd_range _ (gd_bd _ (bt_good _ B))).
    - rewrite (ff_pub _ _ F). apply Forall_forall. intros i Hi. apply in_seq in Hi.
      destruct (nth_error (pub_ids c) i) as [id|] eqn:E.
      + apply nth_error_Some. rewrite (proj1 (ff_pub_rows _ _ F i id E)).
        rewrite (bt_io _ B id); [discriminate|]. eapply nth_error_In; eauto.
      + apply nth_error_None in E. unfold num_inputs in Hi. lia.
  Qed.

  Lemma has_base c w pub : hasgr c (constant_gate K 0%F) (mk_row 0 0 0 0 0) -> csat zval c w pub -> w 0 = 0%F.
  Proof.
    intros (j & H1 & H2) C. pose proof (cs_gate _ _ _ _ C j _ _ H1 H2 eq_refl) as H. now apply gsat_const in H.
  Qed.

  (** Finalization does not change which assignments satisfy the circuit. *)
  Theorem finalize_csat c c' w pub : built c -> finalized_from c c' ->
    (forall b, ptype c = Ultra b -> (1 <= b <= 31 /\ b < nb)%nat) ->
    csat zval c' w pub <-> csat zval c w pub.
  Proof.
    intros B F Hb. pose proof (bt_good _ B) as G.
    assert (Hi : num_inputs c' = num_inputs c) by (unfold num_inputs at 1; rewrite (ff_pub _ _ F), seq_length; auto).
    assert (Hw : forall w, w 0 = 0%F -> csat zval c' w pub <-> csat zval c w pub).
    { clear w. intros w H0. apply csat_transfer.
      - apply (ff_type _ _ F).
      - exact Hi.
      - rewrite (ff_gates _ _ F). apply (ff_has _ _ F).
      - intros k Hk id Hid. exists k. split.
        + rewrite (ff_pub _ _ F), nth_error_seq. destruct (Nat.ltb_spec k (num_inputs c)); [auto|lia].
        + apply (ff_pub_rows _ _ F); auto.
      - rewrite (ff_range _ _ F). intros v Hv. destruct (ptype c) eqn:Et; auto.
        rewrite vresize_eq; [apply in_or_app; auto|].
        pose proof (ff_slots _ _ F) as S. unfold slots_needed in S. rewrite Et in S. lia.
      - rewrite (ff_range _ _ F). intros v Hv. destruct (ptype c) as [|b] eqn:Et; auto.
        unfold vresize in Hv.
        assert (Hin : In v (range_col c ++ repeat 0 (domain c' - length (range_col c)))).
        { rewrite <- (firstn_skipn (domain c') (range_col c ++ repeat 0 (domain c' - length (range_col c)))).
          apply in_or_app; auto. }
        apply in_app_or in Hin as [Hin|Hin]; auto. apply repeat_spec in Hin. subst v. right.
        destruct (Hb b eq_refl) as [Hb1 Hb2]. rewrite (rsat_ultra zval p nb L HF) by lia. rewrite H0.
        change (0%F : K) with (fZ 0 : K). rewrite (zval_small zval p nb L HF).
        + apply Z.pow_pos_nonneg; lia.
        + pose proof (pf_pos zval p nb L HF). lia. }
    split; intros C.
    - apply Hw; auto. eapply has_base; [|exact C]. apply (ff_has _ _ F). left. exists 0. split; [apply (gd_g0 _ G)|apply (gd_r0 _ G)].
    - apply Hw; auto. eapply has_base; [|exact C]. exists 0. split; [apply (gd_g0 _ G)|apply (gd_r0 _ G)].
  Qed.
  Theorem finalize_accepts c c' ws pub : built c -> finalized_from c c' ->
    (forall b, ptype c = Ultra b -> (1 <= b <= 31 /\ b < nb)%nat) ->
    accepts zval c' ws pub <-> accepts zval c ws pub.
  Proof.
    intros B F Hb. pose proof (bt_good _ B) as G. pose proof (finalized_bounded c c' B F) as B'.
    assert (Hc : length ws = num_vars c -> accepts zval c' ws pub <-> accepts zval c ws pub).
    { intros Hl. rewrite (accepts_csat zval c ws pub (gd_bd _ G) Hl).
      rewrite (accepts_csat zval c' ws pub B') by (rewrite (ff_vars _ _ F); auto). apply finalize_csat; auto. }
    split; intros A; pose proof (proj1 A) as Hl; apply Hc; auto; rewrite <- (ff_vars _ _ F); auto.
  Qed.
End Finalize.
