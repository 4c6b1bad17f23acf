(** What a call to the transcript in the circuit does. *)

From Coq Require Import List Arith NArith ZArith Bool Lia Ring Field.
From Verif Require Import Base ListAux Alg FiniteField ConvModel RescueModel RescueProofs RescueProps CircuitModel CircuitProofs GadgetModel
  GadgetProofs RangeProofs BitProofs CmpProofs RangeLookup SatProofs SatGadget IndepProofs EccModel ModArithModel ModArithProofs TruncProofs
  RescueGadgetModel RescueGadgetProofs MerkleGadgetProofs CircuitProps ModArithProps RescueGadgetProps TranscriptGadgetModel.
Import ListNotations.
Local Open Scope fld_scope.
Local Open Scope circ_scope.

Section Transcript.
  Context {K : fld}.
  Variable zval : K -> Z.
  Variable q : Z.
  Variable nb L rb : nat.
  Hypothesis HF : BitProofs.pfield K zval q nb L.
  Hypothesis Hrb : (1 <= rb <= 31)%nat.
  Hypothesis Hrn : (rb < nb)%nat.
  Hypothesis H248 : (248 < nb)%nat.
  Variable P : rescue_params K.
  Hypothesis HP : rescue_ok P.
  Add Field Ktgp : (fth K).
  Notation gspec := (gspec zval).
  Notation accepts := (accepts zval).
  Notation fv := (fvar (K := K)).
  Notation TT := (fun _ : nat -> K => True).

  (** The variables of the transcript exist. *)
  Definition tvb (t : tvars) (n : nat) : Prop := bdl (tv_tr t) n /\ bdl (tv_st t) n /\ length (tv_st t) = STATE_SIZE.
  (** An element in two limbs: its variables exist and its constant is that of its limb size. *)
  Definition fvb (x : fv) (n : nat) : Prop := fvout x n /\ vtwo x = fZ (2 ^ Z.of_nat (vm x)).
  Definition pvb (p : pvar) (n : nat) : Prop := (fst p < n)%nat /\ (snd p < n)%nat.
  Definition tcb (o : tcall (K := K)) (n : nat) : Prop :=
    match o with
    | TVar v => (v < n)%nat
    | TMessage l => bdl l n
    | TCommitment p => pvb p n
    | TCommitments l => Forall (fun p => pvb p n) l
    | TKey s s' pi => Forall (fun p => pvb p n) s /\ Forall (fun p => pvb p n) s' /\ Forall (fun x => fvb x n) pi
    | TEvals l l' x => Forall (fun x => fvb x n) l /\ Forall (fun x => fvb x n) l' /\ fvb x n
    | TChallenge => True
    end.
  (** What a call appends, as values. *)
  Definition lval (w : nat -> K) (x : fv) : K := w (v0 x) + vtwo x * w (v1 x).
  Definition pval (w : nat -> K) (p : pvar) : list K := [w (fst p); w (snd p)].
  Definition appended (w : nat -> K) (o : tcall (K := K)) : list K :=
    match o with
    | TVar v => [w v]
    | TMessage l => map w l
    | TCommitment p => pval w p
    | TCommitments l => flat_map (pval w) l
    | TKey s s' pi => flat_map (pval w) s ++ flat_map (pval w) s' ++ map (lval w) pi
    | TEvals l l' x => map (lval w) l ++ map (lval w) l' ++ [lval w x]
    | TChallenge => []
    end.

  Lemma tvb_le t n n' : tvb t n -> (n <= n')%nat -> tvb t n'.
  Proof. intros (H1 & H2 & H3) H. split; [|split]; eauto using bdl_le. Qed.
  Lemma fvb_le x n n' : fvb x n -> (n <= n')%nat -> fvb x n'.
  Proof. intros ((H1 & H2) & H3) H. clear -H1 H2 H3 H. split; auto. split; lia. Qed.
  Lemma tvb_push t l n : tvb t n -> bdl l n -> tvb (tv_push t l) n.
  Proof. intros (H1 & H2 & H3) H. split; [|split]; cbn; auto. now apply bdl_app. Qed.
  Lemma push_push t l l' : tv_push (tv_push t l) l' = tv_push t (l ++ l').
  Proof. unfold tv_push. cbn. now rewrite app_assoc. Qed.
  Lemma message_push l : forall t, append_message_vars t l = tv_push t l.
  Proof.
    induction l as [|v l IH]; intros t; cbn [append_message_vars fold_left]; unfold append_message_vars in *.
    - unfold tv_push. rewrite app_nil_r. now destruct t.
    - cbn [fold_left]. rewrite IH. unfold append_variable. now rewrite push_push.
  Qed.
  Lemma commitment_push t p : append_commitment_var t p = tv_push t [fst p; snd p].
  Proof. unfold append_commitment_var. now rewrite push_push. Qed.
  Lemma commitments_push l : forall t, append_commitments_vars t l = tv_push t (flat_map (fun p => [fst p; snd p]) l).
  Proof.
    unfold append_commitments_vars. induction l as [|p l IH]; intros t; cbn [fold_left flat_map].
    - unfold tv_push. rewrite app_nil_r. now destruct t.
    - now rewrite IH, commitment_push, push_push.
  Qed.
  Lemma points_bdl l n : Forall (fun p => pvb p n) l -> bdl (flat_map (fun p : pvar => [fst p; snd p]) l) n.
  Proof. unfold bdl. induction 1 as [|p l [H1 H2] H IH]; cbn; auto. Qed.
  Lemma points_val (w : nat -> K) l : map w (flat_map (fun p : pvar => [fst p; snd p]) l) = flat_map (pval w) l.
  Proof. induction l as [|p l IH]; cbn; auto. now rewrite IH. Qed.

  (** ** Calls that append *)
  (** [t'] is [t] with variables appended that have the values [F w]. *)
  Definition grown (t : tvars) (F : (nat -> K) -> list K) (w : nat -> K) (t' : tvars) : Prop :=
    exists l, t' = tv_push t l /\ map w l = F w.
  Lemma fp_elem_spec c t x : wf c -> tvb t (num_vars c) -> fvb x (num_vars c) ->
    gspec (append_fp_elem t x) c (grown t (fun w => [lval w x])) TT tvb.
  Proof.
    intros Hw Ht [Hx E]. unfold append_fp_elem.
    eapply (gspec_seq zval) with (C1 := TT) (S1 := fun w o => w o = limbs_of (vm x) w x) (R1 := fun o n => (o < n)%nat); [exact Hw| |auto|].
    - pose proof (convert_spec zval (vm x) c x Hw ltac:(split; auto) Hx) as H. unfold vspec in H. unfold CircuitProofs.gspec. eapply wpc_mono; [exact H|].
      intros o d _ (S1 & C1 & V1 & O1). split; auto.
    - intros v c' Hl Hv _. apply gspec_weaken with (S := fun w t' => w v = limbs_of (vm x) w x -> grown t (fun w => [lval w x]) w t') (C := TT) (R := tvb); auto.
      destruct Hl as (_ & Hn & _). apply gspec_ret.
      + apply tvb_push; [eapply tvb_le; eauto|]. repeat constructor. exact Hv.
      + intros w _ Ev. exists [v]. split; auto. cbn. rewrite Ev. unfold limbs_of, lval. now rewrite E.
  Qed.
  Lemma fp_elems_spec xs : forall c t, wf c -> tvb t (num_vars c) -> Forall (fun x => fvb x (num_vars c)) xs ->
    gspec (foldM append_fp_elem t xs) c (grown t (fun w => map (lval w) xs)) TT tvb.
  Proof.
    induction xs as [|x xs IH]; intros c t Hw Ht Hx; cbn [foldM].
    - apply gspec_ret; auto. intros w _. exists []. split; auto. unfold tv_push. rewrite app_nil_r. now destruct t.
    - inversion_clear Hx as [|? ? X1 X2]. eapply (gspec_seq zval) with (C1 := TT); [exact Hw|apply fp_elem_spec; auto|auto|].
      intros t1 c' Hl H1 _. destruct Hl as (W' & Hn & _).
      assert (X2' : Forall (fun x => fvb x (num_vars c')) xs) by (eapply Forall_impl; [|exact X2]; cbn beta; intros y Hy; eapply fvb_le; eauto).
      eapply gspec_weaken with (C := TT) (R := tvb); [|auto|auto|apply (IH c' t1 W' H1 X2')].
      cbn beta. intros w t' _ (l & -> & El) (l1 & -> & El1). exists (l1 ++ l). rewrite push_push. split; auto. rewrite map_app. cbn [map]. rewrite El1, El. reflexivity.
  Qed.
  Lemma append_spec sb bb c t o : o <> TChallenge -> wf c -> tvb t (num_vars c) -> tcb o (num_vars c) ->
    gspec (tcall_run P zval q nb L sb bb t o) c (fun w r => fst r = [] /\ grown t (fun w => appended w o) w (snd r)) TT (fun r n => tvb (snd r) n).
  Proof.
    intros Ho Hw Ht Hb. destruct o as [v|l|p|l|s s' pi|l l' x|]; cbn [tcall_run appended tcb] in *; [| | | | | |congruence].
    - apply gspec_ret; cbn [snd fst].
      + apply tvb_push; auto. repeat constructor. exact Hb.
      + intros w _. split; auto. exists [v]. split; reflexivity.
    - rewrite message_push. apply gspec_ret; cbn [snd fst]; [apply tvb_push; auto|]. intros w _. split; auto. exists l. split; reflexivity.
    - rewrite commitment_push. destruct Hb. apply gspec_ret; cbn [snd fst]; [apply tvb_push; auto; repeat constructor; auto|].
      intros w _. split; auto. eexists. split; reflexivity.
    - rewrite commitments_push. apply gspec_ret; cbn [snd fst]; [apply tvb_push; auto using points_bdl|].
      intros w _. split; auto. eexists. split; [reflexivity|apply points_val].
    - destruct Hb as (B1 & B2 & B3). unfold append_vk_and_pub_input_vars. rewrite !commitments_push, push_push.
      eapply (gspec_seq zval) with (C1 := TT); [exact Hw|apply fp_elems_spec; auto|auto|].
      { apply tvb_push; auto. apply bdl_app; auto using points_bdl. }
      intros t1 c' Hl H1 _. eapply gspec_weaken with (C := TT) (R := fun r n => tvb (snd r) n); [intros w a _ H; exact H|auto|auto|].
      apply gspec_ret; auto. intros w _ (l & -> & El). split; auto. cbn [snd]. eexists. rewrite push_push. split; [reflexivity|].
      rewrite !map_app, !points_val, El. now rewrite app_assoc.
    - destruct Hb as (B1 & B2 & B3). unfold append_proof_evaluations_vars.
      assert (G : gspec (t' <- foldM append_fp_elem t l ;; t'' <- foldM append_fp_elem t' l' ;; append_fp_elem t'' x) c
        (grown t (fun w => map (lval w) l ++ map (lval w) l' ++ [lval w x])) TT tvb).
      { eapply (gspec_seq zval) with (C1 := TT); [exact Hw|apply fp_elems_spec; auto|auto|].
        intros t1 c1 (W1 & N1 & _) H1 _. eapply gspec_weaken with (C := TT) (R := tvb); [intros w a _ H; exact H|auto|auto|].
        eapply (gspec_seq zval) with (C1 := TT); [exact W1|apply fp_elems_spec; auto|auto|].
        { eapply Forall_impl; [|exact B2]. cbn beta. intros y Hy. eapply fvb_le; eauto. }
        intros t2 c2 (W2 & N2 & _) H2 _. eapply gspec_weaken with (C := TT) (R := tvb); [|auto|auto|apply fp_elem_spec; auto].
        2:{ eapply fvb_le; [exact B3|lia]. }
        cbn beta. intros w t' _ (l3 & -> & E3) (l2 & -> & E2) (l1 & -> & E1). exists (l1 ++ l2 ++ l3). rewrite !push_push. split; [now rewrite app_assoc|].
        now rewrite !map_app, E1, E2, E3. }
      eapply (gspec_seq zval) with (C1 := TT); [exact Hw|exact G|auto|].
      intros t1 c' Hl H1 _. eapply gspec_weaken with (C := TT) (R := fun r n => tvb (snd r) n); [intros w a _ H; exact H|auto|auto|].
      apply gspec_ret; auto.
  Qed.

  (** ** The challenge *)
  Notation gcv := (get_challenge_var P zval q nb L).
  Notation inputs t := (tv_st t ++ tv_tr t).
  Definition sponge_of (w : nat -> K) (t : tvars) : outcome unit (list K) := sponge_with_bit_padding P (map w (inputs t)) STATE_SIZE.
  Lemma gcv_step sb bb t c : ptype c = Ultra rb -> sb = 253%nat -> bb = 377%nat ->
    gcv sb bb t c = (res <- unwrap (rescue_sponge_with_padding P (inputs t) STATE_SIZE) ;;
      out <- idx res 0 ;; ch <- truncate zval q nb L out 248 ;; ret (ch, mk_tvars [] (firstn STATE_SIZE res))) c.
  Proof.
    intros Ht -> ->. unfold get_challenge_var. unfold cbind at 1, lift at 1. unfold support_lookup. rewrite Ht. reflexivity.
  Qed.
  Lemma asg_app (ws l : list K) v : (v < length ws)%nat -> asg (ws ++ l) v = asg ws v.
  Proof. intros H. unfold asg. now rewrite app_nth1. Qed.
  Lemma map_asg_app (ws l : list K) vs : bdl vs (length ws) -> map (asg (ws ++ l)) vs = map (asg ws) vs.
  Proof. intros H. apply map_ext_in. intros v Hv. unfold bdl in H. rewrite Forall_forall in H. apply asg_app. auto. Qed.

  Theorem challenge_spec c t : good c -> ptype c = Ultra rb -> tvb t (num_vars c) ->
    exists ch os c', gcv 253 377 t c = (Ok (ch, mk_tvars [] os), c') /\ good c' /\ extends c c' /\ (ch < num_vars c')%nat /\
      tvb (mk_tvars [] os) (num_vars c') /\ (exists l, witness c' = witness c ++ l) /\
      (forall pub, accepts c (witness c) pub -> accepts c' (witness c') pub /\
        zval (asg (witness c') ch) = (zval (asg (witness c') (hd 0%nat os)) mod 2 ^ 248)%Z) /\
      (forall c'' ws pub, extends c' c'' -> bounded c'' -> accepts c'' ws pub ->
        sponge_of (asg ws) t = Ok (map (asg ws) os) /\ truncation zval nb rb 248 (asg ws (hd 0%nat os)) (asg ws ch)) /\
      (forall ws pub v h hs, accepts c ws pub -> sponge_of (asg ws) t = Ok (h :: hs) ->
        ((exists l, accepts c' (ws ++ l) pub /\ asg (ws ++ l) ch = v) <-> truncation zval nb rb 248 h v)).
  Proof.
    intros G Ht (B1 & B2 & B3). pose proof (gd_wf _ G) as W.
    assert (Hne : inputs t <> []) by (destruct (tv_st t); [discriminate B3|discriminate]).
    assert (Hin : bdl (inputs t) (num_vars c)) by (apply bdl_app; auto).
    destruct HP as ((q0 & Hq0 & Ha) & Ha5 & Hk & Hi).
    pose proof (C74_sponge_padded zval P HP c (inputs t) STATE_SIZE G Hin Hne) as (res & c1 & E1 & G1 & X1 & (R1 & R2) & (l1 & Wl1) & S1 & D1 & C1).
    assert (Ht1 : ptype c1 = Ultra rb) by (destruct X1; congruence).
    destruct res as [|o os]; [discriminate R2|].
    assert (Ho : (o < num_vars c1)%nat) by now inversion R1.
    assert (H1n : (1 <= 248 < nb)%nat) by (clear -H248; split; [apply Nat.leb_le; reflexivity|exact H248]).
    assert (Hloc : local (num_vars c1) (fun w => w o = hon c1 o)) by (intros w w' E H; now rewrite <- (E o Ho)).
    pose proof (truncate_spec zval q nb L HF rb Hrb Hrn 248 H1n c1 o (gd_wf _ G1) Ht1 Ho) as Ts.
    assert (Tg : gspec (truncate zval q nb L o 248) c1 (fun w b => trunc_ok zval nb rb 248 (w o) (w b)) (fun w => w o = hon c1 o) out).
    { unfold CircuitProofs.gspec. eapply wpc_mono; [exact Ts|]. intros a d _ (Q1 & Q2 & _ & Q4). split; auto. }
    destruct (gspec_gadget zval _ c1 _ _ _ G1 Hloc Tg) as (ch & c' & E2 & G2 & X2 & Ob & (l2 & Wl2) & S2 & D2 & C2).
    destruct (truncate_exact_trunc zval q nb L HF rb Hrb Hrn 248 H1n c1 o G1 Ht1 Ho) as (ch' & c2' & E2' & _ & _ & _ & _ & V2 & T2).
    rewrite E2 in E2'. injection E2' as <- <-.
    pose proof (gd_wf _ G1) as W1. pose proof (wf_wit _ W1) as Lw1. pose proof (wf_wit _ W) as Lw.
    exists ch, (o :: os), c'. split.
    { rewrite (gcv_step _ _ t c Ht eq_refl eq_refl). unfold cbind, unwrap. rewrite E1. unfold idx, lift. cbn [index nth_error].
      rewrite E2. unfold ret. f_equal. f_equal. f_equal. f_equal. apply firstn_all2. rewrite R2. apply Nat.le_refl. }
    assert (N12 : (num_vars c1 <= num_vars c')%nat) by (destruct X2; auto).
    split; [exact G2|]. split; [eapply extends_trans; eauto|]. split; [exact Ob|].
    split. { split; [constructor|]. split; [|exact R2]. cbn [tv_st]. eapply bdl_le; eauto. }
    split. { exists (l1 ++ l2). now rewrite Wl2, Wl1, app_assoc. }
    split; [|split].
    - intros pub Hacc. specialize (C1 pub Hacc I). split; [apply C2; [exact C1|reflexivity]|]. cbn [hd]. rewrite V2. rewrite Wl2.
      rewrite asg_app by (rewrite Lw1; exact Ho). reflexivity.
    - intros c'' ws pub Ex Hb Hacc. split; [apply (S1 c'' ws pub); auto; eapply extends_trans; eauto|]. cbn [hd].
      apply (truncation_iff zval nb rb Hrb). apply (S2 c'' ws pub); auto.
    - intros ws pub v h hs Hacc Es. pose proof (proj1 Hacc) as HL.
      assert (Hh : forall l, accepts c1 (ws ++ l) pub -> asg (ws ++ l) o = h).
      { intros l Hl. pose proof (S1 c1 (ws ++ l) pub (extends_refl _) (gd_bd _ G1) Hl) as S. rewrite map_asg_app in S by (rewrite HL; exact Hin).
        unfold sponge_of in Es. rewrite Es in S. injection S as S _. now symmetry. }
      split.
      + intros (l & Hl & <-). pose proof (D2 _ _ Hl) as Hl1. pose proof (proj1 Hl) as HLl. 
        set (l' := firstn (num_vars c1 - num_vars c) l).
        assert (Ef : firstn (num_vars c1) (ws ++ l) = ws ++ l').
        { rewrite firstn_app, HL. rewrite firstn_all2 by (rewrite HL; destruct X1; auto). reflexivity. }
        rewrite Ef in Hl1. apply (truncation_iff zval nb rb Hrb). rewrite <- (Hh l' Hl1).
        apply (T2 (ws ++ l') pub (asg (ws ++ l) ch) Hl1).
        exists (skipn (num_vars c1 - num_vars c) l). rewrite <- app_assoc. unfold l'. rewrite firstn_skipn. auto.
      + intros Hv. destruct (call_transfer zval (rescue_sponge_with_padding P (inputs t) STATE_SIZE) (rescue_sponge_with_padding P (inputs t) STATE_SIZE)
          c (o :: os) c1 ws pub (fun w r => sponge_with_bit_padding P (map w (inputs t)) STATE_SIZE = Ok (map w r)) TT (fun _ _ => True) (fun r n => bdl r n /\ length r = STATE_SIZE)) as (l & Hl & _); auto.
        { apply (C72_rescue P (SV 0 0 0 0) (SV 0 0 0 0) (inputs t) STATE_SIZE 0%nat). }
        { pose proof (sponge_with_padding_spec zval P q0 Hq0 Ha Ha5 Hk Hi (inputs t) STATE_SIZE (with_witness c ws)) as H.
          specialize (H (gd_wf _ (good_with c ws G HL)) Hin Hne). unfold fg, CircuitProofs.gspec in H. unfold vspec. eapply wpc_mono; [exact H|].
          intros a d _ (Q1 & Q2 & Q3). split; [|split; [|split]]; auto. intros w Hb Hs. symmetry. apply Q1; auto. }
        { intros ? ? ? ?; exact I. }
        apply (truncation_iff zval nb rb Hrb) in Hv. rewrite <- (Hh l Hl) in Hv.
        destruct (proj2 (T2 (ws ++ l) pub v Hl) Hv) as (l' & Hl' & Ev). exists (l ++ l'). rewrite app_assoc. auto.
  Qed.
  (** The circuits and curves for which there is no challenge. *)
  Theorem challenge_rejects sb bb c t :
    (support_lookup c = false -> fst (gcv sb bb t c) = Err ParameterError) /\
    (support_lookup c = true -> sb <> 253%nat \/ bb <> 377%nat -> fst (gcv sb bb t c) = Err ParameterError).
  Proof.
    unfold get_challenge_var, cbind, lift. split.
    - intros ->. reflexivity.
    - intros -> H. cbn [negb]. destruct (Nat.eqb_spec sb 253), (Nat.eqb_spec bb 377); cbn [negb orb]; try reflexivity. destruct H; contradiction.
  Qed.
End Transcript.
