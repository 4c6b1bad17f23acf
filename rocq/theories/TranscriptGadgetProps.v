(** C78: the challenges drawn in the circuit against those drawn outside it. *)
From Coq Require Import String List Arith ZArith Lia Bool Znumtheory.
From Verif Require Import Base ListAux Alg FiniteField ConvModel ConvProofs UtilProps RescueModel RescueProofs RescueProps CircuitModel CircuitProofs GadgetModel
  BitProofs SatProofs SatGadget EccModel ModArithModel ModArithProofs TruncProofs RescueGadgetModel RescueGadgetProofs ModArithProps RescueGadgetProps
  KzgModel PlonkModel PlonkLin TranscriptModel TranscriptProofs TranscriptProps TranscriptGadgetModel TranscriptGadgetProofs RescueConst Primes SigGadgetProps.
Import ListNotations.
Local Open Scope fld_scope.

Section Props.
  Variables (r q : Z) (Hr : prime r) (Hq : prime q).
  Notation Fr := (Zp r Hr).
  Notation Fq := (Zp q Hq).
  Notation PR := {| modulus := r |}.
  Notation PQ := {| modulus := q |}.
  Notation zval := (zv q : Fq -> Z).
  Variables nb L rb : nat.
  Hypothesis HF : BitProofs.pfield Fq zval q nb L.
  Hypothesis Hrb : (1 <= rb <= 31)%nat.
  Hypothesis Hrn : (rb < nb)%nat.
  Hypothesis Hnb : (254 <= nb)%nat.
  Hypothesis Hodd : Z.odd q = true.
  (** The scalar field has 253 bits, the only size the code accepts. *)
  Hypothesis Hr253 : (2 ^ 252 <= r < 2 ^ 253)%Z.
  Variable P : rescue_params Fq.
  Hypothesis HP : rescue_ok P.
  Variables V1 V2 : vsp Fr.
  Variable xy : V1 -> option (Fq * Fq).
  Variables te_s te_nalpha te_beta : Fq.
  Notation T := (rescue r q Hr Hq V1 V2 xy P te_s te_nalpha te_beta).
  Notation op := (op r Hr V1 V2).
  Notation state := (res_state q Hq).
  Notation sw_to_te := (sw_to_te q Hq te_s te_nalpha te_beta).
  Notation accepts := (@SatProofs.accepts Fq zval).
  Notation trunc := (@truncation Fq zval nb rb 248).
  Notation call := (tcall (K := Fq)).
  Notation run_call := (tcall_run P zval q nb L 253 377).

  (** ** What corresponds to what *)
  (** The two variables hold the Edwards form of the commitment. *)
  Definition says_point (w : nat -> Fq) (p : pvar) (c : V1) : Prop := sw_to_te (xy c) = Ok (w (fst p), w (snd p)).
  (** The variable, or the two limbs, hold the scalar. *)
  Definition says_var (w : nat -> Fq) (v : nat) (x : Fr) : Prop := w v = zmk q (zv r x).
  Definition says_limbs (w : nat -> Fq) (v : fvar (K := Fq)) (x : Fr) : Prop := w (v0 v) + vtwo v * w (v1 v) = zmk q (zv r x).
  (** The calls made outside that a call in the circuit stands for, when the variables
      have the values [w]. *)
  Inductive says (w : nat -> Fq) : call -> list op -> Prop :=
  | says_TVar v l x : says_var w v x -> says w (TVar v) [OField r Hr V1 V2 l x]
  | says_TMessage vs l m es : bytes_to_field_elements PQ 1 (zbytes m) = Ok es -> map w vs = map (zmk q) (concat es) ->
      says w (TMessage vs) [OMessage r Hr V1 V2 l m]
  | says_TCommitment p l c : says_point w p c -> says w (TCommitment p) [OCommitment r Hr V1 V2 l c]
  | says_TCommitments ps l cs : Forall2 (says_point w) ps cs -> says w (TCommitments ps) (map (OCommitment r Hr V1 V2 l) cs)
  | says_TKey s s' pi vk pub : Forall2 (says_point w) s (vk_selectors Fr V1 V2 vk) -> Forall2 (says_point w) s' (vk_sigmas Fr V1 V2 vk) ->
      Forall2 (says_limbs w) pi pub -> says w (TKey s s' pi) [OKey r Hr V1 V2 vk pub]
  | says_TEvals a b z l l' l'' xs ys y : Forall2 (says_limbs w) a xs -> Forall2 (says_limbs w) b ys -> says_limbs w z y ->
      says w (TEvals a b z) (map (OField r Hr V1 V2 l) xs ++ map (OField r Hr V1 V2 l') ys ++ [OField r Hr V1 V2 l'' y])
  | says_TChallenge l : says w TChallenge [OChallenge r Hr V1 V2 l].
  (** The two transcripts hold the same. *)
  Definition tracks (w : nat -> Fq) (t : tvars) (s : state) : Prop := map w (tv_tr t) = res_tr q Hq s /\ map w (tv_st t) = res_st q Hq s.
  (** A session outside the circuit, with the challenges drawn and the first element of
      each hash. *)
  Fixpoint off_run (os : list op) (s : state) : outcome perr (list (Fr * Fq) * state) :=
    match os with
    | [] => Ok ([], s)
    | OChallenge _ _ _ _ l :: os =>
        let* cs := t_challenge Fr V1 V2 T s l in
        let* h := index (res_st q Hq (snd cs)) 0 in
        let* rest := off_run os (snd cs) in Ok ((fst cs, h) :: fst rest, snd rest)
    | o :: os => let* s' := t_step r Hr V1 V2 T s o in off_run os s'
    end.

  (** ** Lemmas *)
  Lemma Hrq : (r <= q)%Z.
  Proof.
    pose proof (pf_lo _ _ _ _ _ HF) as Lo. assert (2 ^ 253 <= 2 ^ (Z.of_nat nb - 1))%Z by (apply Z.pow_le_mono_r; lia). lia.
  Qed.
  Lemma bsize p n : (0 <= n)%Z -> (2 ^ n <= p < 2 ^ (n + 1))%Z -> bit_size {| modulus := p |} = (n + 1)%Z.
  Proof. intros Hn H. unfold bit_size. cbn [modulus]. f_equal. apply Z.log2_unique; auto. Qed.
  Lemma mask_val (x : Fq) : fq_to_fr_with_mask PQ PR (zv q x) = Ok (zv q x mod 2 ^ 248)%Z.
  Proof.
    pose proof (prime_gt_1 r Hr). pose proof (prime_gt_1 q Hq). assert (Er : bit_size PR = 253%Z) by (apply (bsize r 252); [lia|exact Hr253]).
    assert (Eq : (253 < bit_size PQ)%Z).
    { unfold bit_size. cbn [modulus]. pose proof (pf_lo _ _ _ _ _ HF) as Lo.
      assert (253 <= Z.log2 q)%Z; [|lia]. apply Z.log2_le_pow2; [lia|]. assert (2 ^ 253 <= 2 ^ (Z.of_nat nb - 1))%Z by (apply Z.pow_le_mono_r; lia). lia. }
    rewrite C20_mask_exact; cbn [modulus]; auto using zv_bound.
    - rewrite Er. apply Z.ltb_lt in Eq. rewrite Eq. reflexivity.
    - rewrite Er. discriminate.
  Qed.
  Lemma field_ok s l x : t_field Fr V1 V2 T s l x = Ok (res_push q Hq s [zmk q (zv r x)]).
  Proof.
    cbn [t_field rescue]. unfold res_field. pose proof (zv_bound r x Hr) as B. pose proof (prime_gt_1 r Hr). pose proof (prime_gt_1 q Hq). pose proof Hrq.
    rewrite C20_switching_exact; cbn [modulus]; auto.
    - destruct (Z.ltb_spec (zv r x) q); [reflexivity|lia].
    - assert (1 <= 2 ^ (64 * limbs PQ))%Z; [|nia]. pose proof (limbs_bounds PQ H0). pose proof (bit_size_pos PQ H0). pose proof (Z.pow_pos_nonneg 2 (64 * limbs PQ)). lia.
  Qed.
  Lemma push_nil s : res_push q Hq s [] = s.
  Proof. unfold res_push. rewrite app_nil_r. now destruct s. Qed.
  Lemma rpush_push s l l' : res_push q Hq (res_push q Hq s l) l' = res_push q Hq s (l ++ l').
  Proof. unfold res_push. cbn. now rewrite app_assoc. Qed.
  Lemma off_append os s chs s' l : Forall (fun o => match o with OChallenge _ _ _ _ _ => False | _ => True end) os ->
    t_run r Hr V1 V2 T os s = Ok s' -> off_run l s' = Ok chs -> off_run (os ++ l) s = Ok chs.
  Proof.
    intros Hos. revert s. induction Hos as [|o os Ho Hos IH]; intros s E1 E2; cbn [t_run fold_res] in E1; [apply Ok_inj in E1; now subst|].
    apply bind_ok in E1 as (s1 & E & E1). cbn [app off_run]. destruct o; try contradiction; rewrite E; cbn [bind]; apply IH; auto.
  Qed.
  Lemma run_points (w : nat -> Fq) l ps cs : Forall2 (says_point w) ps cs -> forall s,
    t_run r Hr V1 V2 T (map (OCommitment r Hr V1 V2 l) cs) s = Ok (res_push q Hq s (flat_map (pval w) ps)).
  Proof.
    induction 1 as [|p c ps cs Hp H IH]; intros s; cbn [map t_run fold_res flat_map]; [now rewrite push_nil|].
    cbn [t_step t_commitment rescue]. unfold res_commitment. rewrite Hp. cbn [bind fst snd]. unfold t_run in IH. rewrite IH. now rewrite rpush_push.
  Qed.
  Lemma fold_points (w : nat -> Fq) ps cs : Forall2 (says_point w) ps cs -> forall s,
    fold_res (res_commitment r q Hr Hq V1 xy te_s te_nalpha te_beta) cs s = Ok (res_push q Hq s (flat_map (pval w) ps)).
  Proof.
    induction 1 as [|p c ps cs Hp H IH]; intros s; cbn [fold_res flat_map]; [now rewrite push_nil|].
    unfold res_commitment at 1. rewrite Hp. cbn [bind fst snd]. rewrite IH. now rewrite rpush_push.
  Qed.
  Lemma run_scalars (w : nat -> Fq) l vs xs : Forall2 (says_limbs w) vs xs -> forall s,
    t_run r Hr V1 V2 T (map (OField r Hr V1 V2 l) xs) s = Ok (res_push q Hq s (map (lval w) vs)).
  Proof.
    induction 1 as [|v x vs xs Hv H IH]; intros s; cbn [map t_run fold_res]; [now rewrite push_nil|].
    cbn [t_step]. rewrite field_ok. cbn [bind]. unfold t_run in IH. rewrite IH, rpush_push. unfold lval at 2. rewrite Hv. reflexivity.
  Qed.
  Lemma fold_scalars (w : nat -> Fq) vs xs : Forall2 (says_limbs w) vs xs -> forall s,
    fold_res (res_field r q Hr Hq) xs s = Ok (res_push q Hq s (map (lval w) vs)).
  Proof.
    induction 1 as [|v x vs xs Hv H IH]; intros s; cbn [map fold_res]; [now rewrite push_nil|].
    pose proof (field_ok s "" x) as E. cbn [t_field rescue] in E. rewrite E. cbn [bind]. rewrite IH, rpush_push. unfold lval at 2. rewrite Hv. reflexivity.
  Qed.
  Lemma run_app (os os' : list op) s s1 : t_run r Hr V1 V2 T os s = Ok s1 -> t_run r Hr V1 V2 T (os ++ os') s = t_run r Hr V1 V2 T os' s1.
  Proof.
    revert s. induction os as [|o os IH]; intros s E; cbn [app t_run fold_res] in *; [apply Ok_inj in E; now subst|].
    apply bind_ok in E as (s2 & E1 & E). rewrite E1. cbn [bind]. apply IH, E.
  Qed.
  (** A call that appends pushes the values it appends. *)
  Lemma says_append (w : nat -> Fq) o os s : says w o os -> o <> TChallenge ->
    t_run r Hr V1 V2 T os s = Ok (res_push q Hq s (appended w o)) /\ Forall (fun o => match o with OChallenge _ _ _ _ _ => False | _ => True end) os.
  Proof.
    intros H Ho. destruct H as [v l x H|vs l m es E Em|p l c H|ps l cs H|s0 s1 pi vk pub H1 H2 H3|a b z l l' l'' xs ys y H1 H2 H3|]; cbn [appended]; [| | | | | |congruence].
    - split; [|repeat constructor]. cbn [t_run fold_res t_step]. rewrite field_ok. cbn [bind]. now rewrite H.
    - split; [|repeat constructor]. cbn [t_run fold_res t_step t_message rescue]. unfold res_message. rewrite E. cbn [lift_u bind]. now rewrite Em.
    - split; [|repeat constructor]. cbn [t_run fold_res t_step t_commitment rescue]. unfold res_commitment. rewrite H. reflexivity.
    - split; [apply run_points; auto|]. apply Forall_forall. intros x Hx. apply in_map_iff in Hx as (c & <- & _). exact I.
    - split; [|repeat constructor]. cbn [t_run fold_res t_step t_vk_pi rescue]. unfold res_vk_pi.
      rewrite (fold_points w _ _ H1). cbn [bind]. rewrite (fold_points w _ _ H2). cbn [bind]. rewrite (fold_scalars w _ _ H3). cbn [bind]. now rewrite !rpush_push, ?app_assoc.
    - split.
      + rewrite (run_app _ _ _ _ (run_scalars w l _ _ H1 s)). rewrite (run_app _ _ _ _ (run_scalars w l' _ _ H2 _)).
        cbn [t_run fold_res t_step]. rewrite field_ok. cbn [bind]. rewrite !rpush_push, ?app_assoc. change (says_limbs w z y) with (lval w z = zmk q (zv r y)) in H3. now rewrite H3.
      + apply Forall_app. split; [|apply Forall_app; split]; [| |repeat constructor]; apply Forall_forall; intros x Hx; apply in_map_iff in Hx as (c & <- & _); exact I.
  Qed.
  (** The challenge outside is the hash of the state and what was appended, reduced to 248
      bits. *)
  Lemma off_challenge (w : nat -> Fq) t os s l : tracks w t s -> sponge_of P w t = Ok (map w os) -> length os = STATE_SIZE ->
    exists ch, t_challenge Fr V1 V2 T s l = Ok (ch, mk_res q Hq [] (map w os)) /\ zv r ch = (zv q (w (hd 0%nat os)) mod 2 ^ 248)%Z.
  Proof.
    intros [H1 H2] E Hl. cbn [t_challenge rescue]. unfold res_challenge, variable_crhf. unfold sponge_of in E. rewrite map_app, H1, H2 in E. rewrite E.
    cbn [bind]. rewrite map_length, Hl, Nat.eqb_refl. cbn [negb lift_u bind]. destruct os as [|o os]; [discriminate|]. cbn [map index nth_error bind]. rewrite mask_val. cbn [lift_u bind].
    eexists. split; [reflexivity|]. cbn [hd zv zmk proj1_sig]. apply Z.mod_small.
    pose proof (Z.mod_pos_bound (zv q (w o)) (2 ^ 248) ltac:(lia)). assert (2 ^ 248 <= 2 ^ 252)%Z by (apply Z.pow_le_mono_r; lia). lia.
  Qed.

  (** ** One call *)
  (** Every call on variables that exist succeeds and keeps the circuit satisfiable by its
      own witness. *)
  Theorem C78_call c t o : good c -> ptype c = Ultra rb -> tvb t (num_vars c) -> tcb o (num_vars c) ->
    exists vs t' c', run_call t o c = (Ok (vs, t'), c') /\ good c' /\ extends c c' /\ tvb t' (num_vars c') /\ Forall (fun v => (v < num_vars c')%nat) vs /\
      (exists l, witness c' = witness c ++ l) /\
      (forall pub, accepts c (witness c) pub -> accepts c' (witness c') pub) /\
      (forall c'' ws pub, extends c' c'' -> bounded c'' -> accepts c'' ws pub -> forall os s, says (asg ws) o os -> tracks (asg ws) t s ->
        exists outs s', off_run os s = Ok (outs, s') /\ tracks (asg ws) t' s' /\
          Forall2 (fun v x => zv r (fst x) = (zv q (snd x) mod 2 ^ 248)%Z /\ trunc (snd x) (asg ws v)) vs outs /\
          (forall rest, off_run (os ++ rest) s = let* z := off_run rest s' in Ok (outs ++ fst z, snd z))) /\
      (forall pub, accepts c (witness c) pub -> forall os s, says (asg (witness c')) o os -> tracks (asg (witness c')) t s ->
        exists outs s', off_run os s = Ok (outs, s') /\ map (fun v => zv q (asg (witness c') v)) vs = map (fun x => zv r (fst x)) outs).
  Proof.
    intros G Ht Tb Ob. assert (D : o = TChallenge \/ o <> TChallenge) by (destruct o; (left; reflexivity) || (right; discriminate)).
    destruct D as [->|Ho].
    - destruct (challenge_spec zval q nb L rb HF Hrb Hrn ltac:(lia) P HP c t G Ht Tb) as (ch & os & c' & E & G' & X & Hch & Tb' & Wl & Hh & Hs & _).
      exists [ch], (mk_tvars [] os), c'. split. { cbn [tcall_run]. unfold cbind. rewrite E. reflexivity. }
      do 3 (split; [auto|]). split; [repeat constructor; exact Hch|]. split; [exact Wl|]. split; [intros pub Hp; apply (Hh pub Hp)|].
      destruct Tb' as (_ & _ & Hl). cbn [tv_st] in Hl.
      assert (Nth : exists o os', os = o :: os') by (destruct os; [discriminate|eauto]). destruct Nth as (o0 & os' & ->).
      split.
      + intros c'' ws pub X' Bd Ac ops s Sy Tk. inversion Sy. subst ops. destruct (Hs c'' ws pub X' Bd Ac) as [Sp Tr].
        destruct (off_challenge (asg ws) t (o0 :: os') s l Tk Sp Hl) as (x & Ex & Vx). exists [(x, asg ws o0)], (mk_res q Hq [] (map (asg ws) (o0 :: os'))).
        split. { cbn [off_run]. rewrite Ex. reflexivity. }
        split. { split; reflexivity. }
        split. { constructor; [|constructor]. cbn [fst snd hd] in *. auto. }
        intros rest. cbn [app off_run]. rewrite Ex. reflexivity.
      + intros pub Ac ops s Sy Tk. inversion Sy. subst ops. destruct (Hh pub Ac) as [Ac' Hv]. destruct (Hs c' (witness c') pub (extends_refl _) (gd_bd _ G') Ac') as [Sp Tr].
        destruct (off_challenge (asg (witness c')) t (o0 :: os') s l Tk Sp Hl) as (x & Ex & Vx). exists [(x, asg (witness c') o0)], (mk_res q Hq [] (map (asg (witness c')) (o0 :: os'))).
        split. { cbn [off_run]. rewrite Ex. reflexivity. }
        cbn [map fst]. rewrite Vx. f_equal. exact Hv.
    - pose proof (append_spec zval q nb L rb Hrb Hrn ltac:(lia) P 253 377 c t o Ho (gd_wf _ G) Tb Ob) as Sp.
      destruct (gspec_gadget zval _ c _ _ _ G ltac:(intros ? ? ? ?; exact I) Sp) as ([vs t'] & c' & E & G' & X & Rb & Wl & Hs & Hd & Hc). cbn [fst snd] in *.
      assert (Key : forall c'' ws pub, extends c' c'' -> bounded c'' -> accepts c'' ws pub -> forall os s, says (asg ws) o os -> tracks (asg ws) t s ->
        vs = [] /\ exists s', off_run os s = Ok ([], s') /\ tracks (asg ws) t' s' /\ (forall rest, off_run (os ++ rest) s = off_run rest s')).
      { intros c'' ws pub X' Bd Ac ops s Sy [Tk1 Tk2]. destruct (Hs c'' ws pub X' Bd Ac) as [-> (l & -> & El)]. split; [reflexivity|].
        destruct (says_append (asg ws) o ops s Sy Ho) as [Er Hn]. exists (res_push q Hq s (appended (asg ws) o)).
        assert (A : forall rest, off_run (ops ++ rest) s = off_run rest (res_push q Hq s (appended (asg ws) o))).
        { intros rest. revert Er. generalize (res_push q Hq s (appended (asg ws) o)). clear -Hn. intros s1. revert s.
          induction Hn as [|x ops Hx Hn IH]; intros s Er; cbn [t_run fold_res] in Er; [apply Ok_inj in Er; now subst|].
          apply bind_ok in Er as (s2 & E2 & Er). cbn [app off_run]. destruct x; try contradiction; rewrite E2; cbn [bind]; apply IH; auto. }
        split. { rewrite <- (app_nil_r ops), A. reflexivity. }
        split; [|exact A]. split; cbn [tv_push tv_tr tv_st res_push res_tr res_st]; [|exact Tk2]. rewrite map_app. f_equal; [exact Tk1|exact El]. }
      assert (Vs : forall pub, accepts c (witness c) pub -> accepts c' (witness c') pub) by (intros pub Hp; apply Hc; auto).
      assert (Hvs : vs = []). { destruct Sp as (a & d & E' & _ & Sn & _). clear -E Ho. destruct o; cbn [tcall_run] in E; unfold cbind, ret in E; try congruence;
        match type of E with context [match ?x with _ => _ end] => destruct x as [[z| |] c1]; congruence end. }
      subst vs. exists [], t', c'. do 4 (split; [auto|]). split; [constructor|]. split; [auto|]. split; [auto|]. split.
      + intros c'' ws pub X' Bd Ac ops s Sy Tk. destruct (Key c'' ws pub X' Bd Ac ops s Sy Tk) as (_ & s' & E1 & E2 & E3).
        exists [], s'. do 2 (split; [auto|]). split; [constructor|]. intros rest. rewrite E3. cbn [app]. destruct (off_run rest s') as [[? ?]| |]; reflexivity.
      + intros pub Ac ops s Sy Tk. destruct (Key c' (witness c') pub (extends_refl _) (gd_bd _ G') (Vs pub Ac) ops s Sy Tk) as (_ & s' & E1 & _). exists [], s'. split; auto.
  Qed.

  (** ** Sessions *)
  (** Calls to a transcript in a circuit, with anything else done to the circuit in between;
      [outs] are the challenges drawn. *)
  Inductive session : circuit Fq -> tvars -> list call -> list nat -> circuit Fq -> tvars -> Prop :=
  | session_nil c t : session c t [] [] c t
  | session_other c c1 t os outs c' t' : good c1 -> extends c c1 -> session c1 t os outs c' t' -> session c t os outs c' t'
  | session_call c t o vs t1 c1 os outs c' t' : tcb o (num_vars c) -> run_call t o c = (Ok (vs, t1), c1) -> session c1 t1 os outs c' t' ->
      session c t (o :: os) (vs ++ outs) c' t'.

  (** *** C78.  Whatever assignment a finished circuit accepts, the same session outside the
      circuit succeeds, and each challenge in the circuit is one of the values the gate lets
      through for the hash the challenge outside is made of. *)
  Theorem C78_session_partial c t os outs c' t' : good c -> ptype c = Ultra rb -> tvb t (num_vars c) -> session c t os outs c' t' ->
    good c' /\ extends c c' /\ tvb t' (num_vars c') /\
    forall c'' ws pub, extends c' c'' -> bounded c'' -> accepts c'' ws pub -> forall ops s, Forall2 (says (asg ws)) os ops -> tracks (asg ws) t s ->
      exists chs s', off_run (concat ops) s = Ok (chs, s') /\ tracks (asg ws) t' s' /\
        Forall2 (fun v x => zv r (fst x) = (zv q (snd x) mod 2 ^ 248)%Z /\ trunc (snd x) (asg ws v)) outs chs.
  Proof.
    intros G Ht Tb S. revert G Ht Tb. induction S as [c t|c c1 t os outs c' t' G1 X1 S IH|c t o vs t1 c1 os outs c' t' Ob E S IH]; intros G Ht Tb.
    - do 2 (split; [auto using extends_refl|]). split; [auto|]. intros c'' ws pub _ _ _ ops s Hf Tk. inversion Hf. subst. exists [], s. do 2 (split; [auto|]). constructor.
    - destruct IH as (Ga & Xa & Ta & Ha); [auto|destruct X1; congruence|eapply tvb_le; [exact Tb|now destruct X1]|].
      split; [auto|]. split; [eapply extends_trans; eauto|]. auto.
    - destruct (C78_call c t o G Ht Tb Ob) as (vs' & t1' & c1' & E' & G1 & X1 & Tb1 & _ & _ & _ & Sd & _). rewrite E in E'. injection E' as <- <- <-.
      destruct IH as (Ga & Xa & Ta & Ha); [auto|destruct X1; congruence|auto|].
      split; [auto|]. split; [eapply extends_trans; eauto|]. split; [auto|].
      intros c'' ws pub X' Bd Ac ops s Hf Tk. inversion Hf as [|? ops1 ? opss Sy Hf' Eo Es]. subst ops.
      destruct (Sd c'' ws pub ltac:(eapply extends_trans; eauto) Bd Ac ops1 s Sy Tk) as (o1 & s1 & _ & Tk1 & F1 & A).
      destruct (Ha c'' ws pub X' Bd Ac opss s1 Hf' Tk1) as (o2 & s2 & E2 & Tk2 & F2).
      exists (o1 ++ o2), s2. split; [cbn [concat]; rewrite A, E2; reflexivity|]. split; [auto|]. apply Forall2_app; auto.
  Qed.
  (** A new transcript in the circuit is a new transcript outside. *)
  Theorem C78_new c ws pub : good c -> accepts c ws pub -> tvb tv_new (num_vars c) /\ tracks (asg ws) tv_new (t_new Fr V1 V2 T "").
  Proof.
    intros G Ac. pose proof (proj1 (accepts_csat zval c ws pub (gd_bd _ G) (proj1 Ac)) Ac) as Cs. pose proof (csat_base zval c _ pub G Cs) as [B0 _]. split.
    - pose proof (wf_two _ (gd_wf _ G)). split; [constructor|]. split; [|reflexivity]. unfold bdl, tv_new. cbn [tv_st]. apply Forall_forall. intros x Hx. apply repeat_spec in Hx. clear -H Hx. lia.
    - split; [reflexivity|]. cbn [tv_new tv_st t_new rescue res_new res_st]. unfold STATE_SIZE. cbn [repeat map]. now rewrite B0.
  Qed.

  (** ** A run of calls *)
  Fixpoint calls_run (t : tvars) (os : list call) : circ Fq (list nat * tvars) :=
    match os with
    | [] => ret ([], t)
    | o :: os => cbind (run_call t o) (fun x => cbind (calls_run (snd x) os) (fun y => ret (fst x ++ fst y, snd y)))
    end.
  Lemma map_agree {A} (w w' : nat -> A) l n : (forall v, (v < n)%nat -> w v = w' v) -> bdl l n -> map w l = map w' l.
  Proof. intros Ag H. apply map_ext_in. intros v Hv. unfold bdl in H. rewrite Forall_forall in H. auto. Qed.
  Lemma says_agree (w w' : nat -> Fq) n o os : (forall v, (v < n)%nat -> w v = w' v) -> tcb o n -> says w o os -> says w' o os.
  Proof.
    intros Ag Ob S.
    assert (Pt : forall ps cs, Forall (fun p => pvb p n) ps -> Forall2 (says_point w) ps cs -> Forall2 (says_point w') ps cs).
    { intros ps cs Hp H. revert Hp. induction H as [|p c ps cs H1 H IH]; intros Hp; constructor; inversion_clear Hp as [|? ? [P1 P2] Hp']; auto.
      unfold says_point in *. rewrite <- !Ag; auto. }
    assert (Li : forall v x, fvb v n -> says_limbs w v x -> says_limbs w' v x).
    { intros v x [[L1 L2] _] H. unfold says_limbs in *. rewrite <- !Ag; auto. }
    assert (Ls : forall vs xs, Forall (fun v => fvb v n) vs -> Forall2 (says_limbs w) vs xs -> Forall2 (says_limbs w') vs xs).
    { intros vs xs Hp H. revert Hp. induction H as [|v x vs xs H1 H IH]; intros Hp; constructor; inversion_clear Hp; auto. }
    destruct S as [v l x H|vs l m es E Em|p l c H|ps l cs H|s0 s1 pi vk pub H1 H2 H3|a b z l l' l'' xs ys y H1 H2 H3|]; cbn [tcb] in Ob.
    - apply says_TVar. unfold says_var in *. rewrite <- Ag; auto.
    - eapply says_TMessage; [exact E|]. rewrite <- Em. symmetry. eapply map_agree; eauto.
    - apply says_TCommitment. destruct Ob. unfold says_point in *. rewrite <- !Ag; auto.
    - apply says_TCommitments; auto.
    - destruct Ob as (O1 & O2 & O3). apply says_TKey; auto.
    - destruct Ob as (O1 & O2 & O3). apply says_TEvals; auto.
    - constructor.
  Qed.
  Lemma tracks_agree (w w' : nat -> Fq) n t s : (forall v, (v < n)%nat -> w v = w' v) -> tvb t n -> tracks w t s -> tracks w' t s.
  Proof. intros Ag (B1 & B2 & _) [T1 T2]. split; [rewrite <- T1|rewrite <- T2]; symmetry; eapply map_agree; eauto. Qed.
  Lemma tcb_le (o : call) n n' : tcb o n -> (n <= n')%nat -> tcb o n'.
  Proof.
    intros H Hn. assert (Pt : forall ps : list pvar, Forall (fun p => pvb p n) ps -> Forall (fun p => pvb p n') ps).
    { intros ps Hp. eapply Forall_impl; [|exact Hp]. intros [a b] [P1 P2]. split; cbn in *; lia. }
    assert (Fl : forall ps : list (fvar (K := Fq)), Forall (fun p => fvb p n) ps -> Forall (fun p => fvb p n') ps).
    { intros ps Hp. eapply Forall_impl; [|exact Hp]. cbn beta. intros x Hx. eapply fvb_le; eauto. }
    destruct o as [v|l|p|l|a b pi|a b x|]; cbn [tcb] in *; auto; try lia.
    - eapply bdl_le; eauto.
    - destruct H. split; lia.
    - destruct H as (H1 & H2 & H3). auto.
    - destruct H as (H1 & H2 & H3). split; [|split]; auto. eapply fvb_le; eauto.
  Qed.
  (** *** C78.  A run of calls on variables of the circuit succeeds, is a session, and the
      challenges the circuit computes are, as integers, those drawn outside. *)
  Theorem C78_run os : forall c t, good c -> ptype c = Ultra rb -> tvb t (num_vars c) -> Forall (fun o => tcb o (num_vars c)) os ->
    exists outs t' c', calls_run t os c = (Ok (outs, t'), c') /\ good c' /\ extends c c' /\ session c t os outs c' t' /\
      length outs = length (filter (fun o => match o with TChallenge => true | _ => false end) os) /\
      (exists l, witness c' = witness c ++ l) /\
      forall pub, accepts c (witness c) pub -> accepts c' (witness c') pub /\
        forall ops s, Forall2 (says (asg (witness c))) os ops -> tracks (asg (witness c)) t s ->
          exists chs s', off_run (concat ops) s = Ok (chs, s') /\ map (fun v => zv q (asg (witness c') v)) outs = map (fun x => zv r (fst x)) chs.
  Proof.
    induction os as [|o os IH]; intros c t G Ht Tb Ob; cbn [calls_run].
    - exists [], t, c. split; [reflexivity|]. split; [auto|]. split; [apply extends_refl|]. split; [constructor|]. split; [reflexivity|]. split; [exists []; now rewrite app_nil_r|].
      intros pub Ac. split; [auto|]. intros ops s Hf Tk. inversion Hf. exists [], s. auto.
    - inversion_clear Ob as [|? ? O1 O2]. destruct (C78_call c t o G Ht Tb O1) as (vs & t1 & c1 & E1 & G1 & X1 & Tb1 & Vs & (l1 & Wl1) & Hc1 & Hs1 & Hh1).
      assert (N1 : (num_vars c <= num_vars c1)%nat) by now destruct X1.
      destruct (IH c1 t1 G1 ltac:(destruct X1; congruence) Tb1) as (outs & t' & c' & E & G' & X & S & Len & (l & Wl) & Hh).
      { eapply Forall_impl; [|exact O2]. cbn beta. intros x Hx. eapply tcb_le; eauto. }
      exists (vs ++ outs), t', c'. split. { unfold cbind. rewrite E1. cbn [snd]. rewrite E. reflexivity. }
      split; [auto|]. split; [eapply extends_trans; eauto|]. split; [eapply session_call; eauto|].
      split. { rewrite app_length, Len. cbn [filter]. clear -E1. destruct o; cbn [tcall_run] in E1; unfold cbind, ret in E1;
        try (injection E1 as <- <- <-; reflexivity); match type of E1 with context [match ?x with _ => _ end] => destruct x as [[z| |] c2]; try discriminate; injection E1 as <- <- <-; reflexivity end. }
      split. { exists (l1 ++ l). now rewrite Wl, Wl1, app_assoc. }
      assert (Lc : length (witness c) = num_vars c) by apply (wf_wit _ (gd_wf _ G)). assert (Lc1 : length (witness c1) = num_vars c1) by apply (wf_wit _ (gd_wf _ G1)).
      assert (Ag0 : forall v, (v < num_vars c)%nat -> asg (witness c) v = asg (witness c1) v).
      { intros v Hv. rewrite Wl1. unfold asg. rewrite app_nth1; [reflexivity|lia]. }
      assert (Ag1 : forall v, (v < num_vars c1)%nat -> asg (witness c1) v = asg (witness c') v).
      { intros v Hv. rewrite Wl. unfold asg. rewrite app_nth1; [reflexivity|lia]. }
      intros pub Ac. pose proof (Hc1 pub Ac) as Ac1. destruct (Hh pub Ac1) as [Ac' Hv]. split; [auto|].
      intros ops s Hf Tk. inversion Hf as [|? ops1 ? opss Sy Hf' Eo Es]. subst ops.
      pose proof (says_agree _ _ _ _ _ Ag0 O1 Sy) as Sy1. pose proof (tracks_agree _ _ _ _ _ Ag0 Tb Tk) as Tk1.
      destruct (Hs1 c1 (witness c1) pub (extends_refl _) (gd_bd _ G1) Ac1 ops1 s Sy1 Tk1) as (o1 & s1 & Er & Tk2 & _ & A).
      destruct (Hh1 pub Ac ops1 s Sy1 Tk1) as (o1' & s1' & Er' & Ev). rewrite Er in Er'. injection Er' as <- <-.
      destruct (Hv opss s1) as (chs & s' & E2 & Ev2); [|exact Tk2|].
      { clear -Hf' O2 Ag0. revert O2. induction Hf' as [|? ? ? ? ? ? IH]; intros O2; constructor; inversion_clear O2; auto. eapply says_agree; eauto. }
      exists (o1 ++ chs), s'. split. { cbn [concat]. rewrite A, E2. reflexivity. }
      rewrite !map_app. f_equal; [|exact Ev2]. etransitivity; [|exact Ev]. apply map_ext_in. intros v Hin. rewrite Forall_forall in Vs. now rewrite <- Ag1 by auto.
  Qed.

  (** ** What the gate lets through as the challenge *)
  (** Exactly: for any accepted assignment whose transcript is that of [s]. *)
  Theorem C78_challenge_exact c t : good c -> ptype c = Ultra rb -> tvb t (num_vars c) ->
    exists ch t' c', run_call t TChallenge c = (Ok ([ch], t'), c') /\ good c' /\ extends c c' /\
      forall ws pub s, accepts c ws pub -> tracks (asg ws) t s ->
        exists x h s', off_run [OChallenge r Hr V1 V2 ""] s = Ok ([(x, h)], s') /\ zv r x = (zv q h mod 2 ^ 248)%Z /\
          forall v, (exists l, accepts c' (ws ++ l) pub /\ asg (ws ++ l) ch = v) <-> trunc h v.
  Proof.
    intros G Ht Tb. destruct (challenge_spec zval q nb L rb HF Hrb Hrn ltac:(lia) P HP c t G Ht Tb) as (ch & os & c' & E & G' & X & Hch & Tb' & Wl & Hh & Hs & Hx).
    exists ch, (mk_tvars [] os), c'. split. { cbn [tcall_run]. unfold cbind. rewrite E. reflexivity. }
    do 2 (split; [auto|]). intros ws pub s Ac [T1 T2].
    destruct HP as (_ & _ & Hk & _).
    destruct (C38_output_length Fq P Hk (map (asg ws) (tv_st t ++ tv_tr t)) STATE_SIZE) as [(res & Er & Lr) _]. unfold variable_crhf in Er.
    assert (Es : sponge_of P (asg ws) t = Ok res).
    { unfold sponge_of. destruct (sponge_with_bit_padding _ _ _) as [y| |]; cbn [bind] in Er; try discriminate. destruct (negb _) in Er; [discriminate|]. congruence. }
    destruct res as [|h hs]; [discriminate|].
    assert (Ec : exists x, t_challenge Fr V1 V2 T s "" = Ok (x, mk_res q Hq [] (h :: hs)) /\ zv r x = (zv q h mod 2 ^ 248)%Z).
    { cbn [t_challenge rescue]. unfold res_challenge, variable_crhf. unfold sponge_of in Es. rewrite map_app, T1, T2 in Es. rewrite Es. cbn [bind]. rewrite Lr, Nat.eqb_refl. cbn [negb lift_u bind index nth_error].
      rewrite mask_val. cbn [lift_u bind]. eexists. split; [reflexivity|]. cbn [zv zmk proj1_sig]. apply Z.mod_small.
      pose proof (Z.mod_pos_bound (zv q h) (2 ^ 248) ltac:(lia)). assert (2 ^ 248 <= 2 ^ 252)%Z by (apply Z.pow_le_mono_r; lia). lia. }
    destruct Ec as (x & Ec & Vx). exists x, h, (mk_res q Hq [] (h :: hs)). split; [|split; [exact Vx|]].
    { cbn [off_run]. rewrite Ec. reflexivity. }
    intros v. exact (Hx ws pub v h hs Ac Es).
  Qed.
  Definition both_checked : Prop := checked rb 248 /\ checked rb (nb - 248).
  (** With both parts checked there are at most two values: the challenge drawn outside, and
      the one made of the hash plus the modulus, when that sum still has the bits of the
      modulus. *)
  Theorem C78_values_partial h v : both_checked ->
    trunc h v <-> (zv q v = zv q h mod 2 ^ 248 \/ zv q h + q < 2 ^ Z.of_nat nb /\ zv q v = (zv q h + q) mod 2 ^ 248)%Z.
  Proof. intros [H1 H2]. apply (C73_truncate_partial zval q nb L rb HF Hrb Hrn 248 h v); auto. lia. Qed.
  (** So in a session, each challenge is that drawn outside or that second value, and it is
      that drawn outside when no hash is small. *)
  Theorem C78_session_sizes_partial c t os outs c' t' : both_checked -> good c -> ptype c = Ultra rb -> tvb t (num_vars c) -> session c t os outs c' t' ->
    forall c'' ws pub, extends c' c'' -> bounded c'' -> accepts c'' ws pub -> forall ops s, Forall2 (says (asg ws)) os ops -> tracks (asg ws) t s ->
      exists chs s', off_run (concat ops) s = Ok (chs, s') /\ tracks (asg ws) t' s' /\
        Forall2 (fun v x => zv q (asg ws v) = zv r (fst x) \/
          (zv q (snd x) + q < 2 ^ Z.of_nat nb /\ zv q (asg ws v) = (zv q (snd x) + q) mod 2 ^ 248)%Z) outs chs.
  Proof.
    intros Hc G Ht Tb S c'' ws pub X Bd Ac ops s Sy Tk. destruct (C78_session_partial c t os outs c' t' G Ht Tb S) as (_ & _ & _ & H).
    destruct (H c'' ws pub X Bd Ac ops s Sy Tk) as (chs & s' & E & Tk' & F). exists chs, s'. do 2 (split; [auto|]).
    eapply Forall2_impl; [|exact F]. cbn beta. intros v x [H1 H2]. apply C78_values_partial in H2; auto. rewrite H1. tauto.
  Qed.
  Theorem C78_session_large c t os outs c' t' : both_checked -> good c -> ptype c = Ultra rb -> tvb t (num_vars c) -> session c t os outs c' t' ->
    forall c'' ws pub, extends c' c'' -> bounded c'' -> accepts c'' ws pub -> forall ops s chs s', Forall2 (says (asg ws)) os ops -> tracks (asg ws) t s ->
      off_run (concat ops) s = Ok (chs, s') -> Forall (fun x => (2 ^ Z.of_nat nb <= zv q (snd x) + q)%Z) chs ->
      map (fun v => zv q (asg ws v)) outs = map (fun x => zv r (fst x)) chs.
  Proof.
    intros Hc G Ht Tb S c'' ws pub X Bd Ac ops s chs s' Sy Tk E Hl.
    destruct (C78_session_sizes_partial c t os outs c' t' Hc G Ht Tb S c'' ws pub X Bd Ac ops s Sy Tk) as (chs' & s'' & E' & _ & F). rewrite E in E'. injection E' as <- <-.
    clear -F Hl. induction F as [|v x outs chs H F IH]; [reflexivity|]. inversion_clear Hl as [|? ? Hx Hl']. cbn beta in Hx. cbn [map]. f_equal; [|auto]. destruct H as [H|[H _]]; [exact H|exact (False_ind _ (Z.lt_irrefl _ (Z.lt_le_trans _ _ _ H Hx)))].
  Qed.
  (** *** The second value is accepted: the challenge in the circuit is then not the one
      drawn outside. *)
  Theorem C78_second_challenge_refuted c t : both_checked -> good c -> ptype c = Ultra rb -> tvb t (num_vars c) ->
    exists ch t' c', run_call t TChallenge c = (Ok ([ch], t'), c') /\
      forall ws pub s x h s', accepts c ws pub -> tracks (asg ws) t s -> off_run [OChallenge r Hr V1 V2 ""] s = Ok ([(x, h)], s') ->
        (zv q h + q < 2 ^ Z.of_nat nb)%Z -> exists l, accepts c' (ws ++ l) pub /\ zv q (asg (ws ++ l) ch) <> zv r x.
  Proof.
    intros Hc G Ht Tb. destruct (C78_challenge_exact c t G Ht Tb) as (ch & t' & c' & E & G' & X & H). exists ch, t', c'. split; [exact E|].
    intros ws pub s x h s' Ac Tk Er Hh. destruct (H ws pub s Ac Tk) as (x' & h' & s'' & Er' & Vx & Hv). rewrite Er in Er'. injection Er' as <- <- <-.
    pose proof (pf_lo _ _ _ _ _ HF) as Lo. assert (L248 : (2 ^ 248 < q)%Z). { assert (2 ^ 248 <= 2 ^ (Z.of_nat nb - 1))%Z by (apply Z.pow_le_mono_r; lia). lia. }
    set (v := zmk q ((zv q h + q) mod 2 ^ 248) : Fq).
    assert (Ev : zv q v = ((zv q h + q) mod 2 ^ 248)%Z). { unfold v. cbn [zv zmk proj1_sig]. apply Z.mod_small. pose proof (Z.mod_pos_bound (zv q h + q) (2 ^ 248) ltac:(lia)). lia. }
    destruct (proj2 (Hv v)) as (l & Ac' & El). { apply C78_values_partial; auto. }
    exists l. split; [exact Ac'|]. rewrite El, Ev, Vx. intro Eq.
    assert (D : (q mod 2 ^ 248 = 0)%Z).
    { replace q with (zv q h + q - zv q h)%Z by ring. rewrite Zminus_mod, Eq, Z.sub_diag. reflexivity. }
    apply Z.mod_divide in D; [|lia]. destruct D as [k Hk]. rewrite Hk in Hodd. change (2 ^ 248)%Z with (2 * 2 ^ 247)%Z in Hodd.
    rewrite !Z.odd_mul in Hodd. cbn [Z.odd] in Hodd. rewrite andb_false_r in Hodd. discriminate.
  Qed.
  (** *** When the size of the range table divides 248, as a table of 8 bits does, a prover
      can take for the challenge the hash less any multiple of [2^248] below [2^nb]. *)
  Theorem C78_aligned_table_refuted c t : ~ checked rb 248 -> good c -> ptype c = Ultra rb -> tvb t (num_vars c) ->
    exists ch t' c', run_call t TChallenge c = (Ok ([ch], t'), c') /\
      forall ws pub s, accepts c ws pub -> tracks (asg ws) t s ->
        exists x h s', off_run [OChallenge r Hr V1 V2 ""] s = Ok ([(x, h)], s') /\
          forall z, (0 <= z < 2 ^ Z.of_nat (nb - 248))%Z -> exists l, accepts c' (ws ++ l) pub /\ asg (ws ++ l) ch = h - fZ (2 ^ 248 * z).
  Proof.
    intros Hc G Ht Tb. destruct (C78_challenge_exact c t G Ht Tb) as (ch & t' & c' & E & G' & X & H). exists ch, t', c'. split; [exact E|].
    intros ws pub s Ac Tk. destruct (H ws pub s Ac Tk) as (x & h & s' & Er & Vx & Hv). exists x, h, s'. split; [exact Er|].
    intros z Hz. apply Hv. apply (C73_aligned_refuted zval nb rb 248 h z); auto. lia.
  Qed.
  (** No challenge for other curves or circuits without lookups. *)
  Theorem C78_rejects sb bb c t :
    (support_lookup c = false -> fst (tcall_run P zval q nb L sb bb t TChallenge c) = Err ParameterError) /\
    (support_lookup c = true -> sb <> 253%nat \/ bb <> 377%nat -> fst (tcall_run P zval q nb L sb bb t TChallenge c) = Err ParameterError).
  Proof.
    destruct (challenge_rejects zval q nb L P sb bb c t) as [H1 H2]. cbn [tcall_run]. unfold cbind. split.
    - intros Hc. specialize (H1 Hc). destruct (get_challenge_var _ _ _ _ _ _ _ _ _) as [[?| |] ?]; cbn [fst] in *; congruence.
    - intros Hc Hs. specialize (H2 Hc Hs). destruct (get_challenge_var _ _ _ _ _ _ _ _ _) as [[?| |] ?]; cbn [fst] in *; congruence.
  Qed.
End Props.

(** Every parameter set the crate ships meets what the theorems on the Rescue gadgets and
    the transcript ask of it. *)
Theorem C74_shipped_all c : In c shipped -> exists Hp : prime (rc_p c), rescue_ok (rescue_of c Hp).
Proof. intros H. pose proof C37_shipped_fields as F. rewrite Forall_forall in F. exists (F c H). apply C74_shipped. exact H. Qed.
(** ** The curve for which the code draws challenges: BLS12-377 *)
Definition r377 : Z := rc_p rescue_Ed377Fq.
Definition q377 : Z := rc_p rescue_Bls377Fq.
Definition Hr377 : prime r377 := prime_Ed377Fq.
Definition Hq377 : prime q377 := prime_Bls377Fq.
Definition P377 : rescue_params (Zp q377 Hq377) := rescue_of rescue_Bls377Fq Hq377.
(** The parameters meet the hypotheses of the theorems above, with range tables of 16 and of
    8 bits. *)
Theorem C78_instance_parameters :
  BitProofs.pfield (Zp q377 Hq377) (zv q377) q377 377 384 /\ Z.odd q377 = true /\ (2 ^ 252 <= r377 < 2 ^ 253)%Z /\ rescue_ok P377 /\
  both_checked 377 16 /\ ~ checked 8 248.
Proof.
  split. { apply Zp_pfield; [vm_compute; reflexivity|vm_compute; reflexivity|apply Nat.leb_le; reflexivity]. }
  split; [reflexivity|]. split; [split; [vm_compute; discriminate|vm_compute; reflexivity]|].
  split. { apply C74_shipped. left. reflexivity. }
  split; [|exact (proj1 (proj2 C73_transcript_sizes))]. exact (proj1 C73_transcript_sizes).
Qed.

Notation S377 := (self_vsp (Zp r377 Hr377)).
Notation off377 := (off_run r377 q377 Hr377 Hq377 P377 S377 S377 (fun _ => None) f0 f0 f0).
Notation says377 := (says r377 q377 Hr377 Hq377 S377 S377 (fun _ => None) f0 f0 f0).
(** A session on a new circuit: append the variable 1, append a point at infinity, and draw
    two challenges. *)
Definition calls377 : list (tcall (K := Zp q377 Hq377)) := [TVar 1%nat; TCommitment (0, 1)%nat; TChallenge; TChallenge].
Theorem C78_instance rb : rb = 16%nat \/ rb = 8%nat ->
  exists v v' t' c', session q377 Hq377 377 384 P377 (new_circuit _ (Ultra rb)) tv_new calls377 [v; v'] c' t' /\
    accepts (zv q377 : Zp q377 Hq377 -> Z) c' (witness c') [] /\
    Forall2 (says377 (asg (witness c'))) calls377
      [[OField _ _ _ _ "" (f1 : Zp r377 Hr377)]; [OCommitment _ _ _ _ "" (f1 : S377)]; [OChallenge _ _ _ _ ""]; [OChallenge _ _ _ _ ""]] /\
    tracks q377 Hq377 (asg (witness c')) tv_new (res_new q377 Hq377).
Proof.
  intros Hrb. destruct C78_instance_parameters as (HF & Ho & Hr & HP & _).
  assert (R1 : (1 <= rb <= 31)%nat) by (destruct Hrb as [-> | ->]; split; apply Nat.leb_le; reflexivity).
  assert (R2 : (rb < 377)%nat) by (destruct Hrb as [-> | ->]; apply Nat.ltb_lt; reflexivity).
  pose proof (good_new (K := Zp q377 Hq377) (Ultra rb)) as G.
  pose proof (new_accepts (K := Zp q377 Hq377) (zv q377) (Ultra rb)) as Ac.
  destruct (C78_new r377 q377 Hr377 Hq377 P377 S377 S377 (fun _ => None) f0 f0 f0 _ _ _ G Ac) as [Tb _].
  destruct (C78_run r377 q377 Hr377 Hq377 377 384 rb HF R1 R2 ltac:(apply Nat.leb_le; reflexivity) Ho Hr P377 HP S377 S377 (fun _ => None) f0 f0 f0
    calls377 (new_circuit _ (Ultra rb)) tv_new G eq_refl Tb) as (outs & t' & c' & _ & G' & _ & S & Len & _ & Hh).
  { repeat constructor. }
  destruct outs as [|v [|v' [|]]]; try discriminate Len. destruct (Hh [] Ac) as [Ac' _].
  exists v, v', t', c'. split; [exact S|]. split; [exact Ac'|].
  destruct (C78_new r377 q377 Hr377 Hq377 P377 S377 S377 (fun _ => None) f0 f0 f0 _ _ _ G' Ac') as [_ Tk]. split; [|exact Tk].
  pose proof (proj1 (accepts_csat (zv q377 : Zp q377 Hq377 -> Z) c' (witness c') [] (gd_bd _ G') (proj1 Ac')) Ac') as Cs.
  pose proof (csat_base _ c' _ [] G' Cs) as [B0 B1].
  constructor; [apply says_TVar; unfold says_var; rewrite B1; reflexivity|].
  constructor; [apply says_TCommitment; unfold says_point; cbn [fst snd TranscriptModel.sw_to_te]; rewrite B0, B1; reflexivity|].
  repeat constructor.
Qed.

Print Assumptions C78_call.
Print Assumptions C78_session_partial.
Print Assumptions C78_run.
Print Assumptions C78_challenge_exact.
Print Assumptions C78_session_sizes_partial.
Print Assumptions C78_session_large.
Print Assumptions C78_second_challenge_refuted.
Print Assumptions C78_aligned_table_refuted.
Print Assumptions C78_instance.
Print Assumptions C74_shipped_all.
