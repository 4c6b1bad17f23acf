(** The challenges of the verifier circuit (C81): what the transcript inside the circuit
    draws for keys, inputs and a proof, against the challenges of the verifier outside. *)
From Coq Require Import String List Arith ZArith Lia Bool Znumtheory.
From Verif Require Import Base ListAux Alg FiniteField ConvModel PlonkLin RescueModel RescueProofs KzgModel PlonkModel TranscriptModel TranscriptProofs TranscriptProps CircuitModel CircuitProofs GadgetModel
  BitProofs SatProofs SatGadget BuiltProofs FinalProps EccModel ModArithModel ModArithProofs TruncProofs ModArithProps RescueGadgetModel RescueGadgetProofs RescueGadgetProps
  TranscriptGadgetModel TranscriptGadgetProofs TranscriptGadgetProps PlonkVerifierModel.
Import ListNotations.
Local Open Scope fld_scope.
Local Open Scope circ_scope.

Section C81.
  Variables (r q : Z) (Hr : prime r) (Hq : prime q).
  Notation Fr := (Zp r Hr).
  Notation Fq := (Zp q Hq).
  Notation zval := (zv q : Fq -> Z).
  Variables L rb : nat.
  Notation nb := 377%nat.
  Hypothesis HF : BitProofs.pfield Fq zval q nb L.
  Hypothesis Hrb : (1 <= rb <= 31)%nat.
  Hypothesis Hodd : Z.odd q = true.
  Hypothesis Hr253 : (2 ^ 252 <= r < 2 ^ 253)%Z.
  Variable P : rescue_params Fq.
  Hypothesis HP : rescue_ok P.
  Variables V1 V2 : vsp Fr.
  Variable xy : V1 -> option (Fq * Fq).
  Variables te_s te_nalpha te_beta : Fq.
  Notation T := (rescue r q Hr Hq V1 V2 xy P te_s te_nalpha te_beta).
  Notation call := (tcall (K := Fq)).
  Notation accepts := (@SatProofs.accepts Fq zval).
  Notation calls_run := (calls_run q Hq nb L P).
  Notation off_run := (off_run r q Hr Hq P V1 V2 xy te_s te_nalpha te_beta).
  Notation says := (says r q Hr Hq V1 V2 xy te_s te_nalpha te_beta).
  Notation says_point := (says_point r q Hr Hq V1 xy te_s te_nalpha te_beta).
  Notation says_limbs := (says_limbs r q Hr Hq).
  Notation raw := (raw_challenges (Fr := Fr) zval q nb L 253 P).
  Notation vkvar := (vkvar (Fr := Fr)).
  Notation vkey := (vkey Fr V1 V2).
  Notation OKey := (OKey r Hr V1 V2).
  Notation OField := (OField r Hr V1 V2).
  Notation OCommitment := (OCommitment r Hr V1 V2).
  Notation OChallenge := (OChallenge r Hr V1 V2).

  (** ** The calls of the circuit, in order *)
  Definition key_calls (vks : list vkvar) (pis : list (list (fvar (K := Fq)))) : list call :=
    map (fun kp => TKey (kv_sels (fst kp)) (kv_sigmas (fst kp)) (snd kp)) (combine vks pis).
  Definition eval_calls (b : bproofvar (K := Fq)) : list call := map (fun pe => TEvals (ev_wires pe) (ev_sigmas pe) (ev_next pe)) (bv_evals b).
  Definition raw_calls (vks : list vkvar) (pis : list (list (fvar (K := Fq)))) (b : bproofvar (K := Fq)) : list call :=
    key_calls vks pis ++ map TCommitments (bv_wires b) ++
    [TChallenge; TChallenge; TCommitments (bv_perms b); TChallenge; TCommitments (bv_quots b); TChallenge] ++
    eval_calls b ++ [TChallenge; TCommitment (bv_open b); TCommitment (bv_shifted b); TChallenge].

  (** ** Lemmas on runs *)
  Lemma calls_app os os' : forall t c, calls_run t (os ++ os') c =
    (x <- calls_run t os ;; y <- calls_run (snd x) os' ;; ret (fst x ++ fst y, snd y)) c.
  Proof.
    induction os as [|o os IH]; intros t c; cbn [app TranscriptGadgetProps.calls_run].
    - unfold cbind, ret. cbn [fst snd]. destruct (calls_run t os' c) as [[[u v]| |] c1]; reflexivity.
    - unfold cbind. destruct (tcall_run _ _ _ _ _ _ _ _ _ c) as [[[u v]| |] c1]; [|reflexivity|reflexivity].
      cbn [snd fst]. rewrite IH. unfold cbind, ret. destruct (calls_run v os c1) as [[[u' v']| |] c2]; [|reflexivity|reflexivity].
      cbn [snd fst]. destruct (calls_run v' os' c2) as [[[u'' v'']| |] c3]; [|reflexivity|reflexivity]. cbn [fst snd]. now rewrite app_assoc.
  Qed.
  Lemma len2 {X Y} (R : X -> Y -> Prop) l l' : Forall2 R l l' -> length l = length l'.
  Proof. induction 1; cbn; congruence. Qed.
  Lemma calls_keys l : forall t c, calls_run t (map (fun kp : vkvar * list fvar => TKey (kv_sels (fst kp)) (kv_sigmas (fst kp)) (snd kp)) l) c =
    (t' <- foldM (fun t kp => append_vk_and_pub_input_vars t (kv_sels (fst kp)) (kv_sigmas (fst kp)) (snd kp)) t l ;; ret ([], t')) c.
  Proof.
    induction l as [|kp l IH]; intros t c; [reflexivity|]. cbn [map TranscriptGadgetProps.calls_run foldM tcall_run]. unfold cbind, ret.
    destruct (append_vk_and_pub_input_vars t _ _ _ c) as [[t'| |] c1]; [|reflexivity|reflexivity]. cbn [snd fst app]. rewrite IH. unfold cbind, ret.
    destruct (foldM _ t' l c1) as [[t''| |] c2]; reflexivity.
  Qed.
  Lemma calls_evals l : forall t c, calls_run t (map (fun pe : pevar (K := Fq) => TEvals (ev_wires pe) (ev_sigmas pe) (ev_next pe)) l) c =
    (t' <- foldM (fun t pe => append_proof_evaluations_vars t (ev_wires pe) (ev_sigmas pe) (ev_next pe)) t l ;; ret ([], t')) c.
  Proof.
    induction l as [|kp l IH]; intros t c; [reflexivity|]. cbn [map TranscriptGadgetProps.calls_run foldM tcall_run]. unfold cbind, ret.
    destruct (append_proof_evaluations_vars t _ _ _ c) as [[t'| |] c1]; [|reflexivity|reflexivity]. cbn [snd fst app]. rewrite IH. unfold cbind, ret.
    destruct (foldM _ t' l c1) as [[t''| |] c2]; reflexivity.
  Qed.
  Lemma calls_wires l : forall t c, calls_run t (map TCommitments l) c = (Ok ([], fold_left append_commitments_vars l t), c).
  Proof.
    induction l as [|x l IH]; intros t c; [reflexivity|]. cbn [map TranscriptGadgetProps.calls_run fold_left tcall_run]. unfold cbind, ret. cbn [snd fst app]. now rewrite IH.
  Qed.

  (** The circuit makes exactly these calls, and its challenges are what they return:
      [beta], [gamma], [alpha], [zeta], [v], [u]. *)
  Theorem C81_calls vks pis b c outs t' c' : length vks = bv_len b -> length pis = length vks ->
    calls_run tv_new (raw_calls vks pis b) c = (Ok (outs, t'), c') ->
    exists be ga al ze v u, outs = [be; ga; al; ze; v; u] /\ raw vks pis b c = (Ok (mk_raw al be ga ze v u), c').
  Proof.
    intros E1 E2 E. unfold raw_challenges. rewrite <- E1, E2, !Nat.eqb_refl. cbn [negb orb]. revert E. unfold raw_calls, key_calls, eval_calls.
    rewrite calls_app. unfold cbind at 1. rewrite calls_keys. unfold cbind at 1. unfold cbind at 2.
    destruct (foldM _ tv_new (combine vks pis) c) as [[t1| |] c1]; [|discriminate|discriminate]. unfold ret at 1. cbn [snd fst].
    unfold cbind at 1. rewrite calls_app. unfold cbind at 1. rewrite calls_wires. cbn [snd fst].
    set (t2 := fold_left _ _ t1). clearbody t2. unfold cbind at 1. rewrite calls_app. unfold cbind at 1.
    cbn [TranscriptGadgetProps.calls_run tcall_run].
    set (gc := get_challenge_var P zval q nb L 253 nb).
    unfold cbind, ret. 
    destruct (gc t2 c1) as [[[be t3]| |] c2]; [|discriminate|discriminate]. cbn [snd fst].
    destruct (gc t3 c2) as [[[ga t4]| |] c3]; [|discriminate|discriminate]. cbn [snd fst].
    destruct (gc (append_commitments_vars t4 (bv_perms b)) c3) as [[[al t5]| |] c4]; [|discriminate|discriminate]. cbn [snd fst].
    destruct (gc (append_commitments_vars t5 (bv_quots b)) c4) as [[[ze t6]| |] c5]; [|discriminate|discriminate]. cbn [snd fst].
    rewrite calls_app. unfold cbind, ret. rewrite calls_evals. unfold cbind, ret.
    destruct (foldM _ t6 (bv_evals b) c5) as [[t7| |] c6]; [|discriminate|discriminate]. cbn [snd fst].
    cbn [TranscriptGadgetProps.calls_run tcall_run]. fold gc. unfold cbind, ret.
    destruct (gc t7 c6) as [[[v t8]| |] c7]; [|discriminate|discriminate]. cbn [snd fst].
    destruct (gc _ c7) as [[[u t9]| |] c8]; [|discriminate|discriminate]. cbn [snd fst app].
    intros E. injection E as <- <- <-. exists be, ga, al, ze, v, u. split; reflexivity.
  Qed.
  Theorem C81_lengths vks pis b c : length vks <> bv_len b \/ length vks <> length pis -> raw vks pis b c = (Err ParameterError, c).
  Proof.
    intros H. unfold raw_challenges. destruct (Nat.eqb_spec (length vks) (bv_len b)), (Nat.eqb_spec (length vks) (length pis)); try reflexivity. destruct H; contradiction.
  Qed.

  (** ** What the verifier outside is given *)
  (** The values of the variables are those of keys, inputs and a proof without lookups. *)
  Definition reads_key (w : nat -> Fq) (k : vkvar) (k' : vkey) : Prop :=
    Forall2 (says_point w) (kv_sels k) (vk_selectors Fr V1 V2 k') /\ Forall2 (says_point w) (kv_sigmas k) (vk_sigmas Fr V1 V2 k') /\ vk_plookup Fr V1 V2 k' = None.
  Definition reads_evals (w : nat -> Fq) (e : pevar (K := Fq)) (e' : proof_evals Fr) : Prop :=
    Forall2 (says_limbs w) (ev_wires e) (wires_evals Fr e') /\ Forall2 (says_limbs w) (ev_sigmas e) (sigma_evals Fr e') /\ says_limbs w (ev_next e) (perm_next_eval Fr e').
  Record reads_proof (w : nat -> Fq) (b : bproofvar (K := Fq)) (b' : batch_proof Fr V1) : Prop := {
    rp_wires : Forall2 (Forall2 (says_point w)) (bv_wires b) (bp_wires Fr V1 b');
    rp_perms : Forall2 (says_point w) (bv_perms b) (bp_perms Fr V1 b');
    rp_evals : Forall2 (reads_evals w) (bv_evals b) (bp_evals Fr V1 b');
    rp_lookups : Forall (fun l => l = None) (bp_plookups Fr V1 b');
    rp_quots : Forall2 (says_point w) (bv_quots b) (bp_quots Fr V1 b');
    rp_open : says_point w (bv_open b) (bp_open Fr V1 b');
    rp_shifted : says_point w (bv_shifted b) (bp_shifted Fr V1 b') }.

  Definition off_calls (vks : list vkey) (pis : list (list Fr)) (b : batch_proof Fr V1) : list (list (op r Hr V1 V2)) :=
    map (fun kp => [OKey (fst kp) (snd kp)]) (combine vks pis) ++
    map (fun cs => map (OCommitment "witness_poly_comms") cs) (bp_wires Fr V1 b) ++
    [[OChallenge "beta"]; [OChallenge "gamma"]; map (OCommitment "perm_poly_comms") (bp_perms Fr V1 b); [OChallenge "alpha"];
     map (OCommitment "quot_poly_comms") (bp_quots Fr V1 b); [OChallenge "zeta"]] ++
    map (fun e => map (OField "wire_evals") (wires_evals Fr e) ++ map (OField "wire_sigma_evals") (sigma_evals Fr e) ++ [OField "perm_next_eval" (perm_next_eval Fr e)]) (bp_evals Fr V1 b) ++
    [[OChallenge "v"]; [OCommitment "open_proof" (bp_open Fr V1 b)]; [OCommitment "shifted_open_proof" (bp_shifted Fr V1 b)]; [OChallenge "u"]].
  Lemma says_calls w vks pis b vks' pis' b' : Forall2 (reads_key w) vks vks' -> Forall2 (Forall2 (says_limbs w)) pis pis' -> reads_proof w b b' ->
    Forall2 (says w) (raw_calls vks pis b) (off_calls vks' pis' b').
  Proof.
    intros Hk Hp [R1 R2 R3 _ R5 R6 R7]. unfold raw_calls, off_calls, key_calls, eval_calls. apply Forall2_app.
    { clear -Hk Hp. revert pis pis' Hp. induction Hk as [|k k' vks vks' (K1 & K2 & _) Hk IH]; intros pis pis' Hp; [constructor|].
      destruct Hp as [|p p' pis pis' Hp1 Hp]; [constructor|]. cbn [combine map fst snd]. constructor; [apply says_TKey; auto|auto]. }
    apply Forall2_app.
    { clear -R1. induction R1 as [|x y l l' H _ IH]; cbn [map]; constructor; auto. apply says_TCommitments. exact H. }
    apply Forall2_app.
    { constructor; [constructor|]. constructor; [constructor|]. constructor; [apply says_TCommitments; exact R2|]. constructor; [constructor|].
      constructor; [apply says_TCommitments; exact R5|]. constructor; [constructor|constructor]. }
    apply Forall2_app.
    { clear -R3. induction R3 as [|x y l l' (H1 & H2 & H3) _ IH]; cbn [map]; constructor; auto. apply says_TEvals; auto. }
    constructor; [constructor|]. constructor; [apply says_TCommitment; exact R6|]. constructor; [apply says_TCommitment; exact R7|]. constructor; [constructor|constructor].
  Qed.

  (** ** The session outside is [compute_challenges] *)
  Lemma off_keys (l : list (vkey * list Fr)) rest : forall s,
    off_run (concat (map (fun kp => [OKey (fst kp) (snd kp)]) l) ++ rest) s =
    let* s' := fold_res (fun s vp => t_vk_pi Fr V1 V2 T s (fst vp) (snd vp)) l s in off_run rest s'.
  Proof.
    induction l as [|x l IH]; intros s; [reflexivity|]. cbn [map concat app TranscriptGadgetProps.off_run fold_res t_step]. destruct (t_vk_pi Fr V1 V2 T s (fst x) (snd x)) as [s'| |]; [|reflexivity|reflexivity].
    cbn [bind]. apply IH.
  Qed.
  Lemma off_commitments lb l rest : forall s,
    off_run (map (OCommitment lb) l ++ rest) s = let* s' := t_commitments Fr V1 V2 T s lb l in off_run rest s'.
  Proof.
    unfold t_commitments. induction l as [|x l IH]; intros s; [reflexivity|]. cbn [map app TranscriptGadgetProps.off_run fold_res t_step].
    destruct (t_commitment Fr V1 V2 T s lb x) as [s'| |]; [|reflexivity|reflexivity]. cbn [bind]. apply IH.
  Qed.
  Lemma off_fields lb l rest : forall s, off_run (map (OField lb) l ++ rest) s = let* s' := t_fields Fr V1 V2 T s lb l in off_run rest s'.
  Proof.
    unfold t_fields. induction l as [|x l IH]; intros s; [reflexivity|]. cbn [map app TranscriptGadgetProps.off_run fold_res t_step].
    destruct (t_field Fr V1 V2 T s lb x) as [s'| |]; [|reflexivity|reflexivity]. cbn [bind]. apply IH.
  Qed.
  Lemma off_wires l rest : forall s,
    off_run (concat (map (fun cs => map (OCommitment "witness_poly_comms") cs) l) ++ rest) s =
    let* s' := fold_res (fun s cs => t_commitments Fr V1 V2 T s "witness_poly_comms" cs) l s in off_run rest s'.
  Proof.
    induction l as [|x l IH]; intros s; [reflexivity|]. cbn [map concat fold_res]. rewrite <- app_assoc, off_commitments.
    destruct (t_commitments Fr V1 V2 T s _ x) as [s'| |]; [|reflexivity|reflexivity]. cbn [bind]. apply IH.
  Qed.
  Lemma off_evals l rest : forall s,
    off_run (concat (map (fun e => map (OField "wire_evals") (wires_evals Fr e) ++ map (OField "wire_sigma_evals") (sigma_evals Fr e) ++ [OField "perm_next_eval" (perm_next_eval Fr e)]) l) ++ rest) s =
    let* s' := fold_res (t_evals Fr V1 V2 T) l s in off_run rest s'.
  Proof.
    induction l as [|x l IH]; intros s; [reflexivity|]. cbn [map concat fold_res]. rewrite <- !app_assoc, off_fields. unfold t_evals at 1.
    destruct (t_fields Fr V1 V2 T s _ (wires_evals Fr x)) as [s1| |]; [|reflexivity|reflexivity]. cbn [bind]. rewrite off_fields.
    destruct (t_fields Fr V1 V2 T s1 _ (sigma_evals Fr x)) as [s2| |]; [|reflexivity|reflexivity]. cbn [bind app TranscriptGadgetProps.off_run t_step].
    destruct (t_field Fr V1 V2 T s2 _ _) as [s3| |]; [|reflexivity|reflexivity]. cbn [bind]. apply IH.
  Qed.
  Lemma fold_none {X Y S} (f : S -> Y -> outcome X S) (l : list (option Y)) s : Forall (fun x => x = None) l ->
    fold_res (fun s p => match p with Some y => f s y | None => Ok s end) l s = Ok s.
  Proof. induction 1 as [|x l -> _ IH]; [reflexivity|exact IH]. Qed.
  Lemma no_lookup vks : Forall (fun k => vk_plookup Fr V1 V2 k = None) vks -> existsb (fun vk => is_some (vk_plookup Fr V1 V2 vk)) vks = false.
  Proof. induction 1 as [|k l H _ IH]; [reflexivity|]. cbn [existsb]. rewrite H. exact IH. Qed.

  Lemma off_compute vks pis b chs s' : length vks = bp_len Fr V1 b -> length vks = length pis -> Forall (fun k => vk_plookup Fr V1 V2 k = None) vks ->
    Forall (fun l => l = None) (bp_plookups Fr V1 b) ->
    off_run (concat (off_calls vks pis b)) (t_new Fr V1 V2 T "PlonkProof") = Ok (chs, s') ->
    exists be ga al ze v u hs, chs = combine [be; ga; al; ze; v; u] hs /\ length hs = 6%nat /\
      compute_challenges Fr V1 V2 T vks pis b None = Ok (mk_ch Fr None al be ga ze v u).
  Proof.
    intros E1 E2 Hk Hl E. unfold compute_challenges. rewrite <- E1, <- E2, !Nat.eqb_refl. cbn [negb orb]. revert E. unfold off_calls, t_start. cbn [bind].
    rewrite concat_app, off_keys. set (s0 := t_new Fr V1 V2 T "PlonkProof"). intros E. apply bind_ok in E as (s1 & A1 & E). rewrite A1. cbn [bind]. revert E.
    rewrite concat_app, off_wires. intros E. apply bind_ok in E as (s2 & A2 & E). rewrite A2, (no_lookup _ Hk). cbn [bind snd fst]. rewrite (fold_none _ _ _ Hl). cbn [bind].
    revert E. cbn [concat app]. cbn [TranscriptGadgetProps.off_run].
    intros E. apply bind_ok in E as ([be s3] & A3 & E). rewrite A3. apply bind_ok in E as (h3 & _ & E). apply bind_ok in E as (x3 & E & E3). cbn [bind snd fst] in *.
    apply bind_ok in E as ([ga s4] & A4 & E). rewrite A4. apply bind_ok in E as (h4 & _ & E). apply bind_ok in E as (x4 & E & E4). cbn [bind snd fst] in *.
    rewrite off_commitments in E. apply bind_ok in E as (s5 & A5 & E). unfold t_commitments in A5. rewrite A5. cbn [bind]. rewrite (fold_none _ _ _ Hl). cbn [bind].
    cbn [TranscriptGadgetProps.off_run] in E.
    apply bind_ok in E as ([al s6] & A6 & E). rewrite A6. apply bind_ok in E as (h6 & _ & E). apply bind_ok in E as (x6 & E & E6). cbn [bind snd fst] in *.
    rewrite off_commitments in E. apply bind_ok in E as (s7 & A7 & E). rewrite A7. cbn [bind].
    cbn [TranscriptGadgetProps.off_run] in E.
    apply bind_ok in E as ([ze s8] & A8 & E). rewrite A8. apply bind_ok in E as (h8 & _ & E). apply bind_ok in E as (x8 & E & E8). cbn [bind snd fst] in *.
    rewrite concat_app, off_evals in E. apply bind_ok in E as (s9 & A9 & E). rewrite A9. cbn [bind]. rewrite (fold_none _ _ _ Hl). cbn [bind].
    cbn [concat app TranscriptGadgetProps.off_run t_step] in E.
    apply bind_ok in E as ([v s10] & A10 & E). rewrite A10. apply bind_ok in E as (h10 & _ & E). apply bind_ok in E as (x10 & E & E10). cbn [bind snd fst] in *.
    apply bind_ok in E as (s11 & A11 & E). rewrite A11. cbn [bind]. apply bind_ok in E as (s12 & A12 & E). rewrite A12. cbn [bind].
    apply bind_ok in E as ([u s13] & A13 & E). rewrite A13. apply bind_ok in E as (h13 & _ & E). cbn [bind snd fst] in *.
    apply Ok_inj in E. subst x10. apply Ok_inj in E10. subst x8. apply Ok_inj in E8. subst x6. apply Ok_inj in E6. subst x4. apply Ok_inj in E4. subst x3. apply Ok_inj in E3.
    exists be, ga, al, ze, v, u, [h3; h4; h6; h8; h10; h13]. split; [|split; reflexivity]. injection E3 as <- <-. reflexivity.
  Qed.

  (** ** C81 *)
  (** The variables of the inputs exist. *)
  Definition point_in (n : nat) (p : pvar) : Prop := (fst p < n)%nat /\ (snd p < n)%nat.
  (** The limbs exist and the constant between them is the power of two of their size. *)
  Definition limbs_in (n : nat) (x : fvar (K := Fq)) : Prop := (v0 x < n)%nat /\ (v1 x < n)%nat /\ vtwo x = fZ (2 ^ Z.of_nat (vm x)).
  Definition keys_in (n : nat) (vks : list vkvar) : Prop := Forall (fun k => Forall (point_in n) (kv_sels k) /\ Forall (point_in n) (kv_sigmas k)) vks.
  Record proof_in (n : nat) (b : bproofvar (K := Fq)) : Prop := {
    pi_wires : Forall (Forall (point_in n)) (bv_wires b); pi_perms : Forall (point_in n) (bv_perms b); pi_quots : Forall (point_in n) (bv_quots b);
    pi_open : point_in n (bv_open b); pi_shifted : point_in n (bv_shifted b);
    pi_evals : Forall (fun e => Forall (limbs_in n) (ev_wires e) /\ Forall (limbs_in n) (ev_sigmas e) /\ limbs_in n (ev_next e)) (bv_evals b) }.
  Lemma calls_in n vks pis b : keys_in n vks -> Forall (Forall (limbs_in n)) pis -> proof_in n b -> Forall (fun o => tcb o n) (raw_calls vks pis b).
  Proof.
    assert (Fl : forall l, Forall (limbs_in n) l -> Forall (fun x => fvb x n) l).
    { intros l H. eapply Forall_impl; [|exact H]. intros x (A & B & C). split; [split; assumption|exact C]. }
    intros Hk Hp [B1 B2 B3 B4 B5 B6]. unfold raw_calls, key_calls, eval_calls. apply Forall_app. split.
    { revert pis Hp. induction Hk as [|k l [K1 K2] Hk IH]; intros [|p pis] Hp; cbn [combine map]; constructor; inversion_clear Hp as [|? ? P1 P2].
      - cbn [tcb fst snd]. split; [exact K1|]. split; [exact K2|]. apply Fl. exact P1.
      - apply IH. exact P2. }
    apply Forall_app. split. { rewrite Forall_map. exact B1. }
    apply Forall_app. split. { do 2 (constructor; [exact I|]). constructor; [exact B2|]. constructor; [exact I|]. constructor; [exact B3|]. constructor; [exact I|constructor]. }
    apply Forall_app. split. { rewrite Forall_map. eapply Forall_impl; [|exact B6]. intros e (H1 & H2 & (A & B & C)). cbn [tcb]. split; [auto|]. split; [auto|]. split; [split; assumption|exact C]. }
    constructor; [exact I|]. constructor; [exact B4|]. constructor; [exact B5|]. constructor; [exact I|constructor].
  Qed.

  Lemma session_outs c t os outs c' t' : (rb < nb)%nat -> (254 <= nb)%nat -> good c -> ptype c = Ultra rb -> tvb t (num_vars c) -> session q Hq nb L P c t os outs c' t' ->
    Forall (fun v => (v < num_vars c')%nat) outs.
  Proof.
    intros Hrn Hnb G Ht Tb S. revert G Ht Tb. induction S as [c t|c c1 t os outs c' t' G1 X1 S IH|c t o vs t1 c1 os outs c' t' Ob E S IH]; intros G Ht Tb.
    - constructor.
    - apply IH; [auto|destruct X1; congruence|]. eapply tvb_le; [exact Tb|now destruct X1].
    - destruct (C78_call r q Hr Hq nb L rb HF Hrb Hrn Hnb Hodd Hr253 P HP V1 V2 xy te_s te_nalpha te_beta c t o G Ht Tb Ob) as (vs' & t1' & c1' & E' & G1 & X1 & Tb1 & Vs & _).
      rewrite E in E'. injection E' as <- <- <-. assert (Ht1 : ptype c1 = Ultra rb) by (destruct X1; congruence).
      pose proof (C78_session_partial r q Hr Hq nb L rb HF Hrb Hrn Hnb Hodd Hr253 P HP V1 V2 xy te_s te_nalpha te_beta _ _ _ _ _ _ G1 Ht1 Tb1 S) as (_ & X2 & _).
      assert (Hl : (num_vars c1 <= num_vars c')%nat) by now destruct X2.
      apply Forall_app. split; [|auto]. eapply Forall_impl; [|exact Vs]. cbn beta. intros v Hv. clear -Hv Hl. lia.
  Qed.

  (** A variable of the circuit for each challenge. *)
  Definition holds (w : nat -> Fq) (x : rawch) (ch : challenges Fr) : Prop :=
    map (fun v => zv q (w v)) [rc_alpha x; rc_beta x; rc_gamma x; rc_zeta x; rc_v x; rc_u x] =
    map (zv r) [ch_alpha Fr ch; ch_beta Fr ch; ch_gamma Fr ch; ch_zeta Fr ch; ch_v Fr ch; ch_u Fr ch] /\ ch_tau Fr ch = None.
  (** Each challenge is that of the verifier outside, or the low bits of a hash plus the
      modulus, where the challenge outside is the low bits of that hash. *)
  Definition either (y : Z) (x : Fr) : Prop := y = zv r x \/
    exists h : Fq, zv r x = (zv q h mod 2 ^ 248)%Z /\ (zv q h + q < 2 ^ 377)%Z /\ y = ((zv q h + q) mod 2 ^ 248)%Z.
  Definition holds_or (w : nat -> Fq) (x : rawch) (ch : challenges Fr) : Prop :=
    Forall2 either (map (fun v => zv q (w v)) [rc_alpha x; rc_beta x; rc_gamma x; rc_zeta x; rc_v x; rc_u x])
      [ch_alpha Fr ch; ch_beta Fr ch; ch_gamma Fr ch; ch_zeta Fr ch; ch_v Fr ch; ch_u Fr ch] /\ ch_tau Fr ch = None.

  Theorem C81_challenges_partial c vks pis b : good c -> ptype c = Ultra rb -> length vks = bv_len b -> length pis = length vks ->
    keys_in (num_vars c) vks -> Forall (Forall (limbs_in (num_vars c))) pis -> proof_in (num_vars c) b ->
    exists x c', raw vks pis b c = (Ok x, c') /\ good c' /\ extends c c' /\ (exists l, witness c' = witness c ++ l) /\
      ((rc_alpha x < num_vars c')%nat /\ (rc_beta x < num_vars c')%nat /\ (rc_gamma x < num_vars c')%nat /\ (rc_zeta x < num_vars c')%nat /\ (rc_v x < num_vars c')%nat /\ (rc_u x < num_vars c')%nat) /\
      (forall pub, accepts c (witness c) pub -> accepts c' (witness c') pub /\
        forall vks' pis' b', Forall2 (reads_key (asg (witness c))) vks vks' -> Forall2 (Forall2 (says_limbs (asg (witness c)))) pis pis' -> reads_proof (asg (witness c)) b b' ->
          exists ch, compute_challenges Fr V1 V2 T vks' pis' b' None = Ok ch /\ holds (asg (witness c')) x ch) /\
      (both_checked nb rb -> forall c'' ws pub, extends c' c'' -> bounded c'' -> accepts c'' ws pub ->
        forall vks' pis' b', Forall2 (reads_key (asg ws)) vks vks' -> Forall2 (Forall2 (says_limbs (asg ws))) pis pis' -> reads_proof (asg ws) b b' ->
          exists ch, compute_challenges Fr V1 V2 T vks' pis' b' None = Ok ch /\ holds_or (asg ws) x ch).
  Proof.
    intros G Ht E1 E2 Hk Hp Hb. assert (Hrn : (rb < nb)%nat) by (clear -Hrb; lia). assert (Hnb : (254 <= nb)%nat) by (apply Nat.leb_le; reflexivity).
    assert (Tb : tvb tv_new (num_vars c)).
    { pose proof (wf_two _ (gd_wf _ G)) as H2. split; [constructor|]. split; [|reflexivity]. unfold bdl, tv_new. cbn [tv_st]. apply Forall_forall. intros y Hy. apply repeat_spec in Hy. clear -H2 Hy. lia. }
    destruct (C78_run r q Hr Hq nb L rb HF Hrb Hrn Hnb Hodd Hr253 P HP V1 V2 xy te_s te_nalpha te_beta (raw_calls vks pis b) c tv_new G Ht Tb (calls_in _ _ _ _ Hk Hp Hb))
      as (outs & t' & c' & E & G' & X & S & _ & Wl & Hh).
    destruct (C81_calls vks pis b c outs t' c' E1 E2 E) as (be & ga & al & ze & v & u & -> & Er).
    exists (mk_raw al be ga ze v u), c'. do 4 (split; [auto|]).
    split. { pose proof (session_outs _ _ _ _ _ _ Hrn Hnb G Ht Tb S) as Vs. inversion_clear Vs as [|? ? V1' Vs1]. inversion_clear Vs1 as [|? ? V2' Vs2]. inversion_clear Vs2 as [|? ? V3' Vs3].
      inversion_clear Vs3 as [|? ? V4' Vs4]. inversion_clear Vs4 as [|? ? V5' Vs5]. inversion_clear Vs5 as [|? ? V6' _]. cbn [rc_alpha rc_beta rc_gamma rc_zeta rc_v rc_u]. auto 6. }
    assert (Off : forall w vks' pis' b', Forall2 (reads_key w) vks vks' -> Forall2 (Forall2 (says_limbs w)) pis pis' -> reads_proof w b b' ->
      length vks' = bp_len Fr V1 b' /\ length vks' = length pis' /\ Forall (fun k => vk_plookup Fr V1 V2 k = None) vks' /\ Forall (fun l => l = None) (bp_plookups Fr V1 b')).
    { intros w vks' pis' b' R1 R2 R3. pose proof (len2 _ _ _ R1) as L1. pose proof (len2 _ _ _ R2) as L2. destruct R3 as [_ R3 _ R4 _ _ _].
      pose proof (len2 _ _ _ R3) as L3. unfold bp_len, bv_len in *. split; [congruence|]. split; [congruence|]. split; [|exact R4].
      clear -R1. induction R1 as [|k k' l l' (_ & _ & H) _ IH]; constructor; auto. }
    split.
    - intros pub Ac. destruct (Hh pub Ac) as [Ac' Hv]. split; [exact Ac'|]. intros vks' pis' b' R1 R2 R3.
      pose proof (proj1 (accepts_csat zval c (witness c) pub (gd_bd _ G) (proj1 Ac)) Ac) as Cs.
      destruct (C78_new r q Hr Hq P V1 V2 xy te_s te_nalpha te_beta c (witness c) pub G Ac) as [_ Tk].
      destruct (Hv _ _ (says_calls _ _ _ _ _ _ _ R1 R2 R3) Tk) as (chs & s' & Eo & Ev).
      destruct (Off _ _ _ _ R1 R2 R3) as (O1 & O2 & O3 & O4).
      destruct (off_compute vks' pis' b' chs s' O1 O2 O3 O4 Eo) as (be' & ga' & al' & ze' & v' & u' & hs & -> & Lh & Ec).
      eexists. split; [exact Ec|]. split; [|reflexivity]. cbn [rc_alpha rc_beta rc_gamma rc_zeta rc_v rc_u ch_alpha ch_beta ch_gamma ch_zeta ch_v ch_u].
      clear -Ev Lh. do 6 (destruct hs as [|? hs]; [discriminate Lh|]). cbn [map combine fst] in *. congruence.
    - intros Hc c'' ws pub X' Bd Ac vks' pis' b' R1 R2 R3.
      pose proof (proj1 (accepts_csat zval c'' ws pub Bd (proj1 Ac)) Ac) as Cs.
      pose proof (csat_base_ext zval c c'' _ pub G (extends_trans _ _ _ X X') Cs) as [B0 _].
      assert (Tk : tracks q Hq (asg ws) tv_new (t_new Fr V1 V2 T "PlonkProof")).
      { split; [reflexivity|]. cbn [tv_new tv_st t_new rescue res_new res_st]. unfold STATE_SIZE. cbn [repeat map]. now rewrite B0. }
      destruct (C78_session_partial r q Hr Hq nb L rb HF Hrb Hrn Hnb Hodd Hr253 P HP V1 V2 xy te_s te_nalpha te_beta _ _ _ _ _ _ G Ht Tb S) as (_ & _ & _ & Hs).
      destruct (Hs c'' ws pub X' Bd Ac _ _ (says_calls _ _ _ _ _ _ _ R1 R2 R3) Tk) as (chs & s' & Eo & _ & Fv).
      destruct (Off _ _ _ _ R1 R2 R3) as (O1 & O2 & O3 & O4).
      destruct (off_compute vks' pis' b' chs s' O1 O2 O3 O4 Eo) as (be' & ga' & al' & ze' & v' & u' & hs & -> & Lh & Ec).
      eexists. split; [exact Ec|]. split; [|reflexivity]. cbn [rc_alpha rc_beta rc_gamma rc_zeta rc_v rc_u ch_alpha ch_beta ch_gamma ch_zeta ch_v ch_u].
      assert (Ei : forall v x h, zv r x = (zv q h mod 2 ^ 248)%Z -> truncation zval nb rb 248 h (asg ws v) -> either (zv q (asg ws v)) x).
      { intros v1 x h H1 H2. apply (C78_values_partial q Hq nb L rb HF Hrb Hrn Hnb) in H2; [|exact Hc]. destruct H2 as [H2|[H2 H3]]; [left; congruence|right; exists h; auto]. }
      do 6 (destruct hs as [|? hs]; [discriminate Lh|]). cbn [map combine] in *.
      inversion_clear Fv as [|? ? ? ? [A1 A2] Fv1]. inversion_clear Fv1 as [|? ? ? ? [B1 B2] Fv2]. inversion_clear Fv2 as [|? ? ? ? [C1 C2] Fv3].
      inversion_clear Fv3 as [|? ? ? ? [D1 D2] Fv4]. inversion_clear Fv4 as [|? ? ? ? [I1 I2] Fv5]. inversion_clear Fv5 as [|? ? ? ? [J1 J2] _].
      cbn [fst snd] in *. do 6 (constructor; [eauto|]). constructor.
  Qed.

  (** The calls only add gates and variables, as the gadgets do. *)
  Lemma gspec_reached {X} (mm : circ Fq X) c Tb S C R a c' : reached c Tb -> gspec zval mm c S C R -> mm c = (Ok a, c') -> reached c' Tb.
  Proof. intros Rc Hg E. eapply r_gadget; eauto. Qed.
  Lemma call_reached c t o vs t' c' Tb : good c -> ptype c = Ultra rb -> tvb t (num_vars c) -> tcb o (num_vars c) -> reached c Tb ->
    tcall_run P zval q nb L 253 377 t o c = (Ok (vs, t'), c') -> reached c' Tb.
  Proof.
    intros G Ht (B1 & B2 & B3) Ob Rc E. assert (Hrn : (rb < nb)%nat) by (clear -Hrb; lia). assert (Hnb : (254 <= nb)%nat) by (apply Nat.leb_le; reflexivity).
    assert (Dx : o = TChallenge \/ o <> TChallenge) by (destruct o; (left; reflexivity) || (right; discriminate)). destruct Dx as [->|Ho].
    - cbn [tcall_run] in E. unfold cbind at 1 in E. rewrite (gcv_step zval q nb L rb P 253 377 t c Ht eq_refl eq_refl) in E.
      assert (Hne : tv_st t ++ tv_tr t <> []) by (destruct (tv_st t); [discriminate B3|discriminate]).
      assert (Hin : bdl (tv_st t ++ tv_tr t) (num_vars c)) by (apply bdl_app; auto).
      destruct HP as ((q0 & Hq0 & Ha) & Ha5 & Hk & Hi).
      pose proof (sponge_with_padding_spec zval P q0 Hq0 Ha Ha5 Hk Hi (tv_st t ++ tv_tr t) STATE_SIZE c (gd_wf _ G) Hin Hne) as Sp.
      destruct (gspec_gadget zval _ c _ _ _ G ltac:(intros ? ? ? ?; exact I) Sp) as (res & c1 & E1 & G1 & X1 & (R1 & R2) & _).
      pose proof (gspec_reached _ c Tb _ _ _ _ _ Rc Sp E1) as Rc1.
      destruct res as [|o os]; [discriminate R2|]. inversion_clear R1 as [|? ? Ho _].
      pose proof (truncate_spec zval q nb L HF rb Hrb Hrn 248 ltac:(split; apply Nat.leb_le; reflexivity) c1 o (gd_wf _ G1) ltac:(destruct X1; congruence) Ho) as Ts.
      assert (Tg : gspec zval (truncate zval q nb L o 248) c1 (fun _ _ => True) (fun _ => False) (fun _ _ => True)).
      { eapply wpc_mono; [exact Ts|]. intros a d _ _. split; [auto|]. split; [intros ? ? ? []|exact I]. }
      destruct Tg as (ch & d & E2 & Tg). assert (Tg' : gspec zval (truncate zval q nb L o 248) c1 (fun _ _ => True) (fun _ => False) (fun _ _ => True)) by (exists ch, d; auto).
      pose proof (gspec_reached _ c1 Tb _ _ _ _ _ Rc1 Tg' E2) as Rc2. unfold cbind, unwrap in E. rewrite E1 in E. unfold idx, lift in E. cbn [index nth_error] in E. rewrite E2 in E.
      unfold ret in E. injection E as _ _ <-. exact Rc2.
    - pose proof (append_spec zval q nb L rb Hrb Hrn ltac:(lia) P 253 377 c t o Ho (gd_wf _ G) (conj B1 (conj B2 B3)) Ob) as Sp. eapply gspec_reached; eauto.
  Qed.
  Lemma calls_reached os : forall c t outs t' c' Tb, good c -> ptype c = Ultra rb -> tvb t (num_vars c) -> Forall (fun o => tcb o (num_vars c)) os -> reached c Tb ->
    calls_run t os c = (Ok (outs, t'), c') -> reached c' Tb.
  Proof.
    assert (Hrn : (rb < nb)%nat) by (clear -Hrb; lia). assert (Hnb : (254 <= nb)%nat) by (apply Nat.leb_le; reflexivity).
    induction os as [|o os IH]; intros c t outs t' c' Tb G Ht Tt Ob Rc E; cbn [TranscriptGadgetProps.calls_run] in E; [unfold ret in E; injection E as _ _ <-; exact Rc|].
    inversion_clear Ob as [|? ? O1 O2].
    destruct (C78_call r q Hr Hq nb L rb HF Hrb Hrn Hnb Hodd Hr253 P HP V1 V2 xy te_s te_nalpha te_beta c t o G Ht Tt O1) as (vs & t1 & c1 & E1 & G1 & X1 & Tb1 & _).
    assert (N1 : (num_vars c <= num_vars c1)%nat) by now destruct X1. unfold cbind in E. rewrite E1 in E. cbn [snd] in E.
    destruct (calls_run t1 os c1) as [[[outs1 t2]| |] c2] eqn:E2; try discriminate. unfold ret in E. injection E as _ _ <-.
    eapply IH; [exact G1|destruct X1; congruence|exact Tb1| |eapply call_reached; [exact G|exact Ht|exact Tt|exact O1|exact Rc|exact E1]|exact E2].
    eapply Forall_impl; [|exact O2]. cbn beta. intros x Hx. eapply tcb_le; eauto.
  Qed.
  Theorem C81_challenges_reached c vks pis b x c' Tb : good c -> ptype c = Ultra rb -> length vks = bv_len b -> length pis = length vks ->
    keys_in (num_vars c) vks -> Forall (Forall (limbs_in (num_vars c))) pis -> proof_in (num_vars c) b ->
    reached c Tb -> raw vks pis b c = (Ok x, c') -> reached c' Tb.
  Proof.
    intros G Ht E1 E2 Hk Hp Hb Rc Er. assert (Hrn : (rb < nb)%nat) by (clear -Hrb; lia). assert (Hnb : (254 <= nb)%nat) by (apply Nat.leb_le; reflexivity).
    assert (Tt : tvb tv_new (num_vars c)).
    { pose proof (wf_two _ (gd_wf _ G)) as H2. split; [constructor|]. split; [|reflexivity]. unfold bdl, tv_new. cbn [tv_st]. apply Forall_forall. intros y Hy. apply repeat_spec in Hy. clear -H2 Hy. lia. }
    destruct (C78_run r q Hr Hq nb L rb HF Hrb Hrn Hnb Hodd Hr253 P HP V1 V2 xy te_s te_nalpha te_beta (raw_calls vks pis b) c tv_new G Ht Tt (calls_in _ _ _ _ Hk Hp Hb))
      as (outs & t' & c1 & E & _).
    destruct (C81_calls vks pis b c outs t' c1 E1 E2 E) as (be & ga & al & ze & v & u & _ & Er'). rewrite Er in Er'. injection Er' as _ <-.
    exact (calls_reached _ c tv_new outs t' _ Tb G Ht Tt (calls_in _ _ _ _ Hk Hp Hb) Rc E).
  Qed.
End C81.

Print Assumptions C81_challenges_partial.
