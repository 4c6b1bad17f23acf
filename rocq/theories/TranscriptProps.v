(** C60: what the challenges of the transcripts depend on. *)
From Coq Require Import String List Arith ZArith Lia Bool Ring Field Znumtheory.
From Verif Require Import Base ListAux Alg ConvModel ConvProofs UtilProps RescueModel RescueProps KzgModel PlonkModel PlonkPoly PlonkLin TranscriptModel TranscriptProofs.
Import ListNotations.

Lemma prime_gt_1 p : prime p -> (1 < p)%Z.
Proof. intro H. pose proof (prime_ge_2 p H). lia. Qed.
Lemma zv_bound p (x : zp p) : prime p -> (0 <= zv p x < p)%Z.
Proof. intro H. pose proof (prime_ge_2 p H). rewrite <- (zv_mod p x). apply Z.mod_pos_bound. lia. Qed.
Lemma rev_inj {A} (a b : list A) : rev a = rev b -> a = b.
Proof. intro H. rewrite <- (rev_involutive a), <- (rev_involutive b). now f_equal. Qed.
Lemma be_bytes_inj p (x y : zp p) : prime p -> be_bytes {| modulus := p |} (zv p x) = be_bytes {| modulus := p |} (zv p y) -> x = y.
Proof.
  intros H E. apply rev_inj, (f_equal le_val) in E. pose proof (prime_gt_1 p H).
  rewrite !bigint_val in E by (cbn [modulus]; auto using zv_bound). now apply zp_ext.
Qed.
Lemma be_bytes_len P v w : length (be_bytes P v) = length (be_bytes P w).
Proof. unfold be_bytes, bigint_bytes. now rewrite !rev_length, !length_le_bytes. Qed.
Lemma int_be_len n v : length (int_be n v) = n.
Proof. unfold int_be. now rewrite rev_length, length_le_bytes. Qed.
Lemma int_be_inj a b : (Z.of_nat a < 2 ^ 64)%Z -> (Z.of_nat b < 2 ^ 64)%Z -> int_be 8 (Z.of_nat a) = int_be 8 (Z.of_nat b) -> a = b.
Proof.
  intros Ha Hb E. apply rev_inj, (f_equal le_val) in E. change (256 ^ Z.of_nat 8)%Z with (2 ^ 64)%Z in *.
  rewrite !le_val_bytes_small in E by (change (256 ^ Z.of_nat 8)%Z with (2 ^ 64)%Z; lia). lia.
Qed.
Lemma zbytes_inj a b : zbytes a = zbytes b -> a = b.
Proof. revert b. induction a as [|x a IH]; intros [|y b] H; cbn in H; try discriminate; auto. injection H as H1 H2. f_equal; [lia|auto]. Qed.
Lemma flat_map_inj {A B} (f : A -> list B) n l l' : (forall a, length (f a) = n) -> (forall a b, f a = f b -> a = b) ->
  length l = length l' -> flat_map f l = flat_map f l' -> l = l'.
Proof.
  intros Hn Hi. revert l'. induction l as [|a l IH]; intros [|b l'] L E; cbn in *; try discriminate; auto.
  apply app_eq_len in E as [E1 E2]; [|now rewrite !Hn]. f_equal; auto.
Qed.
Lemma flat_map_len {A B} (f : A -> list B) n l : (forall a, length (f a) = n) -> length (flat_map f l) = (length l * n)%nat.
Proof. intro H. induction l as [|a l IH]; cbn; auto. rewrite app_length, H, IH. lia. Qed.

Lemma Forall2_impl {A B} (P Q : A -> B -> Prop) : (forall a b, P a b -> Q a b) -> forall l l', Forall2 P l l' -> Forall2 Q l l'.
Proof. intros H l l'. induction 1; constructor; auto. Qed.

(** ** The birational map to the Edwards form, over any field *)
Section Te.
  Context (K : fld).
  Local Open Scope fld_scope.
  Add Field KT : (fth K).
  Definition on_curve (a b x y : K) : Prop := y * y = x * x * x + a * x + b.
  Lemma te_not_one (m : K) : (1 + 1 : K) <> 0 -> 1 * (m + 1) = m - 1 -> False.
  Proof. intros H2 E. apply H2. replace (1 + 1) with (1 * (m + 1) - (m - 1)) by ring. rewrite E. ring. Qed.
  Lemma te_alg (a b s na be x y x' y' ex ey : K) : on_curve a b (- na) 0 -> s <> 0 -> be <> 0 -> (1 + 1 : K) <> 0 ->
    on_curve a b x y -> on_curve a b x' y' ->
    s * y <> 0 -> ex * (s * y) = be * (s * (x + na)) -> ey * (s * (x + na) + 1) = s * (x + na) - 1 ->
    ex * (s * y') = be * (s * (x' + na)) -> ey * (s * (x' + na) + 1) = s * (x' + na) - 1 ->
    x = x' /\ y = y'.
  Proof.
    intros Ha Hs Hb H2 C C' N Hx Hy Hx' Hy'.
    assert (Em : s * (x + na) = s * (x' + na)).
    { set (m := s * (x + na)) in *. set (m' := s * (x' + na)) in *. apply (fmul_cancel_l K (1 + 1)); auto. apply fsub_eq_0.
      replace ((1 + 1) * m - (1 + 1) * m') with ((m - 1) * (m' + 1) - (m' - 1) * (m + 1)) by ring. rewrite <- Hy, <- Hy'. ring. }
    assert (Ex : x = x'). { apply (fmul_cancel_l K s) in Em; auto. apply fsub_eq_0. replace (x - x') with ((x + na) - (x' + na)) by ring. rewrite Em. ring. }
    subst x'. split; auto. destruct (feq_dec (s * (x + na)) 0) as [Z|NZ].
    - exfalso. apply N. apply fmul_eq_0 in Z as [Z|Z]; [contradiction|]. assert (Ex : x = - na) by (apply fsub_eq_0; rewrite <- Z; ring).
      subst x. unfold on_curve in C, Ha. rewrite <- Ha in C. replace (0 * 0) with (0 : K) in C by ring. apply fmul_eq_0 in C as [-> | ->]; ring.
    - assert (Ey : s * y = s * y').
      { apply (fmul_cancel_l K ex).
        - intro Z. subst ex. apply NZ. assert (Z : be * (s * (x + na)) = 0) by (rewrite <- Hx; ring). apply fmul_eq_0 in Z as [Z|Z]; [contradiction|exact Z].
        - rewrite Hx, Hx'. reflexivity. }
      apply (fmul_cancel_l K s) in Ey; auto.
  Qed.
End Te.

Section Props.
  Variables (r q : Z) (Hr : prime r) (Hq : prime q).
  Notation Fr := (Zp r Hr).
  Notation Fq := (Zp q Hq).
  Notation PR := {| modulus := r |}.
  Notation PQ := {| modulus := q |}.
  Variables V1 V2 : vsp Fr.
  Notation vkey := (vkey Fr V1 V2).
  Notation transcript := (transcript Fr V1 V2).
  Variable xy : V1 -> option (Fq * Fq).
  Variable g1b : V1 -> list Z.
  Variable g2b : V2 -> list Z.
  Variable frb : Fr -> list Z.
  Variable keccak : list Z -> list Z.
  Notation vk_n := (vk_n Fr V1 V2).
  Notation vk_inputs := (vk_inputs Fr V1 V2).
  Notation vk_k := (vk_k Fr V1 V2).
  Notation vk_selectors := (vk_selectors Fr V1 V2).
  Notation vk_sigmas := (vk_sigmas Fr V1 V2).
  Notation vk_open := (vk_open Fr V1 V2).

  (** A session with a transcript: the calls a prover or verifier makes. *)
  Inductive op :=
  | OMessage (l : string) (m : list nat)
  | OKey (vk : vkey) (pi : list Fr)
  | OCommitment (l : string) (c : V1)
  | OField (l : string) (x : Fr)
  | OChallenge (l : string).
  Section Run.
    Variable T : transcript.
    Definition t_step (s : tstate Fr V1 V2 T) (o : op) : outcome perr (tstate Fr V1 V2 T) :=
      match o with
      | OMessage l m => t_message Fr V1 V2 T s l m
      | OKey vk pi => t_vk_pi Fr V1 V2 T s vk pi
      | OCommitment l c => t_commitment Fr V1 V2 T s l c
      | OField l x => t_field Fr V1 V2 T s l x
      | OChallenge l => let* cs := t_challenge Fr V1 V2 T s l in Ok (snd cs)
      end.
    Definition t_run (os : list op) (s : tstate Fr V1 V2 T) : outcome perr (tstate Fr V1 V2 T) := fold_res t_step os s.
    (** what is hashed at each challenge, when [view s] is hashed in state [s] *)
    Variable B : Type.
    Variable view : tstate Fr V1 V2 T -> B.
    Fixpoint hashed (os : list op) (s : tstate Fr V1 V2 T) : list B :=
      match os with
      | [] => []
      | o :: os => match o with OChallenge _ => [view s] | _ => [] end ++
                   match t_step s o with Ok s' => hashed os s' | _ => [] end
      end.
  End Run.

  (** The calls are of the same kind and pass the same amounts of data; sizes fit [usize]. *)
  Definition same_shape (o o' : op) : Prop :=
    match o, o' with
    | OMessage _ m, OMessage _ m' => length m = length m'
    | OKey vk pi, OKey vk' pi' =>
        (Z.of_nat (vk_n vk) < 2 ^ 64 /\ Z.of_nat (vk_n vk') < 2 ^ 64 /\ Z.of_nat (vk_inputs vk) < 2 ^ 64 /\ Z.of_nat (vk_inputs vk') < 2 ^ 64)%Z /\
        length (vk_k vk) = length (vk_k vk') /\ length (vk_selectors vk) = length (vk_selectors vk') /\
        length (vk_sigmas vk) = length (vk_sigmas vk') /\ length pi = length pi'
    | OCommitment _ _, OCommitment _ _ | OField _ _, OField _ _ | OChallenge _, OChallenge _ => True
    | _, _ => False
    end.
  (** The calls pass the same data; of a verifying key only what is appended. *)
  Definition same_data (o o' : op) : Prop :=
    match o, o' with
    | OMessage _ m, OMessage _ m' => m = m'
    | OKey vk pi, OKey vk' pi' =>
        vk_n vk = vk_n vk' /\ vk_inputs vk = vk_inputs vk' /\
        nth_error (vpowers_of_h (vk_open vk)) 1 = nth_error (vpowers_of_h (vk_open vk')) 1 /\
        vk_k vk = vk_k vk' /\ vk_selectors vk = vk_selectors vk' /\ vk_sigmas vk = vk_sigmas vk' /\ pi = pi'
    | OCommitment _ c, OCommitment _ c' => c = c'
    | OField _ x, OField _ x' => x = x'
    | OChallenge _, OChallenge _ => True
    | _, _ => False
    end.

  (** ** Solidity *)
  Notation solT := (solidity r q Hr Hq V1 V2 xy g2b keccak).
  Definition sol_in (s : sol_state) : list Z := sol_st s ++ sol_tr s.
  Definition cbytes (c : V1) : list Z :=
    let p := match xy c with None => (f0 : Fq, f0 : Fq) | Some p => p end in be_bytes PQ (zv q (fst p)) ++ be_bytes PQ (zv q (snd p)).
  Definition fbytes (x : Fr) : list Z := be_bytes PR (zv r x).
  Definition sol_enc (o : op) : option (outcome perr (list Z)) :=
    match o with
    | OMessage _ m => Some (Ok (zbytes m))
    | OKey vk pi => Some (let* h1 := index (vpowers_of_h (vk_open vk)) 1 in
        Ok (int_be 4 (bit_size PR) ++ int_be 8 (Z.of_nat (vk_n vk)) ++ int_be 8 (Z.of_nat (vk_inputs vk)) ++ repeat 0%Z 12
          ++ g2b h1 ++ flat_map fbytes (vk_k vk) ++ flat_map cbytes (vk_selectors vk) ++ flat_map cbytes (vk_sigmas vk) ++ flat_map fbytes pi))
    | OCommitment _ c => Some (Ok (cbytes c))
    | OField _ x => Some (Ok (fbytes x))
    | OChallenge _ => None
    end.
  Lemma fold_sol_field l s : fold_left (sol_field r Hr) l s = mk_sol (sol_st s) (sol_tr s ++ flat_map fbytes l).
  Proof.
    revert s. induction l as [|x l IH]; intro s; cbn; [now rewrite app_nil_r; destruct s|]. rewrite IH. cbn. now rewrite <- app_assoc.
  Qed.
  Lemma fold_sol_comm l s : fold_left (sol_commitment r q Hr Hq V1 xy) l s = mk_sol (sol_st s) (sol_tr s ++ flat_map cbytes l).
  Proof.
    revert s. induction l as [|x l IH]; intro s; cbn; [now rewrite app_nil_r; destruct s|]. rewrite IH. cbn. now rewrite <- app_assoc.
  Qed.
  Lemma sol_step s o s' : t_step solT s o = Ok s' ->
    step perr Z op sol_enc (fun x => Ok (keccak x)) (sol_st s, sol_tr s) o = Ok ((sol_st s', sol_tr s'), match o with OChallenge _ => [sol_in s] | _ => [] end).
  Proof.
    destruct o as [l m|vk pi|l c|l x|l]; cbn [t_step]; intro E; unfold step; cbn [sol_enc].
    - cbn in E. injection E as <-. reflexivity.
    - cbn [t_vk_pi solidity] in E. unfold sol_vk_pi in E. destruct (index _ 1) as [h1| |]; cbn [bind] in E |- *; try discriminate.
      apply Ok_inj in E. rewrite <- E. rewrite fold_sol_field, fold_sol_comm, fold_sol_comm, fold_sol_field. cbn [sol_st sol_tr sol_message fst snd].
      rewrite <- !app_assoc. reflexivity.
    - cbn in E. injection E as <-. reflexivity.
    - cbn in E. injection E as <-. reflexivity.
    - cbn in E. injection E as <-. reflexivity.
  Qed.
  Lemma sol_run os : forall s s', t_run solT os s = Ok s' ->
    run perr Z op sol_enc (fun x => Ok (keccak x)) (sol_st s, sol_tr s) os = Ok ((sol_st s', sol_tr s'), hashed solT _ sol_in os s).
  Proof.
    induction os as [|o os IH]; intros s s' E; cbn [t_run fold_res] in E; [injection E as <-; reflexivity|].
    apply bind_ok in E as (s1 & E1 & E). cbn [run hashed]. rewrite (sol_step _ _ _ E1), E1. cbn [bind fst snd]. rewrite (IH _ _ E). cbn [bind]. reflexivity.
  Qed.

  Hypothesis keccak_len : forall x, length (keccak x) = 32%nat.
  Hypothesis xy_inj : forall c c', xy c = xy c' -> c = c'.
  Hypothesis xy_zero : forall c, xy c <> Some (f0, f0).
  Hypothesis g2b_inj : forall h h', g2b h = g2b h' -> h = h'.
  Hypothesis g2b_len : forall h h', length (g2b h) = length (g2b h').

  Lemma fbytes_inj x y : fbytes x = fbytes y -> x = y.
  Proof. apply (be_bytes_inj r). exact Hr. Qed.
  Lemma cbytes_inj c c' : cbytes c = cbytes c' -> c = c'.
  Proof.
    unfold cbytes. intro E. apply app_eq_len in E as [E1 E2]; [|apply be_bytes_len]. apply (be_bytes_inj q) in E1, E2; auto.
    apply xy_inj. pose proof (xy_zero c) as Z1. pose proof (xy_zero c') as Z2. destruct (xy c) as [[x y]|], (xy c') as [[x' y']|]; cbn in *; subst; auto; now exfalso; (apply Z1 || apply Z2).
  Qed.
  Lemma fbytes_len x : length (fbytes x) = length (fbytes f0).
  Proof. apply be_bytes_len. Qed.
  Lemma cbytes_len c : length (cbytes c) = length (be_bytes PQ 0 ++ be_bytes PQ 0).
  Proof. unfold cbytes. rewrite !app_length. now f_equal; apply be_bytes_len. Qed.

  Lemma sol_alike o o' : same_shape o o' -> alike perr Z op sol_enc o o'.
  Proof.
    unfold alike. destruct o as [l m|vk pi|l c|l x|l], o' as [l' m'|vk' pi'|l' c'|l' x'|l']; cbn [same_shape sol_enc]; try tauto; intros Hs a a' E E'.
    - apply Ok_inj in E, E'. subst. unfold zbytes. now rewrite !map_length.
    - destruct Hs as (_ & L1 & L2 & L3 & L4). destruct (index _ 1) as [h| |] eqn:Eh in E; cbn [bind] in E; try discriminate.
      destruct (index _ 1) as [h'| |] eqn:Eh' in E'; cbn [bind] in E'; try discriminate. apply Ok_inj in E, E'. subst a a'.
      rewrite !app_length, !int_be_len, !(flat_map_len fbytes _ _ fbytes_len), !(flat_map_len cbytes _ _ cbytes_len), (g2b_len h h'). congruence.
    - apply Ok_inj in E, E'. subst. now rewrite !cbytes_len.
    - apply Ok_inj in E, E'. subst. now rewrite (fbytes_len x), (fbytes_len x').
  Qed.
  Lemma sol_equals o o' : (match sol_enc o with Some (Ok _) | None => True | _ => False end) -> same_shape o o' -> equals perr Z op sol_enc o o' -> same_data o o'.
  Proof.
    unfold equals. destruct o as [l m|vk pi|l c|l x|l], o' as [l' m'|vk' pi'|l' c'|l' x'|l']; cbn [same_shape sol_enc same_data]; try tauto; intros Hok Hs E.
    - apply Ok_inj in E. now apply zbytes_inj.
    - destruct Hs as ((B1 & B2 & B3 & B4) & L1 & L2 & L3 & L4). destruct (index (vpowers_of_h (vk_open vk)) 1) as [h| |] eqn:Eh; try contradiction.
      destruct (index (vpowers_of_h (vk_open vk')) 1) as [h'| |] eqn:Eh'; cbn [bind] in E; try discriminate. apply Ok_inj in E.
      apply app_eq_len in E as [_ E]; [|reflexivity]. apply app_eq_len in E as [En E]; [|now rewrite !int_be_len].
      apply app_eq_len in E as [Ei E]; [|now rewrite !int_be_len]. apply app_eq_len in E as [_ E]; [|reflexivity].
      apply app_eq_len in E as [Eg E]; [|apply g2b_len]. apply app_eq_len in E as [Ek E]; [|rewrite !(flat_map_len fbytes _ _ fbytes_len); congruence].
      apply app_eq_len in E as [Es E]; [|rewrite !(flat_map_len cbytes _ _ cbytes_len); congruence].
      apply app_eq_len in E as [Et E]; [|rewrite !(flat_map_len cbytes _ _ cbytes_len); congruence].
      split; [now apply int_be_inj|]. split; [now apply int_be_inj|]. split.
      { apply g2b_inj in Eg. subst h'. unfold index in Eh, Eh'. destruct (nth_error (vpowers_of_h (vk_open vk)) 1); [|discriminate]. destruct (nth_error (vpowers_of_h (vk_open vk')) 1); [|discriminate].
        apply Ok_inj in Eh, Eh'. congruence. }
      split; [eapply flat_map_inj; eauto using fbytes_len, fbytes_inj|]. split; [eapply flat_map_inj; eauto using cbytes_len, cbytes_inj|].
      split; [eapply flat_map_inj; eauto using cbytes_len, cbytes_inj|]. eapply flat_map_inj; eauto using fbytes_len, fbytes_inj.
    - apply Ok_inj in E. now apply cbytes_inj.
    - apply Ok_inj in E. now apply fbytes_inj.
  Qed.

  Lemma sol_enc_ok o s s' : t_step solT s o = Ok s' -> match sol_enc o with Some (Ok _) | None => True | _ => False end.
  Proof.
    intro E. destruct o as [l m|vk pi|l c|l x|l]; cbn [sol_enc]; auto. cbn [t_step t_vk_pi solidity] in E. unfold sol_vk_pi in E.
    destruct (index _ 1); cbn [bind] in *; [exact I|discriminate|discriminate].
  Qed.
  Lemma sol_all_ok os : forall s s', t_run solT os s = Ok s' -> Forall (fun o => match sol_enc o with Some (Ok _) | None => True | _ => False end) os.
  Proof.
    induction os as [|o os IH]; intros s s' E; [constructor|]. cbn [t_run fold_res] in E. apply bind_ok in E as (s1 & E1 & E).
    constructor; [eapply sol_enc_ok; eauto|eapply IH; eauto].
  Qed.

  (** *** C60, Solidity transcript.  Two sessions of the same shape that reach the same state
      (and so draw the same challenges from there on) passed the same data, or two of the
      strings they hashed are a Keccak collision. *)
  Theorem C60_solidity_binding l l' os os' s : Forall2 same_shape os os' ->
    t_run solT os (t_new Fr V1 V2 solT l) = Ok s -> t_run solT os' (t_new Fr V1 V2 solT l') = Ok s ->
    Forall2 same_data os os' \/
    exists x y, In x (hashed solT _ sol_in os (t_new Fr V1 V2 solT l)) /\ In y (hashed solT _ sol_in os' (t_new Fr V1 V2 solT l')) /\
      x <> y /\ keccak x = keccak y.
  Proof.
    intros Hs E E'. pose proof (sol_all_ok _ _ _ E) as Ha. pose proof (sol_run _ _ _ E) as R. pose proof (sol_run _ _ _ E') as R'.
    destruct (run_binding perr Z op sol_enc (fun x => Ok (keccak x)) 32 ltac:(intros x y Ey; apply Ok_inj in Ey; now subst) (list_eq_dec Z.eq_dec)
      os os' (repeat 0%Z 32, []) (repeat 0%Z 32, []) _ _ _ eq_refl eq_refl ltac:(eapply Forall2_impl; [exact sol_alike|exact Hs]) R R') as [[_ Hf]|(x & y & h & Hx & Hy & N & Ex & Ey)].
    - left. clear E E' R R'. induction Hs as [|o o' os os' H1 Hs IH]; [constructor|]. inversion Hf; inversion Ha; subst. constructor; auto. now apply sol_equals.
    - right. exists x, y. split; [exact Hx|]. split; [exact Hy|]. split; [exact N|]. congruence.
  Qed.
  (** No two challenges of a session hash the same string, unless two hashed strings collide
      or one hashes to 32 zero bytes. *)
  Theorem C60_solidity_fresh l os s i j x : t_run solT os (t_new Fr V1 V2 solT l) = Ok s ->
    let hs := hashed solT _ sol_in os (t_new Fr V1 V2 solT l) in
    (i < j)%nat -> nth_error hs i = Some x -> nth_error hs j = Some x ->
    (exists y z, In y hs /\ In z hs /\ y <> z /\ keccak y = keccak z) \/ (exists y, In y hs /\ keccak y = repeat 0%Z 32).
  Proof.
    intros E hs Hij Hi Hj. pose proof (sol_run _ _ _ E) as R.
    destruct (run_fresh perr Z op sol_enc (fun x => Ok (keccak x)) 32 ltac:(intros u y Ey; apply Ok_inj in Ey; now subst) (list_eq_dec Z.eq_dec)
      (repeat 0%Z 32, []) _ _ _ i j x eq_refl R Hij Hi Hj) as [(u & y & h & Hx & Hy & N & Ex & Ey)|(w & Hw & Ew)].
    - left. exists u, y. split; [exact Hx|]. split; [exact Hy|]. split; [exact N|]. congruence.
    - right. exists w. split; [exact Hw|]. now apply Ok_inj in Ew.
  Qed.

  (** ** Rescue *)
  Section Rescue.
    Variable RP : rescue_params Fq.
    Variables te_s te_nalpha te_beta : Fq.
    Notation resT := (rescue r q Hr Hq V1 V2 xy RP te_s te_nalpha te_beta).
    Notation sw_to_te := (sw_to_te q Hq te_s te_nalpha te_beta).
    Local Open Scope fld_scope.
    Add Field FqT : (fth Fq).
    (** The curve [y^2 = x^3 + a x + b] of the commitments has the point [(-NEG_ALPHA, 0)]. *)
    Variables ca cb : Fq.
    Hypothesis Hcurve : forall c x y, xy c = Some (x, y) -> on_curve Fq ca cb x y.
    Hypothesis Halpha : on_curve Fq ca cb (- te_nalpha) 0.
    Hypothesis Hs : te_s <> 0.
    Hypothesis Hbeta : te_beta <> 0.
    Hypothesis H2 : (1 + 1 : Fq) <> 0.

    Lemma fdivp_ok a b c : fdivp q Hq a b = Ok c -> b <> f0 (f := Fq) /\ fmul (f := Fq) c b = a.
    Proof.
      unfold fdivp. destruct (feqb b f0) eqn:E; [discriminate|]. apply feqb_neq in E. intro H. apply Ok_inj in H. subst c. split; [exact E|]. field. exact E.
    Qed.
    Lemma te_inj c c' p : sw_to_te (xy c) = Ok p -> sw_to_te (xy c') = Ok p -> c = c'.
    Proof.
      intros E E'. apply xy_inj. pose proof (Hcurve c) as C. pose proof (Hcurve c') as C'.
      assert (Hinf : forall x y, sw_to_te (Some (x, y)) <> Ok (0, 1)).
      { intros x y H. unfold TranscriptModel.sw_to_te in H. apply bind_ok in H as (ex & Hx & H). apply bind_ok in H as (ey & Hy & H). apply Ok_inj in H. injection H as -> ->.
        apply fdivp_ok in Hy as [N Hy]. exact (te_not_one Fq _ H2 Hy). }
      destruct (xy c) as [[x y]|], (xy c') as [[x' y']|]; auto.
      - specialize (C x y eq_refl). specialize (C' x' y' eq_refl). unfold TranscriptModel.sw_to_te in E, E'.
        apply bind_ok in E as (ex & Hx & E). apply bind_ok in E as (ey & Hy & E). apply Ok_inj in E. subst p.
        apply bind_ok in E' as (ex' & Hx' & E'). apply bind_ok in E' as (ey' & Hy' & E'). apply Ok_inj in E'. injection E' as -> ->.
        apply fdivp_ok in Hx as [Nx Hx], Hy as [Ny Hy], Hx' as [Nx' Hx'], Hy' as [Ny' Hy'].
        destruct (te_alg Fq ca cb te_s te_nalpha te_beta x y x' y' ex ey) as [-> ->]; auto.
      - cbn in E'. apply Ok_inj in E'. subst p. now apply Hinf in E.
      - cbn in E. apply Ok_inj in E. subst p. now apply Hinf in E'.
    Qed.

    Hypothesis Hk : length (rp_keys RP) = 25%nat.
    Hypothesis Hodd : Z.odd q = true.
    Hypothesis Hrq : (r <= q)%Z.
    Hypothesis Hcodec : codec_field PQ 1.

    Definition res_in (s : res_state q Hq) : list Fq := res_st q Hq s ++ res_tr q Hq s.
    Definition flat_res {A B} (f : A -> outcome perr (list B)) (l : list A) : outcome perr (list B) := let* ls := map_res f l in Ok (concat ls).
    Definition te_of (c : V1) : outcome perr (list Fq) := let* p := sw_to_te (xy c) in Ok [fst p; snd p].
    Definition sw_of (x : Fr) : outcome perr (list Fq) := let* y := lift_u (field_switching PR PQ (zv r x)) in Ok [zmk q y : Fq].
    Definition res_enc (o : op) : option (outcome perr (list Fq)) :=
      match o with
      | OMessage _ m => Some (let* es := lift_u (bytes_to_field_elements PQ 1 (zbytes m)) in Ok (map (zmk q) (concat es) : list Fq))
      | OKey vk pi => Some (let* a := flat_res te_of (vk_selectors vk) in let* b := flat_res te_of (vk_sigmas vk) in
                            let* c := flat_res sw_of pi in Ok (a ++ b ++ c))
      | OCommitment _ c => Some (te_of c)
      | OField _ x => Some (sw_of x)
      | OChallenge _ => None
      end.
    Definition res_hash (x : list Fq) : outcome perr (list Fq) := lift_u (variable_crhf RP STATE_SIZE x).
    Lemma fold_flat {A} (f : res_state q Hq -> A -> outcome perr (res_state q Hq)) (g : A -> outcome perr (list Fq)) l :
      (forall s a, f s a = let* x := g a in Ok (res_push q Hq s x)) -> forall s,
      fold_res f l s = let* x := flat_res g l in Ok (res_push q Hq s x).
    Proof.
      intro Hf. induction l as [|a l IH]; intro s.
      - cbn. unfold res_push. rewrite app_nil_r. now destruct s.
      - cbn [fold_res]. rewrite Hf. unfold flat_res. cbn [map_res]. destruct (g a) as [x| |]; cbn [bind]; auto.
        rewrite IH. unfold flat_res. destruct (map_res g l) as [ls| |]; cbn [bind concat]; auto. unfold res_push. cbn. now rewrite <- app_assoc.
    Qed.
    Lemma res_step s o s' : t_step resT s o = Ok s' ->
      step perr Fq op res_enc res_hash (res_st q Hq s, res_tr q Hq s) o
        = Ok ((res_st q Hq s', res_tr q Hq s'), match o with OChallenge _ => [res_in s] | _ => [] end).
    Proof.
      destruct o as [l m|vk pi|l c|l x|l]; cbn [t_step]; intro E; unfold step; cbn [res_enc].
      - cbn [t_message rescue] in E. unfold res_message in E. destruct (lift_u _) as [es| |]; cbn [bind] in *; try discriminate. apply Ok_inj in E. now subst.
      - cbn [t_vk_pi rescue] in E. unfold res_vk_pi in E. rewrite (fold_flat _ te_of) in E.
        2:{ intros s0 a. unfold res_commitment, te_of. destruct (sw_to_te _); reflexivity. }
        destruct (flat_res te_of (vk_selectors vk)) as [a| |]; cbn [bind] in *; try discriminate. rewrite (fold_flat _ te_of) in E.
        2:{ intros s0 a0. unfold res_commitment, te_of. destruct (sw_to_te _); reflexivity. }
        destruct (flat_res te_of (vk_sigmas vk)) as [b| |]; cbn [bind] in *; try discriminate. rewrite (fold_flat _ sw_of) in E.
        2:{ intros s0 a0. unfold res_field, sw_of. destruct (lift_u _); reflexivity. }
        destruct (flat_res sw_of pi) as [c| |]; cbn [bind] in *; try discriminate. apply Ok_inj in E. subst s'. unfold res_push. cbn. now rewrite <- !app_assoc.
      - cbn [t_commitment rescue] in E. unfold res_commitment in E. unfold te_of. destruct (sw_to_te _); cbn [bind] in *; try discriminate. apply Ok_inj in E. now subst.
      - cbn [t_field rescue] in E. unfold res_field in E. unfold sw_of. destruct (lift_u _); cbn [bind] in *; try discriminate. apply Ok_inj in E. now subst.
      - cbn [t_challenge rescue] in E. unfold res_challenge in E. unfold res_hash, res_in. cbn [fst snd]. destruct (lift_u (variable_crhf _ _ _)) as [tmp| |]; cbn [bind] in *; try discriminate.
        destruct (index tmp 0) as [t0| |]; cbn [bind] in E; try discriminate. destruct (lift_u _); cbn [bind snd] in E; try discriminate. apply Ok_inj in E. now subst.
    Qed.
    Lemma res_run os : forall s s', t_run resT os s = Ok s' ->
      run perr Fq op res_enc res_hash (res_st q Hq s, res_tr q Hq s) os = Ok ((res_st q Hq s', res_tr q Hq s'), hashed resT _ res_in os s).
    Proof.
      induction os as [|o os IH]; intros s s' E; cbn [t_run fold_res] in E; [injection E as <-; reflexivity|].
      apply bind_ok in E as (s1 & E1 & E). cbn [run hashed]. rewrite (res_step _ _ _ E1), E1. cbn [bind fst snd]. rewrite (IH _ _ E). cbn [bind]. reflexivity.
    Qed.
    Lemma res_hash_len x y : res_hash x = Ok y -> length y = 4%nat.
    Proof.
      unfold res_hash. destruct (C38_output_length Fq RP Hk x STATE_SIZE) as [(res & E & L) _]. rewrite E. cbn. intro H. apply Ok_inj in H. now subst.
    Qed.
    Lemma sw_of_eq x : sw_of x = Ok [zmk q (zv r x)].
    Proof.
      unfold sw_of. pose proof (zv_bound r x Hr) as B. pose proof (prime_gt_1 r Hr). pose proof (prime_gt_1 q Hq).
      rewrite C20_switching_exact; cbn [modulus]; auto.
      - destruct (Z.ltb_spec (zv r x) q); [reflexivity|lia].
      - assert (1 <= 2 ^ (64 * limbs PQ))%Z by (pose proof (Z.pow_pos_nonneg 2 (64 * limbs PQ)); destruct (Z.le_gt_cases 0 (64 * limbs PQ)); [specialize (H1 ltac:(lia) H3); lia|]; pose proof (limbs_bounds PQ H0); pose proof (bit_size_pos PQ H0); lia). nia.
    Qed.
    Lemma sw_of_inj x x' : sw_of x = sw_of x' -> x = x'.
    Proof.
      rewrite !sw_of_eq. intro E. apply Ok_inj in E. injection E as E. apply zp_ext. pose proof (zv_bound r x Hr). pose proof (zv_bound r x' Hr).
      rewrite !Z.mod_small in E by lia. exact E.
    Qed.
    Lemma te_of_ok c a : te_of c = Ok a -> length a = 2%nat.
    Proof. unfold te_of. destruct (sw_to_te _); cbn; try discriminate. intro H. apply Ok_inj in H. now subst. Qed.
    Lemma te_of_inj c c' a : te_of c = Ok a -> te_of c' = Ok a -> c = c'.
    Proof.
      unfold te_of. intros E E'. apply bind_ok in E as ([x y] & E & Ea). apply bind_ok in E' as ([x' y'] & E' & Ea'). apply Ok_inj in Ea, Ea'. subst a. injection Ea' as -> ->.
      eapply te_inj; eauto.
    Qed.
    Lemma sw_of_ok x a : sw_of x = Ok a -> length a = 1%nat.
    Proof. rewrite sw_of_eq. intro H. apply Ok_inj in H. now subst. Qed.
    Lemma flat_res_len {A B} (f : A -> outcome perr (list B)) n l : (forall a x, f a = Ok x -> length x = n) -> forall x, flat_res f l = Ok x -> length x = (length l * n)%nat.
    Proof.
      intros Hf. unfold flat_res. induction l as [|a l IH]; intros x E; cbn [map_res bind] in E; [apply Ok_inj in E; now subst|].
      apply bind_ok in E as (ls & E1 & E). apply bind_ok in E1 as (b & Eb & E1). apply bind_ok in E1 as (bs & Ebs & E1). apply Ok_inj in E1, E. subst.
      cbn [concat length]. rewrite app_length, (Hf _ _ Eb), (IH (concat bs)); [lia|]. now rewrite Ebs.
    Qed.
    Lemma flat_res_inj {A B} (f : A -> outcome perr (list B)) n l : (forall a x, f a = Ok x -> length x = n) ->
      (forall a b x, f a = Ok x -> f b = Ok x -> a = b) -> forall l' x, length l = length l' -> flat_res f l = Ok x -> flat_res f l' = Ok x -> l = l'.
    Proof.
      intros Hf Hi. unfold flat_res. induction l as [|a l IH]; intros [|a' l'] x L E E'; try discriminate; auto. cbn [map_res] in E, E'.
      apply bind_ok in E as (ls & E1 & E). apply bind_ok in E1 as (b & Eb & E1). apply bind_ok in E1 as (bs & Ebs & E1). apply Ok_inj in E1, E.
      apply bind_ok in E' as (ls' & E1' & E'). apply bind_ok in E1' as (b' & Eb' & E1'). apply bind_ok in E1' as (bs' & Ebs' & E1'). apply Ok_inj in E1', E'.
      subst. cbn [concat] in E'. apply app_eq_len in E' as [Eb1 Eb2]; [|now rewrite (Hf _ _ Eb), (Hf _ _ Eb')]. subst b'. f_equal; [eapply Hi; eauto|].
      apply (IH l' (concat bs)); auto; [now rewrite Ebs|]. rewrite Ebs'. cbn. now rewrite Eb2.
    Qed.

    (** The calls are of the same kind and pass the same amounts of data; messages are bytes
        and not too long for the codec. *)
    Definition res_shape (o o' : op) : Prop :=
      same_shape o o' /\
      match o, o' with
      | OMessage _ m, OMessage _ m' => (forall b, In b (m ++ m') -> (b < 256)%nat) /\ (4 * field_bytes PQ 1 + Z.of_nat (length m) < 2 ^ 64)%Z
      | _, _ => True
      end.
    (** Of a verifying key only the selector and sigma commitments are appended. *)
    Definition res_data (o o' : op) : Prop :=
      match o, o' with
      | OKey vk pi, OKey vk' pi' => vk_selectors vk = vk_selectors vk' /\ vk_sigmas vk = vk_sigmas vk' /\ pi = pi'
      | _, _ => same_data o o'
      end.

    Lemma msg_len m m' es es' : length m = length m' -> bytes_to_field_elements PQ 1 (zbytes m) = Ok es -> bytes_to_field_elements PQ 1 (zbytes m') = Ok es' ->
      length es = length es'.
    Proof.
      unfold bytes_to_field_elements. destruct (compile_time_checks PQ 1) as [[[pl d] fl]| |]; cbn [bind]; try discriminate.
      intros L E E'. assert (Lz : length (zbytes m) = length (zbytes m')) by (unfold zbytes; now rewrite !map_length).
      destruct (zbytes m) as [|b bs], (zbytes m') as [|b' bs']; try discriminate; [apply Ok_inj in E, E'; now subst|].
      destruct (usize_lim <=? _)%Z in E; try discriminate. destruct (usize_lim <=? _)%Z in E'; try discriminate.
      destruct (length _ =? _)%nat eqn:L1 in E; try discriminate. destruct (length _ =? _)%nat eqn:L2 in E'; try discriminate.
      apply Nat.eqb_eq in L1, L2. apply Ok_inj in E, E'. rewrite <- E, <- E', L1, L2, Lz. reflexivity.
    Qed.
    Lemma singles_concat {A} (es : list (list A)) : Forall (fun e => length e = 1%nat) es -> length (concat es) = length es /\ forall es', Forall (fun e => length e = 1%nat) es' -> concat es = concat es' -> es = es'.
    Proof.
      induction 1 as [|e es He H [IH1 IH2]]; cbn.
      - split; auto. intros [|e' es'] H' E; auto. inversion H'; subst. destruct e'; discriminate.
      - rewrite app_length, He, IH1. split; auto. intros [|e' es'] H' E; [destruct e; discriminate|]. inversion H'; subst. cbn in E.
        apply app_eq_len in E as [-> E]; [|congruence]. f_equal. auto.
    Qed.
    Lemma zmk_map_inj (a b : list Z) : Forall (fun x => 0 <= x < q)%Z a -> Forall (fun x => 0 <= x < q)%Z b -> map (zmk q) a = map (zmk q) b -> a = b.
    Proof.
      intros Ha. revert b. induction Ha as [|x a Hx Ha IH]; intros [|y b] Hb E; cbn in E; try discriminate; auto. inversion Hb; subst. injection E as E1 E2.
      f_equal; auto. rewrite !Z.mod_small in E1; auto.
    Qed.
    Lemma msg_enc m es : (forall b, In b m -> (b < 256)%nat) -> (4 * field_bytes PQ 1 + Z.of_nat (length m) < 2 ^ 64)%Z ->
      bytes_to_field_elements PQ 1 (zbytes m) = Ok es -> Forall (fun e => length e = 1%nat) es /\ Forall (fun x => 0 <= x < q)%Z (concat es).
    Proof.
      intros Hb Hl E. destruct (C19_round_trip PQ 1 (zbytes m) Hcodec) as (es' & E' & F & _).
      - intros b Hin. apply in_map_iff in Hin as (n & <- & Hn). specialize (Hb n Hn). lia.
      - unfold zbytes. now rewrite map_length.
      - rewrite E in E'. apply Ok_inj in E'. subst es'. clear E. induction F as [|e es [L B] F [IH1 IH2]]; cbn; auto. split; auto. apply Forall_app. auto.
    Qed.
    Lemma res_alike o o' : res_shape o o' -> alike perr Fq op res_enc o o'.
    Proof.
      unfold alike, res_shape. destruct o as [l m|vk pi|l c|l x|l], o' as [l' m'|vk' pi'|l' c'|l' x'|l']; cbn [same_shape res_enc]; try tauto; intros [Sh Bd] a a' E E'.
      - destruct Bd as [Bb Bl]. apply bind_ok in E as (es & E & Ea). apply bind_ok in E' as (es' & E' & Ea'). apply Ok_inj in Ea, Ea'. subst a a'.
        destruct (bytes_to_field_elements PQ 1 (zbytes m)) as [e1| |] eqn:B1; cbn in E; try discriminate.
        destruct (bytes_to_field_elements PQ 1 (zbytes m')) as [e2| |] eqn:B2; cbn in E'; try discriminate. apply Ok_inj in E, E'. subst e1 e2.
        destruct (msg_enc m es) as [F1 _]; auto. { intros b Hb. apply Bb, in_or_app. auto. }
        destruct (msg_enc m' es') as [F2 _]; auto. { intros b Hb. apply Bb, in_or_app. auto. } { now rewrite <- Sh. }
        rewrite !map_length, (proj1 (singles_concat es F1)), (proj1 (singles_concat es' F2)). exact (msg_len _ _ _ _ Sh B1 B2).
      - destruct Sh as (_ & L1 & L2 & L3 & L4). apply bind_ok in E as (x1 & X1 & E). apply bind_ok in E as (x2 & X2 & E). apply bind_ok in E as (x3 & X3 & E). apply Ok_inj in E.
        apply bind_ok in E' as (y1 & Y1 & E'). apply bind_ok in E' as (y2 & Y2 & E'). apply bind_ok in E' as (y3 & Y3 & E'). apply Ok_inj in E'. subst a a'.
        rewrite !app_length, (flat_res_len te_of 2 _ te_of_ok _ X1), (flat_res_len te_of 2 _ te_of_ok _ X2), (flat_res_len sw_of 1 _ sw_of_ok _ X3),
          (flat_res_len te_of 2 _ te_of_ok _ Y1), (flat_res_len te_of 2 _ te_of_ok _ Y2), (flat_res_len sw_of 1 _ sw_of_ok _ Y3). congruence.
      - now rewrite (te_of_ok _ _ E), (te_of_ok _ _ E').
      - now rewrite (sw_of_ok _ _ E), (sw_of_ok _ _ E').
    Qed.
    Lemma res_equals o o' : (match res_enc o with Some (Ok _) | None => True | _ => False end) -> res_shape o o' -> equals perr Fq op res_enc o o' -> res_data o o'.
    Proof.
      unfold equals, res_shape. destruct o as [l m|vk pi|l c|l x|l], o' as [l' m'|vk' pi'|l' c'|l' x'|l']; cbn [same_shape res_enc res_data same_data]; try tauto; intros Hok [Sh Bd] E.
      - destruct Bd as [Bb Bl]. destruct (bytes_to_field_elements PQ 1 (zbytes m)) as [es| |] eqn:B1; try contradiction.
        destruct (bytes_to_field_elements PQ 1 (zbytes m')) as [es'| |] eqn:B2; cbn [lift_u bind] in E; try discriminate. apply Ok_inj in E.
        destruct (msg_enc m es) as [F1 G1]; auto. { intros b Hb. apply Bb, in_or_app. auto. }
        destruct (msg_enc m' es') as [F2 G2]; auto. { intros b Hb. apply Bb, in_or_app. auto. } { now rewrite <- Sh. }
        apply zmk_map_inj in E; auto. apply (proj2 (singles_concat es F1)) in E; auto. subst es'. apply zbytes_inj.
        apply (C19_injective PQ 1 _ _ es); auto.
        + intros b Hb. rewrite <- (map_app Z.of_nat) in Hb. apply in_map_iff in Hb as (n & <- & Hn). specialize (Bb n Hn). lia.
        + unfold zbytes. now rewrite map_length.
        + unfold zbytes. now rewrite map_length, <- Sh.
      - destruct Sh as (_ & L1 & L2 & L3 & L4).
        destruct (flat_res te_of (vk_selectors vk)) as [x1| |] eqn:X1; try contradiction. destruct (flat_res te_of (vk_sigmas vk)) as [x2| |] eqn:X2; try contradiction.
        destruct (flat_res sw_of pi) as [x3| |] eqn:X3; try contradiction.
        destruct (flat_res te_of (vk_selectors vk')) as [y1| |] eqn:Y1; try discriminate. destruct (flat_res te_of (vk_sigmas vk')) as [y2| |] eqn:Y2; try discriminate.
        destruct (flat_res sw_of pi') as [y3| |] eqn:Y3; try discriminate. cbn [bind] in E. apply Ok_inj in E.
        apply app_eq_len in E as [E1 E]; [|rewrite (flat_res_len te_of 2 _ te_of_ok _ X1), (flat_res_len te_of 2 _ te_of_ok _ Y1); congruence].
        apply app_eq_len in E as [E2 E3]; [|rewrite (flat_res_len te_of 2 _ te_of_ok _ X2), (flat_res_len te_of 2 _ te_of_ok _ Y2); congruence]. subst y1 y2 y3.
        split; [exact (flat_res_inj te_of 2 _ te_of_ok te_of_inj _ _ L2 X1 Y1)|]. split; [exact (flat_res_inj te_of 2 _ te_of_ok te_of_inj _ _ L3 X2 Y2)|].
        refine (flat_res_inj sw_of 1 _ sw_of_ok _ _ _ L4 X3 Y3). intros a b x Ea Eb. apply sw_of_inj. congruence.
      - destruct (te_of c) as [a| |] eqn:Ea; try contradiction. eapply te_of_inj; eauto.
      - now apply sw_of_inj.
    Qed.
    Lemma res_all_ok os : forall s s', t_run resT os s = Ok s' -> Forall (fun o => match res_enc o with Some (Ok _) | None => True | _ => False end) os.
    Proof.
      induction os as [|o os IH]; intros s s' E; [constructor|]. cbn [t_run fold_res] in E. apply bind_ok in E as (s1 & E1 & E). constructor; [|eapply IH; exact E].
      apply res_step in E1. unfold step in E1. destruct (res_enc o) as [[a| |]|]; try exact I; discriminate.
    Qed.

    (** *** C60, Rescue transcript.  As for the Solidity transcript, with a collision of the
        Rescue hash in the place of a Keccak collision; of a verifying key only the selector
        and sigma commitments are bound. *)
    Theorem C60_rescue_binding l l' os os' s : Forall2 res_shape os os' ->
      t_run resT os (t_new Fr V1 V2 resT l) = Ok s -> t_run resT os' (t_new Fr V1 V2 resT l') = Ok s ->
      Forall2 res_data os os' \/
      exists x y h, In x (hashed resT _ res_in os (t_new Fr V1 V2 resT l)) /\ In y (hashed resT _ res_in os' (t_new Fr V1 V2 resT l')) /\
        x <> y /\ variable_crhf RP STATE_SIZE x = Ok h /\ variable_crhf RP STATE_SIZE y = Ok h.
    Proof.
      intros Hsh E E'. pose proof (res_all_ok _ _ _ E) as Ha. pose proof (res_run _ _ _ E) as R. pose proof (res_run _ _ _ E') as R'.
      destruct (run_binding perr Fq op res_enc res_hash 4 res_hash_len (list_eq_dec feq_dec)
        os os' (repeat f0 STATE_SIZE, []) (repeat f0 STATE_SIZE, []) _ _ _ eq_refl eq_refl ltac:(eapply Forall2_impl; [exact res_alike|exact Hsh]) R R') as [[_ Hf]|(x & y & h & Hx & Hy & N & Ex & Ey)].
      - left. clear E E' R R'. induction Hsh as [|o o' os os' H1 Hsh IH]; [constructor|]. inversion Hf; inversion Ha; subst. constructor; auto. now apply res_equals.
      - right. exists x, y, h. split; [exact Hx|]. split; [exact Hy|]. split; [exact N|]. unfold res_hash in Ex, Ey.
        destruct (variable_crhf RP STATE_SIZE x) as [hx| |]; try discriminate. destruct (variable_crhf RP STATE_SIZE y) as [hy| |]; try discriminate.
        apply Ok_inj in Ex, Ey. now subst.
    Qed.
    Theorem C60_rescue_fresh l os s i j x : t_run resT os (t_new Fr V1 V2 resT l) = Ok s ->
      let hs := hashed resT _ res_in os (t_new Fr V1 V2 resT l) in
      (i < j)%nat -> nth_error hs i = Some x -> nth_error hs j = Some x ->
      (exists y z h, In y hs /\ In z hs /\ y <> z /\ variable_crhf RP STATE_SIZE y = Ok h /\ variable_crhf RP STATE_SIZE z = Ok h) \/
      (exists y, In y hs /\ variable_crhf RP STATE_SIZE y = Ok (repeat f0 STATE_SIZE)).
    Proof.
      intros E hs Hij Hi Hj. pose proof (res_run _ _ _ E) as R.
      destruct (run_fresh perr Fq op res_enc res_hash 4 res_hash_len (list_eq_dec feq_dec)
        (repeat f0 STATE_SIZE, []) _ _ _ i j x eq_refl R Hij Hi Hj) as [(u & y & h & Hx & Hy & N & Ex & Ey)|(w & Hw & Ew)].
      - left. exists u, y, h. split; [exact Hx|]. split; [exact Hy|]. split; [exact N|]. unfold res_hash in Ex, Ey.
        destruct (variable_crhf RP STATE_SIZE u) as [hx| |]; try discriminate. destruct (variable_crhf RP STATE_SIZE y) as [hy| |]; try discriminate.
        apply Ok_inj in Ex, Ey. now subst.
      - right. exists w. split; [exact Hw|]. unfold res_hash in Ew. destruct (variable_crhf RP STATE_SIZE w); try discriminate. apply Ok_inj in Ew. now rewrite Ew.
    Qed.
  End Rescue.

  (** ** Standard *)
  Section Standard.
    Variable mst : Type.
    Variable m_new : string -> mst.
    Variable m_append : mst -> string -> list Z -> mst.
    Variable m_challenge : mst -> string -> nat -> list Z * mst.
    Notation stdT := (standard r Hr V1 V2 g1b g2b frb mst m_new m_append m_challenge).
    (** the calls to Merlin *)
    Inductive mcall := MAppend (l : string) (b : list Z) | MChallenge (l : string) (n : nat).
    Definition m_call (s : mst) (c : mcall) : mst :=
      match c with MAppend l b => m_append s l b | MChallenge l n => snd (m_challenge s l n) end.
    Definition std_calls (o : op) : list mcall :=
      match o with
      | OMessage l m => [MAppend l (zbytes m)]
      | OKey vk pi => [MAppend "field size in bits" (int_le 4 (bit_size PR)); MAppend "domain size" (int_le 8 (Z.of_nat (vk_n vk)));
                       MAppend "input size" (int_le 8 (Z.of_nat (vk_inputs vk)));
                       MAppend "SRS G2 element" (match nth_error (vpowers_of_h (vk_open vk)) 1 with Some h => g2b h | None => [] end)]
                      ++ map (fun x => MAppend "wire subsets separators" (frb x)) (vk_k vk)
                      ++ map (fun c => MAppend "selector commitments" (g1b c)) (vk_selectors vk)
                      ++ map (fun c => MAppend "sigma commitments" (g1b c)) (vk_sigmas vk)
                      ++ map (fun x => MAppend "public input" (frb x)) pi
      | OCommitment l c => [MAppend l (g1b c)]
      | OField l x => [MAppend l (frb x)]
      | OChallenge l => [MChallenge l 64]
      end.
    Lemma fold_map {A B C} (f : C -> B -> C) (g : A -> B) l s : fold_left (fun s a => f s (g a)) l s = fold_left f (map g l) s.
    Proof. revert s. induction l; intro s; cbn; auto. Qed.
    Lemma std_step s o s' : t_step stdT s o = Ok s' -> s' = calls mst mcall m_call (std_calls o) s.
    Proof.
      destruct o as [l m|vk pi|l c|l x|l]; cbn [t_step]; intro E; try (cbn in E; apply Ok_inj in E; now subst).
      cbn [t_vk_pi standard] in E. unfold std_vk_pi in E. unfold std_calls, calls. unfold index in E.
      destruct (nth_error _ 1) as [h1|]; cbn [bind] in E; try discriminate. apply Ok_inj in E. subst s'. unfold std_field, std_commitment.
      rewrite (fold_map m_call (fun x => MAppend "wire subsets separators" (frb x)) (vk_k vk)).
      rewrite (fold_map m_call (fun x => MAppend "selector commitments" (g1b x)) (vk_selectors vk)).
      rewrite (fold_map m_call (fun x => MAppend "sigma commitments" (g1b x)) (vk_sigmas vk)).
      rewrite (fold_map m_call (fun x => MAppend "public input" (frb x)) pi).
      rewrite !fold_left_app. reflexivity.
    Qed.
    Lemma std_run os : forall s s', t_run stdT os s = Ok s' -> s' = calls mst mcall m_call (flat_map std_calls os) s.
    Proof.
      induction os as [|o os IH]; intros s s' E; cbn [t_run fold_res] in E; [apply Ok_inj in E; now subst|].
      apply bind_ok in E as (s1 & E1 & E). apply std_step in E1. subst s1. cbn [flat_map]. unfold calls. rewrite fold_left_app. now apply IH.
    Qed.
    Variable mst_dec : forall a b : mst, {a = b} + {a <> b}.
    Hypothesis g1b_inj : forall c c', g1b c = g1b c' -> c = c'.
    Hypothesis frb_inj : forall x x', frb x = frb x' -> x = x'.
    (** the labels agree too *)
    Definition same_labels (o o' : op) : Prop :=
      match o, o' with
      | OMessage l _, OMessage l' _ | OCommitment l _, OCommitment l' _ | OField l _, OField l' _ | OChallenge l, OChallenge l' => l = l'
      | _, _ => True
      end.
    Lemma map_inj {A B} (f : A -> B) : (forall a b, f a = f b -> a = b) -> forall l l', map f l = map f l' -> l = l'.
    Proof. intros Hf. induction l as [|a l IH]; intros [|b l'] E; cbn in E; try discriminate; auto. injection E as E1 E2. f_equal; auto. Qed.
    Lemma int_le_inj a b : (Z.of_nat a < 2 ^ 64)%Z -> (Z.of_nat b < 2 ^ 64)%Z -> int_le 8 (Z.of_nat a) = int_le 8 (Z.of_nat b) -> a = b.
    Proof. intros Ha Hb E. apply int_be_inj; auto. unfold int_be, int_le in *. now rewrite E. Qed.
    (** What the message check of the shape does not ask for: only kinds and the numbers of
        commitments and scalars. *)
    Definition std_shape (o o' : op) : Prop :=
      match o, o' with OMessage _ _, OMessage _ _ => True | _, _ => same_shape o o' end.
    Lemma std_calls_len o o' : std_shape o o' -> length (std_calls o) = length (std_calls o').
    Proof.
      destruct o as [l m|vk pi|l c|l x|l], o' as [l' m'|vk' pi'|l' c'|l' x'|l']; cbn [std_shape same_shape std_calls]; try tauto; try reflexivity.
      intros (_ & L1 & L2 & L3 & L4). rewrite !app_length, !map_length. cbn [length]. congruence.
    Qed.
    Lemma std_calls_inj o o' : (match o with OKey vk _ => nth_error (vpowers_of_h (vk_open vk)) 1 <> None | _ => True end) ->
      (match o' with OKey vk _ => nth_error (vpowers_of_h (vk_open vk)) 1 <> None | _ => True end) ->
      std_shape o o' -> std_calls o = std_calls o' -> same_data o o' /\ same_labels o o'.
    Proof.
      intros Hh Hh'. destruct o as [l m|vk pi|l c|l x|l], o' as [l' m'|vk' pi'|l' c'|l' x'|l']; cbn [std_shape same_shape std_calls same_data same_labels]; try tauto.
      - intros _ E. injection E as -> E. split; auto. now apply zbytes_inj.
      - intros ((B1 & B2 & B3 & B4) & L1 & L2 & L3 & L4) E. split; auto.
        apply app_eq_len in E as [E0 E]; [|reflexivity]. apply app_eq_len in E as [Ek E]; [|rewrite !map_length; congruence].
        apply app_eq_len in E as [Es E]; [|rewrite !map_length; congruence]. apply app_eq_len in E as [Et E]; [|rewrite !map_length; congruence].
        assert (E1 : int_le 8 (Z.of_nat (vk_n vk)) = int_le 8 (Z.of_nat (vk_n vk'))) by congruence.
        assert (E2 : int_le 8 (Z.of_nat (vk_inputs vk)) = int_le 8 (Z.of_nat (vk_inputs vk'))) by congruence.
        assert (E3 : match nth_error (vpowers_of_h (vk_open vk)) 1 with Some h => g2b h | None => [] end = match nth_error (vpowers_of_h (vk_open vk')) 1 with Some h => g2b h | None => [] end) by congruence.
        clear E0. split; [now apply int_le_inj|]. split; [now apply int_le_inj|]. split.
        { destruct (nth_error _ 1) as [h|]; [|now contradict Hh]. destruct (nth_error (vpowers_of_h (vk_open vk')) 1) as [h'|]; [|now contradict Hh']. f_equal. now apply g2b_inj. }
        split; [apply map_inj in Ek; auto; intros a b Eab; injection Eab as Eab; auto|]. split; [apply map_inj in Es; auto; intros a b Eab; injection Eab as Eab; auto|].
        split; [apply map_inj in Et; auto; intros a b Eab; injection Eab as Eab; auto|]. apply map_inj in E; auto; intros a b Eab; injection Eab as Eab; auto.
      - intros _ E. injection E as -> E. split; auto.
      - intros _ E. injection E as -> E. split; auto.
      - intros _ E. injection E as ->. auto.
    Qed.
    Lemma std_keys os : forall s s', t_run stdT os s = Ok s' -> Forall (fun o => match o with OKey vk _ => nth_error (vpowers_of_h (vk_open vk)) 1 <> None | _ => True end) os.
    Proof.
      induction os as [|o os IH]; intros s s' E; [constructor|]. cbn [t_run fold_res] in E. apply bind_ok in E as (s1 & E1 & E). constructor; [|eapply IH; exact E].
      destruct o as [l m|vk pi|l c|l x|l]; auto. cbn [t_step t_vk_pi standard] in E1. unfold std_vk_pi, index in E1. destruct (nth_error _ 1); [discriminate|]. discriminate E1.
    Qed.
    Lemma call_dec (a b : mst * mcall) : {a = b} + {a <> b}.
    Proof. repeat (decide equality; auto using string_dec, Z.eq_dec, Nat.eq_dec). Qed.
    (** *** C60, standard transcript.  Two sessions of the same shape that reach the same
        state passed the same data under the same labels, or two of the calls they made to
        Merlin differ and lead to the same state. *)
    Theorem C60_standard_binding l l' os os' s : Forall2 std_shape os os' ->
      t_run stdT os (t_new Fr V1 V2 stdT l) = Ok s -> t_run stdT os' (t_new Fr V1 V2 stdT l') = Ok s ->
      (m_new l = m_new l' /\ Forall2 (fun o o' => same_data o o' /\ same_labels o o') os os') \/
      exists a b, In a (made mst mcall m_call (flat_map std_calls os) (m_new l)) /\ In b (made mst mcall m_call (flat_map std_calls os') (m_new l')) /\
        a <> b /\ m_call (fst a) (snd a) = m_call (fst b) (snd b).
    Proof.
      intros Hsh E E'. pose proof (std_keys _ _ _ E) as Hn. pose proof (std_keys _ _ _ E') as Hn'. apply std_run in E, E'. rewrite E in E'.
      destruct (calls_binding mst mcall m_call call_dec (flat_map std_calls os) (flat_map std_calls os') (m_new l) (m_new l')) as [[H1 H2]|C]; [|exact E'| |right; exact C].
      { clear E E' Hn Hn'. induction Hsh as [|o o' os os' H Hsh IH]; auto. cbn. rewrite !app_length, IH. now rewrite (std_calls_len _ _ H). }
      left. split; auto. clear E E' H1. induction Hsh as [|o o' os os' H Hsh IH]; [constructor|]. cbn in H2. inversion Hn; inversion Hn'; subst.
      apply app_eq_len in H2 as [Ha Hb]; [|now apply std_calls_len]. constructor; auto. now apply std_calls_inj.
    Qed.
  End Standard.
End Props.
