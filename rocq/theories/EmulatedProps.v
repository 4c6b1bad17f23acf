(** C33: emulated field arithmetic.

    An emulated element is a list of [NL] limb variables.  [rng w a] says that
    every limb of [a] is below [2^B] under the assignment [w], [ev w a] is the
    integer that the limbs represent.  [K] is the native field of modulus [p], the
    emulated field has modulus [q] and [T = B * NL]. *)

From Coq Require Import List Arith ZArith Znumtheory Bool Lia Ring Field.
From Verif Require Import Base ListAux Alg Poly CircuitModel CircuitProofs GadgetModel GadgetProofs RangeProofs
  BitProofs CmpProofs RangeLookup SatProofs SatGadget CircuitProps EmulatedModel EmulatedProofs EmulatedMul EmulatedAdd
  IndepProofs EmulatedGate EmulatedExact.
Import ListNotations.
Local Open Scope fld_scope.
Local Open Scope circ_scope.

Section Props.
  Context {K : fld}.
  Variable zval : K -> Z.
  Variable p : Z.
  Variable nb L : nat.
  Hypothesis HF : pfield K zval p nb L.
  Context {E : fld}.
  Variable ez : E -> Z.
  Variable q : Z.
  Hypothesis HE : zfield E ez q.
  Variables T B NL : nat.
  Hypothesis HB : (1 <= B)%nat.
  Hypothesis HNL : (1 <= NL)%nat.
  Hypothesis HT : T = (B * NL)%nat.
  Hypothesis Hq : (0 < q < 2 ^ Z.of_nat T)%Z.
  Hypothesis Hroom : (4 * Z.of_nat NL * 2 ^ (2 * Z.of_nat B) <= p)%Z.
  Notation beta := (2 ^ Z.of_nat B)%Z.
  Notation ev := (ev zval B).
  Notation rng := (rng zval B).
  Notation rok := (rok nb).
  Notation vlt n a := (Forall (fun v => v < n)%nat a).
  Notation accepts := (accepts zval).
  (** The limbs exist. *)
  Definition limbs (c : circuit K) (a : evar) : Prop := length a = NL /\ vlt (num_vars c) a.

  (** A call that returns an emulated element: besides [gadget_ok], the result has
      limbs in range in every accepted assignment, and the value that the code
      computes for it is [V] of the values of the arguments. *)
  Definition emulated_ok (m : circ K evar) (c : circuit K)
      (S : (nat -> K) -> evar -> Prop) (C : (nat -> K) -> Prop) (V : (nat -> K) -> Z) : Prop :=
    gadget_ok zval m c (fun w r => rng w r /\ S w r) C (fun r n => length r = NL /\ vlt n r)
    /\ forall r c', m c = (Ok r, c') -> rng (asg (witness c')) r /\ ev (asg (witness c')) r = V (asg (witness c)).
  Lemma espec_ok m c S C V : good c -> local (num_vars c) C -> espec zval B NL m c S C V -> emulated_ok m c S C V.
  Proof.
    intros G LC H. split.
    - apply gspec_gadget; auto. unfold gspec. eapply wpc_mono; [exact H|]. intros r d _ (H1 & H2 & H3 & _).
      split; [|split]; auto.
    - destruct H as (a & d & Em & P & _ & _ & _ & HV). intros r c' Em'. rewrite Em in Em'. inversion Em'; subst.
      apply HV. intros v Hv. reflexivity.
  Qed.

  (** What the multiplication enforces: equality modulo [2^T * p], for a quotient
      of the prover's choice below [2^T]. *)
  Definition prod_rel (x y z : Z) : Prop :=
    exists k, (0 <= k < 2 ^ Z.of_nat T)%Z /\ (2 ^ Z.of_nat T * p | x * y - k * q - z)%Z.
  (** What the addition enforces: equality modulo [2^T], up to one [q]. *)
  Definition sum_rel (x y z : Z) : Prop :=
    exists k, (k = 0 \/ k = 1)%Z /\ (2 ^ Z.of_nat T | x + y - k * q - z)%Z.

  Lemma p_pos : (0 < p)%Z.
  Proof. pose proof (pf_range _ _ _ _ _ HF 0%F). lia. Qed.
  Lemma T_pos : (0 < 2 ^ Z.of_nat T)%Z.
  Proof. apply Z.pow_pos_nonneg; lia. Qed.
  Lemma prod_mul x y z : prod_rel x y z <-> exists k, mul_rel p q T x y z k.
  Proof.
    pose proof p_pos. pose proof T_pos. unfold prod_rel, mul_rel. split; intros [k [Hk H1]]; exists k; split; auto.
    - apply Z.mod_divide; [nia|exact H1].
    - apply Z.mod_divide; [nia|exact H1].
  Qed.
  Lemma sum_add x y z : (0 <= x < 2 ^ Z.of_nat T)%Z -> (0 <= y < 2 ^ Z.of_nat T)%Z -> (0 <= z < 2 ^ Z.of_nat T)%Z ->
    (sum_rel x y z <-> exists k, add_rel q T (x + y) z k).
  Proof.
    intros Hx Hy Hz. pose proof T_pos as HP. unfold sum_rel, add_rel. set (P := (2 ^ Z.of_nat T)%Z) in *. split.
    - intros [k [Hk [m Hm]]]. exists k. split; auto.
      exists ((x + y) mod P)%Z, ((x + y) / P)%Z, ((k * q + z) / P)%Z.
      pose proof (Z.mod_pos_bound (x + y) P HP). pose proof (Z.div_mod (x + y) P ltac:(lia)) as D1.
      pose proof (Z.div_mod (k * q + z) P ltac:(lia)) as D2.
      assert (E2 : ((k * q + z) mod P = (x + y) mod P)%Z).
      { replace (x + y)%Z with (k * q + z + m * P)%Z by lia. now rewrite Z_mod_plus_full. }
      assert (B1 : (0 <= (x + y) / P < 2)%Z) by (split; [apply Z.div_pos; lia|apply Z.div_lt_upper_bound; lia]).
      assert (B2 : (0 <= (k * q + z) / P < 2)%Z).
      { assert (0 <= k * q + z < 2 * P)%Z by (destruct Hk; subst k; lia).
        split; [apply Z.div_pos; lia|apply Z.div_lt_upper_bound; lia]. }
      rewrite E2 in D2. repeat split; lia.
    - intros [k (Hk & s & u & v & Hs & Hu & Hv & E1 & E2)]. exists k. split; auto. exists (u - v)%Z. lia.
  Qed.

  (** Soundness and completeness of the calls.  The computed assignment is accepted
      if the arguments are canonical; for the additions, also no limb of the two
      sums may be [2^B - 1] ([addable]). *)
  Ltac loc c := repeat apply local_and; try (apply (rng_local zval B); auto); intros w w' H; rewrite ?(ev_ext zval B w w' (num_vars c)) by auto; auto.
  Theorem C33_create_variable v c : good c -> rok (ptype c) ->
    emulated_ok (create_emulated_variable zval p nb L ez B NL v) c (fun _ _ => True) (fun _ => True) (fun _ => ez v).
  Proof.
    intros G Ht. apply espec_ok; auto; [intros ? ? ? ?; exact I|].
    apply (create_evar_spec zval p nb L HF ez q HE T B NL HB HNL HT Hq Hroom); auto. apply G.
  Qed.
  Theorem C33_mul a b c : good c -> rok (ptype c) -> limbs c a -> limbs c b ->
    emulated_ok (emulated_mul zval p nb L ez q T B NL a b) c
      (fun w r => rng w a -> rng w b -> prod_rel (ev w a) (ev w b) (ev w r))
      (fun w => rng w a /\ rng w b /\ (ev w a < q)%Z /\ (ev w b < q)%Z)
      (fun h => ((ev h a * ev h b) mod q)%Z).
  Proof.
    intros G Ht [La Ba] [Lb Bb]. apply espec_ok; auto; [loc c|].
    unfold espec. eapply wpc_mono; [apply (emulated_mul_spec zval p nb L HF ez q HE T B NL HB HNL HT Hq Hroom a b c); auto; apply G|].
    cbn beta. intros r d _ (H1 & H2 & H3 & H4). split; [|split; [exact H2|split; [exact H3|exact H4]]].
    intros w Hb Hs. destruct (H1 w Hb Hs) as [R HS]. split; auto. intros Ra Rb. apply prod_mul; auto.
  Qed.
  Theorem C33_mul_constant a v c : good c -> rok (ptype c) -> limbs c a ->
    emulated_ok (emulated_mul_constant zval p nb L ez q T B NL a v) c
      (fun w r => rng w a -> prod_rel (ev w a) (ez v) (ev w r))
      (fun w => rng w a /\ (ev w a < q)%Z)
      (fun h => ((ev h a * ez v) mod q)%Z).
  Proof.
    intros G Ht [La Ba]. apply espec_ok; auto; [loc c|].
    unfold espec. eapply wpc_mono; [apply (emulated_mul_constant_spec zval p nb L HF ez q HE T B NL HB HNL HT Hq Hroom a v c); auto; apply G|].
    cbn beta. intros r d _ (H1 & H2 & H3 & H4). split; [|split; [exact H2|split; [exact H3|exact H4]]].
    intros w Hb Hs. destruct (H1 w Hb Hs) as [R HS]. split; auto. intros Ra. apply prod_mul; auto.
  Qed.
  Notation range := (ev_range zval p nb L HF T B NL HB HNL HT).
  Lemma ez_lt v : (0 <= ez v < 2 ^ Z.of_nat T)%Z.
  Proof. pose proof (zf_range _ _ _ HE v). lia. Qed.
  Theorem C33_add a b c : good c -> rok (ptype c) -> limbs c a -> limbs c b ->
    emulated_ok (emulated_add zval p nb L ez q B NL a b) c
      (fun w r => rng w a -> rng w b -> sum_rel (ev w a) (ev w b) (ev w r))
      (fun w => rng w a /\ rng w b /\ (ev w a < q)%Z /\ (ev w b < q)%Z /\ addable q B NL (ev w a) (ev w b))
      (fun h => ((ev h a + ev h b) mod q)%Z).
  Proof.
    intros G Ht [La Ba] [Lb Bb]. apply espec_ok; auto; [loc c|].
    unfold espec. eapply wpc_mono; [apply (emulated_add_spec zval p nb L HF ez q HE T B NL HB HNL HT Hq Hroom a b c); auto; apply G|].
    cbn beta. intros r d _ (H1 & H2 & H3 & H4). split; [|split; [exact H2|split; [exact H3|exact H4]]].
    intros w Hb Hs. destruct (H1 w Hb Hs) as [R HS]. split; auto. intros Ra Rb. destruct H3. apply sum_add; auto; apply range; auto.
  Qed.
  Theorem C33_sub a b c : good c -> rok (ptype c) -> limbs c a -> limbs c b ->
    emulated_ok (emulated_sub zval p nb L ez q B NL a b) c
      (fun w r => rng w a -> rng w b -> sum_rel (ev w r) (ev w b) (ev w a))
      (fun w => rng w a /\ rng w b /\ (ev w a < q)%Z /\ (ev w b < q)%Z /\ addable q B NL ((ev w a - ev w b) mod q) (ev w b))
      (fun h => ((ev h a - ev h b) mod q)%Z).
  Proof.
    intros G Ht [La Ba] [Lb Bb]. apply espec_ok; auto; [loc c|].
    unfold espec. eapply wpc_mono; [apply (emulated_sub_spec zval p nb L HF ez q HE T B NL HB HNL HT Hq Hroom a b c); auto; apply G|].
    cbn beta. intros r d _ (H1 & H2 & H3 & H4). split; [|split; [exact H2|split; [exact H3|exact H4]]].
    intros w Hb Hs. destruct (H1 w Hb Hs) as [R HS]. split; auto. intros Ra Rb. destruct H3. apply sum_add; auto; apply range; auto.
  Qed.
  Theorem C33_add_constant a v c : good c -> rok (ptype c) -> limbs c a ->
    emulated_ok (emulated_add_constant zval p nb L ez q B NL a v) c
      (fun w r => rng w a -> sum_rel (ev w a) (ez v) (ev w r))
      (fun w => rng w a /\ (ev w a < q)%Z /\ addable q B NL (ev w a) (ez v))
      (fun h => ((ev h a + ez v) mod q)%Z).
  Proof.
    intros G Ht [La Ba]. apply espec_ok; auto; [loc c|].
    unfold espec. eapply wpc_mono; [apply (emulated_add_constant_spec zval p nb L HF ez q HE T B NL HB HNL HT Hq Hroom a v c); auto; apply G|].
    cbn beta. intros r d _ (H1 & H2 & H3 & H4). split; [|split; [exact H2|split; [exact H3|exact H4]]].
    intros w Hb Hs. destruct (H1 w Hb Hs) as [R HS]. split; auto. intros Ra. destruct H3.
    apply sum_add; auto; try apply range; auto using ez_lt.
  Qed.
  Theorem C33_sub_constant a v c : good c -> rok (ptype c) -> limbs c a ->
    emulated_ok (emulated_sub_constant zval p nb L ez q B NL a v) c
      (fun w r => rng w a -> sum_rel (ev w r) (ez v) (ev w a))
      (fun w => rng w a /\ (ev w a < q)%Z /\ addable q B NL ((ev w a - ez v) mod q) (ez v))
      (fun h => ((ev h a - ez v) mod q)%Z).
  Proof.
    intros G Ht [La Ba]. apply espec_ok; auto; [loc c|].
    unfold espec. eapply wpc_mono; [apply (emulated_sub_constant_spec zval p nb L HF ez q HE T B NL HB HNL HT Hq Hroom a v c); auto; apply G|].
    cbn beta. intros r d _ (H1 & H2 & H3 & H4). split; [|split; [exact H2|split; [exact H3|exact H4]]].
    intros w Hb Hs. destruct (H1 w Hb Hs) as [R HS]. split; auto. intros Ra. destruct H3.
    apply sum_add; auto; try apply range; auto using ez_lt.
  Qed.

  (** Exactly which values a prover can give to the result: [returns m c P S] says
      that the call succeeds and that, for every assignment accepted before it whose
      arguments satisfy [P], the values of the result over all accepted extensions
      are the [z] below [2^T] with [S]. *)
  Definition returns (m : circ K evar) (c : circuit K) (P : (nat -> K) -> Prop) (S : (nat -> K) -> Z -> Prop) : Prop :=
    exists r c', m c = (Ok r, c') /\ good c' /\ extends c c' /\ limbs c' r /\
      forall ws pub z, accepts c ws pub -> P (asg ws) ->
        ((exists l, accepts c' (ws ++ l) pub /\ ev (asg (ws ++ l)) r = z) <-> (0 <= z < 2 ^ Z.of_nat T)%Z /\ S (asg ws) z).
  Ltac ret_exact L := let r := fresh "r" in let c' := fresh "c'" in
    destruct L as (r & c' & ? & ? & ? & ? & ? & Hx); exists r, c'; repeat (split; [solve [auto | split; auto]|]);
    intros ws pub z Hacc HP; rewrite (Hx ws pub z Hacc HP).
  Theorem C33_mul_exact a b c : good c -> rok (ptype c) -> limbs c a -> limbs c b ->
    returns (emulated_mul zval p nb L ez q T B NL a b) c (fun w => rng w a /\ rng w b)
      (fun w z => prod_rel (ev w a) (ev w b) z).
  Proof.
    intros G Ht [La Ba] [Lb Bb].
    ret_exact (emulated_mul_exact zval p nb L HF ez q HE T B NL HB HNL HT Hq Hroom a b c G Ht La Lb Ba Bb).
    now rewrite prod_mul.
  Qed.
  Theorem C33_mul_constant_exact a v c : good c -> rok (ptype c) -> limbs c a ->
    returns (emulated_mul_constant zval p nb L ez q T B NL a v) c (fun w => rng w a)
      (fun w z => prod_rel (ev w a) (ez v) z).
  Proof.
    intros G Ht [La Ba].
    ret_exact (emulated_mul_constant_exact zval p nb L HF ez q HE T B NL HB HNL HT Hq Hroom a v c G Ht La Ba).
    now rewrite prod_mul.
  Qed.
  Theorem C33_add_exact a b c : good c -> rok (ptype c) -> limbs c a -> limbs c b ->
    returns (emulated_add zval p nb L ez q B NL a b) c (fun w => rng w a /\ rng w b)
      (fun w z => sum_rel (ev w a) (ev w b) z).
  Proof.
    intros G Ht [La Ba] [Lb Bb].
    ret_exact (emulated_add_exact zval p nb L HF ez q HE T B NL HB HNL HT Hq Hroom a b c G Ht La Lb Ba Bb).
    destruct HP. split; intros [Hz H']; (split; [exact Hz|]); apply sum_add; auto; apply range; auto.
  Qed.
  Theorem C33_sub_exact a b c : good c -> rok (ptype c) -> limbs c a -> limbs c b ->
    returns (emulated_sub zval p nb L ez q B NL a b) c (fun w => rng w a /\ rng w b)
      (fun w z => sum_rel z (ev w b) (ev w a)).
  Proof.
    intros G Ht [La Ba] [Lb Bb].
    ret_exact (emulated_sub_exact zval p nb L HF ez q HE T B NL HB HNL HT Hq Hroom a b c G Ht La Lb Ba Bb).
    destruct HP. split; intros [Hz H']; (split; [exact Hz|]); apply sum_add; auto; apply range; auto.
  Qed.
  Theorem C33_add_constant_exact a v c : good c -> rok (ptype c) -> limbs c a ->
    returns (emulated_add_constant zval p nb L ez q B NL a v) c (fun w => rng w a)
      (fun w z => sum_rel (ev w a) (ez v) z).
  Proof.
    intros G Ht [La Ba].
    ret_exact (emulated_add_constant_exact zval p nb L HF ez q HE T B NL HB HNL HT Hq Hroom a v c G Ht La Ba).
    split; intros [Hz H']; (split; [exact Hz|]); apply sum_add; auto; try apply range; auto using ez_lt.
  Qed.
  Theorem C33_sub_constant_exact a v c : good c -> rok (ptype c) -> limbs c a ->
    returns (emulated_sub_constant zval p nb L ez q B NL a v) c (fun w => rng w a)
      (fun w z => sum_rel z (ez v) (ev w a)).
  Proof.
    intros G Ht [La Ba].
    ret_exact (emulated_sub_constant_exact zval p nb L HF ez q HE T B NL HB HNL HT Hq Hroom a v c G Ht La Ba).
    split; intros [Hz H']; (split; [exact Hz|]); apply sum_add; auto; try apply range; auto using ez_lt.
  Qed.

  (** The gates on three given elements, in the same way. *)
  Theorem C33_mul_gate_exact a b e c : good c -> rok (ptype c) -> limbs c a -> limbs c b -> limbs c e ->
    exists c', emulated_mul_gate zval p nb L ez q T B NL a b e c = (Ok tt, c') /\ good c' /\ extends c c' /\
      forall ws pub, accepts c ws pub -> rng (asg ws) a /\ rng (asg ws) b /\ rng (asg ws) e ->
        ((exists l, accepts c' (ws ++ l) pub) <-> prod_rel (ev (asg ws) a) (ev (asg ws) b) (ev (asg ws) e)).
  Proof.
    intros G Ht [La Ba] [Lb Bb] [Le Be].
    destruct (emulated_mul_gate_exact zval p nb L HF ez q HE T B NL HB HNL HT Hq Hroom a b e c) as (c' & E1 & E2 & E3 & Hx); auto.
    exists c'. repeat (split; auto). all: rewrite Hx by auto; now rewrite prod_mul.
  Qed.
  Theorem C33_add_gate_exact a b e c : good c -> rok (ptype c) -> limbs c a -> limbs c b -> limbs c e ->
    exists c', emulated_add_gate zval p nb L ez q B NL a b e c = (Ok tt, c') /\ good c' /\ extends c c' /\
      forall ws pub, accepts c ws pub -> rng (asg ws) a /\ rng (asg ws) b /\ rng (asg ws) e ->
        ((exists l, accepts c' (ws ++ l) pub) <-> sum_rel (ev (asg ws) a) (ev (asg ws) b) (ev (asg ws) e)).
  Proof.
    intros G Ht [La Ba] [Lb Bb] [Le Be].
    destruct (emulated_add_gate_exact zval p nb L HF ez q HE T B NL HB HNL HT Hq Hroom a b e c) as (c' & E1 & E2 & E3 & Hx); auto.
    exists c'. split; [auto|]. split; [auto|]. split; [auto|]. intros ws pub Hacc (Ra & Rb & Re). rewrite Hx by auto.
    symmetry. apply sum_add; apply range; auto.
  Qed.

  (** Soundness where it holds.  If the emulated modulus is below the native one and
      one argument is canonical, every product is right modulo [q]. *)
  Lemma prod_sound x y z : (q < p)%Z -> (0 <= x < q)%Z -> (0 <= y < 2 ^ Z.of_nat T)%Z -> (0 <= z < 2 ^ Z.of_nat T)%Z ->
    prod_rel x y z -> (z mod q = (x * y) mod q)%Z.
  Proof.
    intros Hqp Hx Hy Hz [k [Hk [m Hm]]]. pose proof T_pos. set (P := (2 ^ Z.of_nat T)%Z) in *.
    assert (H1 : (0 <= x * y <= (p - 2) * P)%Z) by nia.
    assert (H2 : (0 <= k * q + z < P * p)%Z) by nia.
    assert (H3 : (m * (P * p) < P * p)%Z) by nia. assert (H4 : (- (P * p) < m * (P * p))%Z) by lia.
    assert (m = 0)%Z by nia. subst m. replace (x * y)%Z with (z + k * q)%Z by lia. now rewrite Z_mod_plus_full.
  Qed.
  Theorem C33_mul_sound_partial a b c : good c -> rok (ptype c) -> limbs c a -> limbs c b -> (q < p)%Z ->
    exists r c', emulated_mul zval p nb L ez q T B NL a b c = (Ok r, c') /\
      forall c'' ws pub, extends c' c'' -> bounded c'' -> accepts c'' ws pub ->
        rng (asg ws) a -> rng (asg ws) b -> (ev (asg ws) a < q)%Z ->
        (ev (asg ws) r mod q = (ev (asg ws) a * ev (asg ws) b) mod q)%Z.
  Proof.
    intros G Ht Ha Hb Hqp. destruct (C33_mul a b c G Ht Ha Hb) as [(r & c' & Em & _ & _ & (Lr & _) & _ & Snd & _) _].
    exists r, c'. split; auto. intros c'' ws pub Ex Bd Hacc Ra Rb Qa. destruct (Snd c'' ws pub Ex Bd Hacc) as [R HS].
    destruct Ha as [La _], Hb as [Lb _].
    pose proof (range _ _ La Ra). pose proof (range _ _ Lb Rb). pose proof (range _ _ Lr R).
    apply prod_sound; auto; lia.
  Qed.
  (** Every sum that a later check shows to be below [2^T - q] is right modulo [q], if
      the arguments add up to less than [2^T]. *)
  Theorem C33_add_sound_partial a b c : good c -> rok (ptype c) -> limbs c a -> limbs c b ->
    exists r c', emulated_add zval p nb L ez q B NL a b c = (Ok r, c') /\
      forall c'' ws pub, extends c' c'' -> bounded c'' -> accepts c'' ws pub ->
        rng (asg ws) a -> rng (asg ws) b ->
        (ev (asg ws) a + ev (asg ws) b < 2 ^ Z.of_nat T)%Z -> (ev (asg ws) r < 2 ^ Z.of_nat T - q)%Z ->
        (ev (asg ws) r mod q = (ev (asg ws) a + ev (asg ws) b) mod q)%Z.
  Proof.
    intros G Ht Ha Hb. destruct (C33_add a b c G Ht Ha Hb) as [(r & c' & Em & _ & _ & (Lr & _) & _ & Snd & _) _].
    exists r, c'. split; auto. intros c'' ws pub Ex Bd Hacc Ra Rb Qs Qr. destruct (Snd c'' ws pub Ex Bd Hacc) as [R HS].
    destruct Ha as [La _], Hb as [Lb _].
    pose proof (range _ _ La Ra). pose proof (range _ _ Lb Rb). pose proof (range _ _ Lr R).
    destruct (HS Ra Rb) as [k [Hk [m Hm]]].
    assert (m = 0)%Z by (destruct Hk; subst k; nia). subst m.
    replace (ev (asg ws) a + ev (asg ws) b)%Z with (ev (asg ws) r + k * q)%Z by lia. now rewrite Z_mod_plus_full.
  Qed.

  (** Findings.  If [q] is above the native modulus, as in both configurations that
      the repository ships, a product can be forged: the prover adds [2^T * p]. *)
  Theorem C33_mul_forged_refuted a b c : good c -> rok (ptype c) -> limbs c a -> limbs c b ->
    exists r c', emulated_mul zval p nb L ez q T B NL a b c = (Ok r, c') /\
      forall ws pub, accepts c ws pub -> rng (asg ws) a -> rng (asg ws) b ->
        (ev (asg ws) a * ev (asg ws) b < 2 ^ Z.of_nat T * (q - p))%Z -> ((2 ^ Z.of_nat T * p) mod q <> 0)%Z ->
        exists l, accepts c' (ws ++ l) pub /\
          (ev (asg (ws ++ l)) r mod q = (ev (asg ws) a * ev (asg ws) b + 2 ^ Z.of_nat T * p) mod q)%Z /\
          (ev (asg (ws ++ l)) r mod q <> (ev (asg ws) a * ev (asg ws) b) mod q)%Z.
  Proof.
    intros G Ht Ha Hb. destruct (C33_mul_exact a b c G Ht Ha Hb) as (r & c' & Em & _ & _ & _ & Hx).
    exists r, c'. split; auto. intros ws pub Hacc Ra Rb Hlt Hne.
    pose proof (range _ _ (proj1 Ha) Ra) as Va. pose proof (range _ _ (proj1 Hb) Rb) as Vb.
    set (x := ev (asg ws) a) in *. set (y := ev (asg ws) b) in *. pose proof T_pos as HP. pose proof p_pos as Hpp.
    set (P := (2 ^ Z.of_nat T)%Z) in *.
    pose proof (Z.mod_pos_bound (x * y + P * p) q ltac:(lia)) as Hm.
    pose proof (Z.div_mod (x * y + P * p) q ltac:(lia)) as D.
    assert (H0 : (0 <= x * y + P * p < P * q)%Z) by nia.
    destruct (proj2 (Hx ws pub ((x * y + P * p) mod q)%Z Hacc (conj Ra Rb))) as (l & Hl & El).
    { split; [lia|]. exists ((x * y + P * p) / q)%Z. split.
      - split; [apply Z.div_pos; lia|apply Z.div_lt_upper_bound; lia].
      - exists (-1)%Z. lia. }
    exists l. split; auto. rewrite El, Z.mod_mod by lia. split; auto.
    intros H. apply Hne. apply Z.mod_divide; [lia|]. apply Z.mod_divide; [lia|].
    replace (P * p)%Z with ((x * y + P * p) - x * y)%Z by lia.
    rewrite Zminus_mod, H, Z.sub_diag. apply Zmod_0_l.
  Qed.
  (** A sum below [q] can be forged for every emulated field: the carries out of the
      last limbs are unconstrained, so that [2^T - q] can be added. *)
  Theorem C33_add_forged_refuted a b c : good c -> rok (ptype c) -> limbs c a -> limbs c b ->
    exists r c', emulated_add zval p nb L ez q B NL a b c = (Ok r, c') /\
      forall ws pub, accepts c ws pub -> rng (asg ws) a -> rng (asg ws) b ->
        (ev (asg ws) a + ev (asg ws) b < q)%Z -> (2 ^ Z.of_nat T mod q <> 0)%Z ->
        exists l, accepts c' (ws ++ l) pub /\
          ev (asg (ws ++ l)) r = (ev (asg ws) a + ev (asg ws) b + 2 ^ Z.of_nat T - q)%Z /\
          (ev (asg (ws ++ l)) r mod q <> (ev (asg ws) a + ev (asg ws) b) mod q)%Z.
  Proof.
    intros G Ht Ha Hb. destruct (C33_add_exact a b c G Ht Ha Hb) as (r & c' & Em & _ & _ & _ & Hx).
    exists r, c'. split; auto. intros ws pub Hacc Ra Rb Hlt Hne.
    pose proof (range _ _ (proj1 Ha) Ra) as Va. pose proof (range _ _ (proj1 Hb) Rb) as Vb.
    set (x := ev (asg ws) a) in *. set (y := ev (asg ws) b) in *. pose proof T_pos as HP.
    set (P := (2 ^ Z.of_nat T)%Z) in *.
    destruct (proj2 (Hx ws pub (x + y + P - q)%Z Hacc (conj Ra Rb))) as (l & Hl & El).
    { split; [lia|]. exists 1%Z. split; auto. exists (-1)%Z. lia. }
    exists l. split; auto. rewrite El. split; auto. intros H. apply Hne.
    replace P with ((x + y + P - q) - (x + y) + 1 * q)%Z by lia. rewrite Z_mod_plus_full.
    rewrite Zminus_mod, H, Z.sub_diag. apply Zmod_0_l.
  Qed.
  (** The assignment that [emulated_add] itself computes is rejected whenever the
      lowest limbs carry and the next ones add up to [2^B - 1], although by
      [C33_add_exact] the right sum has an accepted extension. *)
  Theorem C33_add_rejects_honest_refuted a0 a1 a b0 b1 b c : good c -> rok (ptype c) ->
    limbs c (a0 :: a1 :: a) -> limbs c (b0 :: b1 :: b) ->
    let w := asg (witness c) in
    rng w (a0 :: a1 :: a) -> rng w (b0 :: b1 :: b) ->
    (beta <= zval (w a0) + zval (w b0))%Z -> (zval (w a1) + zval (w b1) = beta - 1)%Z ->
    exists r c', emulated_add zval p nb L ez q B NL (a0 :: a1 :: a) (b0 :: b1 :: b) c = (Ok r, c') /\
      forall pub, ~ accepts c' (witness c') pub.
  Proof.
    intros G Ht [La Ba] [Lb Bb] w Ra Rb H0 H1. pose proof (gd_wf _ G) as W.
    destruct (honest_sat zval _ c _ G (emulated_add_honest zval p nb L HF ez q HE T B NL HB HNL HT Hq Hroom _ _ c W Ht La Lb Ba Bb))
      as (r & c' & Em & _ & d & -> & HQ & Hacc).
    exists r, (capp c d). split; auto. intros pub H. destruct (Hacc pub H) as (Hb & Hs & Hh).
    destruct (hext_capp c d _ W Hh) as [Hx _].
    assert (Hw : forall v, (v < num_vars c)%nat -> asg (witness (capp c d)) v = w v) by exact Hx.
    assert (Ra' := rng_ext zval B w (asg (witness (capp c d))) _ _ Ba (fun v Hv => eq_sym (Hw v Hv)) Ra).
    assert (Rb' := rng_ext zval B w (asg (witness (capp c d))) _ _ Bb (fun v Hv => eq_sym (Hw v Hv)) Rb).
    specialize (HQ _ Hb Hs Hh Ra' Rb').
    rewrite <- (lsum_dsum zval p nb L HF T B NL HB HNL HT) in HQ by auto.
    revert HQ. unfold lsum. cbn [combine map fst snd].
    inversion_clear Ba as [|? ? Ba0 Ba']. inversion_clear Ba' as [|? ? Ba1 _].
    inversion_clear Bb as [|? ? Bb0 Bb']. inversion_clear Bb' as [|? ? Bb1 _].
    inversion_clear Ra as [|? ? Ra0 _]. inversion_clear Rb as [|? ? Rb0 _].
    rewrite !Hw by auto. apply (stuck_carry T B NL HB HNL HT); auto; lia.
  Qed.
End Props.

(** The configurations that the repository ships
    (relation/src/gadgets/emulated.rs lines 695-705). *)
Definition bn254_r : Z := 21888242871839275222246405745257275088548364400416034343698204186575808495617.
Definition bn254_q : Z := 21888242871839275222246405745257275088696311157297823662689037894645226208583.
Definition bls377_q : Z := 258664426012969094010652733694893533536393512754914660539884262666720468348340822774968888139573360124440321458177.
Section Shipped.
  Context {K E : fld}.
  Variable zval : K -> Z.
  Variable L : nat.
  Hypothesis HF : pfield K zval bn254_r 254 L.
  Variable ez : E -> Z.

  (** Over the scalar field of BN254, the product of two elements of its base field
      that multiply to less than [2^426] can be forged ... *)
  Theorem C33_bn254_forged_refuted (HE : zfield E ez bn254_q) a b c : good c -> rok 254 (ptype c) -> limbs 3 c a -> limbs 3 c b ->
    exists r c', emulated_mul zval bn254_r 254 L ez bn254_q 300 100 3 a b c = (Ok r, c') /\
      forall ws pub, accepts zval c ws pub -> rng zval 100 (asg ws) a -> rng zval 100 (asg ws) b ->
        (ev zval 100 (asg ws) a * ev zval 100 (asg ws) b < 2 ^ 426)%Z ->
        exists l, accepts zval c' (ws ++ l) pub /\
          (ev zval 100 (asg (ws ++ l)) r mod bn254_q <> (ev zval 100 (asg ws) a * ev zval 100 (asg ws) b) mod bn254_q)%Z.
  Proof.
    intros G Ht Ha Hb.
    destruct (C33_mul_forged_refuted zval bn254_r 254 L HF ez bn254_q HE 300 100 3 ltac:(lia) ltac:(lia) ltac:(lia)
      ltac:(vm_compute; split; reflexivity) ltac:(vm_compute; discriminate) a b c G Ht Ha Hb) as (r & c' & Em & H).
    exists r, c'. split; auto. intros ws pub H1 H2 H3 H4.
    destruct (H ws pub H1 H2 H3) as (l & Hl & _ & Hne).
    - eapply Z.lt_le_trans; [exact H4|]. vm_compute. discriminate.
    - vm_compute. discriminate.
    - exists l; auto.
  Qed.
  (** ... and so can every product in the base field of BLS12-377. *)
  Theorem C33_bls377_forged_refuted (HE : zfield E ez bls377_q) a b c : good c -> rok 254 (ptype c) -> limbs 5 c a -> limbs 5 c b ->
    exists r c', emulated_mul zval bn254_r 254 L ez bls377_q 500 100 5 a b c = (Ok r, c') /\
      forall ws pub, accepts zval c ws pub -> rng zval 100 (asg ws) a -> rng zval 100 (asg ws) b ->
        (ev zval 100 (asg ws) a < bls377_q)%Z -> (ev zval 100 (asg ws) b < bls377_q)%Z ->
        exists l, accepts zval c' (ws ++ l) pub /\
          (ev zval 100 (asg (ws ++ l)) r mod bls377_q <> (ev zval 100 (asg ws) a * ev zval 100 (asg ws) b) mod bls377_q)%Z.
  Proof.
    intros G Ht Ha Hb.
    destruct (C33_mul_forged_refuted zval bn254_r 254 L HF ez bls377_q HE 500 100 5 ltac:(lia) ltac:(lia) ltac:(lia)
      ltac:(vm_compute; split; reflexivity) ltac:(vm_compute; discriminate) a b c G Ht Ha Hb) as (r & c' & Em & H).
    exists r, c'. split; auto. intros ws pub H1 H2 H3 H4 H5.
    pose proof (EmulatedMul.ev_range zval bn254_r 254 L HF 500 100 5 ltac:(lia) ltac:(lia) ltac:(lia) _ _ (proj1 Ha) H2) as Va.
    pose proof (EmulatedMul.ev_range zval bn254_r 254 L HF 500 100 5 ltac:(lia) ltac:(lia) ltac:(lia) _ _ (proj1 Hb) H3) as Vb.
    destruct (H ws pub H1 H2 H3) as (l & Hl & _ & Hne).
    - apply (Z.le_lt_trans _ (bls377_q * bls377_q)); [apply Z.mul_le_mono_nonneg; lia|]. vm_compute. reflexivity.
    - vm_compute. discriminate.
    - exists l; auto.
  Qed.
End Shipped.

(** Concrete instances: elements modulo 61 and modulo 3089 over the field of 3079
    elements, the first with three limbs of 2 bits, the second of 4 bits. *)
Lemma prime_3079 : prime 3079. Proof. apply primeb_prime. vm_compute. reflexivity. Qed.
Lemma prime_3089 : prime 3089. Proof. apply primeb_prime. vm_compute. reflexivity. Qed.
Lemma prime_61 : prime 61. Proof. apply primeb_prime. vm_compute. reflexivity. Qed.
Definition F3079 : fld := Zp 3079 prime_3079.
Definition F3089 : fld := Zp 3089 prime_3089.
Definition F61 : fld := Zp 61 prime_61.
Lemma F3079_pfield : pfield F3079 (zv 3079) 3079 12 64.
Proof. apply Zp_pfield; cbn; lia. Qed.
Lemma Zp_zfield q (Hq : prime q) : zfield (Zp q Hq) (zv q) q.
Proof.
  assert (H0 : (0 < q)%Z) by (destruct Hq; lia). split.
  - intros x. rewrite <- (zv_mod q x). apply Z.mod_pos_bound; auto.
  - intros x. rewrite fZ_Zp. apply zmk_zv.
  - intros z. rewrite fZ_Zp. reflexivity.
Qed.
Lemma emulated_ok_good {K : fld} zval (B NL : nat) (m : circ K evar) c S C V :
  emulated_ok zval B NL m c S C V -> good (snd (m c)).
Proof. intros [(r & c' & -> & G & _) _]. exact G. Qed.

(** A circuit with two emulated elements. *)
Section Two.
  Variable q : Z.
  Hypothesis Pq : prime q.
  Variable B : nat.
  Notation cv x := (create_emulated_variable (zv 3079 : F3079 -> Z) 3079 12 64 (zv q : Zp q Pq -> Z) B 3 (zmk q x : Zp q Pq)).
  Definition two_evars (x y : Z) : circuit F3079 := snd (cv y (snd (cv x (new_circuit F3079 Turbo)))).
  Lemma two_evars_good x y : (1 <= B)%nat -> (q < 2 ^ Z.of_nat (B * 3))%Z -> (12 * 2 ^ (2 * Z.of_nat B) <= 3079)%Z ->
    good (two_evars x y).
  Proof.
    intros HB Hq Hr. assert (0 < q)%Z by (destruct Pq; lia).
    assert (H1 : forall v c, good c -> rok 12 (ptype c) -> good (snd (cv v c))).
    { intros v c G Ht. eapply emulated_ok_good.
      apply (C33_create_variable (zv 3079 : F3079 -> Z) 3079 12 64 F3079_pfield (zv q : Zp q Pq -> Z) q (Zp_zfield q Pq) (B * 3) B 3
               HB ltac:(lia) eq_refl (conj H Hq) Hr (zmk q v) c G Ht). }
    apply H1; [apply H1; [apply good_new|exact I]|]. 
    destruct (C33_create_variable (zv 3079 : F3079 -> Z) 3079 12 64 F3079_pfield (zv q : Zp q Pq -> Z) q (Zp_zfield q Pq) (B * 3) B 3
               HB ltac:(lia) eq_refl (conj H Hq) Hr (zmk q x) (new_circuit F3079 Turbo) (good_new _) I) as [(r & c' & E & _ & Ex & _) _].
    rewrite E. cbn [snd]. now rewrite (ex_type _ _ Ex).
  Qed.
End Two.

(** Modulo 61, limbs of 2 bits: [20 * 17 = 340 = 35] and [20 + 17 = 37]; the computed
    assignments are accepted and the hypotheses of [C33_add] are met. *)
Definition ex61 (x y : Z) : circuit F3079 := two_evars 61 prime_61 2 x y.
Example ex61_good x y : good (ex61 x y).
Proof. apply two_evars_good; cbn; lia. Qed.
Notation z79 := (zv 3079 : F3079 -> Z).
Notation e61 := (zv 61 : F61 -> Z).
Example C33_mul_runs :
  let c := ex61 20 17 in
  let r := emulated_mul z79 3079 12 64 e61 61 6 2 3 [2; 3; 4]%nat [11; 12; 13]%nat c in
  accepts z79 c (witness c) [] /\ limbs 3 c [2; 3; 4]%nat /\ limbs 3 c [11; 12; 13]%nat /\
  accepts z79 (snd r) (witness (snd r)) [] /\
  ev z79 2 (asg (witness (snd r))) (okv [] (fst r)) = 35%Z.
Proof. vm_compute. repeat (split; auto); repeat constructor. Qed.
Example C33_add_runs :
  let c := ex61 20 17 in
  let r := emulated_add z79 3079 12 64 e61 61 2 3 [2; 3; 4]%nat [11; 12; 13]%nat c in
  ev z79 2 (asg (witness c)) [2; 3; 4]%nat = 20%Z /\ addable 61 2 3 20 17 /\
  accepts z79 (snd r) (witness (snd r)) [] /\
  ev z79 2 (asg (witness (snd r))) (okv [] (fst r)) = 37%Z.
Proof.
  intros c r. split; [vm_compute; reflexivity|]. split; [|vm_compute; repeat (split; auto)].
  vm_compute. split; repeat constructor; discriminate.
Qed.
(** [7 + 9]: the lowest limbs carry, [3 + 1 = 4], and the next add up to [1 + 2 = 3]. *)
Example C33_add_rejected :
  let c := ex61 7 9 in
  let r := emulated_add z79 3079 12 64 e61 61 2 3 [2; 3; 4]%nat [11; 12; 13]%nat c in
  accepts z79 c (witness c) [] /\ is_okb (fst r) = true /\
  zv 3079 (asg (witness c) 2%nat) = 3%Z /\ zv 3079 (asg (witness c) 11%nat) = 1%Z /\
  zv 3079 (asg (witness c) 3%nat) = 1%Z /\ zv 3079 (asg (witness c) 12%nat) = 2%Z /\
  check_circuit_satisfiability z79 (snd r) [] <> Ok tt.
Proof. vm_compute. repeat (split; auto). discriminate. Qed.
(** Modulo 3089, above the native modulus: the product of 2 and 3 can be
    [(6 + 4096 * 3079) mod 3089]. *)
Example C33_forged_instance :
  let c := two_evars 3089 prime_3089 4 2 3 in
  good c /\ accepts z79 c (witness c) [] /\ limbs 3 c [2; 3; 4]%nat /\ limbs 3 c [17; 18; 19]%nat /\
  ev z79 4 (asg (witness c)) [2; 3; 4]%nat = 2%Z /\ ev z79 4 (asg (witness c)) [17; 18; 19]%nat = 3%Z /\
  (2 * 3 < 2 ^ 12 * (3089 - 3079))%Z /\ ((2 ^ 12 * 3079) mod 3089 <> 0)%Z.
Proof.
  intros c. split; [apply two_evars_good; cbn; lia|]. vm_compute. repeat (split; auto); try discriminate; repeat constructor.
Qed.
(** The forged product is accepted, by the theorem. *)
Example C33_forged_product :
  let c := two_evars 3089 prime_3089 4 2 3 in
  exists r c' ws, emulated_mul z79 3079 12 64 (zv 3089 : F3089 -> Z) 3089 12 4 3 [2; 3; 4]%nat [17; 18; 19]%nat c = (Ok r, c') /\
    accepts z79 c' ws [] /\ ev z79 4 (asg ws) [2; 3; 4]%nat = 2%Z /\ ev z79 4 (asg ws) [17; 18; 19]%nat = 3%Z /\
    (ev z79 4 (asg ws) r mod 3089 <> 6)%Z.
Proof.
  pose proof C33_forged_instance as H0. cbv zeta in *. revert H0. set (c := two_evars _ _ _ _ _).
  intros (G & Ha & La & Lb & Va & Vb & H1 & H2).
  destruct (C33_mul_forged_refuted z79 3079 12 64 F3079_pfield (zv 3089 : F3089 -> Z) 3089 (Zp_zfield _ _) 12 4 3
    ltac:(lia) ltac:(lia) eq_refl ltac:(cbn; lia) ltac:(cbn; lia) [2; 3; 4]%nat [17; 18; 19]%nat c G I La Lb) as (r & c' & Em & H).
  destruct (H (witness c) [] Ha) as (l & Hl & _ & Hne).
  - vm_compute. repeat constructor; discriminate.
  - vm_compute. repeat constructor; discriminate.
  - rewrite Va, Vb. exact H1.
  - exact H2.
  - clearbody c. exists r, c', (witness c ++ l). split; [exact Em|]. split; [exact Hl|].
    rewrite Va, Vb in Hne. assert (HL : length (witness c) = num_vars c) by apply G.
    split; [|split; [|exact Hne]].
    + rewrite <- Va. symmetry. apply (ev_ext z79 4 _ _ (num_vars c)); [apply La|].
      intros v Hv. unfold asg. symmetry. apply app_nth1. now rewrite HL.
    + rewrite <- Vb. symmetry. apply (ev_ext z79 4 _ _ (num_vars c)); [apply Lb|].
      intros v Hv. unfold asg. symmetry. apply app_nth1. now rewrite HL.
Qed.

Print Assumptions C33_create_variable.
Print Assumptions C33_mul.
Print Assumptions C33_mul_constant.
Print Assumptions C33_add.
Print Assumptions C33_sub.
Print Assumptions C33_add_constant.
Print Assumptions C33_sub_constant.
Print Assumptions C33_mul_exact.
Print Assumptions C33_mul_constant_exact.
Print Assumptions C33_add_exact.
Print Assumptions C33_sub_exact.
Print Assumptions C33_add_constant_exact.
Print Assumptions C33_sub_constant_exact.
Print Assumptions C33_mul_gate_exact.
Print Assumptions C33_add_gate_exact.
Print Assumptions C33_mul_sound_partial.
Print Assumptions C33_add_sound_partial.
Print Assumptions C33_mul_forged_refuted.
Print Assumptions C33_add_forged_refuted.
Print Assumptions C33_add_rejects_honest_refuted.
Print Assumptions C33_bn254_forged_refuted.
Print Assumptions C33_bls377_forged_refuted.
