(** What the emulated gates accept, exactly: an assignment of the variables that
    existed before extends to the variables of the gate if and only if the values
    of the limbs are related. *)

From Coq Require Import List Arith ZArith Bool Lia Ring Field.
From Verif Require Import Base ListAux Alg Poly CircuitModel CircuitProofs GadgetModel GadgetProofs RangeProofs
  BitProofs CmpProofs RangeLookup SatProofs SatGadget EmulatedModel EmulatedProofs EmulatedMul EmulatedAdd IndepProofs EmulatedGate.
Import ListNotations.
Local Open Scope fld_scope.
Local Open Scope circ_scope.

Section Rel.
  Context {K : fld}.
  Variable zval : K -> Z.
  Variable p : Z.
  Variables nb L : nat.
  Context {E : fld}.
  Variable ez : E -> Z.
  Variable q : Z.
  Variables T B NL : nat.
  Notation "x ~ y" := (rel x y eq) (at level 70).
  Notation C := (circ K).

  Lemma rel_pure_l {A A' B'} (m : C A) (f : A -> C B') (m' : C A') R :
    pure m -> (forall a, rel (f a) m' R) -> rel (a <- m ;; f a) m' R.
  Proof.
    intros Hp Hf c ws. unfold cbind. specialize (Hp c). destruct (m c) as [[a| |] c1]; auto. cbn [snd] in Hp. subst c1. apply Hf.
  Qed.
  Lemma ewit_pure a : pure (emulated_witness zval B NL a : C E).
  Proof. unfold emulated_witness; repeat pstep. Qed.

  Notation op := (nat * K * (nat * K))%type.
  Lemma mk_rows_sim ops : forall (h h' : list (C K)) zvs, Forall pure h -> Forall pure h' -> length h = length h' ->
    Forall2 row_sim (mk_rows h ops zvs) (mk_rows h' ops zvs).
  Proof.
    unfold mk_rows, izip. induction ops as [|[[x cx] [y cy]] ops IH]; intros h h' zvs P P' HL.
    - destruct h, h'; constructor.
    - destruct h as [|u h], h' as [|u' h']; try discriminate; [constructor|]. destruct zvs as [|z zvs]; [constructor|].
      inversion_clear P. inversion_clear P'. cbn [combine map]. constructor; [|apply IH; auto].
      unfold row_sim. cbn. auto 10.
  Qed.
  Lemma add_with_rel s k s' k' (ops : list op) h1 h2 h1' h2' c :
    Forall pure h1 -> Forall pure h1' -> length h1 = length h1' ->
    Forall pure h2 -> Forall pure h2' -> length h2 = length h2' ->
    (add_with zval p nb L q B NL s k ops h1 h2 c : C _) ~ add_with zval p nb L q B NL s' k' ops h1' h2' c.
  Proof.
    intros P1 P1' L1 P2 P2' L2. unfold add_with.
    apply rel_bind_eq; [apply boolean_rel|]. intros vk.
    apply rel_bind_eq; [apply rel_mapM_len; [now rewrite !len_limbs|intros; apply var_rel]|]. intros sums.
    apply rel_bind_eq; [apply carry_chain_rel, mk_rows_sim; auto|]. intros _.
    apply rel_bind_eq; [apply carry_chain_rel, mk_rows_sim; auto|]. intros _. rauto.
  Qed.

  Lemma rel_eq_l {A A'} (m m1 : C A) (m' : C A') R : (forall c, m c = m1 c) -> rel m1 m' R -> rel m m' R.
  Proof. intros H Hr c ws. rewrite H. apply Hr. Qed.

  Lemma add_hint_pure l : Forall pure (map (add_hint zval B) l : list (C K)).
  Proof. apply Forall_forall. intros h Hh. apply in_map_iff in Hh as (x & <- & _). unfold add_hint. repeat pstep. Qed.
  Lemma red_hint_pure k l : Forall pure (map (red_hint zval B k) l : list (C K)).
  Proof. apply Forall_forall. intros h Hh. apply in_map_iff in Hh as (x & <- & _). unfold red_hint. repeat pstep. Qed.
  Lemma add_c_hint_pure l : Forall pure (map (add_c_hint zval B) l : list (C K)).
  Proof. apply Forall_forall. intros h Hh. apply in_map_iff in Hh as (x & <- & _). unfold add_c_hint. repeat pstep. Qed.

  Lemma eadd_gate_with_rel s k h1 h2 a b c : length a = NL -> length b = NL -> length c = NL ->
    Forall pure h1 -> Forall pure h2 -> length h1 = NL -> length h2 = NL ->
    (emulated_add_gate zval p nb L ez q B NL a b c : C _)
    ~ (check_vars_bound a >> check_vars_bound b >> check_vars_bound c >>
       add_with zval p nb L q B NL s k (add_ops a b) h1 h2 c).
  Proof.
    intros La Lb Lc P1 P2 L1 L2. unfold emulated_add_gate. do 3 (apply rel_bind_eq; [apply checks_rel|]; intros _).
    do 2 (apply rel_pure_l; [apply ewit_pure|]; intros ?). cbv zeta.
    eapply rel_eq_l.
    { intros c0. apply (add_with_eq zval p nb L q B NL (add_row zval B) (add_hint zval B) (fun xy => ((fst xy, 1), (snd xy, 1))) (combine a b)). intros [x y] z. reflexivity. }
    apply add_with_rel; auto using add_hint_pure, red_hint_pure; rewrite map_length, combine_length, ?len_limbs; lia.
  Qed.
  Lemma eadd_constant_gate_with_rel s k h1 h2 a b c : length a = NL -> length c = NL ->
    Forall pure h1 -> Forall pure h2 -> length h1 = NL -> length h2 = NL ->
    (emulated_add_constant_gate zval p nb L ez q B NL a b c : C _)
    ~ (check_vars_bound a >> check_vars_bound c >>
       add_with zval p nb L q B NL s k (add_c_ops a (biguint_to_limbs (ez b) B NL)) h1 h2 c).
  Proof.
    intros La Lc P1 P2 L1 L2. unfold emulated_add_constant_gate. do 2 (apply rel_bind_eq; [apply checks_rel|]; intros _).
    apply rel_pure_l; [apply ewit_pure|]; intros ?. cbv zeta.
    eapply rel_eq_l.
    { intros c0. apply (add_with_eq zval p nb L q B NL (add_constant_row zval B) (add_c_hint zval B) (fun xb => ((fst xb, 1), (1%nat, snd xb))) (combine a (biguint_to_limbs (ez b) B NL))). intros [x y] z. reflexivity. }
    apply add_with_rel; auto using add_c_hint_pure, red_hint_pure; rewrite map_length, combine_length, ?len_limbs; lia.
  Qed.
  Lemma emul_constant_gate_with_rel va vk ve a b c :
    (emulated_mul_constant_gate zval p nb L ez q T B NL a b c : C _)
    ~ (check_vars_bound a >> check_vars_bound c >>
       emulated_mul_constant_gate_with zval p nb L q T B NL va (ez b) vk ve a c).
  Proof.
    unfold emulated_mul_constant_gate. do 2 (apply rel_bind_eq; [apply checks_rel|]; intros _).
    apply rel_pure_l; [apply ewit_pure|]; intros ?. cbv zeta. apply mul_constant_with_rel.
  Qed.
End Rel.

Section Exact.
  Context {K : fld}.
  Variable zval : K -> Z.
  Variable p : Z.
  Variable nb L : nat.
  Hypothesis HF : pfield K zval p nb L.
  Context {E : fld}.
  Variable ez : E -> Z.
  Variable q : Z.
  Hypothesis HE : zfield E ez q.
  Variables T B NL : nat.
  Hypothesis HB : (1 <= B)%nat.
  Hypothesis HNL : (1 <= NL)%nat.
  Hypothesis HT : T = (B * NL)%nat.
  Hypothesis Hq : (0 < q < 2 ^ Z.of_nat T)%Z.
  Hypothesis Hroom : (4 * Z.of_nat NL * 2 ^ (2 * Z.of_nat B) <= p)%Z.
  Add Field Kfield_ex : (fth K).
  Notation gspec := (gspec zval).
  Notation dsat := (dsat zval).
  Notation beta := (2 ^ Z.of_nat B)%Z.
  Notation zl := (zl zval).
  Notation ev := (ev zval B).
  Notation rng := (rng zval B).
  Notation rok := (rok nb).
  Notation mrel := (EmulatedMul.mul_rel p q T).
  Notation arel := (add_rel q T).
  Notation dsum := (dsum B NL).
  Notation vlt n a := (Forall (fun v => v < n)%nat a).
  Notation accepts := (accepts zval).
  Ltac start := unfold gspec, CircuitProofs.gspec; unfold out, noout.

  (** A gate whose constraints are those of a family of programs [m' x], each
      complete for the inputs that satisfy [C x]. *)
  Lemma gate_exact {X} (m : circ K unit) (m' : X -> circ K unit) (c : circuit K)
      (P S : (nat -> K) -> Prop) C0 (D : X -> (nat -> K) -> Prop) :
    good c -> local (num_vars c) P -> local (num_vars c) S -> local (num_vars c) C0 -> (forall x, local (num_vars c) (D x)) ->
    gspec m c (fun w _ => P w -> S w) C0 noout ->
    (forall x, rel m (m' x) eq) ->
    (forall x ws, length ws = num_vars c -> gspec (m' x) (with_witness c ws) (fun _ _ => True) (D x) noout) ->
    (forall w, P w -> S w -> exists x, D x w) ->
    exists c', m c = (Ok tt, c') /\ good c' /\ extends c c' /\
      forall ws pub, accepts c ws pub -> P (asg ws) ->
        ((exists l, accepts c' (ws ++ l) pub) <-> S (asg ws)).
  Proof.
    intros G LP LS LC LD Hm Hrel Hm' HD.
    destruct (gspec_gadget zval m c _ _ _ G LC Hm) as ([] & c' & Em & G' & Ex & _ & _ & Snd & _ & _).
    exists c'. split; [exact Em|]. split; auto. split; auto. intros ws pub Hacc HP.
    assert (HL : length ws = num_vars c) by apply Hacc.
    assert (Hag : forall l v, (v < num_vars c)%nat -> asg ws v = asg (ws ++ l) v).
    { intros l v Hv. unfold asg. rewrite app_nth1; auto; lia. }
    split.
    - intros [l Hl]. eapply LS; [|apply (Snd c' (ws ++ l) pub (extends_refl _) (gd_bd _ G') Hl)].
      + intros v Hv. symmetry. apply Hag; auto.
      + eapply LP; [|exact HP]. auto.
    - intros HS. destruct (HD _ HP HS) as [x Hx].
      destruct (gadget_transfer zval m (m' x) c (fun _ _ => True) (D x) noout tt c' ws pub) as (l & Hl & _); auto; [|eauto].
      apply gspec_gadget; auto using good_with.
  Qed.

  Lemma rng_local n a : vlt n a -> local n (fun w => rng w a).
  Proof. intros Ha w w' H. apply (rng_ext zval B w w' n a Ha H). Qed.
  Lemma rel_local n a b c (R : Z -> Z -> Z -> Prop) : vlt n a -> vlt n b -> vlt n c -> local n (fun w => R (ev w a) (ev w b) (ev w c)).
  Proof. intros Ha Hb Hc w w' H. rewrite !(ev_ext zval B w w' n) by auto. auto. Qed.
  Lemma local_and n (P Q : (nat -> K) -> Prop) : local n P -> local n Q -> local n (fun w => P w /\ Q w).
  Proof. intros H1 H2 w w' Hw [A C]. split; [eapply H1|eapply H2]; eauto. Qed.

  (** The gates with all hints as arguments. *)
  Definition mulG (x : Z * Z * Z * Z) (a b e : evar) : circ K unit := let '(va, vb, ve, vk) := x in
    check_vars_bound a >> check_vars_bound b >> check_vars_bound e >>
    emulated_mul_gate_with zval p nb L q T B NL va vb vk ve a b e.
  Definition mulD (x : Z * Z * Z * Z) (a b e : evar) (w : nat -> K) : Prop := let '(va, vb, ve, vk) := x in
    rng w a /\ rng w b /\ rng w e /\ ev w a = va /\ ev w b = vb /\ ev w e = ve /\ mrel va vb ve vk.
  Lemma mulG_spec x a b e c : wf c -> rok (ptype c) ->
    length a = NL -> length b = NL -> length e = NL ->
    vlt (num_vars c) a -> vlt (num_vars c) b -> vlt (num_vars c) e ->
    gspec (mulG x a b e) c (fun _ _ => True) (mulD x a b e) noout.
  Proof.
    intros W Ht La Lb Le Ba Bb Be. destruct x as [[[va vb] ve] vk]. unfold mulG. start.
    apply wpc_chks; [exact Ba|]. apply wpc_chks; [exact Bb|]. apply wpc_chks; [exact Be|].
    eapply wpc_mono; [apply (emulated_mul_gate_with_spec zval p nb L HF q T B NL HB HNL HT Hq Hroom va vb vk ve a b e c); auto|].
    intros [] d _ (_ & Cmp & _). split; auto.
  Qed.
  Definition mulcG (v : E) (x : Z * Z * Z) (a e : evar) : circ K unit := let '(va, ve, vk) := x in
    check_vars_bound a >> check_vars_bound e >>
    emulated_mul_constant_gate_with zval p nb L q T B NL va (ez v) vk ve a e.
  Definition mulcD (v : E) (x : Z * Z * Z) (a e : evar) (w : nat -> K) : Prop := let '(va, ve, vk) := x in
    rng w a /\ rng w e /\ ev w a = va /\ ev w e = ve /\ mrel va (ez v) ve vk.
  Lemma mulcG_spec v x a e c : wf c -> rok (ptype c) -> length a = NL -> length e = NL ->
    vlt (num_vars c) a -> vlt (num_vars c) e ->
    gspec (mulcG v x a e) c (fun _ _ => True) (mulcD v x a e) noout.
  Proof.
    intros W Ht La Le Ba Be. destruct x as [[va ve] vk]. pose proof (zf_range _ _ _ HE v) as Hv. unfold mulcG. start.
    apply wpc_chks; [exact Ba|]. apply wpc_chks; [exact Be|].
    eapply wpc_mono; [apply (emulated_mul_constant_gate_with_spec zval p nb L HF q T B NL HB HNL HT Hq Hroom va (ez v) vk ve a e c); auto; lia|].
    intros [] d _ (_ & Cmp & _). split; [auto|]. split; [|exact I]. intros w Hb Hh H. apply Cmp; unfold mulcD in H; tauto.
  Qed.

  (** The hints of the forged carries. *)
  Definition rets (zs : list Z) : list (circ K K) := map (fun z => ret (fZ z)) zs.
  Lemma rets_pure zs : Forall pure (rets zs).
  Proof. apply Forall_forall. intros h Hh. apply in_map_iff in Hh as (x & <- & _). repeat pstep. Qed.
  Lemma rets_vals c0 zs : Forall2 (fun (h : circ K K) v => forall d, h (capp c0 d) = (Ok v, capp c0 d)) (rets zs) (map fZ zs).
  Proof. induction zs; cbn; constructor; auto. Qed.
  Lemma length_carries xs : forall c, length (carries B c xs) = length xs.
  Proof. induction xs as [|x xs IH]; intros c; cbn; auto. Qed.
  Lemma length_dsum x y : length (dsum x y) = NL.
  Proof. unfold EmulatedGate.dsum. rewrite map_length, combine_length, !length_digits. lia. Qed.
  Lemma hdiv x s u : (0 <= s < 2 ^ Z.of_nat T)%Z -> (x = s + 2 ^ Z.of_nat T * u)%Z -> (x mod 2 ^ Z.of_nat T = s mod 2 ^ Z.of_nat T)%Z.
  Proof. intros Hs ->. rewrite Z.mul_comm, Z_mod_plus_full. reflexivity. Qed.

  Definition addG (x : Z * Z * Z * Z * bool) (a b e : evar) : circ K unit := let '(va, vb, ve, s, k) := x in
    check_vars_bound a >> check_vars_bound b >> check_vars_bound e >>
    add_with zval p nb L q B NL s k (add_ops a b) (rets (carries B 0 (dsum va vb)))
      (rets (carries B 0 (dsum (if k then q else 0%Z) ve))) e.
  Definition addD (x : Z * Z * Z * Z * bool) (a b e : evar) (w : nat -> K) : Prop := let '(va, vb, ve, s, k) := x in
    rng w a /\ rng w b /\ rng w e /\ ev w a = va /\ ev w b = vb /\ ev w e = ve
    /\ (0 <= s)%Z /\ ((va + vb) mod 2 ^ Z.of_nat T = s mod 2 ^ Z.of_nat T)%Z
    /\ ((Z.b2z k * q + ve) mod 2 ^ Z.of_nat T = s mod 2 ^ Z.of_nat T)%Z.
  Lemma addG_spec x a b e c : wf c -> rok (ptype c) ->
    length a = NL -> length b = NL -> length e = NL ->
    vlt (num_vars c) a -> vlt (num_vars c) b -> vlt (num_vars c) e ->
    gspec (addG x a b e) c (fun _ _ => True) (addD x a b e) noout.
  Proof.
    intros W Ht La Lb Le Ba Bb Be. destruct x as [[[[va vb] ve] s] k]. unfold addG. start.
    apply wpc_chks; [exact Ba|]. apply wpc_chks; [exact Bb|]. apply wpc_chks; [exact Be|].
    eapply wpc_mono; [apply (add_gen zval p nb L HF q T B NL HB HNL HT Hq Hroom s k (add_ops a b)
      (rets (carries B 0 (dsum va vb))) (rets (carries B 0 (dsum (if k then q else 0%Z) ve)))
      (map fZ (carries B 0 (dsum va vb))) (map fZ (carries B 0 (dsum (if k then q else 0%Z) ve))) e c
         (fun w => lsum zval w a b) (fun w => rng w a /\ rng w b) W Ht); try exact Le; try apply rets_vals|].
    - unfold add_ops. rewrite map_length, combine_length. lia.
    - unfold rets; rewrite map_length, length_carries; apply length_dsum.
    - unfold rets; rewrite map_length, length_carries; apply length_dsum.
    - unfold add_ops. apply Forall_forall. intros o Ho. apply in_map_iff in Ho as ([x y] & <- & Hxy). cbn [fst snd].
      rewrite Forall_forall in Ba, Bb. split; [apply Ba; eapply in_combine_l; eauto|apply Bb; eapply in_combine_r; eauto].
    - exact Be.
    - intros w _ [Ra Rb]. apply (add_ops_val zval p nb L HF T B NL HB HNL HT); auto; lia.
    - intros [] d _ (_ & Cmp & _). split; [auto|]. split; [|exact I].
      intros w Hb Hh (Ra & Rb & Re & Ea & Eb & Ee & Hs & M1 & M2). apply Cmp; auto.
      + rewrite (hval_lsum zval T B NL HB HNL HT) by lia. rewrite Ea, Eb. exact M1.
      + rewrite Ee. exact M2.
      + rewrite (lsum_dsum zval p nb L HF T B NL HB HNL HT) by auto. rewrite Ea, Eb. reflexivity.
      + rewrite (kq_dsum zval p nb L HF q T B NL HB HNL HT) by auto. rewrite Ee. reflexivity.
  Qed.
  Definition addcG (v : E) (x : Z * Z * Z * bool) (a e : evar) : circ K unit := let '(va, ve, s, k) := x in
    check_vars_bound a >> check_vars_bound e >>
    add_with zval p nb L q B NL s k (add_c_ops a (biguint_to_limbs (ez v) B NL)) (rets (carries B 0 (dsum va (ez v))))
      (rets (carries B 0 (dsum (if k then q else 0%Z) ve))) e.
  Definition addcD (v : E) (x : Z * Z * Z * bool) (a e : evar) (w : nat -> K) : Prop := let '(va, ve, s, k) := x in
    rng w a /\ rng w e /\ ev w a = va /\ ev w e = ve
    /\ (0 <= s)%Z /\ ((va + ez v) mod 2 ^ Z.of_nat T = s mod 2 ^ Z.of_nat T)%Z
    /\ ((Z.b2z k * q + ve) mod 2 ^ Z.of_nat T = s mod 2 ^ Z.of_nat T)%Z.
  Lemma addcG_spec v x a e c : wf c -> rok (ptype c) -> length a = NL -> length e = NL ->
    vlt (num_vars c) a -> vlt (num_vars c) e ->
    gspec (addcG v x a e) c (fun _ _ => True) (addcD v x a e) noout.
  Proof.
    intros W Ht La Le Ba Be. destruct x as [[[va ve] s] k]. pose proof (zf_range _ _ _ HE v) as Hv. unfold addcG. start.
    apply wpc_chks; [exact Ba|]. apply wpc_chks; [exact Be|].
    pose proof (wf_two _ W) as W2.
    eapply wpc_mono; [apply (add_gen zval p nb L HF q T B NL HB HNL HT Hq Hroom s k (add_c_ops a (biguint_to_limbs (ez v) B NL))
      (rets (carries B 0 (dsum va (ez v)))) (rets (carries B 0 (dsum (if k then q else 0%Z) ve)))
      (map fZ (carries B 0 (dsum va (ez v)))) (map fZ (carries B 0 (dsum (if k then q else 0%Z) ve))) e c
         (fun w => clsum zval B NL w a (ez v)) (fun w => rng w a) W Ht); try exact Le; try apply rets_vals|].
    - unfold add_c_ops. rewrite map_length, combine_length, len_limbs. lia.
    - unfold rets; rewrite map_length, length_carries; apply length_dsum.
    - unfold rets; rewrite map_length, length_carries; apply length_dsum.
    - unfold add_c_ops. apply Forall_forall. intros o Ho. apply in_map_iff in Ho as ([x y] & <- & Hxy). cbn [fst snd].
      rewrite Forall_forall in Ba. split; [apply Ba; eapply in_combine_l; eauto|lia].
    - exact Be.
    - intros w Hb Ra. apply (add_c_ops_val zval p nb L HF T B NL HB HNL HT); auto.
    - intros [] d _ (_ & Cmp & _). split; [auto|]. split; [|exact I].
      intros w Hb Hh (Ra & Re & Ea & Ee & Hs & M1 & M2).
      pose proof (EmulatedMul.ev_range zval p nb L HF T B NL HB HNL HT w a La Ra).
      apply Cmp; auto.
      + rewrite (clsum_dsum zval p nb L HF T B NL HB HNL HT), (hval_dsum T B NL HB HNL HT) by (auto; lia). rewrite Ea. exact M1.
      + rewrite Ee. exact M2.
      + rewrite (clsum_dsum zval p nb L HF T B NL HB HNL HT) by auto. rewrite Ea. reflexivity.
      + rewrite (kq_dsum zval p nb L HF q T B NL HB HNL HT) by auto. rewrite Ee. reflexivity.
  Qed.

  Ltac loc c := unfold mulD, mulcD, addD, addcD; repeat apply local_and; try (apply rng_local; auto); intros w w' H; rewrite ?(ev_ext zval B w w' (num_vars c)) by auto; auto.
  Ltac lens := unfold rets; rewrite map_length, length_carries; apply length_dsum.

  Lemma emulated_mul_gate_exact a b e c : good c -> rok (ptype c) ->
    length a = NL -> length b = NL -> length e = NL ->
    vlt (num_vars c) a -> vlt (num_vars c) b -> vlt (num_vars c) e ->
    exists c', emulated_mul_gate zval p nb L ez q T B NL a b e c = (Ok tt, c') /\ good c' /\ extends c c' /\
      forall ws pub, accepts c ws pub -> rng (asg ws) a /\ rng (asg ws) b /\ rng (asg ws) e ->
        ((exists l, accepts c' (ws ++ l) pub) <-> exists k, mrel (ev (asg ws) a) (ev (asg ws) b) (ev (asg ws) e) k).
  Proof.
    intros G Ht La Lb Le Ba Bb Be.
    apply (gate_exact (emulated_mul_gate zval p nb L ez q T B NL a b e) (fun x => mulG x a b e) c
      (fun w => rng w a /\ rng w b /\ rng w e)
      (fun w => exists k, mrel (ev w a) (ev w b) (ev w e) k) (mulC zval q B a b e) (fun x => mulD x a b e)); auto.
    - loc c.
    - intros w w' H [k Hk]. exists k. rewrite <- !(ev_ext zval B w w' (num_vars c)) by auto. exact Hk.
    - loc c.
    - intros [[[va vb] ve] vk]. loc c.
    - eapply (gspec_weaken zval); [apply (emulated_mul_gate_spec zval p nb L HF ez q HE T B NL HB HNL HT Hq Hroom); auto; apply G| |]; cbn beta; auto.
      intros w _ H (A1 & A2 & A3). auto.
    - intros [[[va vb] ve] vk]. apply emul_gate_with_rel.
    - intros x ws HL. apply mulG_spec; auto. apply (gd_wf _ (good_with c ws G HL)).
    - intros w (Ra & Rb & Re) [k Hk]. exists (ev w a, ev w b, ev w e, k). unfold mulD. auto 10.
  Qed.
  Lemma emulated_mul_constant_gate_exact a v e c : good c -> rok (ptype c) ->
    length a = NL -> length e = NL -> vlt (num_vars c) a -> vlt (num_vars c) e ->
    exists c', emulated_mul_constant_gate zval p nb L ez q T B NL a v e c = (Ok tt, c') /\ good c' /\ extends c c' /\
      forall ws pub, accepts c ws pub -> rng (asg ws) a /\ rng (asg ws) e ->
        ((exists l, accepts c' (ws ++ l) pub) <-> exists k, mrel (ev (asg ws) a) (ez v) (ev (asg ws) e) k).
  Proof.
    intros G Ht La Le Ba Be.
    apply (gate_exact (emulated_mul_constant_gate zval p nb L ez q T B NL a v e) (fun x => mulcG v x a e) c
      (fun w => rng w a /\ rng w e)
      (fun w => exists k, mrel (ev w a) (ez v) (ev w e) k) (mulCC zval q B a (ez v) e) (fun x => mulcD v x a e)); auto.
    - loc c.
    - intros w w' H [k Hk]. exists k. rewrite <- !(ev_ext zval B w w' (num_vars c)) by auto. exact Hk.
    - loc c.
    - intros [[va ve] vk]. loc c.
    - eapply (gspec_weaken zval); [apply (emulated_mul_constant_gate_spec zval p nb L HF ez q HE T B NL HB HNL HT Hq Hroom); auto; apply G| |]; cbn beta; auto.
      intros w _ H (A1 & A2). auto.
    - intros [[va ve] vk]. apply emul_constant_gate_with_rel.
    - intros x ws HL. apply mulcG_spec; auto. apply (gd_wf _ (good_with c ws G HL)).
    - intros w (Ra & Re) [k Hk]. exists (ev w a, ev w e, k). unfold mulcD. auto 10.
  Qed.
  Lemma emulated_add_gate_exact a b e c : good c -> rok (ptype c) ->
    length a = NL -> length b = NL -> length e = NL ->
    vlt (num_vars c) a -> vlt (num_vars c) b -> vlt (num_vars c) e ->
    exists c', emulated_add_gate zval p nb L ez q B NL a b e c = (Ok tt, c') /\ good c' /\ extends c c' /\
      forall ws pub, accepts c ws pub -> rng (asg ws) a /\ rng (asg ws) b /\ rng (asg ws) e ->
        ((exists l, accepts c' (ws ++ l) pub) <-> exists k, arel (ev (asg ws) a + ev (asg ws) b)%Z (ev (asg ws) e) k).
  Proof.
    intros G Ht La Lb Le Ba Bb Be.
    apply (gate_exact (emulated_add_gate zval p nb L ez q B NL a b e) (fun x => addG x a b e) c
      (fun w => rng w a /\ rng w b /\ rng w e)
      (fun w => exists k, arel (ev w a + ev w b)%Z (ev w e) k) (addC zval q B NL a b e) (fun x => addD x a b e)); auto.
    - loc c.
    - intros w w' H [k Hk]. exists k. rewrite <- !(ev_ext zval B w w' (num_vars c)) by auto. exact Hk.
    - loc c.
    - intros [[[[va vb] ve] s] k]. loc c.
    - eapply (gspec_weaken zval); [apply (emulated_add_gate_spec zval p nb L HF ez q HE T B NL HB HNL HT Hq Hroom); auto; apply G| |]; cbn beta; auto.
      intros w _ H (A1 & A2 & A3). auto.
    - intros [[[[va vb] ve] s] k]. apply eadd_gate_with_rel; auto using rets_pure; lens.
    - intros x ws HL. apply addG_spec; auto. apply (gd_wf _ (good_with c ws G HL)).
    - intros w (Ra & Rb & Re) [k (Hk & s & u & v & Hs & Hu & Hv & E1 & E2)].
      exists (ev w a, ev w b, ev w e, s, (k =? 1)%Z). unfold addD. repeat split; auto; try lia.
      + eapply hdiv; eauto.
      + replace (Z.b2z (k =? 1)%Z) with k by (destruct Hk; subst k; reflexivity). eapply hdiv; eauto.
  Qed.
  Lemma emulated_add_constant_gate_exact a v e c : good c -> rok (ptype c) ->
    length a = NL -> length e = NL -> vlt (num_vars c) a -> vlt (num_vars c) e ->
    exists c', emulated_add_constant_gate zval p nb L ez q B NL a v e c = (Ok tt, c') /\ good c' /\ extends c c' /\
      forall ws pub, accepts c ws pub -> rng (asg ws) a /\ rng (asg ws) e ->
        ((exists l, accepts c' (ws ++ l) pub) <-> exists k, arel (ev (asg ws) a + ez v)%Z (ev (asg ws) e) k).
  Proof.
    intros G Ht La Le Ba Be.
    apply (gate_exact (emulated_add_constant_gate zval p nb L ez q B NL a v e) (fun x => addcG v x a e) c
      (fun w => rng w a /\ rng w e)
      (fun w => exists k, arel (ev w a + ez v)%Z (ev w e) k)
      (fun w => rng w a /\ rng w e /\ (ev w a < q)%Z /\ ev w e = ((ev w a + ez v) mod q)%Z /\ addable q B NL (ev w a) (ez v))
      (fun x => addcD v x a e)); auto.
    - loc c.
    - intros w w' H [k Hk]. exists k. rewrite <- !(ev_ext zval B w w' (num_vars c)) by auto. exact Hk.
    - loc c.
    - intros [[[va ve] s] k]. loc c.
    - eapply (gspec_weaken zval); [apply (emulated_add_constant_gate_spec zval p nb L HF ez q HE T B NL HB HNL HT Hq Hroom); auto; apply G| |]; cbn beta; auto.
      intros w _ H (A1 & A2). auto.
    - intros [[[va ve] s] k]. apply eadd_constant_gate_with_rel; auto using rets_pure; lens.
    - intros x ws HL. apply addcG_spec; auto. apply (gd_wf _ (good_with c ws G HL)).
    - intros w (Ra & Re) [k (Hk & s & u & v' & Hs & Hu & Hv' & E1 & E2)].
      exists (ev w a, ev w e, s, (k =? 1)%Z). unfold addcD. repeat split; auto; try lia.
      + eapply hdiv; eauto.
      + replace (Z.b2z (k =? 1)%Z) with k by (destruct Hk; subst k; reflexivity). eapply hdiv; eauto.
  Qed.

  (** The assignment that the code computes for an addition is accepted only if the
      carry out of each limb does not depend on the carry into it. *)
  Lemma emulated_add_gate_honest a b e c0 : wf c0 -> rok (ptype c0) ->
    length a = NL -> length b = NL -> length e = NL ->
    vlt (num_vars c0) a -> vlt (num_vars c0) b -> vlt (num_vars c0) e ->
    wpc (emulated_add_gate zval p nb L ez q B NL a b e) c0 (fun _ d =>
      forall w, base w -> dsat (ptype c0) w d -> hext (capp c0 d) w -> rng w a -> rng w b ->
        map (fun x => fZ (x / beta)%Z : K) (dsum (ev w a) (ev w b)) = map fZ (carries B 0 (dsum (ev w a) (ev w b)))).
  Proof.
    intros Hw Ht La Lb Lc Ba Bb Bc. unfold emulated_add_gate.
    apply wpc_chks; [exact Ba|]. apply wpc_chks; [exact Bb|]. apply wpc_chks; [exact Bc|].
    eapply wpc_bind_pure; [apply (emulated_witness_eq zval T B NL HB HNL HT); auto|]. eapply wpc_bind_pure; [apply (emulated_witness_eq zval T B NL HB HNL HT); auto|].
    cbv zeta.
    match goal with |- wpc (_ <- create_boolean_variable ?kk ;; _) _ _ => set (k := kk) end.
    match goal with |- context [biguint_to_limbs (?u + ?v) B NL] => set (s := (u + v)%Z) end.
    eapply wpc_eq; [apply (add_with_eq zval p nb L q B NL (add_row zval B) (add_hint zval B) (fun xy => ((fst xy, 1), (snd xy, 1))) (combine a b))|].
    { intros [x y] z. reflexivity. }
    fold (@add_ops K a b).
    assert (Lab : length (combine a b) = NL) by (rewrite combine_length; lia).
    assert (Lqc : length (combine (biguint_to_limbs q B NL : list K) e) = NL) by (rewrite combine_length, len_limbs; lia).
    eapply wpc_mono; [apply (add_gen zval p nb L HF q T B NL HB HNL HT Hq Hroom s k (add_ops a b) (map (add_hint zval B) (combine a b))
      (map (red_hint zval B k) (combine (biguint_to_limbs q B NL) e))
      (map (fun xy => limb_carry zval B (hon c0 (fst xy) + hon c0 (snd xy))) (combine a b))
      (map (fun my => limb_carry zval B (fst my * (if k : bool then 1 else 0) + hon c0 (snd my))) (combine (biguint_to_limbs q B NL) e))
      e c0 (fun w => lsum zval w a b) (fun w => rng w a /\ rng w b)); auto|].
    - unfold add_ops. rewrite map_length. exact Lab.
    - rewrite map_length. exact Lab.
    - rewrite map_length. exact Lqc.
    - unfold add_ops. apply Forall_forall. intros o Ho. apply in_map_iff in Ho as ([x y] & <- & Hxy). cbn [fst snd].
      rewrite Forall_forall in Ba, Bb. split; [apply Ba; eapply in_combine_l; eauto|apply Bb; eapply in_combine_r; eauto].
    - apply (add_hints zval T B NL HB HNL HT); auto.
    - apply (red_hints zval T B NL HB HNL HT); auto.
    - intros w _ [Ra Rb]. apply (add_ops_val zval p nb L HF T B NL HB HNL HT); auto; lia.
    - intros [] d _ (_ & _ & Mid) w Hb Hs Hh Ra Rb. specialize (Mid w Hb Hs Hh (conj Ra Rb)).
      rewrite (lsum_dsum zval p nb L HF T B NL HB HNL HT) in Mid by auto.
      rewrite <- Mid. rewrite <- (lsum_dsum zval p nb L HF T B NL HB HNL HT w a b) by auto.
      rewrite <- (add_hint_vals zval p nb L HF T B NL HB HNL HT Hroom w a b) by (auto; lia).
      destruct (hext_capp c0 d w Hw Hh) as [Hx _].
      apply map_ext_in. intros [x y] Hxy. cbn [fst snd].
      rewrite Forall_forall in Ba, Bb. rewrite !Hx; [reflexivity|apply Bb; eapply in_combine_r; eauto|apply Ba; eapply in_combine_l; eauto].
  Qed.
  Lemma emulated_add_honest a b c0 : wf c0 -> rok (ptype c0) -> length a = NL -> length b = NL ->
    vlt (num_vars c0) a -> vlt (num_vars c0) b ->
    wpc (emulated_add zval p nb L ez q B NL a b) c0 (fun _ d =>
      forall w, base w -> dsat (ptype c0) w d -> hext (capp c0 d) w -> rng w a -> rng w b ->
        map (fun x => fZ (x / beta)%Z : K) (dsum (ev w a) (ev w b)) = map fZ (carries B 0 (dsum (ev w a) (ev w b)))).
  Proof.
    intros Hw Ht La Lb Ba Bb. unfold emulated_add.
    eapply wpc_bind_pure; [apply (emulated_witness_eq zval T B NL HB HNL HT); auto|].
    eapply wpc_bind_pure; [apply (emulated_witness_eq zval T B NL HB HNL HT); auto|].
    apply wpc_bind. eapply wpc_mono; [apply (create_evar_spec zval p nb L HF ez q HE T B NL HB HNL HT Hq Hroom); auto|].
    intros r d1 _ (_ & _ & (Lr & Br) & _).
    apply wpc_bind. eapply wpc_mono; [apply (emulated_add_gate_honest a b r (capp c0 d1)); auto; try (apply (vlt_capp T B NL HB HNL HT); auto); wfs|].
    intros [] d2 _ H2. wstep. intros w Hb Hs Hh. rewrite ptype_capp in *. rewrite <- !capp_cat in Hh. hx. rewrite !dsat_cat in Hs.
    apply H2; tauto.
  Qed.
  (** What acceptance of the computed assignment means. *)
  Lemma honest_sat {A} (m : circ K A) c Q : good c -> wpc m c Q ->
    exists a c', m c = (Ok a, c') /\ good c' /\ exists d, c' = capp c d /\ Q a d /\
      forall pub, accepts c' (witness c') pub ->
        base (asg (witness c')) /\ dsat (ptype c) (asg (witness c')) d /\ hext c' (asg (witness c')).
  Proof.
    intros G (a & d & Em & P & HQ). exists a, (capp c d). split; auto. pose proof (good_capp _ _ G P) as G'. split; auto.
    exists d. split; auto. split; auto. intros pub Hacc.
    pose proof (proj1 Hacc) as Hl. apply (accepts_csat zval _ _ pub (gd_bd _ G') Hl) in Hacc. split; [|split].
    - eapply csat_base_ext; [exact G|apply extends_capp|exact Hacc].
    - eapply csat_dsat; [apply (gd_wf _ G)|apply extends_refl|exact Hacc].
    - intros v _. reflexivity.
  Qed.
  (** If the lowest limbs carry and the next ones add to [2^B - 1], they are not equal. *)
  Lemma stuck_carry x0 x1 xs : (beta <= x0 <= 2 * beta - 2)%Z -> x1 = (beta - 1)%Z ->
    map (fun x => fZ (x / beta)%Z : K) (x0 :: x1 :: xs) <> map fZ (carries B 0 (x0 :: x1 :: xs)).
  Proof.
    intros H0 -> H. assert (Hb : (2 <= beta)%Z) by apply (EmulatedMul.beta_ge T B NL HB HNL HT).
    cbn [carries map] in H. injection H as _ H _. rewrite Z.add_0_r in H.
    assert (E0 : (x0 / beta = 1)%Z) by (symmetry; apply (Z.div_unique_pos _ _ 1 (x0 - beta)); lia).
    rewrite E0, Z.sub_add, Z_div_same_full in H by lia. rewrite (Z.div_small (beta - 1)) in H by lia.
    rewrite fZ_1 in H. apply (f1_neq_0 K). symmetry. exact H.
  Qed.

  (** The values that a call can return. *)
  Definition create_limbs (z : Z) : circ K evar :=
    vs <- mapM create_variable (biguint_to_limbs z B NL) ;; iterM (fun x => enforce_in_range zval p nb L x B) vs >> ret vs.
  Lemma create_limbs_rel (v : E) z : rel (create_emulated_variable zval p nb L ez B NL v : circ K _) (create_limbs z) eq.
  Proof.
    unfold create_emulated_variable, create_limbs, create_emulated_variable_unchecked, from_emulated_field.
    apply rel_bind_eq; [apply rel_mapM_len; [now rewrite !len_limbs|intros; apply var_rel]|]. intros vs.
    pose proof (@in_range_ind K zval p nb L). rauto.
  Qed.
  Lemma mapM_len {A A'} (f : A -> circ K A') l : forall c vs c', mapM f l c = (Ok vs, c') -> length vs = length l.
  Proof.
    induction l as [|x l IH]; intros c vs c' H; cbn in H.
    - inversion H; reflexivity.
    - unfold cbind in H. destruct (f x c) as [[y| |] c1]; try discriminate.
      destruct (mapM f l c1) as [[ys| |] c2] eqn:E2; try discriminate. inversion H; subst. cbn. f_equal. eauto.
  Qed.
  Lemma create_evar_len (v : E) c vs c' : create_emulated_variable zval p nb L ez B NL v c = (Ok vs, c') -> length vs = NL.
  Proof.
    unfold create_emulated_variable, create_emulated_variable_unchecked, from_emulated_field, cbind. intros H.
    destruct (mapM create_variable (biguint_to_limbs (ez v) B NL) c) as [[ys| |] c1] eqn:E1; try discriminate.
    apply mapM_len in E1. rewrite len_limbs in E1.
    destruct (iterM _ ys c1) as [[]]; try discriminate. injection H as <- <-; exact E1.
  Qed.
  Lemma create_limbs_spec z c : wf c -> rok (ptype c) -> (0 <= z < 2 ^ Z.of_nat T)%Z ->
    espec zval B NL (create_limbs z) c (fun _ _ => True) (fun _ => True) (fun _ => z).
  Proof.
    intros Hw Ht Hz. unfold espec, create_limbs.
    set (vl := biguint_to_limbs z B NL). assert (Lv : length vl = NL) by apply (length_limbs B).
    apply wpc_bind. eapply wpc_mono; [apply (mapM_var_spec zval vl); auto|]. intros vs d1 _ (Es & V1 & D1).
    rewrite Lv in Es.
    assert (Ls : length vs = NL) by (rewrite Es; apply seq_length).
    assert (Lv1 : length (d_vals d1) = NL) by (rewrite V1; auto).
    assert (Bs : vlt (num_vars (capp c d1)) vs).
    { rewrite Es. apply Forall_forall. intros x Hx. apply in_seq in Hx. bnd. }
    apply wpc_bind. eapply wpc_mono; [apply (in_range_all zval p nb L HF T B NL HB HNL HT Hroom vs (capp c d1)); auto; wfs|].
    intros [] d2 _ (S2 & C2 & _). rewrite ptype_capp in *. wstep.
    assert (Hv : forall w, hext (capp c d1) w -> ev w vs = z /\ rng w vs).
    { intros w Hh. apply (ev_limbs zval p nb L HF T B NL HB HNL HT Hroom); [|exact Hz].
      rewrite Es. apply (dig_vals B w c d1); auto. }
    split; [|split; [|split]].
    - intros w Hb Hs. rewrite !dsat_cat in Hs. split; auto. apply S2; tauto.
    - intros w Hb Hh _. rewrite <- !capp_cat in Hh. hx. rewrite !dsat_cat. split; [apply D1|]. split; [|apply dsat_nil].
      apply C2; auto. apply Hv; auto.
    - split; auto. eapply Forall_impl; [|exact Bs]. cbn beta. intros; bnd.
    - intros w Hh. rewrite <- !capp_cat in Hh. hx. destruct (Hv w); auto.
  Qed.

  Lemma call_exact {X} (m : circ K evar) v (gate : evar -> circ K unit) (gate' : X -> evar -> circ K unit)
      (D : X -> evar -> (nat -> K) -> Prop) (P : (nat -> K) -> Prop) (S : (nat -> K) -> Z -> Prop) c :
    good c -> rok (ptype c) -> local (num_vars c) P -> (forall z, local (num_vars c) (fun w => S w z)) ->
    m c = (r <- create_emulated_variable zval p nb L ez B NL v ;; gate r >> ret r) c ->
    wpc m c (fun r d => (forall w, base w -> dsat (ptype c) w d -> rng w r /\ (P w -> S w (ev w r)))
                        /\ length r = NL /\ vlt (num_vars c + length (d_vals d)) r) ->
    (forall x r, length r = NL -> rel (gate r) (gate' x r) eq) ->
    (forall x r ws d, length ws = num_vars c -> wf (capp (with_witness c ws) d) -> length r = NL -> vlt (num_vars (capp (with_witness c ws) d)) r ->
       gspec (gate' x r) (capp (with_witness c ws) d) (fun _ _ => True) (D x r) noout) ->
    (forall w z, P w -> S w z -> (0 <= z < 2 ^ Z.of_nat T)%Z ->
       exists x, forall w' r, (forall u, (u < num_vars c)%nat -> w' u = w u) -> length r = NL -> rng w' r -> ev w' r = z -> D x r w') ->
    exists r c', m c = (Ok r, c') /\ good c' /\ extends c c' /\ length r = NL /\ vlt (num_vars c') r /\
      forall ws pub z, accepts c ws pub -> P (asg ws) ->
        ((exists l, accepts c' (ws ++ l) pub /\ ev (asg (ws ++ l)) r = z) <-> (0 <= z < 2 ^ Z.of_nat T)%Z /\ S (asg ws) z).
  Proof.
    intros G Ht LP LS Em Hm Hrel Hg HD. destruct Hm as (r & d & Er & Pl & Snd & Lr & Br).
    exists r, (capp c d). pose proof (good_capp _ _ G Pl) as G'. split; auto. split; auto.
    split; [apply extends_capp|]. split; auto. split; [exact Br|]. intros ws pub z Hacc HP.
    assert (HL : length ws = num_vars c) by apply Hacc.
    assert (Hag : forall l u, (u < num_vars c)%nat -> asg (ws ++ l) u = asg ws u).
    { intros l u Hu. unfold asg. rewrite app_nth1; auto; lia. }
    split.
    - intros (l & Hl & <-). pose proof (proj1 Hl) as Hl'.
      apply (accepts_csat zval _ _ pub (gd_bd _ G') Hl') in Hl.
      destruct (Snd (asg (ws ++ l))) as [R HS].
      + eapply csat_base_ext; [exact G|apply extends_capp|exact Hl].
      + eapply csat_dsat; [apply (gd_wf _ G)|apply extends_refl|exact Hl].
      + split; [apply (EmulatedMul.ev_range zval p nb L HF T B NL HB HNL HT); auto|].
        eapply LS; [|apply HS]; [intros; apply Hag; auto|]. eapply LP; [|exact HP]. intros; symmetry; apply Hag; auto.
    - intros [Hz HS]. destruct (HD _ z HP HS Hz) as [x Hx].
      pose proof (good_with c ws G HL) as Gw. pose proof (gd_wf _ Gw) as Ww.
      set (m' := r <- create_limbs z ;; gate' x r >> ret r).
      assert (Hm' : wpc m' (with_witness c ws) (fun r d =>
          (forall w, base w -> hext (capp (with_witness c ws) d) w -> dsat (ptype c) w d) /\
          (forall w, hext (capp (with_witness c ws) d) w -> ev w r = z))).
      { unfold m'. apply wpc_bind. eapply wpc_mono; [apply (create_limbs_spec z (with_witness c ws)); auto|].
        intros r1 d1 _ (_ & C1 & (L1 & B1) & V1).
        apply wpc_bind. eapply wpc_mono; [apply (Hg x r1 ws d1); auto; wfs|]. intros [] d2 _ (_ & C2 & _).
        rewrite ptype_capp in *. cbn [ptype with_witness] in *. wstep. split.
        - intros w Hb Hh. rewrite <- !capp_cat in Hh. hx. rewrite !dsat_cat. split; [apply C1; auto|]. split; [|apply dsat_nil].
          destruct (V1 w) as [R1 E1]; auto.
        - intros w Hh. rewrite <- !capp_cat in Hh. hx. apply V1; auto. }
      destruct Hm' as (r1 & d1 & Er1 & P1 & Cmp1 & V1).
      assert (Hr : rel (r <- create_emulated_variable zval p nb L ez B NL v ;; gate r >> ret r) m' eq).
      { unfold m'. apply rel_bind with (R := fun r r' => r = r' /\ length r = NL).
        - intros c0 ws0. pose proof (create_limbs_rel v z c0 ws0) as H. pose proof (create_evar_len v c0) as H'.
          destruct (create_emulated_variable zval p nb L ez B NL v c0) as [[]], (create_limbs z (with_witness c0 ws0)) as [[]]; auto.
          destruct H. split; [split|]; auto. eapply H'; reflexivity.
        - intros a a' [<- La]. specialize (Hrel x a La). rauto. }
      specialize (Hr c ws). rewrite <- Em, Er, Er1 in Hr. destruct Hr as [<- [ws' Hws]].
      pose proof (good_capp _ _ Gw P1) as G1.
      exists (d_vals d1). pose proof (f_equal witness Hws) as Hwit. cbn [witness capp with_witness] in Hwit.
      assert (Hcap : capp (with_witness c ws) d1 = with_witness (capp c d) (ws ++ d_vals d1)).
      { rewrite Hws. rewrite <- Hwit. reflexivity. }
      assert (Hh1 : hext (capp (with_witness c ws) d1) (asg (ws ++ d_vals d1))).
      { intros u Hu. reflexivity. }
      split; [|apply V1; auto].
      apply (proj1 (accepts_with zval (capp c d) (ws ++ d_vals d1) (ws ++ d_vals d1) pub)). rewrite <- Hcap.
      assert (Hl1 : length (ws ++ d_vals d1) = num_vars (capp (with_witness c ws) d1)).
      { cbn. rewrite app_length. lia. }
      apply accepts_csat; [apply (gd_bd _ G1)|exact Hl1|].
      apply (csat_plain zval (with_witness c ws) d1 _ (asg ws) pub Gw P1); [intros u Hu; apply Hag; exact Hu|].
      assert (Hcs : csat zval (with_witness c ws) (asg ws) pub).
      { apply accepts_csat; [apply (gd_bd _ Gw)|exact HL|]. apply (accepts_with zval c ws ws pub). exact Hacc. }
      split; [exact Hcs|]. apply Cmp1; auto.
      pose proof (csat_base zval _ _ _ Gw Hcs) as [B0 B1]. pose proof (wf_two _ Ww). cbn in H.
      split; rewrite Hag by lia; auto.
  Qed.

  Ltac wits := repeat (unfold cbind at 1; rewrite (emulated_witness_eq zval T B NL HB HNL HT) by auto; cbn beta iota).
  Lemma capp_with (c : circuit K) ws d a : vlt (num_vars c) a -> vlt (num_vars (capp (with_witness c ws) d)) a.
  Proof. intros H. eapply Forall_impl; [|exact H]. cbn beta. intros. cbn. lia. Qed.
  Notation call m c P S := (exists r c', m c = (Ok r, c') /\ good c' /\ extends c c' /\ length r = NL /\ vlt (num_vars c') r /\
      forall ws pub z, accepts c ws pub -> P (asg ws) ->
        ((exists l, accepts c' (ws ++ l) pub /\ ev (asg (ws ++ l)) r = z) <-> (0 <= z < 2 ^ Z.of_nat T)%Z /\ S (asg ws) z)).

  Lemma emulated_mul_exact a b c : good c -> rok (ptype c) -> length a = NL -> length b = NL ->
    vlt (num_vars c) a -> vlt (num_vars c) b ->
    call (emulated_mul zval p nb L ez q T B NL a b) c (fun w => rng w a /\ rng w b)
      (fun w z => exists k, mrel (ev w a) (ev w b) z k).
  Proof.
    intros G Ht La Lb Ba Bb. pose proof (gd_wf _ G) as W.
    eapply (call_exact _ _ (fun r => emulated_mul_gate zval p nb L ez q T B NL a b r) (fun x r => mulG x a b r) (fun x r => mulD x a b r)
      (fun w => rng w a /\ rng w b) (fun w z => exists k, mrel (ev w a) (ev w b) z k)); auto.
    - loc c.
    - intros z w w' H [k Hk]. exists k. rewrite <- !(ev_ext zval B w w' (num_vars c)) by auto. exact Hk.
    - unfold emulated_mul. wits. reflexivity.
    - eapply wpc_mono; [apply (emulated_mul_spec zval p nb L HF ez q HE T B NL HB HNL HT Hq Hroom a b c); auto|].
      cbn beta. intros r d _ (H1 & H2 & H3 & H4). split; [|exact H3].
      intros w Hb Hs. destruct (H1 w Hb Hs) as [R HS]. split; auto. intros [A1 A2]. auto.
    - intros [[[va vb] ve] vk] r _. apply emul_gate_with_rel.
    - intros x r ws d HL Wd Lr Br. apply mulG_spec; auto; apply capp_with; auto.
    - intros w z (Ra & Rb) [k Hk] Hz. exists (ev w a, ev w b, z, k). intros w' r Hw' Lr Rr Er. unfold mulD.
      rewrite !(ev_ext zval B w' w (num_vars c)) by auto. repeat split; auto; try apply Hk; eapply (rng_ext zval B w w' (num_vars c)); auto; intros; symmetry; auto.
  Qed.
  Lemma emulated_mul_constant_exact a v c : good c -> rok (ptype c) -> length a = NL -> vlt (num_vars c) a ->
    call (emulated_mul_constant zval p nb L ez q T B NL a v) c (fun w => rng w a)
      (fun w z => exists k, mrel (ev w a) (ez v) z k).
  Proof.
    intros G Ht La Ba. pose proof (gd_wf _ G) as W.
    eapply (call_exact _ _ (fun r => emulated_mul_constant_gate zval p nb L ez q T B NL a v r) (fun x r => mulcG v x a r) (fun x r => mulcD v x a r)
      (fun w => rng w a) (fun w z => exists k, mrel (ev w a) (ez v) z k)); auto.
    - loc c.
    - intros z w w' H [k Hk]. exists k. rewrite <- !(ev_ext zval B w w' (num_vars c)) by auto. exact Hk.
    - unfold emulated_mul_constant. wits. reflexivity.
    - eapply wpc_mono; [apply (emulated_mul_constant_spec zval p nb L HF ez q HE T B NL HB HNL HT Hq Hroom a v c); auto|].
      cbn beta. intros r d _ (H1 & H2 & H3 & H4). split; [exact H1|exact H3].
    - intros [[va ve] vk] r _. apply emul_constant_gate_with_rel.
    - intros x r ws d HL Wd Lr Br. apply mulcG_spec; auto; apply capp_with; auto.
    - intros w z Ra [k Hk] Hz. exists (ev w a, z, k). intros w' r Hw' Lr Rr Er. unfold mulcD.
      rewrite !(ev_ext zval B w' w (num_vars c)) by auto. repeat split; auto; try apply Hk; eapply (rng_ext zval B w w' (num_vars c)); auto; intros; symmetry; auto.
  Qed.
  Lemma emulated_add_exact a b c : good c -> rok (ptype c) -> length a = NL -> length b = NL ->
    vlt (num_vars c) a -> vlt (num_vars c) b ->
    call (emulated_add zval p nb L ez q B NL a b) c (fun w => rng w a /\ rng w b)
      (fun w z => exists k, arel (ev w a + ev w b)%Z z k).
  Proof.
    intros G Ht La Lb Ba Bb. pose proof (gd_wf _ G) as W.
    eapply (call_exact _ _ (fun r => emulated_add_gate zval p nb L ez q B NL a b r) (fun x r => addG x a b r) (fun x r => addD x a b r)
      (fun w => rng w a /\ rng w b) (fun w z => exists k, arel (ev w a + ev w b)%Z z k)); auto.
    - loc c.
    - intros z w w' H [k Hk]. exists k. rewrite <- !(ev_ext zval B w w' (num_vars c)) by auto. exact Hk.
    - unfold emulated_add. wits. reflexivity.
    - eapply wpc_mono; [apply (emulated_add_spec zval p nb L HF ez q HE T B NL HB HNL HT Hq Hroom a b c); auto|].
      cbn beta. intros r d _ (H1 & H2 & H3 & H4). split; [|exact H3].
      intros w Hb Hs. destruct (H1 w Hb Hs) as [R HS]. split; auto. intros [A1 A2]. auto.
    - intros [[[[va vb] ve] s] k] r Lr. apply eadd_gate_with_rel; auto using rets_pure; lens.
    - intros x r ws d HL Wd Lr Br. apply addG_spec; auto; apply capp_with; auto.
    - intros w z (Ra & Rb) [k (Hk & s & u & v & Hs & Hu & Hv & E1 & E2)] Hz.
      exists (ev w a, ev w b, z, s, (k =? 1)%Z). intros w' r Hw' Lr Rr Er. unfold addD.
      rewrite !(ev_ext zval B w' w (num_vars c)) by auto.
      repeat split; auto; try lia; try (eapply (rng_ext zval B w w' (num_vars c)); auto; intros; symmetry; auto).
      + eapply hdiv; eauto.
      + replace (Z.b2z (k =? 1)%Z) with k by (destruct Hk; subst k; reflexivity). eapply hdiv; eauto.
  Qed.
  Lemma emulated_sub_exact a b c : good c -> rok (ptype c) -> length a = NL -> length b = NL ->
    vlt (num_vars c) a -> vlt (num_vars c) b ->
    call (emulated_sub zval p nb L ez q B NL a b) c (fun w => rng w a /\ rng w b)
      (fun w z => exists k, arel (z + ev w b)%Z (ev w a) k).
  Proof.
    intros G Ht La Lb Ba Bb. pose proof (gd_wf _ G) as W.
    eapply (call_exact _ _ (fun r => emulated_add_gate zval p nb L ez q B NL r b a) (fun x r => addG x r b a) (fun x r => addD x r b a)
      (fun w => rng w a /\ rng w b) (fun w z => exists k, arel (z + ev w b)%Z (ev w a) k)); auto.
    - loc c.
    - intros z w w' H [k Hk]. exists k. rewrite <- !(ev_ext zval B w w' (num_vars c)) by auto. exact Hk.
    - unfold emulated_sub. wits. reflexivity.
    - eapply wpc_mono; [apply (emulated_sub_spec zval p nb L HF ez q HE T B NL HB HNL HT Hq Hroom a b c); auto|].
      cbn beta. intros r d _ (H1 & H2 & H3 & H4). split; [|exact H3].
      intros w Hb Hs. destruct (H1 w Hb Hs) as [R HS]. split; auto. intros [A1 A2]. auto.
    - intros [[[[va vb] ve] s] k] r Lr. apply eadd_gate_with_rel; auto using rets_pure; lens.
    - intros x r ws d HL Wd Lr Br. apply addG_spec; auto; apply capp_with; auto.
    - intros w z (Ra & Rb) [k (Hk & s & u & v & Hs & Hu & Hv & E1 & E2)] Hz.
      exists (z, ev w b, ev w a, s, (k =? 1)%Z). intros w' r Hw' Lr Rr Er. unfold addD.
      rewrite (ev_ext zval B w' w (num_vars c) a), (ev_ext zval B w' w (num_vars c) b) by auto.
      repeat split; auto; try lia; try (eapply (rng_ext zval B w w' (num_vars c)); auto; intros; symmetry; auto).
      + eapply hdiv; eauto.
      + replace (Z.b2z (k =? 1)%Z) with k by (destruct Hk; subst k; reflexivity). eapply hdiv; eauto.
  Qed.
  Lemma emulated_add_constant_exact a v c : good c -> rok (ptype c) -> length a = NL -> vlt (num_vars c) a ->
    call (emulated_add_constant zval p nb L ez q B NL a v) c (fun w => rng w a)
      (fun w z => exists k, arel (ev w a + ez v)%Z z k).
  Proof.
    intros G Ht La Ba. pose proof (gd_wf _ G) as W.
    eapply (call_exact _ _ (fun r => emulated_add_constant_gate zval p nb L ez q B NL a v r) (fun x r => addcG v x a r) (fun x r => addcD v x a r)
      (fun w => rng w a) (fun w z => exists k, arel (ev w a + ez v)%Z z k)); auto.
    - loc c.
    - intros z w w' H [k Hk]. exists k. rewrite <- !(ev_ext zval B w w' (num_vars c)) by auto. exact Hk.
    - unfold emulated_add_constant. wits. reflexivity.
    - eapply wpc_mono; [apply (emulated_add_constant_spec zval p nb L HF ez q HE T B NL HB HNL HT Hq Hroom a v c); auto|].
      cbn beta. intros r d _ (H1 & H2 & H3 & H4). split; [exact H1|exact H3].
    - intros [[[va ve] s] k] r Lr. apply eadd_constant_gate_with_rel; auto using rets_pure; lens.
    - intros x r ws d HL Wd Lr Br. apply addcG_spec; auto; apply capp_with; auto.
    - intros w z Ra [k (Hk & s & u & v' & Hs & Hu & Hv & E1 & E2)] Hz.
      exists (ev w a, z, s, (k =? 1)%Z). intros w' r Hw' Lr Rr Er. unfold addcD.
      rewrite !(ev_ext zval B w' w (num_vars c)) by auto.
      repeat split; auto; try lia; try (eapply (rng_ext zval B w w' (num_vars c)); auto; intros; symmetry; auto).
      + eapply hdiv; eauto.
      + replace (Z.b2z (k =? 1)%Z) with k by (destruct Hk; subst k; reflexivity). eapply hdiv; eauto.
  Qed.
  Lemma emulated_sub_constant_exact a v c : good c -> rok (ptype c) -> length a = NL -> vlt (num_vars c) a ->
    call (emulated_sub_constant zval p nb L ez q B NL a v) c (fun w => rng w a)
      (fun w z => exists k, arel (z + ez v)%Z (ev w a) k).
  Proof.
    intros G Ht La Ba. pose proof (gd_wf _ G) as W.
    eapply (call_exact _ _ (fun r => emulated_add_constant_gate zval p nb L ez q B NL r v a) (fun x r => addcG v x r a) (fun x r => addcD v x r a)
      (fun w => rng w a) (fun w z => exists k, arel (z + ez v)%Z (ev w a) k)); auto.
    - loc c.
    - intros z w w' H [k Hk]. exists k. rewrite <- !(ev_ext zval B w w' (num_vars c)) by auto. exact Hk.
    - unfold emulated_sub_constant. wits. reflexivity.
    - eapply wpc_mono; [apply (emulated_sub_constant_spec zval p nb L HF ez q HE T B NL HB HNL HT Hq Hroom a v c); auto|].
      cbn beta. intros r d _ (H1 & H2 & H3 & H4). split; [exact H1|exact H3].
    - intros [[[va ve] s] k] r Lr. apply eadd_constant_gate_with_rel; auto using rets_pure; lens.
    - intros x r ws d HL Wd Lr Br. apply addcG_spec; auto; apply capp_with; auto.
    - intros w z Ra [k (Hk & s & u & v' & Hs & Hu & Hv & E1 & E2)] Hz.
      exists (z, ev w a, s, (k =? 1)%Z). intros w' r Hw' Lr Rr Er. unfold addcD.
      rewrite (ev_ext zval B w' w (num_vars c) a) by auto.
      repeat split; auto; try lia; try (eapply (rng_ext zval B w w' (num_vars c)); auto; intros; symmetry; auto).
      + eapply hdiv; eauto.
      + replace (Z.b2z (k =? 1)%Z) with k by (destruct Hk; subst k; reflexivity). eapply hdiv; eauto.
  Qed.
End Exact.
