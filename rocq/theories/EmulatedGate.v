(** The emulated field gadgets as the API offers them, with the values their
    code computes. *)

From Coq Require Import List Arith ZArith Bool Lia Ring Field.
From Verif Require Import Base ListAux Alg Poly CircuitModel CircuitProofs GadgetModel GadgetProofs RangeProofs
  BitProofs CmpProofs RangeLookup SatProofs SatGadget EmulatedModel EmulatedProofs EmulatedMul EmulatedAdd IndepProofs.
Import ListNotations.
Local Open Scope fld_scope.
Local Open Scope circ_scope.

(** The integers modulo [q], as the conversions to and from [BigUint] see them. *)
Record zfield (E : fld) (ez : E -> Z) (q : Z) : Prop := {
  zf_range : forall x, (0 <= ez x < q)%Z;
  zf_fZ : forall x, fZ (ez x) = x;
  zf_ez : forall z, ez (fZ z) = (z mod q)%Z }.

Section Gate.
  Context {K : fld}.
  Variable zval : K -> Z.
  Variable p : Z.
  Variable nb L : nat.
  Hypothesis HF : pfield K zval p nb L.
  Context {E : fld}.
  Variable ez : E -> Z.
  Variable q : Z.
  Hypothesis HE : zfield E ez q.
  Variables T B NL : nat.
  Hypothesis HB : (1 <= B)%nat.
  Hypothesis HNL : (1 <= NL)%nat.
  Hypothesis HT : T = (B * NL)%nat.
  Hypothesis Hq : (0 < q < 2 ^ Z.of_nat T)%Z.
  Hypothesis Hroom : (4 * Z.of_nat NL * 2 ^ (2 * Z.of_nat B) <= p)%Z.
  Add Field Kfield_eg : (fth K).
  Add Field Efield_eg : (fth E).
  Notation gspec := (gspec zval).
  Notation dsat := (dsat zval).
  Notation beta := (2 ^ Z.of_nat B)%Z.
  Notation zl := (zl zval).
  Notation ev := (ev zval B).
  Notation rng := (rng zval B).
  Notation rok := (rok nb).
  Notation mrel := (EmulatedMul.mul_rel p q T).
  Notation vlt n a := (Forall (fun v => v < n)%nat a).
  Ltac start := unfold gspec, CircuitProofs.gspec; unfold out, noout.
  Let beta_ge := beta_ge T B NL HB HNL HT.
  Let w_fZ := w_fZ zval p nb L HF.
  Let ev_range := ev_range zval p nb L HF T B NL HB HNL HT.
  Lemma room2 : (2 * beta < p)%Z.
  Proof. pose proof beta_ge. rewrite (beta2 T B NL HB HNL HT) in Hroom. nia. Qed.

  Lemma ez_q_neq : (q <> 0)%Z. Proof. lia. Qed.
  Lemma ez_0_le x : (0 <= ez x < 2 ^ Z.of_nat T)%Z.
  Proof. pose proof (zf_range _ _ _ HE x). lia. Qed.
  Lemma ez_mul x y : ez (x * y) = ((ez x * ez y) mod q)%Z.
  Proof. rewrite <- (zf_ez _ _ _ HE), fZ_mul, !(zf_fZ _ _ _ HE). reflexivity. Qed.
  Lemma ez_add x y : ez (x + y) = ((ez x + ez y) mod q)%Z.
  Proof. rewrite <- (zf_ez _ _ _ HE), fZ_add, !(zf_fZ _ _ _ HE). reflexivity. Qed.
  Lemma ez_sub x y : ez (x - y) = ((ez x - ez y) mod q)%Z.
  Proof. rewrite <- (zf_ez _ _ _ HE), fZ_sub, !(zf_fZ _ _ _ HE). reflexivity. Qed.
  Lemma fZ_eq_mod x y : (fZ x : E) = fZ y <-> (x mod q = y mod q)%Z.
  Proof.
    rewrite <- !(zf_ez _ _ _ HE). split; [congruence|]. intros H.
    rewrite <- (zf_fZ _ _ _ HE (fZ x)), <- (zf_fZ _ _ _ HE (fZ y)), H. reflexivity.
  Qed.

  Lemma fold_hval (f : K -> Z) l : fold_right (fun v r => (r * beta + f v)%Z) 0%Z l = hval beta (map f l).
  Proof. induction l as [|x l IH]; [reflexivity|]. cbn [fold_right map hval]. rewrite IH. lia. Qed.
  Lemma ev_ext w w' n a : vlt n a -> (forall v, (v < n)%nat -> w v = w' v) -> ev w a = ev w' a.
  Proof.
    intros Ha H. unfold EmulatedMul.ev, EmulatedMul.zl. f_equal. apply map_ext_in. intros v Hv.
    rewrite Forall_forall in Ha. rewrite H; auto.
  Qed.
  Lemma rng_ext w w' n a : vlt n a -> (forall v, (v < n)%nat -> w v = w' v) -> rng w a -> rng w' a.
  Proof.
    intros Ha H. unfold EmulatedMul.rng. rewrite !Forall_forall in *. intros R v Hv. rewrite <- H; auto.
  Qed.
  (** [emulated_witness] reads the value of the limbs modulo [q]. *)
  Lemma emulated_witness_eq a c : wf c -> length a = NL -> vlt (num_vars c) a ->
    emulated_witness zval B NL a c = (Ok (fZ (ev (hon c) a) : E), c).
  Proof.
    intros Hw La Ha. unfold emulated_witness, cbind. rewrite (mapM_wit c a Hw Ha). unfold lift, to_emulated_field.
    rewrite map_length, La, Nat.eqb_refl. cbn [negb]. rewrite fold_hval, map_map. reflexivity.
  Qed.
  Lemma ev_hext c d w a : wf c -> hext (capp c d) w -> vlt (num_vars c) a -> ev w a = ev (hon c) a.
  Proof. intros Hw Hh Ha. apply (ev_ext _ _ (num_vars c)); auto. apply hext_capp in Hh; auto. apply Hh. Qed.

  (** What an emulated gadget does, with the values of its result. *)
  Definition espec (m : circ K evar) (c : circuit K)
      (S : (nat -> K) -> evar -> Prop) (C : (nat -> K) -> Prop) (V : (nat -> K) -> Z) : Prop :=
    wpc m c (fun r d =>
      (forall w, base w -> dsat (ptype c) w d -> rng w r /\ S w r)
      /\ (forall w, base w -> hext (capp c d) w -> C w -> dsat (ptype c) w d)
      /\ (length r = NL /\ vlt (num_vars c + length (d_vals d)) r)
      /\ (forall w, hext (capp c d) w -> rng w r /\ ev w r = V (hon c))).

  Lemma create_evar_spec v c : wf c -> rok (ptype c) ->
    espec (create_emulated_variable zval p nb L ez B NL v) c (fun _ _ => True) (fun _ => True) (fun _ => ez v).
  Proof.
    intros Hw Ht. unfold espec, create_emulated_variable, create_emulated_variable_unchecked, from_emulated_field.
    set (vl := biguint_to_limbs (ez v) B NL). assert (Lv : length vl = NL) by apply (length_limbs B).
    apply wpc_bind. eapply wpc_mono; [apply (mapM_var_spec zval vl); auto|]. intros vs d1 _ (Es & V1 & D1).
    rewrite Lv in Es.
    assert (Ls : length vs = NL) by (rewrite Es; apply seq_length).
    assert (Lv1 : length (d_vals d1) = NL) by (rewrite V1; auto).
    assert (Bs : vlt (num_vars (capp c d1)) vs).
    { rewrite Es. apply Forall_forall. intros x Hx. apply in_seq in Hx. bnd. }
    apply wpc_bind. eapply wpc_mono; [apply (in_range_all zval p nb L HF T B NL HB HNL HT Hroom vs (capp c d1)); auto; wfs|].
    intros [] d2 _ (S2 & C2 & _). rewrite ptype_capp in *. wstep.
    assert (Hv : forall w, hext (capp c d1) w -> ev w vs = ez v /\ rng w vs).
    { intros w Hh. apply (ev_limbs zval p nb L HF T B NL HB HNL HT Hroom); [|apply ez_0_le].
      rewrite Es. apply (dig_vals B w c d1); auto. }
    split; [|split; [|split]].
    - intros w Hb Hs. rewrite !dsat_cat in Hs. split; auto. apply S2; tauto.
    - intros w Hb Hh _. rewrite <- !capp_cat in Hh. hx. rewrite !dsat_cat. split; [apply D1|]. split; [|apply dsat_nil].
      apply C2; auto. apply Hv; auto.
    - split; auto. eapply Forall_impl; [|exact Bs]. cbn beta. intros; bnd.
    - intros w Hh. rewrite <- !capp_cat in Hh. hx. destruct (Hv w); auto.
  Qed.

  (** Multiplication *)
  Definition mulC (a b c : evar) (w : nat -> K) : Prop :=
    rng w a /\ rng w b /\ rng w c /\ (ev w a < q)%Z /\ (ev w b < q)%Z /\ ev w c = ((ev w a * ev w b) mod q)%Z.
  Lemma mrel_honest x y : (0 <= x < q)%Z -> (0 <= y < q)%Z ->
    mrel x y ((x * y) mod q)%Z ((x * y / q) mod q)%Z.
  Proof.
    intros Hx Hy. assert (Hd : (0 <= x * y / q < q)%Z).
    { split; [apply Z.div_pos; nia|apply Z.div_lt_upper_bound; nia]. }
    unfold EmulatedMul.mul_rel. rewrite (Z.mod_small (x * y / q)) by lia. split; [lia|].
    pose proof (Z.div_mod (x * y) q ltac:(lia)) as D.
    replace (x * y - x * y / q * q - (x * y) mod q)%Z with 0%Z by lia. apply Zmod_0_l.
  Qed.
  Lemma emulated_mul_gate_spec a b c c0 : wf c0 -> rok (ptype c0) ->
    length a = NL -> length b = NL -> length c = NL ->
    vlt (num_vars c0) a -> vlt (num_vars c0) b -> vlt (num_vars c0) c ->
    gspec (emulated_mul_gate zval p nb L ez q T B NL a b c) c0
      (fun w _ => rng w a -> rng w b -> rng w c -> exists k, mrel (ev w a) (ev w b) (ev w c) k)
      (mulC a b c) noout.
  Proof.
    intros Hw Ht La Lb Lc Ba Bb Bc. start. unfold emulated_mul_gate.
    apply wpc_chks; [exact Ba|]. apply wpc_chks; [exact Bb|]. apply wpc_chks; [exact Bc|].
    eapply wpc_bind_pure; [apply emulated_witness_eq; auto|]. eapply wpc_bind_pure; [apply emulated_witness_eq; auto|].
    cbv zeta.
    eapply wpc_mono; [apply (emulated_mul_gate_with_spec zval p nb L HF q T B NL HB HNL HT Hq Hroom); auto|].
    intros [] d _ (Snd & Cmp & _). split; [exact Snd|split; [|exact I]].
    intros w Hb Hh (Ra & Rb & Rc & Qa & Qb & Ec). apply Cmp; auto.
    rewrite <- !(ev_hext c0 d w) by auto. pose proof (ev_range w a La Ra).
    pose proof (ev_range w b Lb Rb).
    rewrite ez_mul, !(zf_ez _ _ _ HE), (Z.mod_small (ev w a)), (Z.mod_small (ev w b)) by lia.
    repeat split; auto; try (rewrite Ec; auto); apply mrel_honest; lia.
  Qed.

  Lemma espec_of_gate (v : E) V gate (S' : (nat -> K) -> evar -> Prop) (C' C : (nat -> K) -> Prop) c0 : wf c0 -> rok (ptype c0) ->
    ez v = V (hon c0) ->
    (forall r d, wf (capp c0 d) -> length r = NL -> vlt (num_vars (capp c0 d)) r ->
       gspec (gate r) (capp c0 d) (fun w (_ : unit) => rng w r -> S' w r)
         (fun w => rng w r /\ ev w r = ez v /\ C' w) noout) ->
    (forall w, hext c0 w -> C w -> C' w) ->
    espec (r <- create_emulated_variable zval p nb L ez B NL v ;; gate r >> ret r) c0 S' C V.
  Proof.
    intros Hw Ht Ev Hg HC. unfold espec. apply wpc_bind. eapply wpc_mono; [apply (create_evar_spec v c0); auto|].
    intros r d1 _ (S1 & C1 & (Lr & Br) & V1).
    apply wpc_bind. eapply wpc_mono; [apply (Hg r d1); auto; wfs|]. intros [] d2 _ (S2 & C2 & _). rewrite ptype_capp in *.
    wstep. split; [|split; [|split]].
    - intros w Hb Hs. rewrite !dsat_cat in Hs. destruct Hs as (D1 & D2 & _). destruct (S1 w Hb D1) as [R _]. split; auto.
    - intros w Hb Hh Hc. rewrite <- !capp_cat in Hh. hx. rewrite !dsat_cat. split; [apply C1; auto|]. split; [|apply dsat_nil]. cbn beta.
      destruct (V1 w) as [R Er]; auto.
    - split; auto. eapply Forall_impl; [|exact Br]. cbn beta. intros; bnd.
    - intros w Hh. rewrite <- !capp_cat in Hh. hx. destruct (V1 w) as [R Er]; auto. split; auto. congruence.
  Qed.

  Lemma vlt_capp (c : circuit K) d a : vlt (num_vars c) a -> vlt (num_vars (capp c d)) a.
  Proof. intros H. eapply Forall_impl; [|exact H]. cbn beta. intros. bnd. Qed.
  Lemma gspec_weaken {A} (m : circ K A) c (S S' : (nat -> K) -> A -> Prop) (C C' : (nat -> K) -> Prop) R :
    gspec m c S C R -> (forall w a, S w a -> S' w a) -> (forall w, C' w -> C w) -> gspec m c S' C' R.
  Proof.
    intros H HS HC. unfold gspec, CircuitProofs.gspec in *. eapply wpc_mono; [exact H|].
    intros a d _ (H1 & H2 & H3). split; [|split]; auto.
  Qed.

  Lemma emulated_mul_spec a b c0 : wf c0 -> rok (ptype c0) -> length a = NL -> length b = NL ->
    vlt (num_vars c0) a -> vlt (num_vars c0) b ->
    espec (emulated_mul zval p nb L ez q T B NL a b) c0
      (fun w r => rng w a -> rng w b -> exists k, mrel (ev w a) (ev w b) (ev w r) k)
      (fun w => rng w a /\ rng w b /\ (ev w a < q)%Z /\ (ev w b < q)%Z)
      (fun h => ((ev h a * ev h b) mod q)%Z).
  Proof.
    intros Hw Ht La Lb Ba Bb. unfold emulated_mul.
    unfold espec. eapply wpc_bind_pure; [apply emulated_witness_eq; auto|].
    eapply wpc_bind_pure; [apply emulated_witness_eq; auto|].
    assert (Ev : ez (fZ (ev (hon c0) a) * fZ (ev (hon c0) b)) = ((ev (hon c0) a * ev (hon c0) b) mod q)%Z).
    { rewrite <- fZ_mul. apply (zf_ez _ _ _ HE). }
    apply (espec_of_gate _ (fun h => ((ev h a * ev h b) mod q)%Z) (fun r => emulated_mul_gate zval p nb L ez q T B NL a b r) _
      (fun w => rng w a /\ rng w b /\ (ev w a < q)%Z /\ (ev w b < q)%Z /\ hext c0 w)); auto.
    - intros r d Hwd Lr Br. eapply gspec_weaken; [apply emulated_mul_gate_spec; auto using vlt_capp| |].
      + cbn beta. intros; auto.
      + cbn beta. intros w (R & Er & Ra & Rb & Qa & Qb & Hh). repeat split; auto. rewrite Er, Ev.
        rewrite !(ev_ext w (hon c0) (num_vars c0)); auto.
    - intros w Hh (Ra & Rb & Qa & Qb). auto.
  Qed.

  Definition mulCC (a : evar) (v : Z) (c : evar) (w : nat -> K) : Prop :=
    rng w a /\ rng w c /\ (ev w a < q)%Z /\ ev w c = ((ev w a * v) mod q)%Z.
  Lemma emulated_mul_constant_gate_spec a v c c0 : wf c0 -> rok (ptype c0) ->
    length a = NL -> length c = NL -> vlt (num_vars c0) a -> vlt (num_vars c0) c ->
    gspec (emulated_mul_constant_gate zval p nb L ez q T B NL a v c) c0
      (fun w _ => rng w a -> rng w c -> exists k, mrel (ev w a) (ez v) (ev w c) k)
      (mulCC a (ez v) c) noout.
  Proof.
    intros Hw Ht La Lc Ba Bc. start. unfold emulated_mul_constant_gate.
    apply wpc_chks; [exact Ba|]. apply wpc_chks; [exact Bc|].
    eapply wpc_bind_pure; [apply emulated_witness_eq; auto|]. cbv zeta.
    eapply wpc_mono; [apply (emulated_mul_constant_gate_with_spec zval p nb L HF q T B NL HB HNL HT Hq Hroom); auto using ez_0_le|].
    intros [] d _ (Snd & Cmp & _). split; [exact Snd|split; [|exact I]].
    intros w Hb Hh (Ra & Rc & Qa & Ec). apply Cmp; auto.
    rewrite <- !(ev_hext c0 d w) by auto. pose proof (ev_range w a La Ra). pose proof (zf_range _ _ _ HE v).
    rewrite ez_mul, !(zf_ez _ _ _ HE), (Z.mod_small (ev w a)) by lia.
    repeat split; auto; try (rewrite Ec; auto); apply mrel_honest; lia.
  Qed.
  Lemma emulated_mul_constant_spec a v c0 : wf c0 -> rok (ptype c0) -> length a = NL -> vlt (num_vars c0) a ->
    espec (emulated_mul_constant zval p nb L ez q T B NL a v) c0
      (fun w r => rng w a -> exists k, mrel (ev w a) (ez v) (ev w r) k)
      (fun w => rng w a /\ (ev w a < q)%Z)
      (fun h => ((ev h a * ez v) mod q)%Z).
  Proof.
    intros Hw Ht La Ba. unfold emulated_mul_constant.
    unfold espec. eapply wpc_bind_pure; [apply emulated_witness_eq; auto|].
    assert (Ev : ez (fZ (ev (hon c0) a) * v) = ((ev (hon c0) a * ez v) mod q)%Z).
    { rewrite <- (zf_fZ _ _ _ HE v) at 1. rewrite <- fZ_mul. apply (zf_ez _ _ _ HE). }
    apply (espec_of_gate _ (fun h => ((ev h a * ez v) mod q)%Z) (fun r => emulated_mul_constant_gate zval p nb L ez q T B NL a v r) _
      (fun w => rng w a /\ (ev w a < q)%Z /\ hext c0 w)); auto.
    - intros r d Hwd Lr Br. eapply gspec_weaken; [apply emulated_mul_constant_gate_spec; auto using vlt_capp| |].
      + cbn beta. intros; auto.
      + cbn beta. intros w (R & Er & Ra & Qa & Hh). repeat split; auto. rewrite Er, Ev.
        rewrite !(ev_ext w (hon c0) (num_vars c0)); auto.
    - intros w Hh (Ra & Qa). auto.
  Qed.

  (** Addition: the gates are [add_with] with the hints of the code. *)
  Notation op := (nat * K * (nat * K))%type.
  Definition add_ops (a b : evar) : list op := map (fun xy => ((fst xy, 1), (snd xy, 1))) (combine a b).
  Definition add_hint (xy : nat * nat) : circ K K :=
    x <- get_witness (fst xy) ;; y <- get_witness (snd xy) ;; ret (limb_carry zval B (x + y)).
  Definition red_hint (k : bool) (my : K * nat) : circ K K :=
    y <- get_witness (snd my) ;; ret (limb_carry zval B (fst my * (if k then 1 else 0) + y)).
  Definition add_c_ops (a : evar) (bl : list K) : list op := map (fun xb => ((fst xb, 1), (1%nat, snd xb))) (combine a bl).
  Definition add_c_hint (xb : nat * K) : circ K K :=
    x <- get_witness (fst xb) ;; ret (limb_carry zval B (x + snd xb)).

  Lemma rows_of {X} (f : X * nat -> @crow K) (h : X -> circ K K) (o : X -> op) l zvs :
    (forall x z, f (x, z) = let '(x0, cx, (y, cy)) := o x in mk_crow (h x) x0 cx y cy z) ->
    map f (combine l zvs) = mk_rows (map h l) (map o l) zvs.
  Proof.
    intros Hf. unfold mk_rows, izip. revert zvs. induction l as [|x l IH]; intros [|z zvs]; try reflexivity.
    cbn [map combine]. f_equal; [|apply IH]. rewrite Hf. destruct (o x) as [[x0 cx] [y cy]]. reflexivity.
  Qed.
  Lemma combine_maps {X X' Y Y'} (f : X -> X') (g : Y -> Y') l l' :
    combine (map f l) (map g l') = map (fun xy => (f (fst xy), g (snd xy))) (combine l l').
  Proof. revert l'. induction l as [|x l IH]; intros [|y l']; try reflexivity. cbn. f_equal. apply IH. Qed.

  Lemma cbind_ext {A A'} (m : circ K A) (k k' : A -> circ K A') c : (forall a c', k a c' = k' a c') -> cbind m k c = cbind m k' c.
  Proof. intros H. unfold cbind. destruct (m c) as [[a| |] c']; auto. Qed.
  Notation add_with := (add_with zval p nb L q B NL).
  Notation chain_true rs := (carry_chain zval p nb L B true rs).
  Notation chain_false rs := (carry_chain zval p nb L B false rs).
  Lemma add_with_eq {X} (f : X * nat -> @crow K) (h : X -> circ K K) (o : X -> op) l s k c c0 :
    (forall x z, f (x, z) = let '(x0, cx, (y, cy)) := o x in mk_crow (h x) x0 cx y cy z) ->
    (var_k <- create_boolean_variable k ;;
     sums <- mapM create_variable (biguint_to_limbs s B NL) ;;
     chain_true (map f (combine l sums)) >>
     chain_false (map (reduce_row zval B k var_k) (izip (biguint_to_limbs q B NL) c sums)) >> ret tt) c0
    = add_with s k (map o l) (map h l) (map (red_hint k) (combine (biguint_to_limbs q B NL) c)) c c0.
  Proof.
    intros Hf. unfold EmulatedAdd.add_with. apply cbind_ext. intros vk c1. apply cbind_ext. intros sums c2.
    rewrite (rows_of f h o) by exact Hf. apply cbind_ext. intros _ c3. unfold izip.
    rewrite combine_maps, (rows_of _ (red_hint k) (fun my => ((vk, fst my), (snd my, 1)))); [reflexivity|].
    intros [m v] z. reflexivity.
  Qed.
  Lemma wpc_eq {A} (m m' : circ K A) c Q : m c = m' c -> wpc m' c Q -> wpc m c Q.
  Proof. intros H (a & d & E1 & H1). exists a, d. rewrite H. auto. Qed.

  Definition lsum (w : nat -> K) (a b : evar) : list Z := map (fun xy => zval (w (fst xy)) + zval (w (snd xy)))%Z (combine a b).
  Lemma hval_lsum w a b : length a = length b -> hval beta (lsum w a b) = (ev w a + ev w b)%Z.
  Proof.
    unfold lsum, EmulatedMul.ev, EmulatedMul.zl. revert b. induction a as [|x a IH]; intros [|y b] H; try discriminate; [reflexivity|].
    cbn [combine map hval fst snd]. rewrite IH by (injection H; auto). lia.
  Qed.
  Lemma add_ops_val w a b : length a = length b -> rng w a -> rng w b -> ops_val B w (add_ops a b) (lsum w a b).
  Proof.
    intros HL Ra. revert b HL. unfold add_ops, lsum, ops_val.
    induction Ra as [|x a Hx _ IH]; intros [|y b] HL Rb; try discriminate; cbn [combine map fst snd]; constructor.
    - inversion_clear Rb. pose proof (pf_range _ _ _ _ _ HF (w x)). pose proof (pf_range _ _ _ _ _ HF (w y)).
      split; [lia|]. rewrite fZ_add, <- !w_fZ. ring.
    - inversion_clear Rb. apply IH; auto.
  Qed.
  Lemma wit_hint (c0 : circuit K) v d : wf c0 -> (v < num_vars c0)%nat -> get_witness v (capp c0 d) = (Ok (hon c0 v), capp c0 d).
  Proof.
    intros Hw Hv. unfold get_witness, check_var_bound, lift, cbind.
    replace (num_vars (capp c0 d) <=? v)%nat with false by (symmetry; apply Nat.leb_gt; bnd).
    rewrite (index_nth (witness (capp c0 d)) 0 v); [|cbn; rewrite app_length, (wf_wit _ Hw); lia].
    unfold hon. cbn [capp witness]. rewrite app_nth1 by (rewrite (wf_wit _ Hw); auto). reflexivity.
  Qed.
  Lemma add_hints c0 a b : wf c0 -> vlt (num_vars c0) a -> vlt (num_vars c0) b ->
    Forall2 (fun (h : circ K K) v => forall d, h (capp c0 d) = (Ok v, capp c0 d)) (map add_hint (combine a b))
      (map (fun xy => limb_carry zval B (hon c0 (fst xy) + hon c0 (snd xy))) (combine a b)).
  Proof.
    intros Hw Ha. revert b. induction Ha as [|x a Hx _ IH]; intros [|y b] Hb; cbn [combine map]; constructor.
    - inversion_clear Hb. intros d. unfold add_hint, cbind. cbn [fst snd]. rewrite !wit_hint by auto. reflexivity.
    - inversion_clear Hb. apply IH; auto.
  Qed.
  Lemma red_hints k c0 (ml : list K) c : wf c0 -> vlt (num_vars c0) c ->
    Forall2 (fun (h : circ K K) v => forall d, h (capp c0 d) = (Ok v, capp c0 d)) (map (red_hint k) (combine ml c))
      (map (fun my => limb_carry zval B (fst my * (if k : bool then 1 else 0) + hon c0 (snd my))) (combine ml c)).
  Proof.
    intros Hw Hc. revert ml. induction Hc as [|x c Hx _ IH]; intros [|m ml]; cbn [combine map]; constructor.
    - intros d. unfold red_hint, cbind. cbn [fst snd]. rewrite wit_hint by auto. reflexivity.
    - apply IH; auto.
  Qed.
  Lemma add_c_hints c0 a bl : wf c0 -> vlt (num_vars c0) a ->
    Forall2 (fun (h : circ K K) v => forall d, h (capp c0 d) = (Ok v, capp c0 d)) (map add_c_hint (combine a bl))
      (map (fun xb => limb_carry zval B (hon c0 (fst xb) + snd xb)) (combine a bl)).
  Proof.
    intros Hw Ha. revert bl. induction Ha as [|x a Hx _ IH]; intros [|y bl]; cbn [combine map]; constructor.
    - intros d. unfold add_c_hint, cbind. cbn [fst snd]. rewrite wit_hint by auto. reflexivity.
    - apply IH; auto.
  Qed.

  (** The hint values are the limb quotients. *)
  Lemma limb_carry_fZ x : (0 <= x <= 2 * beta - 2)%Z -> limb_carry zval B (fZ x) = fZ (x / beta)%Z.
  Proof.
    intros Hx. unfold limb_carry. pose proof room2. rewrite (zval_small zval p nb L HF) by lia. reflexivity.
  Qed.
  Lemma add_hint_vals w a b : length a = length b -> rng w a -> rng w b ->
    map (fun xy => limb_carry zval B (w (fst xy) + w (snd xy))) (combine a b) = map (fun x => fZ (x / beta)%Z) (lsum w a b).
  Proof.
    intros HL Ra. revert b HL. unfold lsum.
    induction Ra as [|x a Hx _ IH]; intros [|y b] HL Rb; try discriminate; [reflexivity|]. cbn [combine map fst snd]. inversion_clear Rb.
    rewrite IH by auto. f_equal.
    pose proof (pf_range _ _ _ _ _ HF (w x)). pose proof (pf_range _ _ _ _ _ HF (w y)).
    rewrite (w_fZ w x), (w_fZ w y), <- fZ_add, limb_carry_fZ by lia.
    rewrite <- !w_fZ. reflexivity.
  Qed.
  Lemma red_hint_vals (k : bool) w c : length c = NL -> rng w c ->
    map (fun my : K * nat => limb_carry zval B (fst my * (if k then 1 else 0) + w (snd my))) (combine (biguint_to_limbs q B NL) c)
    = map (fun x => fZ (x / beta)%Z) (kq_limbs zval q B NL (Z.b2z k) w c).
  Proof.
    intros HL Rc. unfold kq_limbs. rewrite (limbs_map B).
    pose proof (digits_range beta q NL ltac:(pose proof beta_ge; lia)) as Hdr. pose proof (length_digits beta q NL) as Hdl.
    revert Hdr Hdl. generalize (digits beta q NL) as ms. intros ms Hdr Hdl. rewrite <- HL in Hdl. clear HL. revert ms Hdr Hdl.
    induction Rc as [|v c Hv _ IH]; intros [|m ms] Hdr Hdl; try discriminate; [reflexivity|].
    cbn [map combine fst snd EmulatedMul.zl]. inversion_clear Hdr as [|? ? Hm Hdr'].
    rewrite IH by auto. f_equal. pose proof (pf_range _ _ _ _ _ HF (w v)).
    replace (fZ m * (if k then 1 else 0) + w v) with (fZ (Z.b2z k * m + zval (w v)) : K).
    - rewrite limb_carry_fZ by (destruct k; cbn [Z.b2z]; lia). reflexivity.
    - rewrite fZ_add, fZ_mul, <- w_fZ. destruct k; cbn [Z.b2z]; [rewrite fZ_1|]; [ring|]. change (fZ 0 : K) with (0 : K). ring.
  Qed.

  (** The limb-wise additions in which the carry that the code computes for each
      limb on its own is the carry of the addition. *)
  Definition nowrap (xs : list Z) : Prop := Forall (fun x => x <> beta - 1)%Z xs.
  (** The limb-wise sum of two numbers, and when every carry hint of [x + y mod q] is right. *)
  Definition dsum (x y : Z) : list Z := map (fun xy => fst xy + snd xy)%Z (combine (digits beta x NL) (digits beta y NL)).
  Definition addable (x y : Z) : Prop :=
    nowrap (dsum x y) /\ nowrap (dsum (if q <=? x + y then q else 0)%Z ((x + y) mod q)).
  Definition addC (a b c : evar) (w : nat -> K) : Prop :=
    rng w a /\ rng w b /\ rng w c /\ (ev w a < q)%Z /\ (ev w b < q)%Z /\ ev w c = ((ev w a + ev w b) mod q)%Z
    /\ addable (ev w a) (ev w b).
  Notation arel := (add_rel q T).

  Lemma nowrap_carries xs : Forall (fun x => 0 <= x <= 2 * beta - 2)%Z xs -> nowrap xs ->
    map (fun x => fZ (x / beta)%Z : K) xs = map fZ (carries B 0 xs).
  Proof. intros Hr Hn. rewrite (carries_local p T B NL HB HNL HT Hroom) by auto. rewrite map_map. reflexivity. Qed.
  Lemma lsum_range w a b : length a = length b -> rng w a -> rng w b -> Forall (fun x => 0 <= x <= 2 * beta - 2)%Z (lsum w a b).
  Proof.
    intros HL Ra Rb. pose proof (add_ops_val w a b HL Ra Rb) as H. unfold ops_val in H.
    revert H. generalize (add_ops a b) as os, (lsum w a b) as xs. induction 1 as [|[[x cx] [y cy]] z os xs Hz _ IH]; constructor; auto. apply Hz.
  Qed.
  Lemma kq_range k w c : length c = NL -> rng w c -> Forall (fun x => 0 <= x <= 2 * beta - 2)%Z (kq_limbs zval q B NL (Z.b2z k) w c).
  Proof.
    intros HL Rc. unfold kq_limbs.
    pose proof (digits_range beta q NL ltac:(pose proof beta_ge; lia)) as Hdr.
    revert Hdr. generalize (digits beta q NL) as ms. clear HL. intros ms Hdr. revert ms Hdr.
    induction Rc as [|v c Hv _ IH]; intros [|m ms] Hdr; cbn [map combine fst snd EmulatedMul.zl]; constructor.
    - inversion_clear Hdr as [|? ? Hm Hdr']. pose proof (pf_range _ _ _ _ _ HF (w v)). cbn [fst snd]. destruct k; cbn [Z.b2z]; lia.
    - inversion_clear Hdr. apply IH; auto.
  Qed.
  Lemma kq_ext k w w' n c : vlt n c -> (forall v, (v < n)%nat -> w v = w' v) -> kq_limbs zval q B NL k w c = kq_limbs zval q B NL k w' c.
  Proof.
    intros Hc H. unfold kq_limbs, EmulatedMul.zl. do 2 f_equal. apply map_ext_in. intros v Hv. rewrite Forall_forall in Hc. rewrite H; auto.
  Qed.
  Lemma lsum_ext w w' n a b : vlt n a -> vlt n b -> (forall v, (v < n)%nat -> w v = w' v) -> lsum w a b = lsum w' a b.
  Proof.
    intros Ha Hb H. unfold lsum. apply map_ext_in. intros [x y] Hxy. rewrite Forall_forall in Ha, Hb. cbn [fst snd].
    rewrite !H; [reflexivity|apply Hb; eapply in_combine_r; eauto|apply Ha; eapply in_combine_l; eauto].
  Qed.

  (** The carries along a chain with range-checked sums are determined. *)
  Lemma chain_exact w rs : forall ns carry c xs, chain B w carry rs ns -> carry = fZ c -> (c = 0 \/ c = 1)%Z ->
    rows_val B w rs xs -> Forall (fun r => zval (w (cr_z r)) < beta)%Z rs -> ns = map fZ (carries B c xs).
  Proof.
    induction rs as [|r rs IH]; intros ns carry c xs Hch Ec Hc Hv Hr.
    - destruct ns; [|contradiction]. destruct xs; [reflexivity|inversion Hv].
    - destruct xs as [|x xs']; [inversion Hv|]. inversion_clear Hv as [|? ? ? ? [Hx Ex] Hv']. inversion_clear Hr as [|? ? Hr1 Hr2].
      destruct ns as [|n ns]; [contradiction|]. destruct Hch as (In & En & Hch).
      destruct (isb_z n In) as (u & Hu & Eu).
      pose proof (row_int zval p nb L HF q T B NL HB HNL HT Hq Hroom w r _ _ x c u En Ec Eu Hc Hu Hx Ex Hr1) as Ei.
      pose proof (pf_range _ _ _ _ _ HF (w (cr_z r))) as P. pose proof beta_ge.
      assert (Ed : ((x + c) / beta = u)%Z).
      { symmetry. apply (Z.div_unique_pos _ _ _ (zval (w (cr_z r)))); lia. }
      cbn [carries map]. rewrite Ed. f_equal; [exact Eu|]. eapply IH; eauto.
  Qed.

  Lemma digits_ev w a : length a = NL -> rng w a -> digits beta (ev w a) NL = zl w a.
  Proof.
    intros La R. unfold EmulatedMul.ev. rewrite <- La, <- (length_zl zval w a) at 1.
    apply digits_hval; [pose proof beta_ge; lia|]. unfold EmulatedMul.zl. rewrite Forall_map.
    eapply Forall_impl; [|exact R]. cbn beta. intros v Hv. pose proof (pf_range _ _ _ _ _ HF (w v)). lia.
  Qed.
  Lemma lsum_dsum w a b : length a = NL -> length b = NL -> rng w a -> rng w b -> lsum w a b = dsum (ev w a) (ev w b).
  Proof.
    intros La Lb Ra Rb. unfold lsum, dsum. rewrite !digits_ev by auto. unfold EmulatedMul.zl. rewrite combine_maps, map_map. reflexivity.
  Qed.
  Lemma digits_0 n : digits beta 0 n = repeat 0%Z n.
  Proof.
    induction n as [|n IH]; [reflexivity|]. cbn [digits repeat]. rewrite Zmod_0_l, Zdiv_0_l, IH. reflexivity.
  Qed.
  Lemma kq_dsum (k : bool) w c : length c = NL -> rng w c ->
    kq_limbs zval q B NL (Z.b2z k) w c = dsum (if k then q else 0%Z) (ev w c).
  Proof.
    intros Lc Rc. unfold kq_limbs, dsum. rewrite digits_ev by auto. destruct k; cbn [Z.b2z].
    - apply map_ext. intros [m z]. cbn [fst snd]. lia.
    - rewrite digits_0. assert (Hl : length (zl w c) = NL) by (rewrite length_zl; auto).
      assert (Hd : length (digits beta q NL) = NL) by apply length_digits.
      assert (G : forall ms zs0 n, length zs0 = n -> length ms = n ->
        map (fun mz => 0 * fst mz + snd mz)%Z (combine ms zs0) = map (fun xy => fst xy + snd xy)%Z (combine (repeat 0%Z n) zs0)); [|apply G; auto].
      clear. induction ms as [|m ms IH]; intros [|z zs0] n Hl Hd; cbn in Hl, Hd; subst n; try discriminate; [reflexivity|].
      cbn [length combine map repeat fst snd]. rewrite (IH zs0 (length zs0)) by (auto; lia). reflexivity.
  Qed.

  Section AddGen.
    Variables (s : Z) (k : bool) (ops : list op) (h1 h2 : list (circ K K)) (v1 v2 : list K) (c : evar) (c0 : circuit K).
    Variable xs : (nat -> K) -> list Z.
    Variable okw : (nat -> K) -> Prop.
    Hypothesis (Hw : wf c0) (Ht : rok (ptype c0)) (Lo : length ops = NL) (L1 : length h1 = NL) (L2 : length h2 = NL) (Lc : length c = NL).
    Hypothesis (Bo : Forall (fun o : op => fst (fst o) < num_vars c0 /\ fst (snd o) < num_vars c0)%nat ops).
    Hypothesis (Bc : vlt (num_vars c0) c).
    Hypothesis (H1 : Forall2 (fun (h : circ K K) v => forall d, h (capp c0 d) = (Ok v, capp c0 d)) h1 v1).
    Hypothesis (H2 : Forall2 (fun (h : circ K K) v => forall d, h (capp c0 d) = (Ok v, capp c0 d)) h2 v2).
    Hypothesis (Hv : forall w, base w -> okw w -> ops_val B w ops (xs w)).

    Lemma add_gen : wpc (add_with s k ops h1 h2 c) c0 (fun _ d =>
        (forall w, base w -> dsat (ptype c0) w d -> okw w -> rng w c -> exists kz, arel (hval beta (xs w)) (ev w c) kz)
        /\ (forall w, base w -> hext (capp c0 d) w -> okw w -> rng w c -> (0 <= s)%Z ->
              (hval beta (xs w) mod 2 ^ Z.of_nat T = s mod 2 ^ Z.of_nat T)%Z ->
              ((Z.b2z k * q + ev w c) mod 2 ^ Z.of_nat T = s mod 2 ^ Z.of_nat T)%Z ->
              v1 = map fZ (carries B 0 (xs w)) -> v2 = map fZ (carries B 0 (kq_limbs zval q B NL (Z.b2z k) w c)) ->
              dsat (ptype c0) w d)
        /\ (forall w, base w -> dsat (ptype c0) w d -> hext (capp c0 d) w -> okw w -> v1 = map fZ (carries B 0 (xs w)))).
    Proof.
      eapply wpc_mono; [apply (add_with_spec zval p nb L HF q T B NL HB HNL HT Hq Hroom s k ops h1 h2 v1 v2 c c0); auto|].
      intros [] d _ (Snd & Mid & Cmp). split; [|split].
      - intros w Hb Hs Hk Rc. apply (Snd w (xs w)); auto.
      - intros w Hb Hh Hk Rc Hs0 E1 E2 V1 V2.
        pose proof (Z.div_mod (hval beta (xs w)) (2 ^ Z.of_nat T) ltac:(lia)) as M1.
        pose proof (Z.div_mod (Z.b2z k * q + ev w c) (2 ^ Z.of_nat T) ltac:(lia)) as M2.
        rewrite E1 in M1. rewrite E2 in M2.
        apply (Cmp w (xs w) (hval beta (xs w) / 2 ^ Z.of_nat T)%Z ((Z.b2z k * q + ev w c) / 2 ^ Z.of_nat T)%Z); auto; lia.
      - intros w Hb Hs Hh Hk. destruct (Mid w (xs w) Hb Hs Hh (Hv w Hb Hk)) as (sums & Hch & Ls & Rs).
        eapply chain_exact; eauto. apply mk_rows_val; auto; lia.
    Qed.

    (** With the hints of the code. *)
    Lemma add_gen_honest a b : h2 = map (red_hint k) (combine (biguint_to_limbs q B NL) c) ->
      (0 <= a)%Z -> (0 <= b)%Z -> s = (a mod q + b mod q)%Z -> k = (q <=? s)%Z ->
      (forall w, hext c0 w -> okw w -> v1 = map (fun x => fZ (x / beta)%Z) (xs w)) ->
      (forall w, okw w -> Forall (fun x => 0 <= x <= 2 * beta - 2)%Z (xs w)) ->
      gspec (add_with s k ops h1 h2 c) c0
        (fun w _ => okw w -> rng w c -> exists kz, arel (hval beta (xs w)) (ev w c) kz)
        (fun w => okw w /\ rng w c /\ (a < q)%Z /\ (b < q)%Z /\ xs w = dsum a b /\ hval beta (xs w) = (a + b)%Z /\ ev w c = ((a + b) mod q)%Z
                  /\ addable a b) noout.
    Proof.
      intros Eh2 Ha0 Hb0 Es Ek Hv1 Hr. start. eapply wpc_mono; [apply add_gen|]. intros [] d _ (Snd & Cmp & _).
      split; [|split; [|exact I]]; auto.
      intros w Hb Hh (Ow & Rc & Qa & Qb & Ed & Ex & Ec & N1 & N2). rewrite !Z.mod_small in Es by lia. rewrite <- Es in *.
      rewrite <- Ec, <- Ek in N2. rewrite <- kq_dsum in N2 by auto. rewrite <- Ed in N1.
      pose proof (hext_capp c0 d w Hw Hh) as [Hx _].
      assert (Ekq : (Z.b2z k * q + ev w c = s)%Z).
      { rewrite Ec, Ek. destruct (Z.leb_spec q s) as [Hle|Hlt]; cbn [Z.b2z].
        - rewrite <- (Z.mod_unique s q 1 (s - q)); lia.
        - rewrite Z.mod_small; lia. }
      apply Cmp; auto.
      - lia.
      - now rewrite Ex.
      - now rewrite Ekq.
      - rewrite <- nowrap_carries; auto.
      - rewrite <- nowrap_carries; auto; [|apply kq_range; auto]. rewrite <- (red_hint_vals k w c) by auto.
        assert (E2 : v2 = map (fun my => limb_carry zval B (fst my * (if k : bool then 1 else 0) + hon c0 (snd my))) (combine (biguint_to_limbs q B NL) c)).
        { pose proof (red_hints k c0 (biguint_to_limbs q B NL) c Hw Bc) as H2'. rewrite <- Eh2 in H2'.
          clear -H2 H2'. revert H2'. generalize (map (fun my => limb_carry zval B (fst my * (if k : bool then 1 else 0) + hon c0 (snd my))) (combine (biguint_to_limbs q B NL) c)) as v2'.
          revert H2. intros H2. pose proof H2 as H3. clear H2. induction H3 as [|h v h2 v2 Hh _ IH]; intros v2' H'; inversion_clear H' as [|? v' ? v2'' Hh' H'']; [reflexivity|]. f_equal; [|apply IH; auto].
          specialize (Hh dnil). specialize (Hh' dnil). congruence. }
        rewrite E2. apply map_ext_in. intros [x y] Hxy. cbn [fst snd].
        rewrite Forall_forall in Bc. rewrite Hx; [reflexivity|apply Bc; eapply in_combine_r; eauto].
    Qed.
  End AddGen.

  Lemma emulated_add_gate_spec a b c c0 : wf c0 -> rok (ptype c0) ->
    length a = NL -> length b = NL -> length c = NL ->
    vlt (num_vars c0) a -> vlt (num_vars c0) b -> vlt (num_vars c0) c ->
    gspec (emulated_add_gate zval p nb L ez q B NL a b c) c0
      (fun w _ => rng w a -> rng w b -> rng w c -> exists k, arel (ev w a + ev w b)%Z (ev w c) k)
      (addC a b c) noout.
  Proof.
    intros Hw Ht La Lb Lc Ba Bb Bc. start. unfold emulated_add_gate.
    apply wpc_chks; [exact Ba|]. apply wpc_chks; [exact Bb|]. apply wpc_chks; [exact Bc|].
    eapply wpc_bind_pure; [apply emulated_witness_eq; auto|]. eapply wpc_bind_pure; [apply emulated_witness_eq; auto|].
    cbv zeta. rewrite !(zf_ez _ _ _ HE).
    set (s := (ev (hon c0) a mod q + ev (hon c0) b mod q)%Z). set (k := (q <=? s)%Z).
    eapply wpc_eq; [apply (add_with_eq (add_row zval B) add_hint (fun xy => ((fst xy, 1), (snd xy, 1))) (combine a b))|].
    { intros [x y] z. reflexivity. }
    fold (add_ops a b).
    assert (Lab : length (combine a b) = NL) by (rewrite combine_length; lia).
    assert (Lqc : length (combine (biguint_to_limbs q B NL : list K) c) = NL) by (rewrite combine_length, (length_limbs B); lia).
    assert (Hev0 : forall x, (0 <= ev (hon c0) x)%Z).
    { intros x. unfold EmulatedMul.ev, EmulatedMul.zl. induction x as [|v x IH]; cbn [map hval]; [lia|].
      pose proof (pf_range _ _ _ _ _ HF (hon c0 v)). pose proof beta_ge. nia. }
    eapply wpc_mono; [apply (add_gen_honest s k (add_ops a b) (map add_hint (combine a b))
      (map (red_hint k) (combine (biguint_to_limbs q B NL) c))
      (map (fun xy => limb_carry zval B (hon c0 (fst xy) + hon c0 (snd xy))) (combine a b))
      (map (fun my => limb_carry zval B (fst my * (if k : bool then 1 else 0) + hon c0 (snd my))) (combine (biguint_to_limbs q B NL) c))
      c c0 (fun w => lsum w a b) (fun w => rng w a /\ rng w b)) with (a := ev (hon c0) a) (b := ev (hon c0) b); auto|].
    - unfold add_ops. rewrite map_length. exact Lab.
    - rewrite map_length. exact Lab.
    - rewrite map_length. exact Lqc.
    - unfold add_ops. apply Forall_forall. intros o Ho. apply in_map_iff in Ho as ([x y] & <- & Hxy). cbn [fst snd].
      rewrite Forall_forall in Ba, Bb. split; [apply Ba; eapply in_combine_l; eauto|apply Bb; eapply in_combine_r; eauto].
    - apply add_hints; auto.
    - apply red_hints; auto.
    - intros w _ [Ra Rb]. apply add_ops_val; auto; lia.
    - intros w Hx [Ra Rb]. rewrite <- (add_hint_vals w a b) by (auto; lia). apply map_ext_in. intros [x y] Hxy. cbn [fst snd].
      rewrite Forall_forall in Ba, Bb. rewrite !Hx; [reflexivity|apply Bb; eapply in_combine_r; eauto|apply Ba; eapply in_combine_l; eauto].
    - intros w [Ra Rb]. apply lsum_range; auto; lia.
    - intros [] d _ (Snd & Cmp & _). split; [|split; [|exact I]].
      + intros w Hb Hs Ra Rb Rc. destruct (Snd w Hb Hs) as [kz Hk]; auto.
        rewrite hval_lsum in Hk by lia. eauto.
      + intros w Hb Hh (Ra & Rb & Rc & Qa & Qb & Ec & N). apply Cmp; auto.
        rewrite <- (ev_hext c0 d w a), <- (ev_hext c0 d w b) by auto. rewrite hval_lsum by lia.
        rewrite lsum_dsum by auto. repeat split; auto; apply N.
  Qed.

  Lemma emulated_add_spec a b c0 : wf c0 -> rok (ptype c0) -> length a = NL -> length b = NL ->
    vlt (num_vars c0) a -> vlt (num_vars c0) b ->
    espec (emulated_add zval p nb L ez q B NL a b) c0
      (fun w r => rng w a -> rng w b -> exists k, arel (ev w a + ev w b)%Z (ev w r) k)
      (fun w => rng w a /\ rng w b /\ (ev w a < q)%Z /\ (ev w b < q)%Z /\ addable (ev w a) (ev w b))
      (fun h => ((ev h a + ev h b) mod q)%Z).
  Proof.
    intros Hw Ht La Lb Ba Bb. unfold emulated_add.
    unfold espec. eapply wpc_bind_pure; [apply emulated_witness_eq; auto|].
    eapply wpc_bind_pure; [apply emulated_witness_eq; auto|].
    assert (Ev : ez (fZ (ev (hon c0) a) + fZ (ev (hon c0) b)) = ((ev (hon c0) a + ev (hon c0) b) mod q)%Z).
    { rewrite <- fZ_add. apply (zf_ez _ _ _ HE). }
    apply (espec_of_gate _ (fun h => ((ev h a + ev h b) mod q)%Z) (fun r => emulated_add_gate zval p nb L ez q B NL a b r) _
      (fun w => rng w a /\ rng w b /\ (ev w a < q)%Z /\ (ev w b < q)%Z /\ addable (ev w a) (ev w b) /\ hext c0 w)); auto.
    - intros r d Hwd Lr Br. eapply gspec_weaken; [apply emulated_add_gate_spec; auto using vlt_capp| |].
      + cbn beta. intros; auto.
      + cbn beta. intros w (R & Er & Ra & Rb & Qa & Qb & N & Hh). repeat split; auto; try apply N.
        rewrite Er, Ev. rewrite !(ev_ext w (hon c0) (num_vars c0)); auto.
    - intros w Hh (Ra & Rb & Qa & Qb & N). repeat (split; auto).
  Qed.

  Lemma emulated_sub_spec a b c0 : wf c0 -> rok (ptype c0) -> length a = NL -> length b = NL ->
    vlt (num_vars c0) a -> vlt (num_vars c0) b ->
    espec (emulated_sub zval p nb L ez q B NL a b) c0
      (fun w r => rng w a -> rng w b -> exists k, arel (ev w r + ev w b)%Z (ev w a) k)
      (fun w => rng w a /\ rng w b /\ (ev w a < q)%Z /\ (ev w b < q)%Z /\ addable ((ev w a - ev w b) mod q) (ev w b))
      (fun h => ((ev h a - ev h b) mod q)%Z).
  Proof.
    intros Hw Ht La Lb Ba Bb. unfold emulated_sub.
    unfold espec. eapply wpc_bind_pure; [apply emulated_witness_eq; auto|].
    eapply wpc_bind_pure; [apply emulated_witness_eq; auto|].
    assert (Ev : ez (fZ (ev (hon c0) a) - fZ (ev (hon c0) b)) = ((ev (hon c0) a - ev (hon c0) b) mod q)%Z).
    { rewrite <- fZ_sub. apply (zf_ez _ _ _ HE). }
    apply (espec_of_gate _ (fun h => ((ev h a - ev h b) mod q)%Z) (fun r => emulated_add_gate zval p nb L ez q B NL r b a) _
      (fun w => rng w a /\ rng w b /\ (ev w a < q)%Z /\ (ev w b < q)%Z /\ addable ((ev w a - ev w b) mod q) (ev w b) /\ hext c0 w)); auto.
    - intros r d Hwd Lr Br. eapply gspec_weaken; [apply emulated_add_gate_spec; auto using vlt_capp| |].
      + cbn beta. intros; auto.
      + cbn beta. intros w (R & Er & Ra & Rb & Qa & Qb & N & Hh).
        assert (Er' : ev w r = ((ev w a - ev w b) mod q)%Z).
        { rewrite Er, Ev. rewrite !(ev_ext w (hon c0) (num_vars c0)); auto. }
        pose proof (Z.mod_pos_bound (ev w a - ev w b) q ltac:(lia)). pose proof (ev_range w a La Ra).
        unfold addC. rewrite Er'. repeat split; auto; try apply N; try lia.
        rewrite Zplus_mod_idemp_l, Z.sub_add, Z.mod_small; lia.
    - intros w Hh (Ra & Rb & Qa & Qb & N). repeat (split; auto).
  Qed.

  (** Addition of a constant *)
  Definition clsum (w : nat -> K) (a : evar) (v : Z) : list Z :=
    map (fun xy => zval (w (fst xy)) + snd xy)%Z (combine a (digits beta v NL)).
  Lemma clsum_dsum w a v : length a = NL -> rng w a -> clsum w a v = dsum (ev w a) v.
  Proof.
    intros La Ra. unfold clsum, dsum. rewrite digits_ev by auto. unfold EmulatedMul.zl.
    generalize (digits beta v NL) as l. clear. induction a as [|x a IH]; intros [|y l]; try reflexivity. cbn [map combine fst snd]. f_equal; auto.
  Qed.
  Lemma add_c_ops_val w a v : base w -> length a = NL -> rng w a ->
    ops_val B w (add_c_ops a (biguint_to_limbs v B NL)) (clsum w a v).
  Proof.
    intros Hb La Ra. unfold add_c_ops, clsum, ops_val. rewrite (limbs_map B).
    assert (Hd : length (digits beta v NL) = length a) by (rewrite length_digits; auto).
    pose proof beta_ge as Hbt.
    pose proof (digits_range beta v NL ltac:(lia)) as Rd. revert Hd Rd. generalize (digits beta v NL) as l. clear La.
    induction Ra as [|x a Hx _ IH]; intros [|y l] Hd Rd; try discriminate; cbn [combine map fst snd]; constructor.
    - inversion_clear Rd. pose proof (pf_range _ _ _ _ _ HF (w x)). split; [lia|]. rewrite fZ_add, <- !w_fZ.
      destruct Hb as [_ ->]. ring.
    - inversion_clear Rd. apply IH; auto.
  Qed.
  Lemma add_c_hint_vals w a v : length a = NL -> rng w a ->
    map (fun xb => limb_carry zval B (w (fst xb) + snd xb)) (combine a (biguint_to_limbs v B NL)) = map (fun x => fZ (x / beta)%Z) (clsum w a v).
  Proof.
    intros La Ra. unfold clsum. rewrite (limbs_map B).
    assert (Hd : length (digits beta v NL) = length a) by (rewrite length_digits; auto).
    pose proof beta_ge as Hbt.
    pose proof (digits_range beta v NL ltac:(lia)) as Rd. revert Hd Rd. generalize (digits beta v NL) as l. clear La.
    induction Ra as [|x a Hx _ IH]; intros [|y l] Hd Rd; try discriminate; [reflexivity|]. cbn [combine map fst snd].
    inversion_clear Rd. f_equal; [|apply IH; auto]. pose proof (pf_range _ _ _ _ _ HF (w x)).
    rewrite (w_fZ w x), <- fZ_add, limb_carry_fZ by lia. rewrite <- w_fZ. reflexivity.
  Qed.
  Lemma hval_dsum x y : (0 <= x < 2 ^ Z.of_nat T)%Z -> (0 <= y < 2 ^ Z.of_nat T)%Z -> hval beta (dsum x y) = (x + y)%Z.
  Proof.
    intros Hx Hy. unfold dsum. rewrite (pow_T T B NL) in Hx, Hy by auto.
    transitivity (hval beta (digits beta x NL) + hval beta (digits beta y NL))%Z.
    - assert (Hl : length (digits beta x NL) = length (digits beta y NL)) by (rewrite !length_digits; auto).
      revert Hl. generalize (digits beta x NL) as l, (digits beta y NL) as l'. clear.
      induction l as [|a l IH]; intros [|b l'] H; try discriminate; [reflexivity|]. cbn [combine map hval fst snd].
      rewrite IH by (injection H; auto). lia.
    - pose proof beta_ge. rewrite !hval_digits' by lia. rewrite !Z.mod_small; lia.
  Qed.
  Lemma dsum_range x y : Forall (fun z => 0 <= z <= 2 * beta - 2)%Z (dsum x y).
  Proof.
    unfold dsum. apply Forall_map, Forall_forall. intros [u v] Huv. cbn [fst snd]. pose proof beta_ge.
    pose proof (digits_range beta x NL ltac:(lia)) as Rx. pose proof (digits_range beta y NL ltac:(lia)) as Ry.
    rewrite Forall_forall in Rx, Ry. specialize (Rx u (in_combine_l _ _ _ _ Huv)). specialize (Ry v (in_combine_r _ _ _ _ Huv)). lia.
  Qed.
  Lemma emulated_add_constant_gate_spec a v c c0 : wf c0 -> rok (ptype c0) ->
    length a = NL -> length c = NL -> vlt (num_vars c0) a -> vlt (num_vars c0) c ->
    gspec (emulated_add_constant_gate zval p nb L ez q B NL a v c) c0
      (fun w _ => rng w a -> rng w c -> exists k, arel (ev w a + ez v)%Z (ev w c) k)
      (fun w => rng w a /\ rng w c /\ (ev w a < q)%Z /\ ev w c = ((ev w a + ez v) mod q)%Z /\ addable (ev w a) (ez v)) noout.
  Proof.
    intros Hw Ht La Lc Ba Bc. start. unfold emulated_add_constant_gate.
    apply wpc_chks; [exact Ba|]. apply wpc_chks; [exact Bc|].
    eapply wpc_bind_pure; [apply emulated_witness_eq; auto|].
    cbv zeta. rewrite !(zf_ez _ _ _ HE).
    pose proof (zf_range _ _ _ HE v) as Hv.
    set (s := (ev (hon c0) a mod q + ez v)%Z). set (k := (q <=? s)%Z).
    eapply wpc_eq; [apply (add_with_eq (add_constant_row zval B) add_c_hint (fun xb => ((fst xb, 1), (1%nat, snd xb))) (combine a (biguint_to_limbs (ez v) B NL)))|].
    { intros [x y] z. reflexivity. }
    fold (add_c_ops a (biguint_to_limbs (ez v) B NL)).
    assert (Lab : length (combine a (biguint_to_limbs (ez v) B NL : list K)) = NL) by (rewrite combine_length, (length_limbs B); lia).
    assert (Lqc : length (combine (biguint_to_limbs q B NL : list K) c) = NL) by (rewrite combine_length, (length_limbs B); lia).
    assert (Hev0 : forall x, (0 <= ev (hon c0) x)%Z).
    { intros x. unfold EmulatedMul.ev, EmulatedMul.zl. induction x as [|u x IH]; cbn [map hval]; [lia|].
      pose proof (pf_range _ _ _ _ _ HF (hon c0 u)). pose proof beta_ge. nia. }
    assert (Hb1 : (1 < num_vars c0)%nat) by (apply wf_two in Hw; lia).
    eapply wpc_mono; [apply (add_gen_honest s k (add_c_ops a (biguint_to_limbs (ez v) B NL)) (map add_c_hint (combine a (biguint_to_limbs (ez v) B NL)))
      (map (red_hint k) (combine (biguint_to_limbs q B NL) c))
      (map (fun xb => limb_carry zval B (hon c0 (fst xb) + snd xb)) (combine a (biguint_to_limbs (ez v) B NL)))
      (map (fun my => limb_carry zval B (fst my * (if k : bool then 1 else 0) + hon c0 (snd my))) (combine (biguint_to_limbs q B NL) c))
      c c0 (fun w => clsum w a (ez v)) (fun w => rng w a)) with (a := ev (hon c0) a) (b := ez v); auto|].
    - unfold add_c_ops. rewrite map_length. exact Lab.
    - rewrite map_length. exact Lab.
    - rewrite map_length. exact Lqc.
    - unfold add_c_ops. apply Forall_forall. intros o Ho. apply in_map_iff in Ho as ([x y] & <- & Hxy). cbn [fst snd].
      rewrite Forall_forall in Ba. split; [apply Ba; eapply in_combine_l; eauto|exact Hb1].
    - apply add_c_hints; auto.
    - apply red_hints; auto.
    - intros w Hb Ra. apply add_c_ops_val; auto.
    - lia.
    - unfold s. rewrite (Z.mod_small (ez v)) by lia. reflexivity.
    - intros w Hx Ra. rewrite <- (add_c_hint_vals w a (ez v)) by auto. apply map_ext_in. intros [x y] Hxy. cbn [fst snd].
      rewrite Forall_forall in Ba. rewrite !Hx; [reflexivity|apply Ba; eapply in_combine_l; eauto].
    - intros w Ra. rewrite clsum_dsum by auto. apply dsum_range.
    - intros [] d _ (Snd & Cmp & _). split; [|split; [|exact I]].
      + intros w Hb Hs Ra Rc. destruct (Snd w Hb Hs) as [kz Hk]; auto.
        rewrite clsum_dsum in Hk by auto. rewrite hval_dsum in Hk; [eauto|apply ev_range; auto|lia].
      + intros w Hb Hh (Ra & Rc & Qa & Ec & N). apply Cmp; auto.
        rewrite <- (ev_hext c0 d w a) by auto. pose proof (ev_range w a La Ra).
        rewrite clsum_dsum, hval_dsum by (auto; lia). repeat split; auto; try apply N; lia.
  Qed.
  Lemma emulated_add_constant_spec a v c0 : wf c0 -> rok (ptype c0) -> length a = NL -> vlt (num_vars c0) a ->
    espec (emulated_add_constant zval p nb L ez q B NL a v) c0
      (fun w r => rng w a -> exists k, arel (ev w a + ez v)%Z (ev w r) k)
      (fun w => rng w a /\ (ev w a < q)%Z /\ addable (ev w a) (ez v))
      (fun h => ((ev h a + ez v) mod q)%Z).
  Proof.
    intros Hw Ht La Ba. unfold emulated_add_constant.
    unfold espec. eapply wpc_bind_pure; [apply emulated_witness_eq; auto|].
    assert (Ev : ez (fZ (ev (hon c0) a) + v) = ((ev (hon c0) a + ez v) mod q)%Z).
    { rewrite <- (zf_fZ _ _ _ HE v) at 1. rewrite <- fZ_add. apply (zf_ez _ _ _ HE). }
    apply (espec_of_gate _ (fun h => ((ev h a + ez v) mod q)%Z) (fun r => emulated_add_constant_gate zval p nb L ez q B NL a v r) _
      (fun w => rng w a /\ (ev w a < q)%Z /\ addable (ev w a) (ez v) /\ hext c0 w)); auto.
    - intros r d Hwd Lr Br. eapply gspec_weaken; [apply emulated_add_constant_gate_spec; auto using vlt_capp| |].
      + cbn beta. intros; auto.
      + cbn beta. intros w (R & Er & Ra & Qa & N & Hh). repeat split; auto; try apply N.
        rewrite Er, Ev. rewrite !(ev_ext w (hon c0) (num_vars c0)); auto.
    - intros w Hh (Ra & Qa & N). repeat (split; auto).
  Qed.
  Lemma emulated_sub_constant_spec a v c0 : wf c0 -> rok (ptype c0) -> length a = NL -> vlt (num_vars c0) a ->
    espec (emulated_sub_constant zval p nb L ez q B NL a v) c0
      (fun w r => rng w a -> exists k, arel (ev w r + ez v)%Z (ev w a) k)
      (fun w => rng w a /\ (ev w a < q)%Z /\ addable ((ev w a - ez v) mod q) (ez v))
      (fun h => ((ev h a - ez v) mod q)%Z).
  Proof.
    intros Hw Ht La Ba. unfold emulated_sub_constant.
    unfold espec. eapply wpc_bind_pure; [apply emulated_witness_eq; auto|].
    assert (Ev : ez (fZ (ev (hon c0) a) - v) = ((ev (hon c0) a - ez v) mod q)%Z).
    { rewrite <- (zf_fZ _ _ _ HE v) at 1. rewrite <- fZ_sub. apply (zf_ez _ _ _ HE). }
    apply (espec_of_gate _ (fun h => ((ev h a - ez v) mod q)%Z) (fun r => emulated_add_constant_gate zval p nb L ez q B NL r v a) _
      (fun w => rng w a /\ (ev w a < q)%Z /\ addable ((ev w a - ez v) mod q) (ez v) /\ hext c0 w)); auto.
    - intros r d Hwd Lr Br. eapply gspec_weaken; [apply emulated_add_constant_gate_spec; auto using vlt_capp| |].
      + cbn beta. intros; auto.
      + cbn beta. intros w (R & Er & Ra & Qa & N & Hh).
        assert (Er' : ev w r = ((ev w a - ez v) mod q)%Z).
        { rewrite Er, Ev. rewrite !(ev_ext w (hon c0) (num_vars c0)); auto. }
        pose proof (Z.mod_pos_bound (ev w a - ez v) q ltac:(lia)). pose proof (ev_range w a La Ra).
        rewrite Er'. repeat split; auto; try apply N; try lia.
        rewrite Zplus_mod_idemp_l, Z.sub_add, Z.mod_small; lia.
    - intros w Hh (Ra & Qa & N). repeat (split; auto).
  Qed.
End Gate.
