(** Bit decomposition, range and comparison gadgets over a prime field. *)

From Coq Require Import List Arith ZArith Bool Lia Znumtheory.
From Verif Require Import Base ListAux Alg Poly CircuitModel CircuitProofs GadgetModel GadgetProofs RangeProofs.
Import ListNotations.
Local Open Scope fld_scope.
Local Open Scope circ_scope.

(** [K] is the prime field of integers modulo [p], [zval] its canonical
    representative, [nb] the bit size of [p] and [L] the number of bits of the
    big-integer type. *)
Record pfield (K : fld) (zval : K -> Z) (p : Z) (nb L : nat) : Prop := {
  pf_range : forall x, (0 <= zval x < p)%Z;
  pf_fZ : forall x, fZ (zval x) = x;
  pf_zval : forall z, zval (fZ z) = (z mod p)%Z;
  pf_lo : (2 ^ (Z.of_nat nb - 1) < p)%Z;
  pf_hi : (p < 2 ^ Z.of_nat nb)%Z;
  pf_len : (nb <= L)%nat }.

(** Every prime gives such a field. *)
Lemma fZ_Zp p (Hp : prime p) z : (fZ z : Zp p Hp) = zmk p z.
Proof.
  assert (H1 : forall n, (fnat n : Zp p Hp) = zmk p (Z.of_nat n)).
  { induction n as [|n IH]; [reflexivity|]. cbn [fnat]. rewrite IH.
    apply zp_ext. cbn -[Z.of_nat Z.add Z.modulo]. rewrite <- Zplus_mod. f_equal. lia. }
  destruct z as [|q|q].
  - reflexivity.
  - rewrite <- (positive_nat_Z q), fZ_nat, H1. reflexivity.
  - change (Z.neg q) with (- Z.pos q)%Z. rewrite fZ_opp, <- (positive_nat_Z q), fZ_nat, H1.
    apply zp_ext. cbn -[Z.of_nat Z.add Z.modulo Z.opp]. 
    rewrite <- (Z.sub_0_l (Z.of_nat _ mod p)), <- (Z.sub_0_l (Z.of_nat _)).
    rewrite Zminus_mod_idemp_r. reflexivity.
Qed.
Lemma Zp_pfield p (Hp : prime p) nb L :
  (2 ^ (Z.of_nat nb - 1) < p)%Z -> (p < 2 ^ Z.of_nat nb)%Z -> (nb <= L)%nat ->
  pfield (Zp p Hp) (zv p) p nb L.
Proof.
  intros H1 H2 H3. assert (H0 : (0 < p)%Z) by (destruct Hp; lia).
  split; auto.
  - intros x. rewrite <- (zv_mod p x). apply Z.mod_pos_bound; auto.
  - intros x. rewrite fZ_Zp. apply zmk_zv.
  - intros z. rewrite fZ_Zp. reflexivity.
Qed.

(** Little-endian values. *)
Lemma chunk_val_nil : chunk_val [] = 0%Z. Proof. reflexivity. Qed.
Lemma chunk_val_cons b l : chunk_val (b :: l) = (2 * chunk_val l + (if b then 1 else 0))%Z.
Proof. reflexivity. Qed.
Lemma chunk_val_range l : (0 <= chunk_val l < 2 ^ Z.of_nat (length l))%Z.
Proof.
  induction l as [|b l IH]; [cbn; lia|]. rewrite chunk_val_cons. cbn [length].
  rewrite Nat2Z.inj_succ, Z.pow_succ_r by lia. destruct b; lia.
Qed.
Lemma chunk_val_testbits z n : (0 <= z)%Z ->
  chunk_val (map (fun i => Z.testbit z (Z.of_nat i)) (seq 0 n)) = (z mod 2 ^ Z.of_nat n)%Z.
Proof.
  revert z; induction n as [|n IH]; intros z Hz.
  - cbn [seq map]. rewrite chunk_val_nil. cbn. now rewrite Z.mod_1_r.
  - cbn [seq map]. rewrite chunk_val_cons, <- seq_shift, map_map.
    rewrite (map_ext _ (fun i => Z.testbit (Z.div2 z) (Z.of_nat i))).
    2:{ intros i. rewrite Nat2Z.inj_succ. rewrite Z.div2_spec, Z.shiftr_spec by lia. f_equal; lia. }
    rewrite IH by (apply Z.div2_nonneg; auto). change (Z.of_nat 0) with 0%Z. rewrite Z.bit0_odd.
    rewrite Nat2Z.inj_succ, Z.pow_succ_r by lia.
    pose proof (Z.div2_odd z) as E. rewrite E at 3.
    rewrite Z.rem_mul_r by lia.
    assert (Hodd : (0 <= Z.b2z (Z.odd z) < 2)%Z) by (destruct (Z.odd z); cbn; lia).
    replace ((2 * Z.div2 z + Z.b2z (Z.odd z)) mod 2)%Z with (Z.b2z (Z.odd z)).
    2:{ rewrite Z.add_comm, Z.mul_comm, Z_mod_plus_full. now rewrite Z.mod_small. }
    replace ((2 * Z.div2 z + Z.b2z (Z.odd z)) / 2)%Z with (Z.div2 z).
    2:{ rewrite Z.add_comm, Z.mul_comm, Z.div_add by lia. rewrite Z.div_small by lia. lia. }
    unfold Z.b2z. lia.
Qed.
Lemma chunk_val_app l l' : chunk_val (l ++ l') = (chunk_val l + 2 ^ Z.of_nat (length l) * chunk_val l')%Z.
Proof.
  induction l as [|b l IH]; [cbn [app length]; rewrite chunk_val_nil; change (2 ^ Z.of_nat 0)%Z with 1%Z; lia|].
  cbn [app length]. rewrite !chunk_val_cons, IH, Nat2Z.inj_succ, Z.pow_succ_r by lia. ring.
Qed.
Lemma chunk_val_zeros n : chunk_val (repeat false n) = 0%Z.
Proof. induction n; cbn [repeat]; [reflexivity|]. rewrite chunk_val_cons, IHn. reflexivity. Qed.
Lemma chunk_val_inj l : forall l', length l = length l' -> chunk_val l = chunk_val l' -> l = l'.
Proof.
  induction l as [|b l IH]; intros [|b' l'] Hl H; try discriminate; auto.
  rewrite !chunk_val_cons in H. cbn in Hl.
  assert (b = b') by (destruct b, b'; auto; lia). subst.
  f_equal. apply IH; lia.
Qed.

(** The comparison folds on bits, least significant first. *)
Fixpoint lt_fold (cur : bool) (l : list (bool * bool)) : bool :=
  match l with
  | [] => cur
  | (a, pb) :: l' => lt_fold (if pb then cur || negb a else cur && negb a) l'
  end.
Lemma lt_fold_spec l : forall cur, lt_fold cur l =
  ((chunk_val (map fst l) <? chunk_val (map snd l))%Z ||
   (cur && (chunk_val (map fst l) =? chunk_val (map snd l))%Z)).
Proof.
  induction l as [|[a b] l IH]; intros cur; [cbn; now rewrite andb_true_r|].
  cbn [lt_fold map fst snd]. rewrite IH, !chunk_val_cons.
  set (x := chunk_val (map fst l)). set (y := chunk_val (map snd l)).
  destruct (Z.ltb_spec x y), (Z.eqb_spec x y); try lia;
  destruct a, b, cur; cbn [orb andb negb];
  match goal with |- context [(?u <? ?v)%Z] => destruct (Z.ltb_spec u v) end;
  match goal with |- context [(?u =? ?v)%Z] => destruct (Z.eqb_spec u v) | _ => idtac end;
  cbn [orb andb negb]; try reflexivity; lia.
Qed.
Fixpoint gt_fold (cur : bool) (l : list (bool * bool)) : bool :=
  match l with
  | [] => cur
  | (kb, a) :: l' => gt_fold (if kb then a && cur else a || cur) l'
  end.
Lemma gt_fold_spec l : forall cur, gt_fold cur l =
  ((chunk_val (map fst l) <? chunk_val (map snd l))%Z ||
   (cur && (chunk_val (map fst l) =? chunk_val (map snd l))%Z)).
Proof.
  induction l as [|[a b] l IH]; intros cur; [cbn; now rewrite andb_true_r|].
  cbn [gt_fold map fst snd]. rewrite IH, !chunk_val_cons.
  set (x := chunk_val (map fst l)). set (y := chunk_val (map snd l)).
  destruct (Z.ltb_spec x y), (Z.eqb_spec x y); try lia;
  destruct a, b, cur; cbn [orb andb negb];
  match goal with |- context [(?u <? ?v)%Z] => destruct (Z.ltb_spec u v) end;
  match goal with |- context [(?u =? ?v)%Z] => destruct (Z.eqb_spec u v) | _ => idtac end;
  cbn [orb andb negb]; try reflexivity; lia.
Qed.

Section Specs.
  Context {K : fld}.
  Variable zval : K -> Z.
  Variable p : Z.
  Variable nb L : nat.
  Hypothesis HF : pfield K zval p nb L.
  Add Field Kfield_bp : (fth K).
  Notation gspec := (gspec zval).
  Notation dsat := (dsat zval).

  Ltac start := unfold gspec, CircuitProofs.gspec; unfold out, noout.

  Definition k2b (x : K) : bool := feqb x 1.
  Lemma k2b_b2k b : k2b (b2k b) = b.
  Proof.
    destruct b; cbn; [apply feqb_refl|]. apply feqb_neq. intros E. symmetry in E. now apply f1_neq_0 in E.
  Qed.
  Lemma b2k_k2b x : isb x -> b2k (k2b x) = x.
  Proof.
    intros [->| ->]; [change (0 : K) with (b2k false : K)|change (1 : K) with (b2k true : K)];
      now rewrite k2b_b2k.
  Qed.
  Lemma isb_b2k b : isb (b2k b : K).
  Proof. destruct b; [right|left]; reflexivity. Qed.
  Lemma b2k_and a b : b2k a * b2k b = (b2k (a && b) : K).
  Proof. destruct a, b; cbn; ring. Qed.
  Lemma b2k_or a b : b2k a + b2k b - b2k a * b2k b = (b2k (a || b) : K).
  Proof. destruct a, b; cbn; ring. Qed.
  Lemma b2k_neg (x : K) : isb x -> b2k (feqb x 0) = (b2k (negb (k2b x)) : K).
  Proof.
    intros [->| ->]; rewrite ?feqb_refl.
    - change (0 : K) with (b2k false : K). now rewrite k2b_b2k.
    - change (k2b 1) with (k2b (b2k true)). rewrite k2b_b2k. rewrite (proj2 (feqb_neq _ _ _)); [reflexivity|apply f1_neq_0].
  Qed.
  Lemma b2k_inj a b : (b2k a : K) = b2k b -> a = b.
  Proof. intros H. rewrite <- (k2b_b2k a), <- (k2b_b2k b), H. reflexivity. Qed.
  Lemma b2k_1 b : b2k b = (1 : K) <-> b = true.
  Proof. change (1 : K) with (b2k true : K). split; [apply b2k_inj|now intros ->]. Qed.
  Lemma b2k_0 b : b2k b = (0 : K) <-> b = false.
  Proof. change (0 : K) with (b2k false : K). split; [apply b2k_inj|now intros ->]. Qed.

  Lemma peval_bits (l : list K) : Forall isb l -> peval l (fZ 2) = fZ (chunk_val (map k2b l)).
  Proof.
    induction 1 as [|x l Hx _ IH]; [reflexivity|].
    cbn [peval map]. rewrite chunk_val_cons, fZ_add, fZ_mul, IH.
    rewrite <- (b2k_k2b x Hx) at 1. destruct (k2b x); cbn [b2k].
    - rewrite fZ_1. ring.
    - change (fZ 0) with (0 : K). ring.
  Qed.

  Lemma pf_pos : (0 < p)%Z.
  Proof. pose proof (pf_range _ _ _ _ _ HF 0). lia. Qed.
  Lemma pf_nb : (1 <= nb)%nat.
  Proof.
    destruct (Nat.eq_dec nb 0) as [E|E]; [|lia]. pose proof (pf_hi _ _ _ _ _ HF) as H. pose proof pf_pos.
    rewrite E in H. change (2 ^ Z.of_nat 0)%Z with 1%Z in H. lia.
  Qed.
  Lemma zval_small z : (0 <= z < p)%Z -> zval (fZ z) = z.
  Proof. intros H. rewrite (pf_zval _ _ _ _ _ HF). apply Z.mod_small; auto. Qed.
  Lemma zval_inj x y : zval x = zval y -> x = y.
  Proof. intros H. rewrite <- (pf_fZ _ _ _ _ _ HF x), H. apply (pf_fZ _ _ _ _ _ HF). Qed.
  Lemma pow_lt_p n : (n < nb)%nat -> (2 ^ Z.of_nat n < p)%Z.
  Proof.
    intros H. eapply Z.le_lt_trans; [|apply (pf_lo _ _ _ _ _ HF)]. apply Z.pow_le_mono_r; lia.
  Qed.
  Lemma pf_nb2 : (2 <= nb)%nat.
  Proof.
    pose proof pf_nb. destruct (Nat.eq_dec nb 1) as [E|E]; [|lia].
    pose proof (pf_hi _ _ _ _ _ HF) as H1. pose proof (pf_lo _ _ _ _ _ HF) as H2.
    rewrite E in H1, H2. change (2 ^ (Z.of_nat 1 - 1))%Z with 1%Z in H2.
    change (2 ^ (Z.of_nat 1))%Z with 2%Z in H1. lia.
  Qed.
  Lemma nb_lt_p : (Z.of_nat nb < p)%Z.
  Proof.
    pose proof pf_nb2 as H2. pose proof (pf_lo _ _ _ _ _ HF) as H.
    assert (G : forall n, (2 <= n)%nat -> (Z.of_nat n <= 2 ^ (Z.of_nat n - 1))%Z).
    { induction n as [|n IH]; intros Hn; [lia|]. destruct (Nat.eq_dec n 1) as [->|]; [cbn; lia|].
      specialize (IH ltac:(lia)). replace (Z.of_nat (S n) - 1)%Z with (Z.succ (Z.of_nat n - 1)) by lia.
      rewrite Z.pow_succ_r by lia. lia. }
    specialize (G nb H2). lia.
  Qed.

  (** Fresh Boolean variables. *)
  Lemma mapM_bool_spec bs : forall c, wf c ->
    wpc (mapM create_boolean_variable bs) c (fun vs d =>
      vs = seq (num_vars c) (length bs) /\ d_vals d = map b2k bs /\
      forall t w, dsat t w d <-> Forall isb (map w vs)).
  Proof.
    induction bs as [|b bs IH]; intros c Hw.
    - cbn [mapM]. wstep. repeat split; auto; cbn; constructor.
    - cbn [mapM]. unfold create_boolean_variable, enforce_bool. repeat wstep.
      apply wpc_bind. eapply wpc_mono; [apply IH; wfs|].
      intros vs d _ (-> & Hd & Hs). repeat wstep.
      split; [|split].
      + cbn [length seq]. f_equal. cbn [capp num_vars dval dgate d_vals length]. f_equal. lia.
      + cbn [dcat dval dgate dnil d_vals app map]. rewrite Hd, app_nil_r. destruct b; reflexivity.
      + intros t w. rewrite !dsat_cat, dsat_val, dsat_gate, gsat_bool by reflexivity.
        rewrite Hs. cbn [map]. rewrite Forall_cons_iff. unfold isb.
        assert (CircuitProofs.dsat zval t w dnil) by apply dsat_nil. tauto.
  Qed.
  Lemma hext_vals (c : circuit K) d w i : wf c -> hext (capp c d) w -> (i < length (d_vals d))%nat ->
    w (num_vars c + i)%nat = nth i (d_vals d) 0.
  Proof. intros Hw H Hi. apply (hext_capp c d w Hw H); auto. Qed.
  Lemma hext_seq (c : circuit K) d w : wf c -> hext (capp c d) w ->
    map w (seq (num_vars c) (length (d_vals d))) = d_vals d.
  Proof.
    intros Hw H. apply nth_ext with (d := w 0%nat) (d' := 0).
    - now rewrite map_length, seq_length.
    - intros i Hi. rewrite map_length, seq_length in Hi. rewrite map_nth, seq_nth by auto.
      apply (hext_capp c d w Hw H); auto.
  Qed.
  Lemma length_mapM_d (bs : list bool) : length (map (b2k (K:=K)) bs) = length bs.
  Proof. apply map_length. Qed.

  (** [canonical_check] *)
  Definition can_body (cur : nat) (bp : nat * bool) : circ K nat :=
    let '(b, pb) := bp in
    na <- logic_neg b ;; if (pb : bool) then logic_or cur na else logic_and cur na.
  Lemma can_fold_spec l : forall c cur, wf c -> (cur < num_vars c)%nat ->
    Forall (fun bp => fst bp < num_vars c)%nat l ->
    gspec (foldM can_body cur l) c
      (fun w o => isb (w cur) -> Forall (fun bp => isb (w (fst bp))) l ->
         w o = b2k (lt_fold (k2b (w cur)) (map (fun bp => (k2b (w (fst bp)), snd bp)) l)))
      (fun _ => True) out.
  Proof.
    induction l as [|[b pb] l IH]; intros c cur Hw Hc Hl; start.
    - cbn [foldM]. wstep. leaf; auto. intros Hcur _. cbn [map lt_fold]. now rewrite b2k_k2b.
    - cbn [foldM]. inversion Hl; subst. cbn [fst] in *. unfold can_body at 1, logic_neg. wstep.
      use is_zero_spec. destruct pb.
      + use logic_or_spec. use IH.
        { eapply Forall_impl; [|eassumption]. cbn beta. intros. bnd. }
        leaf; auto. intros Hcur Hbs. inversion Hbs; subst. cbn [fst] in *.
        rewrite F; auto.
        * cbn [map lt_fold fst snd]. do 2 f_equal. rewrite F0, F1.
          rewrite b2k_neg by auto. rewrite <- (b2k_k2b (w cur)) at 1 2 by auto.
          rewrite b2k_or. apply k2b_b2k.
        * rewrite F0, F1. rewrite b2k_neg by auto. rewrite <- (b2k_k2b (w cur)) by auto.
          rewrite b2k_or. apply isb_b2k.
      + use logic_and_spec. use IH.
        { eapply Forall_impl; [|eassumption]. cbn beta. intros. bnd. }
        leaf; auto. intros Hcur Hbs. inversion Hbs; subst. cbn [fst] in *.
        rewrite F; auto.
        * cbn [map lt_fold fst snd]. do 2 f_equal. rewrite F0, F1.
          rewrite b2k_neg by auto. rewrite <- (b2k_k2b (w cur)) at 1 by auto.
          rewrite b2k_and. apply k2b_b2k.
        * rewrite F0, F1. rewrite b2k_neg by auto. rewrite <- (b2k_k2b (w cur)) by auto.
          rewrite b2k_and. apply isb_b2k.
  Qed.

  Lemma length_bits_le z : length (bits_le L z) = L.
  Proof. unfold bits_le. now rewrite map_length, seq_length. Qed.

  Lemma pf_repr_mod z : (0 <= z < p)%Z -> (z mod 2 ^ Z.of_nat L = z)%Z.
  Proof.
    intros H. apply Z.mod_small. pose proof (pf_hi _ _ _ _ _ HF). pose proof (pf_len _ _ _ _ _ HF).
    assert (2 ^ Z.of_nat nb <= 2 ^ Z.of_nat L)%Z by (apply Z.pow_le_mono_r; lia). lia.
  Qed.

  Lemma combine_fst_map {A B C} (f : A -> C) (l : list A) (l' : list B) : length l = length l' ->
    map fst (map (fun ab => (f (fst ab), snd ab)) (combine l l')) = map f l.
  Proof.
    revert l'; induction l as [|a l IH]; intros [|b l'] H; try discriminate; [reflexivity|].
    cbn [combine map fst snd]. f_equal. apply IH. cbn in H. lia.
  Qed.
  Lemma combine_snd_map {A B C} (f : A -> C) (l : list A) (l' : list B) : length l = length l' ->
    map snd (map (fun ab => (f (fst ab), snd ab)) (combine l l')) = l'.
  Proof.
    revert l'; induction l as [|a l IH]; intros [|b l'] H; try discriminate; [reflexivity|].
    cbn [combine map fst snd]. f_equal. apply IH. cbn in H. lia.
  Qed.

  Lemma canonical_check_spec c vs : wf c -> Forall (fun v => v < num_vars c)%nat vs -> (length vs <= L)%nat ->
    gspec (canonical_check p L vs) c
      (fun w _ => Forall isb (map w vs) -> (chunk_val (map k2b (map w vs)) < p)%Z)
      (fun w => Forall isb (map w vs) /\ (chunk_val (map k2b (map w vs)) < p)%Z) noout.
  Proof.
    intros Hw Hvs Hlen; start. unfold canonical_check. cbn zeta. pose proof (wf_two _ Hw) as H2.
    rewrite firstn_all2 by auto.
    set (bs := vs ++ repeat 0%nat (L - length vs)).
    assert (Hlb : length bs = length (bits_le L p)).
    { unfold bs. rewrite app_length, repeat_length, length_bits_le. lia. }
    assert (Hbb : Forall (fun v => v < num_vars c)%nat bs).
    { unfold bs. apply Forall_app; split; auto. apply Forall_forall. intros x Hx.
      apply repeat_spec in Hx. subst. lia. }
    change (foldM _ 0%nat (combine bs (bits_le L p))) with (foldM can_body 0%nat (combine bs (bits_le L p))).
    use can_fold_spec.
    { apply Forall_forall. intros [x y] Hx. apply in_combine_l in Hx. cbn [fst].
      rewrite Forall_forall in Hbb. auto. }
    use enforce_constant_spec.
    assert (Hkey : forall w : nat -> K, w 0%nat = 0 -> Forall isb (map w vs) ->
      Forall (fun bp => isb (w (fst bp))) (combine bs (bits_le L p)) /\
      lt_fold (k2b (w 0%nat)) (map (fun bp => (k2b (w (fst bp)), snd bp)) (combine bs (bits_le L p)))
      = (chunk_val (map k2b (map w vs)) <? p)%Z).
    { intros w Hz Hb. split.
      - apply Forall_forall. intros [x y] Hx. apply in_combine_l in Hx. cbn [fst].
        unfold bs in Hx. apply in_app_or in Hx as [Hx|Hx].
        + rewrite Forall_forall in Hb. apply Hb, in_map; auto.
        + apply repeat_spec in Hx. subst. left; auto.
      - rewrite lt_fold_spec, Hz.
        rewrite (combine_fst_map (fun v => k2b (w v))) by auto.
        rewrite (combine_snd_map (fun v => k2b (w v))) by auto.
        change (0 : K) with (b2k false : K). rewrite k2b_b2k. cbn [andb]. rewrite orb_false_r.
        unfold bits_le. pose proof pf_pos. rewrite chunk_val_testbits by lia.
        rewrite Z.mod_small.
        + unfold bs. rewrite map_app, chunk_val_app. rewrite map_repeat, Hz.
          change (0 : K) with (b2k false : K). rewrite k2b_b2k, chunk_val_zeros, Z.mul_0_r, Z.add_0_r.
          now rewrite map_map.
        + pose proof (pf_hi _ _ _ _ _ HF). pose proof (pf_len _ _ _ _ _ HF).
          assert (2 ^ Z.of_nat nb <= 2 ^ Z.of_nat L)%Z by (apply Z.pow_le_mono_r; lia). lia. }
    leaf; auto.
    - intros Hb'. destruct (Hkey w Hb0 Hb') as [Hk1 Hk2].
      rewrite F0, Hk2 in F; [|left; exact Hb0|exact Hk1].
      apply b2k_1 in F. now apply Z.ltb_lt.
    - destruct HC as [HC1 HC2]. destruct (Hkey w Hb0 HC1) as [Hk1 Hk2].
      apply Cmp0; auto. rewrite F, Hk2; [|left; exact Hb0|exact Hk1].
      apply b2k_1. now apply Z.ltb_lt.
  Qed.
End Specs.
