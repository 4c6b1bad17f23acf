(** Properties of non-native arithmetic on two-limb elements (C34) and of truncation
    (C73). *)

From Coq Require Import List Arith ZArith Znumtheory Bool Lia Ring Field.
From Verif Require Import Base ListAux Alg Poly CircuitModel CircuitProofs GadgetModel GadgetProofs RangeProofs
  BitProofs CmpProofs RangeLookup SatProofs SatGadget IndepProofs ModArithModel ModArithProofs TruncProofs CircuitProps.
Import ListNotations.
Local Open Scope fld_scope.
Local Open Scope circ_scope.

(** The parameters the gates are used with: limbs of [m] bits, a range table of [rb]
    bits, and a native field of [nb] bits with room for products of limbs. *)
Record nn_params (K : fld) (zval : K -> Z) (q : Z) (nb L m rb : nat) : Prop := {
  np_field : pfield K zval q nb L;
  np_m : (1 <= m <= nb / 2)%nat;
  np_rb : (2 <= rb <= 31)%nat;
  np_rn : (rb < nb)%nat;
  np_split : (m mod rb = 0)%nat;
  np_room : (2 ^ Z.of_nat m * 2 ^ Z.of_nat m * (2 ^ Z.of_nat rb + 4) <= q)%Z }.

Section C34.
  Context {K : fld}.
  Variable zval : K -> Z.
  Variable q : Z.
  Variable nb L m rb : nat.
  Hypothesis HN : nn_params K zval q nb L m rb.
  Add Field Kc34 : (fth K).
  Notation M := (2 ^ Z.of_nat m)%Z.
  Notation B := (2 ^ Z.of_nat rb)%Z.
  Notation fv := (fvar (K := K)).
  Notation accepts := (accepts zval).
  (** The integer an element stands for, and that its limbs are in range. *)
  Definition value (ws : list K) (x : fv) : Z := (zval (asg ws (v0 x)) + M * zval (asg ws (v1 x)))%Z.
  Definition in_range (ws : list K) (x : fv) : Prop := (zval (asg ws (v0 x)) < M)%Z /\ (zval (asg ws (v1 x)) < M)%Z.
  (** An element of the circuit [c] with [m]-bit limbs. *)
  Definition elem_of (c : circuit K) (x : fv) : Prop :=
    (v0 x < num_vars c)%nat /\ (v1 x < num_vars c)%nat /\ vm x = m /\ vtwo x = fZ M.
  (** The modulus [P], as [FpElem::new] splits it. *)
  Variable P : Z.
  Hypothesis HP : (0 < P < M * M)%Z.
  Definition pelem : felem (K := K) := mk_felem (fZ (P mod M)) (fZ (P / M)) m (fZ M).

  Lemma np_ge2 : (2 <= M)%Z.
  Proof. change 2%Z with (2 ^ 1)%Z at 1. apply Z.pow_le_mono_r; [lia|]. pose proof (np_m _ _ _ _ _ _ _ HN). lia. Qed.
  Lemma np_hyps : (1 <= m)%nat /\ (m <= nb / 2)%nat /\ (1 <= rb <= 31)%nat /\ (rb < nb)%nat /\ (m mod rb = 0)%nat /\ (M * M < q)%Z /\
    (M * M * (B + 4) <= q)%Z /\ (2 <= rb)%nat.
  Proof.
    destruct HN as [_ H1 H2 H3 H4 H5]. pose proof np_ge2.
    assert (0 < B)%Z by (apply Z.pow_pos_nonneg; lia). assert (M * M < q)%Z by nia. intuition lia.
  Qed.
  Lemma P_split : (0 <= P mod M < M)%Z /\ (0 <= P / M < M)%Z /\ (P mod M + M * (P / M))%Z = P.
  Proof.
    pose proof np_ge2. split; [apply Z.mod_pos_bound; lia|]. split; [split; [apply Z.div_pos; lia|apply Z.div_lt_upper_bound; lia]|].
    pose proof (Z.div_mod P M). lia.
  Qed.
  Lemma small_in (ws : list K) x : small zval m (asg ws) x <-> in_range ws x.
  Proof. reflexivity. Qed.

  (** [FpElem::new] splits the modulus this way. *)
  Theorem C34_modulus : felem_new zval nb (fZ P) m None = Ok pelem /\ field_elem pelem = fZ P.
  Proof.
    destruct np_hyps as (H1 & H2 & H3 & H4 & H5 & H6 & H7 & H8). destruct P_split as (E0 & E1 & E). split.
    - change None with (@None K).
      replace (felem_new zval nb (fZ P) m None) with (felem_new zval nb (fZ P : K) m (Some (fZ M))).
      + apply (felem_new_eq zval q nb L (np_field _ _ _ _ _ _ _ HN) m rb); auto; lia.
      + unfold felem_new, two_pow. now rewrite fpow_two.
    - unfold field_elem, pelem. cbn. rewrite <- fZ_mul, <- fZ_add, E. reflexivity.
  Qed.

  (** Creating an element enforces the range of its limbs. *)
  Theorem C34_new c (f : K) : good c -> ptype c = Ultra rb ->
    exists x c', fvar_new_from_field_element zval q nb L f m None c = (Ok x, c') /\ good c' /\ extends c c' /\ elem_of c' x /\
      (forall pub, accepts c (witness c) pub -> (zval f < M * M)%Z -> accepts c' (witness c') pub) /\
      value (witness c') x = zval f /\
      (forall c'' ws pub, extends c' c'' -> bounded c'' -> accepts c'' ws pub -> in_range ws x).
  Proof.
    intros G Ht. destruct np_hyps as (H1 & H2 & H3 & H4 & H5 & H6 & H7 & H8).
    pose proof (new_spec zval q nb L (np_field _ _ _ _ _ _ _ HN) m rb H1 H2 H3 H4 H5 H6 H8 c f (gd_wf _ G) Ht) as Hs.
    destruct (vspec_gadget zval _ c _ (fun _ => (zval f < M * M)%Z) _ _ G (fun _ _ _ H => H) Hs) as (x & c' & E & G' & Ex & ((R1 & R2) & R3 & R4) & Snd & Cmp & V).
    exists x, c'. do 3 (split; [auto|]). split; [repeat split; auto|]. split; [auto|]. split; [exact V|].
    intros c2 ws pub Hx Hb Ha. exact (Snd c2 ws pub Hx Hb Ha).
  Qed.

  (** *** Products *)
  Lemma mul_gadget c (mm : circ K fv) (ok : (nat -> K) -> Prop) (XY : (nat -> K) -> Z) : good c ->
    wpc mm c (fun o d =>
      (forall w, base w -> dsat zval (Ultra rb) w d -> ok w -> is_prod zval m (P mod M) (P / M) w (XY w) o) /\
      (forall w, base w -> hext (capp c d) w -> dsat zval (Ultra rb) w d /\ small zval m w o /\
         fval zval m w o = ((XY w) mod (P mod M + M * (P / M)))%Z) /\
      fvout o (num_vars c + length (d_vals d)) /\ fvok m o) -> ptype c = Ultra rb ->
    exists o c', mm c = (Ok o, c') /\ good c' /\ extends c c' /\ elem_of c' o /\
      (forall pub, accepts c (witness c) pub -> accepts c' (witness c') pub /\ in_range (witness c') o /\ value (witness c') o = (XY (asg (witness c')) mod P)%Z) /\
      (forall c'' ws pub, extends c' c'' -> bounded c'' -> accepts c'' ws pub -> ok (asg ws) ->
        in_range ws o /\ (value ws o mod P = XY (asg ws) mod P)%Z).
  Proof.
    intros G (o & d & E & Pl & S1 & C1 & (R1 & R2) & (R3 & R4)) Ht. destruct P_split as (E0 & E1 & EP).
    assert (Hg : gspec zval mm c (fun w o => ok w -> is_prod zval m (P mod M) (P / M) w (XY w) o) (fun _ => True) (fun o n => fvout o n /\ fvok m o)).
    { exists o, d. split; auto. split; auto. rewrite Ht. split; [auto|]. split; [intros w Hb Hh _; apply C1; auto|]. repeat split; auto. }
    destruct (gspec_gadget zval mm c _ (fun _ => True) _ G (fun _ _ _ H => H) Hg) as (o' & c' & E' & G' & Ex & HR' & _ & Hsnd & _ & Hcmp).
    rewrite E in E'. injection E' as <- <-. exists o, (capp c d). split; auto. split; auto. split; auto. split; [repeat split; auto|]. split.
    - intros pub Ha. pose proof (Hcmp pub Ha I) as Hacc. split; auto.
      assert (Hb : base (asg (witness (capp c d)))) by (apply (csat_base zval _ _ pub G'); apply (accepts_csat zval); [apply (gd_bd _ G')|apply (proj1 Hacc)|exact Hacc]).
      destruct (C1 _ Hb (hext_hon _)) as (_ & V1 & V2). split; [exact V1|]. unfold value. rewrite <- EP at 1. exact V2.
    - intros c'' ws pub Hx Hb Ha Hok. destruct (Hsnd c'' ws pub Hx Hb Ha Hok) as (V1 & W & HW & EW). split; [exact V1|].
      rewrite EW. unfold value. rewrite EP, Z.mod_add by lia. reflexivity.
  Qed.

  Theorem C34_mod_mul c x y : good c -> ptype c = Ultra rb -> elem_of c x -> elem_of c y ->
    in_range (witness c) x -> in_range (witness c) y -> (value (witness c) x * value (witness c) y < M * M * P)%Z ->
    exists o c', mod_mul zval q nb L x y pelem c = (Ok o, c') /\ good c' /\ extends c c' /\ elem_of c' o /\
      (forall pub, accepts c (witness c) pub -> accepts c' (witness c') pub /\ in_range (witness c') o /\
        value (witness c') o = ((value (witness c') x * value (witness c') y) mod P)%Z) /\
      (forall c'' ws pub, extends c' c'' -> bounded c'' -> accepts c'' ws pub -> in_range ws x /\ in_range ws y ->
        in_range ws o /\ (value ws o mod P = (value ws x * value ws y) mod P)%Z).
  Proof.
    intros G Ht (X0 & X1 & X2 & X3) (Y0 & Y1 & Y2 & Y3) Rx Ry Hxy.
    destruct np_hyps as (H1 & H2 & H3 & H4 & H5 & H6 & H7 & H8). destruct P_split as (E0 & E1 & EP).
    apply (mul_gadget c _ (fun w => small zval m w x /\ small zval m w y) (fun w => (fval zval m w x * fval zval m w y)%Z) G); auto.
    eapply wpc_mono; [apply (mod_mul_spec zval q nb L (np_field _ _ _ _ _ _ _ HN) m rb H1 H2 H3 H4 H5 H6 (P mod M) (P / M) E0 E1);
      try rewrite EP; try lia; auto; try (apply (gd_wf _ G)); try (split; auto)|].
    intros o d _ (S1 & C1 & R). split; [|split; auto]. intros w Hb Hs [K1 K2]. auto.
  Qed.

  Theorem C34_mod_mul_constant c x y : good c -> ptype c = Ultra rb -> elem_of c x -> (0 <= y < M * M)%Z ->
    in_range (witness c) x -> (value (witness c) x * y < M * M * P)%Z ->
    exists o c', mod_mul_constant zval q nb L x (mk_felem (fZ (y mod M)) (fZ (y / M)) m (fZ M)) pelem c = (Ok o, c') /\
      good c' /\ extends c c' /\ elem_of c' o /\
      (forall pub, accepts c (witness c) pub -> accepts c' (witness c') pub /\ in_range (witness c') o /\
        value (witness c') o = ((value (witness c') x * y) mod P)%Z) /\
      (forall c'' ws pub, extends c' c'' -> bounded c'' -> accepts c'' ws pub -> in_range ws x ->
        in_range ws o /\ (value ws o mod P = (value ws x * y) mod P)%Z).
  Proof.
    intros G Ht (X0 & X1 & X2 & X3) Hy Rx Hxy.
    destruct np_hyps as (H1 & H2 & H3 & H4 & H5 & H6 & H7 & H8). destruct P_split as (E0 & E1 & EP). pose proof np_ge2.
    assert (Y0 : (0 <= y mod M < M)%Z) by (apply Z.mod_pos_bound; lia).
    assert (Y1 : (0 <= y / M < M)%Z) by (split; [apply Z.div_pos; lia|apply Z.div_lt_upper_bound; lia]).
    assert (EY : (y mod M + M * (y / M))%Z = y) by (pose proof (Z.div_mod y M); lia).
    apply (mul_gadget c _ (fun w => small zval m w x) (fun w => (fval zval m w x * y)%Z) G); auto.
    pose proof (mod_mul_constant_spec zval q nb L (np_field _ _ _ _ _ _ _ HN) m rb H1 H2 H3 H4 H5 H6 (P mod M) (P / M) E0 E1) as Hs.
    rewrite EP in Hs. specialize (Hs ltac:(lia) H7 H8 c x _ _ (gd_wf _ G) Ht (conj X2 X3) (conj X0 X1) Y0 Y1 Rx). rewrite !EY in Hs.
    rewrite EP. apply Hs. exact Hxy.
  Qed.

  (** *** Sums: the exact set of limbs that a sum can return *)
  Definition limb_sum (ws : list K) (xs : list fv) : K := fsum (map (fun x => asg ws (v0 x) + fZ M * asg ws (v1 x)) xs).
  Definition sum_result (mm : circ K fv) (c : circuit K) (s : list K -> K) : Prop :=
    exists o c', mm c = (Ok o, c') /\ good c' /\ extends c c' /\ elem_of c' o /\
      (forall pub, accepts c (witness c) pub -> accepts c' (witness c') pub) /\
      (in_range (witness c') o /\ value (witness c') o = (zval (s (witness c)) mod P)%Z) /\
      forall ws pub a b, accepts c ws pub ->
        ((exists l, accepts c' (ws ++ l) pub /\ asg (ws ++ l) (v0 o) = a /\ asg (ws ++ l) (v1 o) = b) <->
         exists k, (0 <= k < B)%Z /\ a + fZ M * b = s ws - fZ P * fZ k).

  Lemma elems_ok c xs : Forall (elem_of c) xs -> Forall (fvok m) xs /\ Forall (fun x => fvout x (num_vars c)) xs.
  Proof. clear. intros H. split; eapply Forall_impl; try exact H; intros x (A & A' & A2 & A3); split; auto. Qed.

  Lemma vec_result c xs : good c -> ptype c = Ultra rb -> Forall (elem_of c) xs ->
    (zval (limb_sum (witness c) xs) < P * B)%Z ->
    sum_result (vars <- mapM convert_to_var xs ;; sum_tail zval q nb L m (P mod M) (P / M) vars) c (fun ws => limb_sum ws xs).
  Proof.
    intros G Ht He HB. destruct np_hyps as (H1 & H2 & H3 & H4 & H5 & H6 & H7 & H8). destruct P_split as (E0 & E1 & EP).
    destruct (elems_ok c xs He) as [Ho Hb].
    pose proof (vec_exact zval q nb L (np_field _ _ _ _ _ _ _ HN) m rb H1 H2 H3 H4 H5 H6 (P mod M) (P / M) E0 E1) as Hv. rewrite EP in Hv.
    destruct (Hv ltac:(lia) H7 H8 xs c G Ht Ho Hb HB) as (o & c' & E & G' & Ex & (O1 & O2) & (O3 & O4) & Cmp & (V1 & V2) & Hex).
    rewrite EP in V2. exists o, c'. split; [exact E|]. do 2 (split; [auto|]). split; [repeat split; auto|]. split; [auto|].
    split; [split; [exact V1|exact V2]|exact Hex].
  Qed.
  Theorem C34_mod_add_exact c x y : good c -> ptype c = Ultra rb -> elem_of c x -> elem_of c y ->
    (zval (limb_sum (witness c) [x; y]) < P * B)%Z ->
    sum_result (mod_add zval q nb L x y pelem) c (fun ws => limb_sum ws [x; y]).
  Proof.
    intros G Ht Hx Hy HB. destruct np_hyps as (H1 & H2 & H3 & H4 & H5 & H6 & H7 & H8). destruct P_split as (E0 & E1 & EP).
    pose proof (vec_result c [x; y] G Ht ltac:(auto) HB) as (o & c' & E & Hr). exists o, c'. split; [|exact Hr].
    destruct Hx as (X0 & X1 & X2 & X3). destruct Hy as (Y0 & Y1 & Y2 & Y3).
    rewrite <- E. apply (mod_add_eq zval q nb L m rb H1 H2 H3 H4 H5 (P mod M) (P / M) H8); repeat split; auto; apply (gd_wf _ G).
  Qed.
  Theorem C34_mod_add_vec_exact c xs : good c -> ptype c = Ultra rb -> Forall (elem_of c) xs ->
    (zval (limb_sum (witness c) xs) < P * B)%Z ->
    sum_result (mod_add_vec zval q nb L xs pelem) c (fun ws => limb_sum ws xs).
  Proof.
    intros G Ht He HB. destruct np_hyps as (H1 & H2 & H3 & H4 & H5 & H6 & H7 & H8).
    pose proof (vec_result c xs G Ht He HB) as (o & c' & E & Hr). exists o, c'. split; [|exact Hr].
    rewrite <- E. apply (mod_add_vec_eq zval q nb L m rb H1 H2 H3 H4 H5 (P mod M) (P / M) H8); auto; [apply (gd_wf _ G)|apply (elems_ok c xs He)].
  Qed.
  Theorem C34_mod_add_constant_exact c x y : good c -> ptype c = Ultra rb -> elem_of c x -> (0 <= y < M * M)%Z ->
    (zval (limb_sum (witness c) [x] + fZ y) < P * B)%Z ->
    sum_result (mod_add_constant zval q nb L x (mk_felem (fZ (y mod M)) (fZ (y / M)) m (fZ M)) pelem) c (fun ws => limb_sum ws [x] + fZ y).
  Proof.
    intros G Ht (X0 & X1 & X2 & X3) Hy HB. destruct np_hyps as (H1 & H2 & H3 & H4 & H5 & H6 & H7 & H8). destruct P_split as (E0 & E1 & EP). pose proof np_ge2.
    assert (EY : (y mod M + M * (y / M))%Z = y) by (pose proof (Z.div_mod y M); lia).
    assert (El : forall ws, limb_sum ws [x] = limbs_of m (asg ws) x) by (intros ws; unfold limb_sum, limbs_of; cbn [map]; rewrite fsum_cons; cbn; ring).
    pose proof (const_exact zval q nb L (np_field _ _ _ _ _ _ _ HN) m rb H1 H2 H3 H4 H5 H6 (P mod M) (P / M) E0 E1) as Hv. rewrite EP in Hv.
    specialize (Hv ltac:(lia) H7 H8 (y mod M)%Z (y / M)%Z x c G Ht (conj X2 X3) (conj X0 X1)). rewrite EY in Hv.
    destruct Hv as (o & c' & E & G' & Ex & ((O1 & O2) & (O3 & O4)) & Cmp & (V1 & V2) & (l & Hl) & Hex); [change (hon c) with (asg (witness c)); rewrite <- El; exact HB|].
    exists o, c'. split; [exact E|]. do 2 (split; [auto|]). split; [repeat split; auto|]. split; [auto|]. split.
    - split; [exact V1|]. rewrite El. rewrite EP in V2.
      replace (limbs_of m (asg (witness c)) x) with (limbs_of m (asg (witness c')) x); [exact V2|].
      apply (limbs_local m _ _ x (num_vars c) (conj X0 X1)). intros v Hv. unfold asg. rewrite Hl, app_nth1; [reflexivity|]. rewrite (wf_wit _ (gd_wf _ G)). exact Hv.
    - intros ws pub a b Ha. rewrite El. apply Hex. exact Ha.
  Qed.
  (** Negation: the limbs stand for [P - x] in the native field and are otherwise free. *)
  Theorem C34_mod_negate_exact c x : good c -> ptype c = Ultra rb -> elem_of c x -> (value (witness c) x < P)%Z ->
    exists o c', mod_negate zval nb x (fZ P) c = (Ok o, c') /\ good c' /\ extends c c' /\ elem_of c' o /\
      (forall pub, accepts c (witness c) pub -> accepts c' (witness c') pub) /\
      (in_range (witness c') o /\ value (witness c') o = (P - value (witness c) x)%Z) /\
      forall ws pub a b, accepts c ws pub ->
        ((exists l, accepts c' (ws ++ l) pub /\ asg (ws ++ l) (v0 o) = a /\ asg (ws ++ l) (v1 o) = b) <->
         a + fZ M * b = fZ P - limb_sum ws [x]).
  Proof.
    intros G Ht (X0 & X1 & X2 & X3) HX. destruct np_hyps as (H1 & H2 & H3 & H4 & H5 & H6 & H7 & H8). destruct P_split as (E0 & E1 & EP).
    assert (El : forall ws, limb_sum ws [x] = limbs_of m (asg ws) x) by (intros ws; unfold limb_sum, limbs_of; cbn [map]; rewrite fsum_cons; cbn; ring).
    pose proof (neg_exact zval q nb L (np_field _ _ _ _ _ _ _ HN) m rb H1 H2 H3 H4 H5 H6 (P mod M) (P / M) E0 E1) as Hv. rewrite EP in Hv.
    destruct (Hv ltac:(lia) H7 H8 x c G Ht (conj X2 X3) (conj X0 X1)) as (o & c' & E & G' & Ex & ((O1 & O2) & (O3 & O4)) & Cmp & (V1 & V2) & (l & Hl) & Hex); [exact HX|].
    exists o, c'. split; [exact E|]. do 2 (split; [auto|]). split; [repeat split; auto|]. split; [auto|]. split.
    - split; [exact V1|]. change (value (witness c') o) with (fval zval m (asg (witness c')) o). rewrite V2. f_equal.
      apply (fval_local zval m _ _ x (num_vars c) (conj X0 X1)). intros v Hv'. unfold asg. rewrite Hl, app_nth1; [reflexivity|]. rewrite (wf_wit _ (gd_wf _ G)). exact Hv'.
    - intros ws pub a b Ha. rewrite El. apply Hex. exact Ha.
  Qed.

  (** A sum is right when the caller also bounds the limbs of the result, which the
      code does not do. *)
  Theorem C34_mod_add_sound_partial c x y o c' ws pub l : good c -> ptype c = Ultra rb -> elem_of c x -> elem_of c y ->
    (zval (limb_sum (witness c) [x; y]) < P * B)%Z -> mod_add zval q nb L x y pelem c = (Ok o, c') ->
    accepts c ws pub -> accepts c' (ws ++ l) pub -> in_range ws x -> in_range ws y -> in_range (ws ++ l) o ->
    (value (ws ++ l) o mod P = (value ws x + value ws y) mod P)%Z.
  Proof.
    intros G Ht Hx Hy HB E Ha Hl Rx Ry Ro. destruct (C34_mod_add_exact c x y G Ht Hx Hy HB) as (o' & c1 & E' & _ & _ & _ & _ & _ & Hex).
    rewrite E in E'. injection E' as <- <-. destruct (proj1 (Hex ws pub _ _ Ha) (ex_intro _ l (conj Hl (conj eq_refl eq_refl)))) as (k & Hk & Ek).
    destruct np_hyps as (H1 & H2 & H3 & H4 & H5 & H6 & H7 & H8). pose proof np_ge2 as HM.
    pose proof (np_field _ _ _ _ _ _ _ HN) as HF.
    assert (EF : (fZ (value (ws ++ l) o) : K) = fZ (value ws x + value ws y - P * k)%Z).
    { unfold value. unfold limb_sum in Ek. cbn [map] in Ek. repeat rewrite ?fZ_sub, ?fZ_add, ?fZ_mul. rewrite !(pf_fZ _ _ _ _ _ HF).
      rewrite Ek. rewrite !fsum_cons. cbn. ring. }
    assert (Rg : forall w0 z, in_range w0 z -> (0 <= value w0 z < M * M)%Z).
    { intros w0 z [Z0 Z1]. unfold value. pose proof (proj1 (pf_range _ _ _ _ _ HF (asg w0 (v0 z)))). pose proof (proj1 (pf_range _ _ _ _ _ HF (asg w0 (v1 z)))). nia. }
    pose proof (Rg _ _ Rx). pose proof (Rg _ _ Ry). pose proof (Rg _ _ Ro).
    apply (fZ_inj_small zval q nb L HF) in EF.
    - rewrite EF. replace (value ws x + value ws y - P * k)%Z with (value ws x + value ws y + (- k) * P)%Z by ring. now rewrite Z.mod_add by lia.
    - assert (0 <= P * k)%Z by nia. assert (P * k < M * M * B)%Z by nia. nia.
  Qed.
  (** It is not forced: the high limb of a sum can be any field element, in every
      circuit. *)
  Theorem C34_mod_add_forged_refuted c x y : good c -> ptype c = Ultra rb -> elem_of c x -> elem_of c y ->
    (zval (limb_sum (witness c) [x; y]) < P * B)%Z ->
    exists o c', mod_add zval q nb L x y pelem c = (Ok o, c') /\
      forall ws pub (v : K), accepts c ws pub -> exists l, accepts c' (ws ++ l) pub /\ asg (ws ++ l) (v1 o) = v.
  Proof.
    intros G Ht Hx Hy HB. destruct (C34_mod_add_exact c x y G Ht Hx Hy HB) as (o & c1 & E & _ & _ & _ & _ & _ & Hex).
    exists o, c1. split; auto. intros ws pub v Ha.
    destruct (proj2 (Hex ws pub (limb_sum ws [x; y] - fZ M * v) v Ha)) as (l & Hl & _ & Hv); [|eauto].
    exists 0%Z. split; [split; [lia|apply Z.pow_pos_nonneg; lia]|]. change (fZ 0 : K) with (0 : K). ring.
  Qed.
  Theorem C34_mod_negate_forged_refuted c x : good c -> ptype c = Ultra rb -> elem_of c x -> (value (witness c) x < P)%Z ->
    exists o c', mod_negate zval nb x (fZ P) c = (Ok o, c') /\
      forall ws pub (v : K), accepts c ws pub -> exists l, accepts c' (ws ++ l) pub /\ asg (ws ++ l) (v1 o) = v.
  Proof.
    intros G Ht Hx HX. destruct (C34_mod_negate_exact c x G Ht Hx HX) as (o & c1 & E & _ & _ & _ & _ & _ & Hex).
    exists o, c1. split; auto. intros ws pub v Ha.
    destruct (proj2 (Hex ws pub (fZ P - limb_sum ws [x] - fZ M * v) v Ha)) as (l & Hl & _ & Hv); [ring|eauto].
  Qed.

  (** *** Powers and linear combinations *)
  Definition pow_result (mm : circ K fv) (c : circuit K) (x : fv) (e : Z) : Prop :=
    exists o c', mm c = (Ok o, c') /\ good c' /\ extends c c' /\ elem_of c' o /\
      (forall pub, accepts c (witness c) pub -> accepts c' (witness c') pub) /\
      (in_range (witness c') o /\ value (witness c') o = (value (witness c) x ^ e mod P)%Z) /\
      (forall c'' ws pub, extends c' c'' -> bounded c'' -> accepts c'' ws pub -> in_range ws x ->
        in_range ws o /\ (value ws o mod P = value ws x ^ e mod P)%Z).
  Lemma pow_gadget c mm x e : good c -> ptype c = Ultra rb ->
    pspec zval rb mm c (fun w o => small zval m w x -> small zval m w o /\ congr m (P mod M) (P / M) (fval zval m w o) (fval zval m w x ^ e))
      (fun o c' => ready zval m c' o (value (witness c) x ^ e mod (P mod M + M * (P / M)))%Z) ->
    pow_result mm c x e.
  Proof.
    intros G Ht (o & d & E & Pl & S1 & C1 & ((R3 & R4) & (R1 & R2) & V1 & V2)). destruct P_split as (E0 & E1 & EP).
    assert (Hg : gspec zval mm c (fun w o => small zval m w x -> small zval m w o /\ congr m (P mod M) (P / M) (fval zval m w o) (fval zval m w x ^ e)) (fun _ => True) (fun _ _ => True)).
    { exists o, d. split; auto. split; auto. rewrite Ht. split; [auto|]. split; [intros w Hb Hh _; apply C1; auto|]. auto. }
    destruct (gspec_gadget zval mm c _ (fun _ => True) _ G (fun _ _ _ H => H) Hg) as (o' & c' & E' & G' & Ex & HR' & _ & Hsnd & _ & Hcmp).
    rewrite E in E'. injection E' as <- <-. exists o, (capp c d). split; auto. split; auto. split; auto. split; [repeat split; auto|].
    split; [intros pub Ha; apply (Hcmp pub Ha I)|]. rewrite EP in V2. split; [split; [exact V1|exact V2]|].
    intros c'' ws pub Hx Hb Ha Hok. destruct (Hsnd c'' ws pub Hx Hb Ha Hok) as (V3 & V4). unfold congr in V4. rewrite EP in V4. split; [exact V3|exact V4].
  Qed.
  Theorem C34_power_5 tbits c x : good c -> ptype c = Ultra rb -> base (asg (witness c)) -> elem_of c x -> in_range (witness c) x ->
    (value (witness c) x * value (witness c) x < M * M * P)%Z -> (tbits < nb)%nat ->
    pow_result (non_native_power_5_gen zval q nb L P tbits x) c x 5.
  Proof.
    intros G Ht Hbs (X0 & X1 & X2 & X3) Rx HX Htb. destruct np_hyps as (H1 & H2 & H3 & H4 & H5 & H6 & H7 & H8). destruct P_split as (E0 & E1 & EP).
    apply pow_gadget; auto.
    pose proof (pow5_spec zval q nb L (np_field _ _ _ _ _ _ _ HN) m rb H1 H2 H3 H4 H5 H6 (P mod M) (P / M) E0 E1) as Hs. rewrite EP in *.
    apply (Hs ltac:(lia) H7 H8 P tbits c x (value (witness c) x)); auto; [apply (gd_wf _ G)|]. split; [split; auto|]. split; [split; auto|]. split; [exact Rx|reflexivity].
  Qed.
  Theorem C34_power_11 c x : good c -> ptype c = Ultra rb -> base (asg (witness c)) -> elem_of c x -> in_range (witness c) x ->
    (value (witness c) x * value (witness c) x < M * M * P)%Z ->
    pow_result (non_native_power_11_gen zval q nb L P x) c x 11.
  Proof.
    intros G Ht Hbs (X0 & X1 & X2 & X3) Rx HX. destruct np_hyps as (H1 & H2 & H3 & H4 & H5 & H6 & H7 & H8). destruct P_split as (E0 & E1 & EP).
    apply pow_gadget; auto.
    pose proof (pow11_spec zval q nb L (np_field _ _ _ _ _ _ _ HN) m rb H1 H2 H3 H4 H5 H6 (P mod M) (P / M) E0 E1) as Hs. rewrite EP in *.
    apply (Hs ltac:(lia) H7 H8 P c x (value (witness c) x)); auto; [apply (gd_wf _ G)|]. split; [split; auto|]. split; [split; auto|]. split; [exact Rx|reflexivity].
  Qed.

  (** A linear combination [x_1 e_1 + ... + x_n e_n + y]: the honest result, and what
      is enforced (its last two steps are sums, so the limbs are free as above). *)
  Theorem C34_linear tbits c xs ys y : good c -> ptype c = Ultra rb -> base (asg (witness c)) -> (tbits < nb)%nat ->
    (0 <= y < P)%Z -> (Z.of_nat (length xs) < B)%Z -> length xs = length ys ->
    Forall (fun xe => elem_of c (fst xe) /\ in_range (witness c) (fst xe) /\ (0 <= snd xe < M * M)%Z /\
      (value (witness c) (fst xe) * snd xe < M * M * P)%Z) (combine xs ys) ->
    let cst z := mk_felem (fZ (z mod M)) (fZ (z / M)) m (fZ M) : felem (K := K) in
    exists o c', non_native_linear_gen zval q nb L P tbits xs (map cst ys) (cst y) c = (Ok o, c') /\
      good c' /\ extends c c' /\ elem_of c' o /\
      (forall pub, accepts c (witness c) pub -> accepts c' (witness c') pub) /\
      (in_range (witness c') o /\
       value (witness c') o = ((zadd (map (fun xe => value (witness c) (fst xe) * snd xe) (combine xs ys)) + y) mod P)%Z) /\
      (forall c'' ws pub, extends c' c'' -> bounded c'' -> accepts c'' ws pub -> Forall (in_range ws) xs ->
        exists zs k, Forall2 (fun z xe => (0 <= z < M * M)%Z /\ (z mod P = (value ws (fst xe) * snd xe) mod P)%Z) zs (combine xs ys) /\
          (0 <= k < 2 * B)%Z /\ asg ws (v0 o) + fZ M * asg ws (v1 o) = fZ (zadd zs + y - P * k)).
  Proof.
    intros G Ht Hbs Htb Hy Hn Hlen HX cst. destruct np_hyps as (H1 & H2 & H3 & H4 & H5 & H6 & H7 & H8). destruct P_split as (E0 & E1 & EP). pose proof np_ge2 as HM.
    assert (Sp : forall z, (0 <= z < M * M)%Z -> (0 <= z mod M < M)%Z /\ (0 <= z / M < M)%Z /\ (z mod M + M * (z / M))%Z = z).
    { intros z Hz. split; [apply Z.mod_pos_bound; lia|]. split; [split; [apply Z.div_pos; lia|apply Z.div_lt_upper_bound; lia]|]. pose proof (Z.div_mod z M). lia. }
    destruct (Sp y ltac:(lia)) as (Y0 & Y1 & EY).
    set (XE := map (fun xe => (value (witness c) (fst xe), snd xe)) (combine xs ys)).
    pose proof (linear_spec zval q nb L (np_field _ _ _ _ _ _ _ HN) m rb H1 H2 H3 H4 H5 H6 (P mod M) (P / M) E0 E1) as Hs. rewrite EP in Hs.
    specialize (Hs ltac:(lia) H7 H8 (y mod M)%Z (y / M)%Z P tbits c xs (map cst ys) XE (gd_wf _ G) Ht Hbs eq_refl Htb Y0 Y1).
    rewrite EY in Hs. specialize (Hs ltac:(lia)). rewrite map_length in Hs. specialize (Hs Hlen Hn).
    assert (HF2 : Forall2 (fun (xe : fv * felem (K := K)) (z : Z * Z) => ready zval m c (fst xe) (fst z) /\ evok m (snd xe) (snd z) /\ (fst z * snd z < M * M * P)%Z)
      (combine xs (map cst ys)) XE).
    { unfold XE. clear -HX Hlen Sp. revert ys Hlen HX. induction xs as [|x xs IH]; intros [|e ys] Hlen HX; try discriminate; [constructor|].
      cbn [combine map] in *. inversion_clear HX as [|? ? HX1 HX']. cbn [fst snd] in HX1. destruct HX1 as ((A1 & A2 & A3 & A4) & R & Re & Hb). constructor; [|apply IH; auto].
      cbn [fst snd] in *. split; [|split; auto]. { split; [split; auto|]. split; [split; auto|]. split; [exact R|reflexivity]. }
      destruct (Sp e Re) as (B1 & B2 & B3). exists (e mod M)%Z, (e / M)%Z. repeat split; auto; lia. }
    destruct (Hs HF2) as (o & d & E & Pl & S1 & C1 & ((R3 & R4) & (R1 & R2) & V1 & V2)).
    set (mm := non_native_linear_gen zval q nb L P tbits xs (map cst ys) (cst y)) in *.
    change (esplit m (y mod M) (y / M)) with (cst y) in E. fold mm in E.
    assert (Hg : gspec zval mm c (fun w o => Forall (small zval m w) xs -> is_linear m rb (P mod M) (P / M) (y mod M) (y / M) w (combine (map (fval zval m w) xs) (map snd XE)) o)
      (fun _ => True) (fun _ _ => True)).
    { exists o, d. split; auto. split; auto. rewrite Ht. split; [auto|]. split; [intros w Hb Hh _; apply C1; auto|]. auto. }
    destruct (gspec_gadget zval mm c _ (fun _ => True) _ G (fun _ _ _ H => H) Hg) as (o' & c' & E' & G' & Ex & HR' & _ & Hsnd & _ & Hcmp).
    rewrite E in E'. injection E' as <- <-. exists o, (capp c d). split; [exact E|]. split; auto. split; auto. split; [repeat split; auto|].
    split; [intros pub Ha; apply (Hcmp pub Ha I)|]. split.
    - split; [exact V1|]. unfold XE in V2. rewrite map_map in V2. cbn [fst snd] in V2. exact V2.
    - intros c2 ws pub Hx Hb Ha Hok. destruct (Hsnd c2 ws pub Hx Hb Ha Hok) as (zs & k & Hz & Hk & Ek).
      exists zs, k. rewrite EY, EP in Ek. split; [|split; [exact Hk|exact Ek]].
      assert (Exe : combine (map (fval zval m (asg ws)) xs) (map snd XE) = map (fun xe => (value ws (fst xe), snd xe)) (combine xs ys)).
      { unfold XE. rewrite map_map. cbn [snd]. clear -Hlen. revert ys Hlen. induction xs as [|x xs IH]; intros [|e ys] Hlen; try discriminate; [reflexivity|].
        cbn [combine map fst snd]. f_equal. apply IH. now injection Hlen. }
      rewrite Exe in Hz. clear -Hz EP. remember (combine xs ys) as l eqn:El. clear El. revert zs Hz.
      induction l as [|xe l IH]; intros zs Hz; inversion Hz as [|z ? zs' ? (Q1 & Q2) Hz']; subst; constructor; [|apply IH; auto].
      split; auto. unfold congr in Q2. rewrite EP in Q2. exact Q2.
  Qed.
End C34.

(** ** Truncation *)
Section C73.
  Context {K : fld}.
  Variable zval : K -> Z.
  Variable q : Z.
  Variable nb L rb : nat.
  Hypothesis HF : pfield K zval q nb L.
  Hypothesis Hrb : (1 <= rb <= 31)%nat.
  Hypothesis Hrn : (rb < nb)%nat.
  Add Field Kc73 : (fth K).
  Notation accepts := (accepts zval).
  Notation p2 k := (2 ^ Z.of_nat k)%Z.
  (** A part of [k] bits has its range checked: [k] exceeds the size of the range table
      and is not a multiple of it. *)
  Definition checked (k : nat) : Prop := (rb < k)%nat /\ (k mod rb <> 0)%nat.
  (** What the gate lets through as the truncation [b] of [a] to [n] bits. *)
  Definition truncation (n : nat) (a b : K) : Prop :=
    (checked n -> (zval b < p2 n)%Z) /\
    (checked (nb - n) -> exists z, (0 <= z < p2 (nb - n))%Z /\ a = b + fZ (p2 n * z)).

  Lemma checked_iff k : checked k <-> (k - k mod rb <> 0)%nat /\ (k mod rb <> 0)%nat.
  Proof.
    clear -Hrb. unfold checked. pose proof (Nat.mod_upper_bound k rb ltac:(lia)). pose proof (Nat.mod_le k rb ltac:(lia)).
    destruct (Nat.lt_ge_cases k rb) as [H'|H']; [rewrite (Nat.mod_small k rb H'); lia|].
    destruct (Nat.eq_dec k rb) as [->|]; [rewrite Nat.mod_same by lia; lia|]. lia.
  Qed.
  Lemma truncation_iff n a b : truncation n a b <-> trunc_ok zval nb rb n a b.
  Proof.
    unfold truncation, trunc_ok. rewrite !checked_iff. split; intros [H1 H2]; split; intros; try apply H1; try apply H2; tauto.
  Qed.

  Theorem C73_truncate_gate_exact n c a b : (1 <= n < nb)%nat -> good c -> ptype c = Ultra rb -> (a < num_vars c)%nat -> (b < num_vars c)%nat ->
    (zval (asg (witness c) b) < p2 n)%Z -> (zval (asg (witness c) b) <= zval (asg (witness c) a))%Z ->
    exists c', truncate_gate zval q nb L a b n c = (Ok tt, c') /\ good c' /\ extends c c' /\
      (forall pub, accepts c (witness c) pub -> ((zval (asg (witness c) a) - zval (asg (witness c) b)) mod p2 n = 0)%Z -> accepts c' (witness c') pub) /\
      forall ws pub, accepts c ws pub -> ((exists l, accepts c' (ws ++ l) pub) <-> truncation n (asg ws a) (asg ws b)).
  Proof.
    intros Hn G Ht Ha Hb Hbn Hba. destruct (gate_exact_trunc zval q nb L HF rb Hrb Hrn n Hn c a b G Ht Ha Hb Hbn Hba) as (c' & E & G' & Ex & Hc & Hx).
    exists c'. do 4 (split; [auto|]). intros ws pub Hacc. rewrite truncation_iff. auto.
  Qed.
  Theorem C73_truncate_exact n c a : (1 <= n < nb)%nat -> good c -> ptype c = Ultra rb -> (a < num_vars c)%nat ->
    exists b c', truncate zval q nb L a n c = (Ok b, c') /\ good c' /\ extends c c' /\ (b < num_vars c')%nat /\
      (forall pub, accepts c (witness c) pub -> accepts c' (witness c') pub) /\
      zval (asg (witness c') b) = (zval (asg (witness c) a) mod p2 n)%Z /\
      forall ws pub v, accepts c ws pub -> ((exists l, accepts c' (ws ++ l) pub /\ asg (ws ++ l) b = v) <-> truncation n (asg ws a) v).
  Proof.
    intros Hn G Ht Ha. destruct (truncate_exact_trunc zval q nb L HF rb Hrb Hrn n Hn c a G Ht Ha) as (b & c' & E & G' & Ex & Hb & Hc & Hv & Hx).
    exists b, c'. do 6 (split; [auto|]). intros ws pub v Hacc. rewrite truncation_iff. auto.
  Qed.
  (** Truncating a value of which the claimed truncation is larger panics, and a claimed
      truncation of more than [n] bits is an error. *)
  Theorem C73_truncate_gate_rejects n c a b : (1 <= n < nb)%nat -> good c -> ptype c = Ultra rb -> (a < num_vars c)%nat -> (b < num_vars c)%nat ->
    ((p2 n <= zval (asg (witness c) b))%Z -> fst (truncate_gate zval q nb L a b n c) = Err ParameterError) /\
    ((zval (asg (witness c) b) < p2 n)%Z -> (zval (asg (witness c) a) < zval (asg (witness c) b))%Z ->
      fst (truncate_gate zval q nb L a b n c) = Panic).
  Proof.
    intros Hn G Ht Ha Hb. pose proof (gd_wf _ G) as W.
    assert (Es : support_lookup c = true) by (unfold support_lookup; now rewrite Ht).
    assert (Er : range_bit_len c = Ok rb) by (unfold range_bit_len; now rewrite Ht).
    unfold truncate_gate. unfold cbind, lift, check_var_bound. rewrite Es. cbn [negb].
    assert (Ea : (num_vars c <=? a)%nat = false) by (apply Nat.leb_gt; exact Ha).
    assert (Eb : (num_vars c <=? b)%nat = false) by (apply Nat.leb_gt; exact Hb).
    unfold lift. cbv beta iota. rewrite Ea. cbv beta iota. rewrite Eb. cbv beta iota. rewrite (get_wit c a W Ha), (get_wit c b W Hb). rewrite (zval_pow zval q nb L HF n) by lia.
    change (hon c a) with (asg (witness c) a). change (hon c b) with (asg (witness c) b).
    split.
    - intros H'. destruct (Z.leb_spec (p2 n) (zval (asg (witness c) b))); [reflexivity|lia].
    - intros H' H2'. destruct (Z.leb_spec (p2 n) (zval (asg (witness c) b))); [lia|].
      destruct (Nat.leb_spec nb n); [lia|]. cbn [fst snd]. rewrite Er. destruct (Nat.eqb_spec rb 0); [lia|].
      destruct (Z.ltb_spec (zval (asg (witness c) a)) (zval (asg (witness c) b))); [reflexivity|lia].
  Qed.

  (** When both parts are checked the truncation is that of [a] or that of [a + q], and
      the latter only when [a + q] still has [nb] bits. *)
  Theorem C73_truncate_partial n a b : (1 <= n < nb)%nat -> checked n -> checked (nb - n) ->
    truncation n a b <->
      (zval b = zval a mod p2 n \/ zval a + q < p2 nb /\ zval b = (zval a + q) mod p2 n)%Z.
  Proof.
    intros Hn H1 H2. pose proof (pf_range _ _ _ _ _ HF) as Rg. pose proof (pf_lo _ _ _ _ _ HF) as Lo. pose proof (pf_hi _ _ _ _ _ HF) as Hi.
    assert (E2 : (p2 nb = 2 * 2 ^ (Z.of_nat nb - 1))%Z) by (rewrite <- (Z.pow_succ_r 2); [f_equal; lia|lia]).
    assert (En : (p2 nb = p2 n * p2 (nb - n))%Z) by (rewrite <- Z.pow_add_r by lia; f_equal; lia).
    assert (Pn : (0 < p2 n)%Z) by (apply Z.pow_pos_nonneg; lia). assert (Pd : (0 < p2 (nb - n))%Z) by (apply Z.pow_pos_nonneg; lia).
    pose proof (Rg a) as Ra. pose proof (Rg b) as Rb'. unfold truncation. split.
    - intros [Hb Hz]. specialize (Hb H1). destruct (Hz H2) as (z & Rz & Ea).
      assert (Eq : (zval a = (zval b + p2 n * z) mod q)%Z).
      { rewrite Ea. rewrite <- (pf_fZ _ _ _ _ _ HF b) at 1. rewrite <- fZ_add. apply (pf_zval _ _ _ _ _ HF). }
      assert (Rs : (0 <= zval b + p2 n * z < p2 nb)%Z) by (rewrite En; nia).
      assert (Em : forall t, (t = zval b + p2 n * z)%Z -> (zval b = t mod p2 n)%Z).
      { intros t ->. rewrite (Z.mul_comm (p2 n)), Z.mod_add by lia. symmetry. apply Z.mod_small. lia. }
      destruct (Z.lt_ge_cases (zval b + p2 n * z) q).
      + rewrite Z.mod_small in Eq by lia. left. apply Em. exact Eq.
      + assert (Eq' : (zval b + p2 n * z = zval a + q)%Z).
        { rewrite Eq. rewrite (Z.mod_eq _ q) by lia. replace ((zval b + p2 n * z) / q)%Z with 1%Z; [ring|]. apply Z.div_unique with (zval b + p2 n * z - q)%Z; lia. }
        right. split; [lia|]. apply Em. lia.
    - assert (Dv : forall t, (0 <= t < p2 nb)%Z -> (0 <= t / p2 n < p2 (nb - n))%Z) by (intros t Rt; split; [apply Z.div_pos; lia|apply Z.div_lt_upper_bound; lia]).
      assert (Fin : forall t, (0 <= t < p2 nb)%Z -> (t mod q = zval a)%Z -> (zval b = t mod p2 n)%Z ->
        (zval b < p2 n)%Z /\ exists z, (0 <= z < p2 (nb - n))%Z /\ a = b + fZ (p2 n * z)).
      { intros t Rt Et Eb. split; [rewrite Eb; apply Z.mod_pos_bound; lia|]. exists (t / p2 n)%Z. split; [auto|].
        rewrite <- (pf_fZ _ _ _ _ _ HF b). rewrite <- fZ_add. rewrite Eb, Z.add_comm, <- Z.div_mod by lia.
        rewrite <- (pf_fZ _ _ _ _ _ HF (fZ t)), (pf_zval _ _ _ _ _ HF), Et. symmetry. apply (pf_fZ _ _ _ _ _ HF). }
      intros [Eb|[Ht Eb]].
      + destruct (Fin (zval a) ltac:(lia) ltac:(apply Z.mod_small; lia) Eb) as [F1 F2]. split; auto.
      + destruct (Fin (zval a + q)%Z ltac:(lia) ltac:(replace (zval a + q)%Z with (zval a + 1 * q)%Z by ring; rewrite Z.mod_add by lia; apply Z.mod_small; lia) Eb) as [F1 F2]. split; auto.
  Qed.
  (** When neither part is checked every value is let through, and when [n] is a multiple
      of the table size the value itself, and every [a - 2^n z]. *)
  Theorem C73_unchecked_refuted n a b : ~ checked n -> ~ checked (nb - n) -> truncation n a b.
  Proof. intros H1 H2. split; intros; contradiction. Qed.
  Theorem C73_aligned_refuted n a z : (1 <= n < nb)%nat -> ~ checked n -> (0 <= z < p2 (nb - n))%Z ->
    truncation n a (a - fZ (p2 n * z)).
  Proof. intros Hn H1 Hz. split; [contradiction|]. intros _. exists z. split; auto. ring. Qed.
End C73.
(** The sizes that occur: truncation to 248 bits in the transcript gadget, whose field
    has 377 bits.  With a table of 16 bits both parts are checked; with one of 8 bits the
    result is not; and over the 254- and 255-bit fields nothing is. *)
Theorem C73_transcript_sizes :
  (checked 16 248 /\ checked 16 (377 - 248)) /\ ~ checked 8 248 /\ ~ checked 8 (254 - 248) /\ ~ checked 8 (255 - 248).
Proof. unfold checked. split; [split; split; try lia; vm_compute; discriminate|]. repeat split; intros [H1 H2]; try lia; apply H2; reflexivity. Qed.

(** ** Instances *)
Lemma prime_131 : prime 131. Proof. apply primeb_prime. vm_compute. reflexivity. Qed.
Definition F131 : fld := Zp 131 prime_131.
Definition z131 : F131 -> Z := zv 131.
Definition e131 (z : Z) : F131 := zmk 131 z.
Lemma F131_pfield : pfield F131 z131 131 8 64.
Proof. apply Zp_pfield; cbn; lia. Qed.
(** Elements modulo 13 in two limbs of two bits, a table of two bits. *)
Theorem C34_instance_params : nn_params F131 z131 131 8 64 2 2 /\ (0 < 13 < 2 ^ Z.of_nat 2 * 2 ^ Z.of_nat 2)%Z.
Proof. split; [|cbn; lia]. split; try (cbn; lia). apply F131_pfield. Qed.
Definition p13 : felem (K := F131) := mk_felem (e131 1) (e131 3) 2 (e131 4).
Definition nn_inputs (x y : Z) : circ F131 (fvar (K := F131) * fvar (K := F131)) :=
  a <- fvar_new_from_field_element z131 131 8 64 (e131 x) 2 None ;;
  b <- fvar_new_from_field_element z131 131 8 64 (e131 y) 2 None ;; ret (a, b).
Definition nn_circuit : circuit F131 := snd (nn_inputs 5 7 (new_circuit F131 (Ultra 2))).
Definition fx : fvar (K := F131) := mk_fvar 2 3 2 (e131 4).
Definition fy : fvar (K := F131) := mk_fvar 6 7 2 (e131 4).
Lemma new_circuit_good (K : fld) t : good (new_circuit K t).
Proof. split; try reflexivity; split; try reflexivity; cbn; try lia; repeat constructor; cbn; lia. Qed.
Lemma nn_circuit_good : good nn_circuit /\ ptype nn_circuit = Ultra 2.
Proof.
  destruct C34_instance_params as [HN HP]. unfold nn_circuit, nn_inputs. unfold cbind.
  destruct (C34_new z131 131 8 64 2 2 HN 13 HP (new_circuit F131 (Ultra 2)) (e131 5) (new_circuit_good _ _) eq_refl) as (x & c1 & E1 & G1 & X1 & _).
  rewrite E1. assert (T1 : ptype c1 = Ultra 2) by (rewrite (ex_type _ _ X1); reflexivity).
  destruct (C34_new z131 131 8 64 2 2 HN 13 HP c1 (e131 7) G1 T1) as (y & c2 & E2 & G2 & X2 & _). rewrite E2. cbn [ret fst snd].
  split; auto. rewrite (ex_type _ _ X2). exact T1.
Qed.

(** The hypotheses of the theorems above hold of this circuit, with the elements 5 and 7. *)
Theorem C34_instance : good nn_circuit /\ ptype nn_circuit = Ultra 2 /\ base (asg (witness nn_circuit)) /\
  elem_of 2 nn_circuit fx /\ elem_of 2 nn_circuit fy /\
  in_range z131 2 (witness nn_circuit) fx /\ in_range z131 2 (witness nn_circuit) fy /\
  value z131 2 (witness nn_circuit) fx = 5%Z /\ value z131 2 (witness nn_circuit) fy = 7%Z /\
  pelem (K := F131) 2 13 = p13 /\ (z131 (limb_sum 2 (witness nn_circuit) [fx; fy]) < 13 * 2 ^ Z.of_nat 2)%Z /\
  accepts z131 nn_circuit (witness nn_circuit) [].
Proof.
  destruct nn_circuit_good as [G T].
  assert (EF : forall x y : F131, feqb x y = true -> x = y) by (intros x y; apply feqb_eq).
  split; [exact G|]. split; [exact T|]. split; [split; apply EF; vm_compute; reflexivity|].
  split; [split; [|split; [|split; [reflexivity|apply EF; vm_compute; reflexivity]]]; apply Nat.ltb_lt; vm_compute; reflexivity|].
  split; [split; [|split; [|split; [reflexivity|apply EF; vm_compute; reflexivity]]]; apply Nat.ltb_lt; vm_compute; reflexivity|].
  split; [split; vm_compute; reflexivity|]. split; [split; vm_compute; reflexivity|].
  split; [vm_compute; reflexivity|]. split; [vm_compute; reflexivity|].
  split; [unfold pelem, p13; f_equal; apply EF; vm_compute; reflexivity|].
  split; [vm_compute; reflexivity|]. split; vm_compute; reflexivity.
Qed.
(** *** The product of a sum is not forced
    The limbs of a sum are not range checked, and a product trusts them: the circuit
    for [(5 + 7) * 7] modulo 13 accepts 7, where the product is 6. *)
Definition sum_product : circ F131 (fvar (K := F131) * fvar (K := F131)) :=
  s <- mod_add z131 131 8 64 fx fy p13 ;; o <- mod_mul z131 131 8 64 s fy p13 ;; ret (s, o).
Definition forged : list F131 := map e131
  [0; 1; 1; 1; 1; 1; 3; 1; 3; 1; 5; 7; 1; 1; 130; 2; 0; 0; 2; 0; 2; 86; 11; 1; 2; 3; 1; 6; 13; 1; 2; 3; 1; 2; 1; 1; 3; 119; 5]%Z.
Theorem C34_sum_then_product_refuted : exists s o c', sum_product nn_circuit = (Ok (s, o), c') /\
  accepts z131 c' forged [] /\ in_range z131 2 forged fx /\ in_range z131 2 forged fy /\
  value z131 2 forged fx = 5%Z /\ value z131 2 forged fy = 7%Z /\ in_range z131 2 forged o /\
  (value z131 2 forged o mod 13 <> ((5 + 7) * 7) mod 13)%Z.
Proof.
  exists (fst (okv (fx, fy) (fst (sum_product nn_circuit)))), (snd (okv (fx, fy) (fst (sum_product nn_circuit)))), (snd (sum_product nn_circuit)).
  split.
  { rewrite <- surjective_pairing. apply okv_eq. vm_compute. reflexivity. }
  split; [split; vm_compute; reflexivity|]. do 2 (split; [split; vm_compute; reflexivity|]). do 2 (split; [vm_compute; reflexivity|]).
  split; [split; vm_compute; reflexivity|]. vm_compute. discriminate.
Qed.
(** The negation of zero has the value of the modulus, which is not the canonical
    representative, and the sum of an element and its negation is a multiple of it. *)
Theorem C34_negate_zero : exists o c', mod_negate z131 8 (mk_fvar 0 0 2 (e131 4)) (e131 13) nn_circuit = (Ok o, c') /\
  value z131 2 (witness c') o = 13%Z.
Proof.
  exists (okv fx (fst (mod_negate z131 8 (mk_fvar 0 0 2 (e131 4)) (e131 13) nn_circuit))), (snd (mod_negate z131 8 (mk_fvar 0 0 2 (e131 4)) (e131 13) nn_circuit)).
  split; [apply okv_eq; vm_compute; reflexivity|vm_compute; reflexivity].
Qed.
(** Truncation over the same field: to three bits both parts are checked, to four the
    result is not.  The value 100 truncated to four bits is 4; the circuit accepts 100. *)
Definition t_circuit : circuit F131 := snd (create_variable (e131 100) (new_circuit F131 (Ultra 2))).
Theorem C73_instance : good t_circuit /\ ptype t_circuit = Ultra 2 /\ checked 2 3 /\ checked 2 (8 - 3) /\ ~ checked 2 4 /\
  accepts z131 t_circuit (witness t_circuit) [].
Proof.
  split. { split; try reflexivity; split; try reflexivity; cbn; try lia; repeat constructor; cbn; lia. }
  split; [reflexivity|]. unfold checked. split; [split; [lia|vm_compute; discriminate]|]. split; [split; [lia|vm_compute; discriminate]|].
  split; [intros [_ H]; apply H; reflexivity|]. split; vm_compute; reflexivity.
Qed.
Theorem C73_not_truncated_refuted : exists b c' l, truncate z131 131 8 64 2 4 t_circuit = (Ok b, c') /\
  accepts z131 c' (witness t_circuit ++ l) [] /\ z131 (asg (witness t_circuit ++ l) 2) = 100%Z /\ z131 (asg (witness t_circuit ++ l) b) = 100%Z.
Proof.
  destruct C73_instance as (G & T & _ & _ & Hn & Ha).
  destruct (C73_truncate_exact z131 131 8 64 2 F131_pfield ltac:(lia) ltac:(lia) 4 t_circuit 2 ltac:(lia) G T ltac:(cbn; lia)) as (b & c' & E & _ & _ & _ & _ & _ & Hx).
  destruct (proj2 (Hx (witness t_circuit) [] (asg (witness t_circuit) 2) Ha)) as (l & Hl & Hv).
  { replace (asg (witness t_circuit) 2) with (asg (witness t_circuit) 2 - fZ (2 ^ Z.of_nat 4 * 0) : F131) at 2 by (apply feqb_eq; vm_compute; reflexivity).
    apply (C73_aligned_refuted z131 8 2 4); [lia|exact Hn|cbn; lia]. }
  exists b, c', l. split; [exact E|]. split; [exact Hl|]. rewrite Hv. split; [|vm_compute; reflexivity].
  unfold asg. rewrite app_nth1 by (cbn; lia). vm_compute. reflexivity.
Qed.

Print Assumptions C34_modulus.
Print Assumptions C34_new.
Print Assumptions C34_mod_mul.
Print Assumptions C34_mod_mul_constant.
Print Assumptions C34_mod_add_exact.
Print Assumptions C34_mod_add_vec_exact.
Print Assumptions C34_mod_add_constant_exact.
Print Assumptions C34_mod_negate_exact.
Print Assumptions C34_mod_add_sound_partial.
Print Assumptions C34_mod_add_forged_refuted.
Print Assumptions C34_mod_negate_forged_refuted.
Print Assumptions C34_power_5.
Print Assumptions C34_power_11.
Print Assumptions C34_linear.
Print Assumptions C34_instance.
Print Assumptions C34_sum_then_product_refuted.
Print Assumptions C34_negate_zero.
Print Assumptions C73_truncate_gate_exact.
Print Assumptions C73_truncate_exact.
Print Assumptions C73_truncate_gate_rejects.
Print Assumptions C73_truncate_partial.
Print Assumptions C73_unchecked_refuted.
Print Assumptions C73_aligned_refuted.
Print Assumptions C73_transcript_sizes.
Print Assumptions C73_not_truncated_refuted.
