(** How the calls on two-limb elements compose in the verifier circuit: the values of
    the elements in the scalar field, for every satisfying assignment that keeps the
    unchecked limbs in range, and for the honest one. *)

From Coq Require Import List Arith ZArith Bool Lia Ring Field.
From Verif Require Import Base ListAux Alg Poly CircuitModel CircuitProofs GadgetModel GadgetProofs RangeProofs BitProofs
  RangeLookup CmpProofs ModArithModel ModArithProofs EccModel KzgModel PlonkVerifierModel.
Import ListNotations.
Local Open Scope fld_scope.
Local Open Scope circ_scope.

Section Ops.
  Context {K Fr : fld}.
  Variable zval : K -> Z.
  Variable q : Z.
  Variable nb L : nat.
  Hypothesis HF : pfield K zval q nb L.
  Add Field Kpvo : (fth K).
  Add Field Frpvo : (fth Fr).
  Notation dsat := (dsat zval).
  Notation fv := (fvar (K := K)).
  Variable m rb : nat.
  Notation M := (2 ^ Z.of_nat m)%Z.
  Notation B := (2 ^ Z.of_nat rb)%Z.
  Hypothesis Hm : (1 <= m)%nat.
  Hypothesis Hm2 : (m <= nb / 2)%nat.
  Hypothesis Hrb : (1 <= rb <= 31)%nat.
  Hypothesis Hrn : (rb < nb)%nat.
  Hypothesis Hmr : (m mod rb = 0)%nat.
  Hypothesis HMq : (M * M < q)%Z.
  Variables p0 p1 : Z.
  Notation P := (p0 + M * p1)%Z.
  Hypothesis Hp0 : (0 <= p0 < M)%Z.
  Hypothesis Hp1 : (0 <= p1 < M)%Z.
  Hypothesis HP : (0 < P)%Z.
  Hypothesis Hq : (M * M * (B + 4) <= q)%Z.
  Hypothesis Hrb2 : (2 <= rb)%nat.
  Variable zr : Fr -> Z.
  Variables tb tL : nat.
  Hypothesis HFr : pfield Fr zr P tb tL.
  Variable two : option K.
  Hypothesis Htwo : two_pow m two = fZ M.
  Notation small := (small zval m).
  Notation fval := (fval zval m).
  Notation esplit := (esplit m).
  Notation fvok := (fvok m).
  Notation limbs_of := (limbs_of m).

  Lemma o_M : (2 <= M)%Z. Proof. apply (M_ge nb m rb); auto. Qed.
  Lemma o_B : (4 <= B)%Z. Proof. apply (B_ge4 nb m rb); auto. Qed.
  Lemma o_PM : (P < M * M)%Z. Proof. pose proof o_M. nia. Qed.
  Lemma o_small_range w x : small w x -> (0 <= fval w x < M * M)%Z.
  Proof. apply (small_range zval q nb L HF m rb Hm Hm2 Hrb Hrn Hmr p0 Hp0 Hrb2). Qed.

  (** ** Values in the scalar field *)
  Lemma frP : (fZ P : Fr) = 0.
  Proof.
    rewrite <- (pf_fZ _ _ _ _ _ HFr (fZ P)), (pf_zval _ _ _ _ _ HFr), Z.mod_same by lia. reflexivity.
  Qed.
  Lemma fr_mod a : (fZ (a mod P) : Fr) = fZ a.
  Proof. transitivity (fZ (P * (a / P) + a mod P)%Z : Fr); [rewrite fZ_add, fZ_mul, frP; ring|]. f_equal. symmetry. apply Z.div_mod. lia. Qed.
  Lemma fr_congr a b : congr m p0 p1 a b -> (fZ a : Fr) = fZ b.
  Proof. unfold congr. intro H. rewrite <- (fr_mod a), H. apply fr_mod. Qed.
  Lemma fr_inj a b : (0 <= a < P)%Z -> (0 <= b < P)%Z -> (fZ a : Fr) = fZ b -> a = b.
  Proof.
    intros Ha Hb E. apply (f_equal zr) in E. rewrite !(pf_zval _ _ _ _ _ HFr), !Z.mod_small in E; auto.
  Qed.
  (** The value of an element under an assignment. *)
  Definition V (w : nat -> K) (x : fv) : Fr := fZ (fval w x).
  Lemma fr_zadd l : (fZ (zadd l) : Fr) = fsum (map fZ l).
  Proof. induction l as [|z l IH]; [reflexivity|]. cbn [zadd fold_right map]. rewrite fsum_cons, fZ_add. fold (zadd l). now rewrite IH. Qed.

  (** ** Circuits under construction *)
  Definition st (c : circuit K) : Prop := wf c /\ ptype c = Ultra rb /\ base (hon c).
  Definition le (c c' : circuit K) : Prop := exists d, plain (num_vars c) d /\ c' = capp c d.
  Definition inb (c : circuit K) (x : fv) : Prop := fvok x /\ fvout x (num_vars c) /\ small (hon c) x.
  Definition can (c : circuit K) (x : fv) : Prop := inb c x /\ (fval (hon c) x < P)%Z.
  Definition pin (c : circuit K) (p : pvar) : Prop := (fst p < num_vars c)%nat /\ (snd p < num_vars c)%nat.
  Lemma le_refl c : le c c.
  Proof. exists dnil. rewrite capp_nil. split; auto using plain_nil. Qed.
  Lemma le_trans c c' c'' : le c c' -> le c' c'' -> le c c''.
  Proof.
    intros (d & Pd & ->) (d' & Pd' & ->). exists (dcat d d'). rewrite capp_cat. split; auto.
    apply plain_cat; auto.
  Qed.
  Lemma le_capp c d : plain (num_vars c) d -> le c (capp c d).
  Proof. exists d; auto. Qed.
  Lemma st_le c c' : st c -> le c c' -> st c'.
  Proof.
    intros (Hw & Ht & Hb) (d & Pd & ->). split; [now apply wf_capp|]. split; [exact Ht|]. apply base_capp; auto.
  Qed.
  Lemma hext_le c c' w : st c -> le c c' -> hext c' w -> hext c w.
  Proof. intros (Hw & _) (d & Pd & ->) H. apply (hext_app1 c d w Hw H). Qed.
  Lemma fvout_le c c' (x : fv) : le c c' -> fvout x (num_vars c) -> fvout x (num_vars c').
  Proof. intros (d & _ & ->) [H H']. split; cbn [capp num_vars]; lia. Qed.
  Lemma fval_hext c w x : fvout x (num_vars c) -> hext c w -> fval w x = fval (hon c) x.
  Proof. intros [H H'] Hh. unfold ModArithProofs.fval. now rewrite !Hh. Qed.
  Lemma small_hext c w x : fvout x (num_vars c) -> hext c w -> small (hon c) x -> small w x.
  Proof. intros [H H'] Hh. unfold ModArithProofs.small. now rewrite !Hh. Qed.
  Lemma inb_le c c' x : st c -> le c c' -> inb c x -> inb c' x.
  Proof.
    intros Hs Hl (A1 & A2 & A3). pose proof (hext_le _ _ _ Hs Hl (hext_hon c')) as Hh.
    split; auto. split; [eapply fvout_le; eauto|]. apply (small_hext c); auto.
  Qed.
  Lemma can_le c c' x : st c -> le c c' -> can c x -> can c' x.
  Proof.
    intros Hs Hl [A1 A2]. split; [eapply inb_le; eauto|].
    rewrite (fval_hext c); [exact A2|apply A1|]. apply (hext_le _ _ _ Hs Hl (hext_hon c')).
  Qed.
  Lemma pin_le c c' p : le c c' -> pin c p -> pin c' p.
  Proof. intros (d & _ & ->) [H H']. split; cbn [capp num_vars]; lia. Qed.
  Lemma can_small c w x : can c x -> hext c w -> small w x.
  Proof. intros [(A1 & A2 & A3) _] Hh. apply (small_hext c); auto. Qed.
  Lemma inb_small c w x : inb c x -> hext c w -> small w x.
  Proof. intros (A1 & A2 & A3) Hh. apply (small_hext c); auto. Qed.
  Lemma can_rng c x : can c x -> (0 <= fval (hon c) x < P)%Z.
  Proof. intros [(A1 & A2 & A3) H]. pose proof (o_small_range _ _ A3). lia. Qed.
  Lemma can_V c x y w : can c x -> can c y -> hext c w -> V w x = V w y -> fval (hon c) x = fval (hon c) y.
  Proof.
    intros Hx Hy Hh E. unfold V in E. rewrite (fval_hext c w x (proj1 (proj2 (proj1 Hx))) Hh), (fval_hext c w y (proj1 (proj2 (proj1 Hy))) Hh) in E.
    apply fr_inj; [apply can_rng; exact Hx|apply can_rng; exact Hy|exact E].
  Qed.
  Lemma cans_le c c' l : st c -> le c c' -> Forall (can c) l -> Forall (can c') l.
  Proof. intros Hs Hl. apply Forall_impl. intro x. apply can_le; auto. Qed.
  Lemma cans_small c w l : Forall (can c) l -> hext c w -> Forall (small w) l.
  Proof. intros H Hh. eapply Forall_impl; [|exact H]. intros x Hx. eapply can_small; eauto. Qed.

  (** ** Calls *)
  Definition uspec {A} (mm : circ K A) (c : circuit K) (S : (nat -> K) -> A -> Prop) (R : A -> circuit K -> Prop) : Prop :=
    wpc mm c (fun a d => exists us, Forall (inb (capp c d)) us /\
      (forall w, base w -> dsat (Ultra rb) w d -> Forall (small w) us -> S w a) /\
      (forall w, base w -> hext (capp c d) w -> dsat (Ultra rb) w d) /\ R a (capp c d)).

  Lemma u_weaken {A} (mm : circ K A) c (S S' : (nat -> K) -> A -> Prop) (R R' : A -> circuit K -> Prop) :
    uspec mm c S R -> (forall w a, base w -> S w a -> S' w a) -> (forall a c', le c c' -> R a c' -> R' a c') -> uspec mm c S' R'.
  Proof.
    intros (a & d & E & Pd & us & U1 & U2 & U3 & U4) HS HR. exists a, d. do 2 (split; [assumption|]).
    exists us. split; auto. split; [auto|]. split; auto. apply HR; auto. apply le_capp; auto.
  Qed.
  (** What the honest assignment satisfies. *)
  Lemma u_honest {A} (mm : circ K A) c (S : (nat -> K) -> A -> Prop) (R : A -> circuit K -> Prop) : st c -> uspec mm c S R ->
    uspec mm c S (fun a c' => R a c' /\ forall w, base w -> hext c' w -> S w a).
  Proof.
    intros Hs (a & d & E & Pd & us & U1 & U2 & U3 & U4). exists a, d. do 2 (split; [assumption|]).
    exists us. do 3 (split; [assumption|]). split; auto. intros w Hb Hh. apply U2; auto.
    rewrite Forall_forall in *. intros x Hx. apply (inb_small (capp c d)); auto.
  Qed.
  Lemma u_bind {A A'} (mm : circ K A) (f : A -> circ K A') c (S1 : (nat -> K) -> A -> Prop) (R1 : A -> circuit K -> Prop) (S : (nat -> K) -> A' -> Prop) (R : A' -> circuit K -> Prop) : st c -> uspec mm c S1 R1 ->
    (forall a c', st c' -> le c c' -> R1 a c' -> (forall w, base w -> hext c' w -> S1 w a) ->
      uspec (f a) c' (fun w b => S1 w a -> S w b) R) ->
    uspec (x <- mm ;; f x) c S R.
  Proof.
    intros Hs H Hf. apply (u_honest _ _ _ _ Hs) in H. destruct H as (a & d & E & Pd & us & U1 & U2 & U3 & U4 & U5).
    assert (Hl : le c (capp c d)) by (apply le_capp; auto).
    assert (Hs' : st (capp c d)) by (eapply st_le; eauto).
    destruct (Hf a (capp c d) Hs' Hl U4 U5) as (b & d' & E' & Pd' & us' & W1 & W2 & W3 & W4).
    exists b, (dcat d d'). split; [unfold cbind; rewrite E, E'; now rewrite capp_cat|].
    split; [apply plain_cat; auto|].
    exists (us ++ us'). rewrite <- capp_cat. split; [|split; [|split]].
    - apply Forall_app. split; auto. eapply Forall_impl; [|exact U1]. intro x. apply inb_le; auto. apply le_capp; auto.
    - intros w Hb Hd Hu. apply dsat_cat in Hd as [Hd1 Hd2]. apply Forall_app in Hu as [Hu1 Hu2]. apply W2; auto.
    - intros w Hb Hh. apply dsat_cat. split; [apply U3; auto|apply W3; auto].
      apply (hext_le _ (capp (capp c d) d')); auto. apply le_capp; auto.
    - exact W4.
  Qed.
  Lemma u_then {A'} (mm : circ K unit) (f : circ K A') c (S1 : (nat -> K) -> unit -> Prop) (R1 : unit -> circuit K -> Prop) (S : (nat -> K) -> A' -> Prop) (R : A' -> circuit K -> Prop) : st c -> uspec mm c S1 R1 ->
    (forall c', st c' -> le c c' -> R1 tt c' -> (forall w, base w -> hext c' w -> S1 w tt) ->
      uspec f c' (fun w b => S1 w tt -> S w b) R) ->
    uspec (mm >> f) c S R.
  Proof. intros Hs H Hf. apply (u_bind mm (fun _ => f) c S1 R1); auto. intros [] c' H1 H2 H3 H4. apply Hf; auto. Qed.
  Lemma u_ret {A} (a : A) c (S : (nat -> K) -> A -> Prop) (R : A -> circuit K -> Prop) :
    (forall w, base w -> S w a) -> R a c -> uspec (ret a) c S R.
  Proof.
    intros HS HR. unfold uspec. apply wpc_ret. exists []. split; [constructor|]. rewrite capp_nil.
    split; auto. split; auto. intros. apply dsat_nil.
  Qed.
  Lemma u_bind_pure {A A'} (mm : circ K A) (a : A) (f : A -> circ K A') c S R : mm c = (Ok a, c) -> uspec (f a) c S R ->
    uspec (x <- mm ;; f x) c S R.
  Proof. intros E (b & d & E' & H). exists b, d. split; auto. unfold cbind. now rewrite E. Qed.
  Lemma u_bind_idx {A A'} (l : list A) (a : A) i (f : A -> circ K A') c S R : nth_error l i = Some a -> uspec (f a) c S R ->
    uspec (x <- idx l i ;; f x) c S R.
  Proof. intros E. apply u_bind_pure. unfold idx, lift, index. now rewrite E. Qed.
  (** A result whose limbs the circuit leaves unchecked. *)
  Lemma u_unck (mm : circ K fv) c S R : uspec mm c S R -> (forall o c', le c c' -> R o c' -> inb c' o) ->
    uspec mm c (fun w o => small w o /\ S w o) R.
  Proof.
    intros (a & d & E & Pd & us & U1 & U2 & U3 & U4) HR. exists a, d. do 2 (split; [assumption|]).
    exists (a :: us). split; [constructor; auto; apply HR; auto; apply le_capp; auto|]. split; [|split; auto].
    intros w Hb Hd Hu. inversion Hu; subst. auto.
  Qed.
  Lemma u_pspec {A} (mm : circ K A) c S R : pspec zval rb mm c S R -> uspec mm c S R.
  Proof.
    intros (a & d & E & Pd & U1 & U2 & U3). exists a, d. do 2 (split; [assumption|]). exists []. split; [constructor|]. auto.
  Qed.
  Lemma u_vspec {A} (mm : circ K A) c S C0 W R (R' : A -> circuit K -> Prop) : st c -> vspec zval mm c S C0 W R ->
    (forall w, base w -> hext c w -> C0 w) ->
    (forall a c', le c c' -> (forall w, hext c' w -> W w a) -> R a (num_vars c') -> R' a c') -> uspec mm c S R'.
  Proof.
    intros Hs (a & d & E & Pd & U1 & U2 & U3 & U4) HC HR. pose proof Hs as (Hw & Ht & Hb). rewrite Ht in *. exists a, d. do 2 (split; [assumption|]). exists []. split; [constructor|].
    split; auto. split; [|apply HR; auto; apply le_capp; auto].
    intros w Hb' Hh. apply U2; auto. apply HC; auto. apply (hext_app1 c d); auto.
  Qed.

  (** ** Products *)
  Notation nn := (mk_nn m two (fZ P : K) (esplit p0 p1)).
  Lemma u_mul c x y : st c -> can c x -> can c y ->
    uspec (vmul zval q nb L nn x y) c (fun w o => small w x -> small w y -> small w o /\ V w o = V w x * V w y)
      (fun o c' => can c' o).
  Proof.
    intros (Hw & Ht & Hb) Hx Hy. unfold vmul. cbn [ni_elem].
    pose proof (can_rng _ _ Hx) as Rx. pose proof (can_rng _ _ Hy) as Ry. pose proof o_PM as HPM.
    destruct Hx as [(A1 & A2 & A3) A4], Hy as [(D1 & D2 & D3) D4].
    destruct (mul_chain zval q nb L HF m rb Hm Hm2 Hrb Hrn Hmr HMq p0 p1 Hp0 Hp1 HP Hq Hrb2 c x y _ _ Hw Ht Hb
      (conj A1 (conj A2 (conj A3 eq_refl))) (conj D1 (conj D2 (conj D3 eq_refl)))) as (o & d & E & Pd & U1 & U2 & U3 & _).
    { nia. }
    exists o, d. do 2 (split; [assumption|]). exists []. split; [constructor|]. split; [|split; auto].
    - intros w Hbw Hs _ Sx Sy. destruct (U1 w Hbw Hs Sx Sy) as [So Eo]. split; auto. unfold V.
      rewrite (fr_congr _ _ Eo). apply fZ_mul.
    - destruct U3 as (B1 & B2 & B3 & B4). split; [split; auto|]. rewrite B4. apply Z.mod_pos_bound; auto.
  Qed.
  Lemma u_mulc c x e E : st c -> can c x -> evok m e E -> (E < P)%Z ->
    uspec (vmulc zval q nb L nn x e) c (fun w o => small w x -> small w o /\ V w o = V w x * fZ E) (fun o c' => can c' o).
  Proof.
    intros (Hw & Ht & Hb) Hx He HE. unfold vmulc. cbn [ni_elem].
    pose proof (can_rng _ _ Hx) as Rx. pose proof o_PM as HPM. pose proof o_M as HM.
    assert (HE0 : (0 <= E)%Z) by (destruct He as (a & b & _ & Ha & Hb' & ->); nia).
    destruct Hx as [(A1 & A2 & A3) A4]. apply u_pspec.
    assert (Hx' : ready zval m c x (fval (hon c) x)) by (split; auto).
    destruct (mulc_chain zval q nb L HF m rb Hm Hm2 Hrb Hrn Hmr HMq p0 p1 Hp0 Hp1 HP Hq Hrb2 c x e _ E Hw Ht Hb Hx' He)
      as (o & d & E' & Pd & U1 & U2 & U3); [nia|].
    exists o, d. do 2 (split; [assumption|]). split; [|split; auto].
    - intros w Hbw Hs Sx. destruct (U1 w Hbw Hs Sx) as [So Eo]. split; auto. unfold V.
      rewrite (fr_congr _ _ Eo). apply fZ_mul.
    - destruct U3 as (B1 & B2 & B3 & B4). split; [split; auto|]. rewrite B4. apply Z.mod_pos_bound; auto.
  Qed.
  Lemma u_pow5 tmod tbits c x : st c -> tmod = P -> (tbits < nb)%nat -> can c x ->
    uspec (non_native_power_5_gen zval q nb L tmod tbits x) c
      (fun w o => small w x -> small w o /\ V w o = fpow (V w x) 5) (fun o c' => can c' o).
  Proof.
    intros (Hw & Ht & Hb) Htm Htb Hx. pose proof (can_rng _ _ Hx) as Rx. pose proof o_PM as HPM.
    destruct Hx as [(A1 & A2 & A3) A4]. apply u_pspec.
    assert (Hx' : ready zval m c x (fval (hon c) x)) by (split; auto).
    destruct (pow5_spec zval q nb L HF m rb Hm Hm2 Hrb Hrn Hmr HMq p0 p1 Hp0 Hp1 HP Hq Hrb2 tmod tbits c x _ Hw Ht Hb Hx')
      as (o & d & E' & Pd & U1 & U2 & U3); [nia|auto|auto|].
    exists o, d. do 2 (split; [assumption|]). split; [|split; auto].
    - intros w Hbw Hs Sx. destruct (U1 w Hbw Hs Sx) as [So Eo]. split; auto. unfold V.
      rewrite (fr_congr _ _ Eo). replace (fval w x ^ 5)%Z with (fval w x * (fval w x * (fval w x * (fval w x * fval w x))))%Z by ring.
      rewrite !fZ_mul. cbn [fpow]. ring.
    - destruct U3 as (B1 & B2 & B3 & B4). split; [split; auto|]. rewrite B4. apply Z.mod_pos_bound; auto.
  Qed.

  (** ** Sums *)
  Lemma sum_val (w : nat -> K) o S : is_sum m rb p0 p1 w (fZ S) o -> small w o -> (0 <= S <= B * (M * M))%Z -> V w o = fZ S.
  Proof.
    intros (k & Hk & E) So HS. pose proof (o_small_range _ _ So) as Ro. pose proof o_PM as HPM. pose proof o_M as HM. pose proof o_B as HB.
    rewrite (fval_limbs zval q nb L HF), <- fZ_mul, <- fZ_sub in E.
    apply (fZ_inj_small zval q nb L HF) in E; [|nia]. unfold V. rewrite E, fZ_sub, fZ_mul, frP. ring.
  Qed.
  Lemma zadd_bound (w : nat -> K) xs : Forall (small w) xs -> (Z.of_nat (length xs) <= B)%Z -> (0 <= zadd (map (fval w) xs) <= B * (M * M))%Z.
  Proof.
    intros Hx Hn. assert (Hz : (0 <= zadd (map (fval w) xs) <= Z.of_nat (length (map (fval w) xs)) * (M * M))%Z).
    { apply zadd_le. apply Forall_map. eapply Forall_impl; [|exact Hx]. apply o_small_range. }
    rewrite map_length in Hz. pose proof o_M. nia.
  Qed.
  Lemma hsum c xs : Forall (can c) xs -> (Z.of_nat (length xs) <= B)%Z -> 
    (0 <= zadd (map (fval (hon c)) xs) <= B * P - Z.of_nat (length xs))%Z.
  Proof.
    intros H. assert (Forall (fun z => 0 <= z <= P - 1)%Z (map (fval (hon c)) xs)).
    { apply Forall_map. eapply Forall_impl; [|exact H]. intros x Hx. cbn beta. pose proof (can_rng _ _ Hx). lia. }
    rewrite <- (map_length (fval (hon c)) xs). generalize dependent (map (fval (hon c)) xs). clear H. intros l Hl Hn.
    assert (0 <= zadd l <= Z.of_nat (length l) * (P - 1))%Z.
    { clear Hn. induction Hl as [|z l Hz _ IH]; cbn [zadd fold_right length] in *; [lia|]. fold (zadd l). nia. }
    nia.
  Qed.
  Lemma zadd_nneg (l : list Z) : Forall (fun z => 0 <= z)%Z l -> (0 <= zadd l)%Z.
  Proof. induction 1; cbn [zadd fold_right]; [lia|]. fold (zadd l). lia. Qed.
  Lemma V_sum w xs : fsum (map (V w) xs) = fZ (zadd (map (fval w) xs)).
  Proof. rewrite fr_zadd, map_map. reflexivity. Qed.
  Lemma sum_honest_can c c' o S : le c c' -> (forall w, hext c' w -> honest_sum zval m p0 p1 w (zval (S w)) o) ->
    fvout o (num_vars c') /\ fvok o -> can c' o.
  Proof.
    intros _ HV [H1 H2]. destruct (HV _ (hext_hon c')) as [S1 S2]. split; [split; auto|].
    rewrite S2. apply Z.mod_pos_bound; auto.
  Qed.
  (** A sum of elements, the first of which may be as large as the modulus. *)
  Lemma u_sum_core (mm : circ K fv) c xs : st c -> Forall (inb c) xs -> Forall (fun x => fval (hon c) x <= P)%Z xs ->
    (zadd (map (fval (hon c)) xs) < P * B)%Z -> (Z.of_nat (length xs) <= B)%Z ->
    mm c = (vars <- mapM convert_to_var xs ;; sum_tail zval q nb L m p0 p1 vars) c ->
    uspec mm c (fun w o => Forall (small w) xs -> small w o -> V w o = fsum (map (V w) xs)) (fun o c' => can c' o).
  Proof.
    intros Hs Hx Hle Hlt Hn E. pose proof Hs as (Hw & Ht & Hb). pose proof o_PM as HPM. pose proof o_M as HM. pose proof o_B as HB.
    assert (X1 : Forall fvok xs) by (eapply Forall_impl; [|exact Hx]; intros x (H & _); exact H).
    assert (X2 : Forall (fun x => fvout x (num_vars c)) xs) by (eapply Forall_impl; [|exact Hx]; intros x (_ & H & _); exact H).
    assert (X3 : Forall (small (hon c)) xs) by (eapply Forall_impl; [|exact Hx]; intros x (_ & _ & H); exact H).
    pose proof (zadd_bound (hon c) xs X3 Hn) as Bd.
    assert (PBq : (P * B < q)%Z) by nia.
    assert (Ez : zval (zsum m (hon c) xs) = zadd (map (fval (hon c)) xs)).
    { rewrite (zsum_vals zval q nb L HF). apply (zval_Z zval q nb L HF). lia. }
    pose proof (vec_honest_spec zval q nb L HF m rb Hm Hm2 Hrb Hrn Hmr HMq p0 p1 Hp0 Hp1 HP Hq Hrb2 xs c Hw Ht X1 X2 ltac:(rewrite Ez; lia)) as Hv.
    assert (Hv' : vspec zval mm c (fun w o => is_sum m rb p0 p1 w (zsum m w xs) o) (fun _ => True)
      (fun w o => honest_sum zval m p0 p1 w (zval (zsum m w xs)) o) (fun o n => fvout o n /\ fvok o)).
    { unfold vspec, wpc in *. rewrite E. exact Hv. }
    eapply u_weaken; [eapply (u_vspec _ _ _ _ _ _ (fun o c' => can c' o) Hs Hv')| |auto].
    - auto.
    - intros o c' Hl HV Ho. apply (sum_honest_can c c' o (fun w => zsum m w xs)); auto.
    - intros w o Hbw HS Sx So. cbn beta in HS. rewrite (zsum_vals zval q nb L HF) in HS. rewrite V_sum.
      apply sum_val; auto. apply zadd_bound; auto.
  Qed.
  Lemma u_sum_raw c xs : st c -> Forall (can c) xs -> (Z.of_nat (length xs) <= B)%Z ->
    uspec (vsum zval q nb L nn xs) c (fun w o => Forall (small w) xs -> small w o -> V w o = fsum (map (V w) xs)) (fun o c' => can c' o).
  Proof.
    intros Hs Hx Hn. pose proof Hs as (Hw & Ht & Hb). unfold vsum. cbn [ni_elem].
    assert (X1 : Forall fvok xs) by (eapply Forall_impl; [|exact Hx]; intros x ((H & _) & _); exact H).
    pose proof (hsum c xs Hx Hn) as Hh. assert (xs = [] \/ 1 <= Z.of_nat (length xs))%Z as Hl by (destruct xs; [now left|right; cbn [length]; lia]).
    apply u_sum_core; auto.
    - eapply Forall_impl; [|exact Hx]. intros x [H' _]. exact H'.
    - eapply Forall_impl; [|exact Hx]. intros x [_ H']. lia.
    - destruct Hl as [->|]; [cbn [map zadd fold_right]; pose proof o_B; nia|lia].
    - apply (mod_add_vec_eq zval q nb L m rb Hm Hm2 Hrb Hrn Hmr p0 p1 Hrb2); auto.
  Qed.
  Lemma u_sum c xs : st c -> Forall (can c) xs -> (Z.of_nat (length xs) <= B)%Z ->
    uspec (vsum zval q nb L nn xs) c (fun w o => small w o /\ (Forall (small w) xs -> V w o = fsum (map (V w) xs))) (fun o c' => can c' o).
  Proof.
    intros. eapply u_weaken; [apply u_unck; [apply u_sum_raw; auto|]| |auto].
    - intros o c' _ [H' _]. exact H'.
    - intros w o _ [S1 S2]. split; auto.
  Qed.
  Lemma u_add_raw c x y : st c -> inb c x -> (fval (hon c) x <= P)%Z -> can c y ->
    uspec (vadd zval q nb L nn x y) c (fun w o => small w x -> small w y -> small w o -> V w o = V w x + V w y) (fun o c' => can c' o).
  Proof.
    intros Hs Hx HxP Hy. pose proof Hs as (Hw & Ht & Hb). unfold vadd. cbn [ni_elem]. pose proof o_B as HB. pose proof (can_rng _ _ Hy) as Ry.
    eapply u_weaken; [apply (u_sum_core _ c [x; y]); auto| |auto].
    - constructor; [exact Hx|constructor; [apply Hy|constructor]].
    - constructor; [exact HxP|constructor; [lia|constructor]].
    - cbn [map zadd fold_right]. pose proof Hx as (_ & _ & Sx). pose proof (o_small_range _ _ Sx). nia.
    - cbn [length]. lia.
    - apply (mod_add_eq zval q nb L m rb Hm Hm2 Hrb Hrn Hmr p0 p1 Hrb2); auto; try apply Hx; apply Hy.
    - intros w o _ HS Sx Sy So. rewrite HS by auto. cbn [map]. rewrite !fsum_cons. change (fsum ([] : list Fr)) with (0 : Fr). ring.
  Qed.
  Lemma u_add c x y : st c -> inb c x -> (fval (hon c) x <= P)%Z -> can c y ->
    uspec (vadd zval q nb L nn x y) c (fun w o => small w o /\ (small w x -> small w y -> V w o = V w x + V w y)) (fun o c' => can c' o).
  Proof.
    intros. eapply u_weaken; [apply u_unck; [apply u_add_raw; auto|]| |auto].
    - intros o c' _ [H' _]. exact H'.
    - intros w o _ [S1 S2]. split; auto.
  Qed.
  Lemma u_addc_raw c x e E : st c -> can c x -> evok m e E -> (E < P)%Z ->
    uspec (vaddc zval q nb L nn x e) c (fun w o => small w x -> small w o -> V w o = V w x + fZ E) (fun o c' => can c' o).
  Proof.
    intros Hs Hx He HE. pose proof Hs as (Hw & Ht & Hb). unfold vaddc. cbn [ni_elem]. pose proof o_B as HB. pose proof o_PM as HPM. pose proof o_M as HM.
    pose proof (can_rng _ _ Hx) as Rx. destruct He as (a & b & -> & Ha & Hb' & ->).
    assert (Ez : forall w, small w x -> zval (limbs_of w x + fZ (a + M * b)) = (fval w x + (a + M * b))%Z).
    { intros w Sw. pose proof (o_small_range _ _ Sw). rewrite (fval_limbs zval q nb L HF), <- fZ_add. apply (zval_Z zval q nb L HF). nia. }
    destruct Hx as [(A1 & A2 & A3) A4].
    pose proof (const_honest_spec zval q nb L HF m rb Hm Hm2 Hrb Hrn Hmr HMq p0 p1 Hp0 Hp1 HP Hq Hrb2 a b c x Hw Ht A1 A2) as Hv.
    rewrite Ez in Hv by auto. specialize (Hv ltac:(nia)).
    eapply u_weaken; [eapply (u_vspec _ _ _ _ _ _ (fun o c' => can c' o) Hs Hv)| |auto].
    - auto.
    - intros o c' Hl HV Ho. apply (sum_honest_can c c' o (fun w => limbs_of w x + fZ (a + M * b))); auto.
    - intros w o Hbw HS Sx So. cbn beta in HS. pose proof (o_small_range _ _ Sx).
      rewrite (fval_limbs zval q nb L HF), <- fZ_add in HS. unfold V at 2. rewrite <- fZ_add. apply sum_val; auto. nia.
  Qed.
  Lemma u_neg c x : st c -> can c x ->
    uspec (mod_negate zval nb x (fZ P)) c (fun w o => small w o /\ (small w x -> V w o = - V w x))
      (fun o c' => inb c' o /\ (fval (hon c') o <= P)%Z).
  Proof.
    intros Hs Hx. pose proof Hs as (Hw & Ht & Hb). pose proof o_PM as HPM. pose proof o_M as HM. pose proof o_B as HB.
    pose proof (can_rng _ _ Hx) as Rx. destruct Hx as [(A1 & A2 & A3) A4].
    pose proof (neg_honest_spec zval q nb L HF m rb Hm Hm2 Hrb Hrn Hmr HMq p0 p1 Hp0 Hp1 HP Hq Hrb2 c x Hw Ht A1 A2 A4) as Hv.
    eapply u_weaken; [apply u_unck; [eapply (u_vspec _ _ _ _ _ _ (fun o c' => inb c' o /\ (fval (hon c') o <= P)%Z) Hs Hv); auto|]| |auto].
    - intros o c' Hl HV [O1 O2]. destruct (HV _ (hext_hon c')) as [V1 V2]. split; [split; auto|].
      rewrite V2, (fval_hext c); [lia|auto|apply (hext_le _ _ _ Hs Hl (hext_hon c'))].
    - intros o c' _ [H _]. exact H.
    - intros w o Hbw [So HS]. split; auto. intro Sx. cbn beta in HS.
      rewrite !(fval_limbs zval q nb L HF), <- fZ_sub in HS. pose proof (o_small_range _ _ Sx). pose proof (o_small_range _ _ So).
      apply (fZ_inj_small zval q nb L HF) in HS; [|nia]. unfold V. rewrite HS, fZ_sub, frP. ring.
  Qed.

  (** ** Creating elements *)
  Lemma new_two (f : K) c : fvar_new_from_field_element zval q nb L f m two c = fvar_new_from_field_element zval q nb L f m None c.
  Proof.
    assert (E : two_pow m two = two_pow m (None : option K)) by (rewrite Htwo; cbn [two_pow]; symmetry; apply fpow_two).
    unfold fvar_new_from_field_element, fvar_new_from_fp_elem, felem_new. now rewrite E.
  Qed.
  Lemma zr_rng a : (0 <= zr a < P)%Z. Proof. apply (pf_range _ _ _ _ _ HFr). Qed.
  Lemma zval_of_r a : zval (of_r zr a) = zr a.
  Proof. unfold of_r. pose proof (zr_rng a). pose proof o_PM. apply (zval_Z zval q nb L HF). lia. Qed.
  Lemma to_of_r a : to_r zval (of_r zr a) = a.
  Proof. unfold to_r. rewrite zval_of_r. apply (pf_fZ _ _ _ _ _ HFr). Qed.
  Lemma u_hint c a : st c -> uspec (vhint zval q nb L zr nn a) c (fun w o => small w o)
    (fun o c' => can c' o /\ forall w, hext c' w -> V w o = a).
  Proof.
    intros Hs. pose proof Hs as (Hw & Ht & Hb). pose proof (zr_rng a) as Ra. pose proof o_PM as HPM. unfold vhint. cbn [ni_m ni_two].
    pose proof (new_spec zval q nb L HF m rb Hm Hm2 Hrb Hrn Hmr HMq Hrb2 c (of_r zr a) Hw Ht) as Hv.
    assert (Hv' : vspec zval (fvar_new_from_field_element zval q nb L (of_r zr a) m two) c (fun w o => small w o) (fun _ => (zval (of_r zr a) < M * M)%Z)
      (fun w o => fval w o = zval (of_r zr a)) (fun o n => fvout o n /\ fvok o)).
    { unfold vspec, wpc in *. rewrite new_two. exact Hv. }
    assert (H0 : uspec (fvar_new_from_field_element zval q nb L (of_r zr a) m two) c (fun w o => small w o)
      (fun o c' => (fvok o /\ fvout o (num_vars c')) /\ forall w, hext c' w -> fval w o = zr a)).
    { eapply u_vspec with (C0 := fun _ => (zval (of_r zr a) < M * M)%Z); [exact Hs|exact Hv'| |].
      - intros. rewrite zval_of_r. lia.
      - intros o c' Hl HV [O1 O2]. split; [split; auto|]. intros w Hh. rewrite (HV w Hh). apply zval_of_r. }
    apply (u_honest _ _ _ _ Hs) in H0. eapply u_weaken; [exact H0|auto|].
    intros o c' Hl [[[O1 O2] O3] O4]. pose proof (st_le _ _ Hs Hl) as (_ & _ & Hb').
    pose proof (O3 _ (hext_hon c')) as E. split.
    - split; [split; [auto|split; [auto|]]; apply O4; auto; apply hext_hon|]. rewrite E. lia.
    - intros w Hh. unfold V. rewrite (O3 w Hh). apply (pf_fZ _ _ _ _ _ HFr).
  Qed.
  Lemma vconst_eq z c : (0 <= z < M * M)%Z -> exists e, vconst zval nb nn (fZ z) c = (Ok e, c) /\ evok m e z.
  Proof.
    intro Hz. pose proof o_M as HM. exists (esplit (z mod M) (z / M)). unfold vconst, lift. cbn [ni_m ni_two].
    pose proof (felem_new_eq zval q nb L HF m rb Hm Hm2 Hrb Hrn Hmr HMq z Hz) as E. unfold felem_new in *. rewrite Htwo. cbn [two_pow] in E. rewrite E.
    split; auto. destruct (split_eq nb m rb Hm Hm2 Hrb Hrn Hmr z Hz) as (E1 & E2 & E3).
    exists (z mod M)%Z, (z / M)%Z. auto.
  Qed.
  Lemma u_bind_const {A} z (f : felem (K := K) -> circ K A) c S R : (0 <= z < M * M)%Z ->
    (forall e, evok m e z -> uspec (f e) c S R) -> uspec (e <- vconst zval nb nn (fZ z) ;; f e) c S R.
  Proof. intros Hz Hf. destruct (vconst_eq z c Hz) as (e & E & He). apply (u_bind_pure _ e); auto. Qed.
  Lemma u_split c v : st c -> (v < num_vars c)%nat -> (zval (hon c v) < P)%Z ->
    uspec (vsplit zval nb nn v) c (fun w o => small w o /\ V w o = fZ (zval (w v))) (fun o c' => can c' o).
  Proof.
    intros Hs Hv Hz. pose proof Hs as (Hw & Ht & Hb). pose proof o_PM as HPM. pose proof o_M as HM. pose proof o_B as HB. unfold vsplit. cbn [ni_m ni_two].
    set (z := zval (hon c v)) in *. assert (Hz0 : (0 <= z)%Z) by apply (zval_ge zval q nb L HF).
    destruct (split_eq nb m rb Hm Hm2 Hrb Hrn Hmr z ltac:(lia)) as (E1 & E2 & E3).
    pose proof (unchecked_spec zval q nb L HF m rb Hm Hm2 Hrb Hrn Hmr HMq Hq Hrb2 c v (z mod M) (z / M) Hw Hv E2 E3) as Hsp.
    specialize (Hsp ltac:(rewrite <- E1; symmetry; apply (pf_fZ _ _ _ _ _ HF))).
    assert (Et : fvar_new_unchecked zval nb v m two c = fvar_new_unchecked zval nb v m (Some (fZ M)) c).
    { unfold fvar_new_unchecked, felem_new. rewrite Htwo. reflexivity. }
    assert (Hsp' : vspec zval (fvar_new_unchecked zval nb v m two) c (fun w o => w v = limbs_of w o) (fun w => w v = fZ (z mod M) + fZ M * fZ (z / M))
      (fun w o => w (v0 o) = fZ (z mod M) /\ w (v1 o) = fZ (z / M)) (fun o n => fvout o n /\ fvok o)).
    { unfold vspec, wpc in *. rewrite Et. exact Hsp. }
    eapply u_weaken; [apply u_unck; [eapply (u_vspec _ _ _ _ _ _ (fun o c' => can c' o) Hs Hsp')|]| |auto].
    - intros w _ Hh. rewrite (Hh v Hv). rewrite <- fZ_mul, <- fZ_add, <- E1. symmetry. apply (pf_fZ _ _ _ _ _ HF).
    - intros o c' Hl HV [O1 O2]. destruct (HV _ (hext_hon c')) as [V1 V2]. 
      assert (Ev0 : zval (hon c' (v0 o)) = (z mod M)%Z) by (rewrite V1; apply (zval_Z zval q nb L HF); nia).
      assert (Ev1 : zval (hon c' (v1 o)) = (z / M)%Z) by (rewrite V2; apply (zval_Z zval q nb L HF); nia).
      split; [split; [auto|split; [auto|]]|].
      + unfold ModArithProofs.small. rewrite Ev0, Ev1. lia.
      + unfold ModArithProofs.fval. rewrite Ev0, Ev1. lia.
    - intros o c' _ [H _]. exact H.
    - intros w o Hbw [So HS]. split; auto. cbn beta in HS. rewrite (fval_limbs zval q nb L HF) in HS. rewrite HS.
      pose proof (o_small_range _ _ So). rewrite (zval_Z zval q nb L HF) by lia. reflexivity.
  Qed.
  Lemma vwit_eq c x : st c -> inb c x -> exists a, vwit zval x c = (Ok (a : Fr), c) /\ forall w, hext c w -> V w x = a.
  Proof.
    intros (Hw & Ht & Hb) ((A1 & A1') & [A2 A2'] & A3). exists (V (hon c) x). split.
    - unfold vwit, fvar_witness, cbind. rewrite !(get_wit c) by auto. cbn [ret]. assert (E : to_r zval (hon c (v0 x) + hon c (v1 x) * vtwo x) = V (hon c) x); [|now rewrite <- E].
      unfold to_r, V. rewrite A1'. replace (hon c (v0 x) + hon c (v1 x) * fZ M) with (limbs_of (hon c) x) by (unfold ModArithProofs.limbs_of; ring).
      rewrite (fval_limbs zval q nb L HF). f_equal. apply (zval_Z zval q nb L HF). pose proof (o_small_range _ _ A3). pose proof o_PM. lia.
    - intros w Hh. unfold V. now rewrite (fval_hext c) by (auto; split; auto).
  Qed.
  Lemma u_bind_wit {A} x (f : Fr -> circ K A) c S R : st c -> inb c x ->
    (forall a, (forall w, hext c w -> V w x = a) -> uspec (f a) c S R) -> uspec (a <- vwit zval x ;; f a) c S R.
  Proof. intros Hs Hx Hf. destruct (vwit_eq c x Hs Hx) as (a & E & Ha). apply (u_bind_pure _ a); auto. Qed.
  Lemma u_bind_div {A} a b (f : Fr -> circ K A) c S R : b <> 0 -> uspec (f (a * finv b)) c S R -> uspec (x <- rdiv (K := K) a b ;; f x) c S R.
  Proof. intros Hne H. apply (u_bind_pure _ (a * finv b)); auto. unfold rdiv. rewrite (proj2 (feqb_neq Fr b 0) Hne). reflexivity. Qed.
  Lemma can_one c : st c -> can c (vone nn).
  Proof.
    intros (Hw & Ht & [B0 B1]). pose proof o_M as HM. pose proof o_B as HB. unfold vone, fvar_one. cbn [ni_m ni_two]. rewrite Htwo. pose proof (wf_two _ Hw).
    assert (Z0 : zval (hon c 0%nat) = 0%Z) by (rewrite B0; change (0 : K) with (fZ 0 : K); apply (zval_Z zval q nb L HF); nia).
    assert (Z1 : zval (hon c 1%nat) = 1%Z) by (rewrite B1, <- fZ_1; apply (zval_Z zval q nb L HF); nia).
    split; [split; [split; reflexivity|split; [split; cbn [v0 v1]; lia|]]|].
    - unfold ModArithProofs.small. cbn [v0 v1]. rewrite Z0, Z1. lia.
    - unfold ModArithProofs.fval. cbn [v0 v1]. rewrite Z0, Z1.
      assert (1 < P)%Z; [|lia]. pose proof (pf_zval _ _ _ _ _ HFr 1) as E. 
      destruct (Z.eq_dec P 1) as [E1|]; [|lia]. exfalso. apply (f1_neq_0 Fr). rewrite <- fZ_1, <- E1. apply frP.
  Qed.
  Lemma one_val w : base w -> small w (vone nn) /\ V w (vone nn) = 1.
  Proof.
    intros [B0 B1]. pose proof o_M as HM. pose proof o_B as HB. unfold vone, fvar_one. cbn [ni_m ni_two].
    assert (Z0 : zval (w 0%nat) = 0%Z) by (rewrite B0; change (0 : K) with (fZ 0 : K); apply (zval_Z zval q nb L HF); nia).
    assert (Z1 : zval (w 1%nat) = 1%Z) by (rewrite B1, <- fZ_1; apply (zval_Z zval q nb L HF); nia).
    split; [unfold ModArithProofs.small|unfold V, ModArithProofs.fval]; cbn [v0 v1]; rewrite Z0, Z1; [lia|]. rewrite Z.mul_0_r, Z.add_0_r. apply fZ_1.
  Qed.

  (** ** Equality, and points *)
  Lemma limb_uniq a b a' b' : (0 <= a < M)%Z -> (0 <= a' < M)%Z -> (a + M * b = a' + M * b')%Z -> a = a' /\ b = b'.
  Proof.
    intros Ha Ha' E. pose proof o_M. assert (Eb : b = b').
    { apply (f_equal (fun t => t / M)%Z) in E. rewrite !(Z.mul_comm M), !Z.div_add, !Z.div_small in E by lia. lia. }
    split; auto. subst. lia.
  Qed.
  Lemma fval_eq_limbs (w w' : nat -> K) x y : small w x -> small w' y -> fval w x = fval w' y ->
    w (v0 x) = w' (v0 y) /\ w (v1 x) = w' (v1 y).
  Proof.
    intros [X0 X1] [Y0 Y1] E. unfold ModArithProofs.fval in E.
    pose proof (zval_ge zval q nb L HF (w (v0 x))). pose proof (zval_ge zval q nb L HF (w (v1 x))).
    pose proof (zval_ge zval q nb L HF (w' (v0 y))). pose proof (zval_ge zval q nb L HF (w' (v1 y))).
    assert (zval (w (v0 x)) = zval (w' (v0 y)) /\ zval (w (v1 x)) = zval (w' (v1 y))) as [E0 E1] by (apply limb_uniq; auto).
    split; rewrite <- (pf_fZ _ _ _ _ _ HF (w _)), <- (pf_fZ _ _ _ _ _ HF (w' _)); congruence.
  Qed.
  Definition same (w : nat -> K) (x y : fv) : Prop := w (v0 x) = w (v0 y) /\ w (v1 x) = w (v1 y).
  Lemma same_small w x y : same w x y -> (small w x <-> small w y) /\ V w x = V w y.
  Proof. intros [E0 E1]. unfold ModArithProofs.small, V, ModArithProofs.fval. rewrite E0, E1. tauto. Qed.
  Lemma u_eq c x y : st c -> can c x -> can c y -> (forall w, base w -> hext c w -> V w x = V w y) ->
    uspec (fvar_enforce_equal x y) c (fun w _ => same w x y) (fun _ _ => True).
  Proof.
    intros Hs Hx Hy HV. pose proof Hs as (Hw & Ht & Hb).
    pose proof (can_V c x y _ Hx Hy (hext_hon c) (HV _ Hb (hext_hon c))) as E.
    destruct Hx as [((X1 & X2) & [X3 X4] & X5) _], Hy as [((Y1 & Y2) & [Y3 Y4] & Y5) _].
    destruct (fval_eq_limbs _ _ _ _ X5 Y5 E) as [L0 L1].
    unfold fvar_enforce_equal. rewrite X1, Y1, X2, Y2, Nat.eqb_refl, feqb_refl. cbn [negb orb].
    assert (Q : forall a b c, st c -> (a < num_vars c)%nat -> (b < num_vars c)%nat -> hon c a = hon c b ->
      uspec (enforce_equal a b) c (fun w _ => w a = w b) (fun _ _ => True)).
    { clear -Hrb. intros a b c (Hw & Ht & Hb) Ha Hb' E.
      destruct (enforce_equal_spec zval c a b Hw Ha Hb') as (u & d & E1 & Pd & S1 & C1 & _).
      exists u, d. do 2 (split; [assumption|]). exists []. split; [constructor|]. rewrite Ht in *. split; [auto|]. split; auto.
      intros w Hbw Hh. apply C1; auto. rewrite !(hext_app1 c d w Hw Hh) by auto. exact E. }
    eapply u_then; [exact Hs|apply Q; auto|]. intros c' Hs' Hl _ _.
    pose proof (hext_le _ _ _ Hs Hl (hext_hon c')) as Hh.
    destruct Hl as (d & _ & ->). 
    eapply u_weaken; [apply Q; [auto|cbn [capp num_vars]; lia..|]| |auto].
    - rewrite !Hh by auto. exact L1.
    - intros w [] _ H1 H0. split; auto.
  Qed.
  Definition negp (w : nat -> K) (p o : pvar) : Prop := w (fst o) = - w (fst p) /\ w (snd o) = w (snd p).
  Lemma u_inv c p : st c -> pin c p -> uspec (inverse_point p) c (fun w o => negp w p o) (fun o c' => pin c' o).
  Proof.
    intros Hs [P0' P1']. pose proof Hs as (Hw & Ht & Hb). unfold inverse_point. pose proof (wf_two _ Hw).
    assert (Q : uspec (sub 0 (fst p)) c (fun w o => w o = - w (fst p)) (fun o c' => (o < num_vars c')%nat)).
    { destruct (sub_spec zval c 0%nat (fst p) Hw ltac:(lia) P0') as (o & d & E1 & Pd & S1 & C1 & O1).
      exists o, d. do 2 (split; [assumption|]). exists []. split; [constructor|]. rewrite Ht in *. split; [|split; auto].
      intros w Hbw Hd _. rewrite (S1 w Hbw Hd). rewrite (proj1 Hbw). ring. }
    eapply u_bind; [exact Hs|exact Q|]. intros x c' Hs' Hl Hx _. apply u_ret.
    - intros w Hbw E. split; auto.
    - destruct Hl as (d & _ & ->). split; cbn [fst snd capp num_vars] in *; lia.
  Qed.

  (** ** Loops *)
  Lemma u_mapM {A A'} (f : A -> circ K A') (S : A -> (nat -> K) -> A' -> Prop) (R : A -> A' -> circuit K -> Prop) l : forall c, st c ->
    (forall x o c' c'', st c' -> le c' c'' -> R x o c' -> R x o c'') ->
    (forall x c', In x l -> st c' -> le c c' -> uspec (f x) c' (S x) (R x)) ->
    uspec (mapM f l) c (fun w os => Forall2 (fun x o => S x w o) l os) (fun os c' => Forall2 (fun x o => R x o c') l os).
  Proof.
    induction l as [|x l IH]; intros c Hs HR Hf; cbn [mapM].
    - apply u_ret; constructor.
    - eapply u_bind; [exact Hs|apply Hf; [now left|exact Hs|apply le_refl]|]. intros o c1 Hs1 Hl1 Ro _.
      eapply u_bind; [exact Hs1|apply (IH c1 Hs1 HR); intros y c' Hy Hs' Hl'; apply Hf; [now right|auto|eapply le_trans; eauto]|].
      intros os c2 Hs2 Hl2 Ros _. apply u_ret.
      + intros w Hb H1 H2. constructor; assumption.
      + constructor; [|exact Ros]. apply (HR x o c1); assumption.
  Qed.
  (** A loop that multiplies into an accumulator. *)
  Lemma u_fold {A} (f : fv -> A -> circ K fv) (G : (nat -> K) -> A -> Prop) (F : (nat -> K) -> Fr -> A -> Fr) l : forall acc c, st c -> can c acc ->
    (forall acc x c', In x l -> st c' -> le c c' -> can c' acc ->
      uspec (f acc x) c' (fun w o => small w acc -> G w x -> small w o /\ V w o = F w (V w acc) x) (fun o c' => can c' o)) ->
    uspec (foldM f acc l) c (fun w o => small w acc -> Forall (G w) l -> small w o /\ V w o = fold_left (F w) l (V w acc)) (fun o c' => can c' o).
  Proof.
    induction l as [|x l IH]; intros acc c Hs Ha Hf; cbn [foldM].
    - apply u_ret; auto.
    - eapply u_bind; [exact Hs|apply Hf; [now left|exact Hs|apply le_refl|exact Ha]|]. intros acc' c1 Hs1 Hl1 Ha' _.
      eapply u_weaken; [apply (IH acc' c1 Hs1 Ha'); intros a y c' Hy Hs' Hl' Ha2; apply Hf; [now right|auto|eapply le_trans; eauto|auto]| |auto].
      intros w o Hb H1 H2 Sa HG. inversion HG; subst. destruct (H2 Sa) as [S1 E1]; auto. cbn [fold_left]. rewrite <- E1. auto.
  Qed.
End Ops.
