(** What truncation enforces (/repo/relation/src/gadgets/arithmetic.rs:326-500). *)

From Coq Require Import List Arith ZArith Bool Lia Ring Field.
From Verif Require Import Base ListAux Alg Poly CircuitModel CircuitProofs GadgetModel GadgetProofs RangeProofs
  BitProofs CmpProofs RangeLookup SatProofs SatGadget IndepProofs ModArithModel ModArithProofs.
Import ListNotations.
Local Open Scope fld_scope.
Local Open Scope circ_scope.

Section Trunc.
  Context {K : fld}.
  Variable zval : K -> Z.
  Variable q : Z.
  Variable nb L : nat.
  Hypothesis HF : pfield K zval q nb L.
  Add Field Ktrunc : (fth K).
  Notation gspec := (gspec zval).
  Notation dsat := (dsat zval).
  Notation accepts := (accepts zval).
  Variable rb : nat.
  Hypothesis Hrb : (1 <= rb <= 31)%nat.
  Hypothesis Hrn : (rb < nb)%nat.
  Notation TT := (fun _ : nat -> K => True).

  (** The number [n] of bits to keep, and how it is cut into looked-up and decomposed
      bits. *)
  Variable n : nat.
  Hypothesis Hn : (1 <= n < nb)%nat.
  Notation nlo := (n mod rb)%nat.
  Notation nhi := (n - n mod rb)%nat.
  Notation dl := (nb - n)%nat.
  Notation dlo := ((nb - n) mod rb)%nat.
  Notation dhi := ((nb - n) - (nb - n) mod rb)%nat.
  Notation p2 k := (2 ^ Z.of_nat k)%Z.

  (** The four hints and what is checked of them. *)
  Definition parts (a b b1 b2 z1 z2 : K) : Prop :=
    b = b1 + fZ (p2 nhi) * b2 /\ a = b + fZ (p2 n) * z1 + fZ (p2 dhi * p2 n) * z2 /\
    (nhi <> 0%nat -> (zval b1 < p2 nhi)%Z) /\ (nlo <> 0%nat -> (zval b2 < p2 nlo)%Z) /\
    (dhi <> 0%nat -> (zval z1 < p2 dhi)%Z) /\ (dlo <> 0%nat -> (zval z2 < p2 dlo)%Z).

  Definition trunc_with (a b : nat) (b1 b2 z1 z2 : K) : circ K unit :=
    b1 <- create_variable b1 ;; b2 <- create_variable b2 ;; z1 <- create_variable z1 ;; z2 <- create_variable z2 ;;
    lc_gate b1 b2 0 0 b 1 (fZ (p2 nhi)) 0 0 >>
    lc_gate b z1 z2 0 a 1 (fZ (p2 n)) (fZ (p2 dhi * p2 n)) 0 >>
    (if (nhi =? 0)%nat then ret tt else range_gate_with_lookup zval q nb L b1 nhi) >>
    (if (nlo =? 0)%nat then ret tt else enforce_in_range zval q nb L b2 nlo) >>
    (if (dhi =? 0)%nat then ret tt else range_gate_with_lookup zval q nb L z1 dhi) >>
    (if (dlo =? 0)%nat then ret tt else enforce_in_range zval q nb L z2 dlo).

  Lemma opt_spec (g : nat -> nat -> circ K unit) c v k :
    (forall c, wf c -> ptype c = Ultra rb -> (v < num_vars c)%nat -> (1 <= k)%nat ->
      gspec (g v k) c (fun w _ => (zval (w v) < p2 k)%Z) (fun w => (zval (w v) < p2 k)%Z) noout) ->
    wf c -> ptype c = Ultra rb -> (v < num_vars c)%nat ->
    gspec (if (k =? 0)%nat then ret tt else g v k) c (fun w _ => k <> 0%nat -> (zval (w v) < p2 k)%Z)
      (fun w => k <> 0%nat -> (zval (w v) < p2 k)%Z) noout.
  Proof.
    clear. intros Hg Hw Ht Hv. destruct (Nat.eqb_spec k 0) as [->|Hk].
    - unfold CircuitProofs.gspec. wstep. split; [intros; congruence|]. split; [intros; apply dsat_nil|exact I].
    - eapply wpc_mono; [apply Hg; auto; lia|]. intros [] d _ (S & C & R). split; [auto|]. split; [auto|exact I].
  Qed.

  Lemma trunc_with_spec c a b (b1 b2 z1 z2 : K) : wf c -> ptype c = Ultra rb -> (a < num_vars c)%nat -> (b < num_vars c)%nat ->
    vspec zval (trunc_with a b b1 b2 z1 z2) c
      (fun w _ => exists b1 b2 z1 z2, parts (w a) (w b) b1 b2 z1 z2) (fun w => parts (w a) (w b) b1 b2 z1 z2) (fun _ _ => True) (fun _ _ => True).
  Proof.
    intros Hw Ht Ha Hb. unfold vspec, trunc_with. pose proof (wf_two _ Hw) as H2.
    assert (G1 : forall v k c, wf c -> ptype c = Ultra rb -> (v < num_vars c)%nat -> (1 <= k)%nat ->
      gspec (range_gate_with_lookup zval q nb L v k) c (fun w _ => (zval (w v) < p2 k)%Z) (fun w => (zval (w v) < p2 k)%Z) noout).
    { intros. apply (range_gate_with_lookup_spec zval q nb L HF _ v k rb); auto. }
    assert (G2 : forall v k c, wf c -> ptype c = Ultra rb -> (v < num_vars c)%nat -> (1 <= k)%nat ->
      gspec (enforce_in_range zval q nb L v k) c (fun w _ => (zval (w v) < p2 k)%Z) (fun w => (zval (w v) < p2 k)%Z) noout).
    { intros v k c' Hw' Ht' Hv Hk. apply (enforce_in_range_spec zval q nb L HF); auto. rewrite Ht'. auto. }
    apply wpc_bind. eapply wpc_mono; [apply (var_spec zval); auto|]. intros x1 d1 _ (E1 & L1 & D1 & V1).
    assert (Ld1 : length (d_vals d1) = 1%nat) by now rewrite L1.
    apply wpc_bind. eapply wpc_mono; [apply (var_spec zval); wfs|]. intros x2 d2 _ (E2 & L2 & D2 & V2).
    assert (Ld2 : length (d_vals d2) = 1%nat) by now rewrite L2.
    apply wpc_bind. eapply wpc_mono; [apply (var_spec zval); wfs|]. intros x3 d3 _ (E3 & L3 & D3 & V3).
    assert (Ld3 : length (d_vals d3) = 1%nat) by now rewrite L3.
    apply wpc_bind. eapply wpc_mono; [apply (var_spec zval); wfs|]. intros x4 d4 _ (E4 & L4 & D4 & V4).
    assert (Ld4 : length (d_vals d4) = 1%nat) by now rewrite L4.
    cbn [capp num_vars] in E2, E3, E4.
    apply wpc_bind. eapply wpc_mono; [apply lc_gate_spec; [wfs|cbn [capp num_vars]; lia..]|]. intros [] d5 _ (S5 & C5 & _).
    apply wpc_bind. eapply wpc_mono; [apply lc_gate_spec; [wfs|cbn [capp num_vars]; lia..]|]. intros [] d6 _ (S6 & C6 & _).
    apply wpc_bind. eapply wpc_mono; [apply (opt_spec (range_gate_with_lookup zval q nb L) _ x1 nhi (G1 _ _)); [wfs|exact Ht|cbn [capp num_vars]; lia]|]. intros [] d7 _ (S7 & C7 & _).
    apply wpc_bind. eapply wpc_mono; [apply (opt_spec (enforce_in_range zval q nb L) _ x2 nlo (G2 _ _)); [wfs|exact Ht|cbn [capp num_vars]; lia]|]. intros [] d8 _ (S8 & C8 & _).
    apply wpc_bind. eapply wpc_mono; [apply (opt_spec (range_gate_with_lookup zval q nb L) _ x3 dhi (G1 _ _)); [wfs|exact Ht|cbn [capp num_vars]; lia]|]. intros [] d9 _ (S9 & C9 & _).
    eapply wpc_mono; [apply (opt_spec (enforce_in_range zval q nb L) _ x4 dlo (G2 _ _)); [wfs|exact Ht|cbn [capp num_vars]; lia]|]. intros [] d10 _ (S10 & C10 & _).
    rewrite !ptype_capp in *. clear G1 G2.
    split; [|split; [|split; auto]].
    - intros w Hb' Hs. rewrite !dsat_cat in Hs. destruct Hs as (_ & _ & _ & _ & Q5 & Q6 & Q7 & Q8 & Q9 & Q10).
      exists (w x1), (w x2), (w x3), (w x4). unfold parts.
      split; [rewrite (S5 w Hb' Q5); ring|]. split; [rewrite (S6 w Hb' Q6); ring|]. auto.
    - intros w Hb' Hh (P1 & P2 & P3 & P4 & P5 & P6). rewrite <- !capp_cat in Hh.
      apply hext_app1 in Hh as Hh9; [|wfs]. apply hext_app1 in Hh9 as Hh8; [|wfs]. apply hext_app1 in Hh8 as Hh7; [|wfs].
      apply hext_app1 in Hh7 as Hh6; [|wfs]. apply hext_app1 in Hh6 as Hh5; [|wfs]. apply hext_app1 in Hh5 as Hh4; [|wfs].
      apply hext_app1 in Hh4 as Hh3; [|wfs]. apply hext_app1 in Hh3 as Hh2; [|wfs]. apply hext_app1 in Hh2 as Hh1; [|wfs].
      specialize (V1 w Hh1). specialize (V2 w Hh2). specialize (V3 w Hh3). specialize (V4 w Hh4).
      rewrite !dsat_cat. do 4 (split; [auto|]).
      split; [apply C5; auto; rewrite V1, V2, P1 at 1; ring|].
      split; [apply C6; auto; rewrite V3, V4, P2 at 1; ring|].
      split; [apply C7; auto; now rewrite V1|]. split; [apply C8; auto; now rewrite V2|].
      split; [apply C9; auto; now rewrite V3|]. apply C10; auto; now rewrite V4.
  Qed.

  (** The same, without the hints: a bound on [b] when both of its parts are
      checked, and congruence with a bounded quotient when both of its parts are. *)
  Definition trunc_ok (a b : K) : Prop :=
    (nhi <> 0%nat -> nlo <> 0%nat -> (zval b < p2 n)%Z) /\
    (dhi <> 0%nat -> dlo <> 0%nat -> exists z, (0 <= z < p2 dl)%Z /\ a = b + fZ (p2 n * z)).

  Lemma zval_fZ z : (0 <= z < q)%Z -> zval (fZ z) = z.
  Proof. apply (zval_small zval q nb L HF). Qed.
  Lemma p2_pos k : (0 < p2 k)%Z.
  Proof. apply Z.pow_pos_nonneg; lia. Qed.
  Lemma p2_lt k : (k < nb)%nat -> (p2 k < q)%Z.
  Proof. apply (pow_lt_p zval q nb L HF). Qed.
  Lemma p2_add i j : p2 (i + j) = (p2 i * p2 j)%Z.
  Proof. rewrite Nat2Z.inj_add, Z.pow_add_r; lia. Qed.
  Lemma p2_nz k : (k < nb)%nat -> (fZ (p2 k) : K) <> 0.
  Proof.
    intros Hk E. pose proof (p2_lt k Hk). pose proof (p2_pos k).
    assert (E' : zval (fZ (p2 k)) = zval (fZ 0)) by (rewrite E; reflexivity). rewrite !zval_fZ in E'; lia.
  Qed.
  Lemma cut (k : nat) : (k = (k - k mod rb) + k mod rb)%nat.
  Proof. pose proof (Nat.mod_le k rb). lia. Qed.

  Lemma zval_nonneg (x : K) : (0 <= zval x)%Z.
  Proof. apply (pf_range _ _ _ _ _ HF). Qed.
  (** A value below [2^(i+j)] is exactly a pair of bounded parts. *)
  Lemma glue (i j : nat) (b1 b2 : K) : (zval b1 < p2 i)%Z -> (zval b2 < p2 j)%Z ->
    (0 <= zval b1 + p2 i * zval b2 < p2 (i + j))%Z /\ (b1 + fZ (p2 i) * b2 = fZ (zval b1 + p2 i * zval b2)).
  Proof.
    intros H1 H2. pose proof (zval_nonneg b1). pose proof (zval_nonneg b2). split.
    - rewrite p2_add. pose proof (p2_pos i). pose proof (p2_pos j). nia.
    - rewrite fZ_add, fZ_mul, !(pf_fZ _ _ _ _ _ HF). reflexivity.
  Qed.

  Lemma parts_sound a b b1 b2 z1 z2 : parts a b b1 b2 z1 z2 -> trunc_ok a b.
  Proof.
    intros (P1 & P2 & P3 & P4 & P5 & P6). pose proof (cut n) as Cn. pose proof (cut dl) as Cd. split.
    - intros H1 H2. destruct (glue nhi nlo b1 b2 (P3 H1) (P4 H2)) as [B E]. rewrite <- Cn in B. rewrite P1, E, zval_fZ; [lia|].
      pose proof (p2_lt n ltac:(lia)). lia.
    - intros H1 H2. destruct (glue dhi dlo z1 z2 (P5 H1) (P6 H2)) as [B E]. rewrite <- Cd in B. eexists. split; [exact B|].
      rewrite P2. rewrite (fZ_mul K (p2 n)), <- E, fZ_mul. ring.
  Qed.

  Lemma div_parts (x : K) i j : (i + j < nb)%nat -> (zval x < p2 (i + j))%Z ->
    exists b1 b2 : K, x = b1 + fZ (p2 i) * b2 /\ (zval b1 < p2 i)%Z /\ (zval b2 < p2 j)%Z.
  Proof.
    intros Hij Hx. pose proof (p2_pos i) as Hi. pose proof (p2_pos j) as Hj. rewrite p2_add in Hx. pose proof (zval_nonneg x) as H0.
    pose proof (p2_lt i ltac:(lia)). pose proof (p2_lt j ltac:(lia)).
    pose proof (Z.mod_pos_bound (zval x) (p2 i) Hi). 
    assert (zval x / p2 i < p2 j)%Z by (apply Z.div_lt_upper_bound; lia). assert (0 <= zval x / p2 i)%Z by (apply Z.div_pos; lia).
    exists (fZ (zval x mod p2 i)), (fZ (zval x / p2 i)). rewrite !zval_fZ by lia. split; [|lia].
    rewrite <- fZ_mul, <- fZ_add, Z.add_comm, <- Z.div_mod, (pf_fZ _ _ _ _ _ HF) by lia. reflexivity.
  Qed.
  (** When a part is not checked, it absorbs any value. *)
  Lemma free_parts (x : K) i j : (i < nb)%nat -> i = 0%nat \/ j = 0%nat ->
    exists b1 b2 : K, x = b1 + fZ (p2 i) * b2 /\ (i <> 0%nat -> (zval b1 < p2 i)%Z) /\ (j <> 0%nat -> (zval b2 < p2 j)%Z).
  Proof.
    intros Hi Hij. assert (Z0 : zval (0 : K) = 0%Z).
    { change (zval (fZ 0) = 0%Z). apply zval_fZ. pose proof (p2_lt i Hi). pose proof (p2_pos i). lia. }
    destruct (Nat.eq_dec i 0) as [->|Hi0].
    - exists x, 0. split; [ring|]. split; [congruence|]. intros _. rewrite Z0. apply p2_pos.
    - destruct Hij as [|Hj]; [congruence|]. exists 0, (finv (fZ (p2 i)) * x).
      split; [|split; [intros _; rewrite Z0; apply p2_pos|congruence]]. pose proof (p2_nz i Hi). field. auto.
  Qed.

  Lemma parts_complete a b : trunc_ok a b -> exists b1 b2 z1 z2, parts a b b1 b2 z1 z2.
  Proof.
    intros [H1 H2]. pose proof (cut n) as Cn. pose proof (cut dl) as Cd.
    assert (HB : exists b1 b2 : K, b = b1 + fZ (p2 nhi) * b2 /\ (nhi <> 0%nat -> (zval b1 < p2 nhi)%Z) /\ (nlo <> 0%nat -> (zval b2 < p2 nlo)%Z)).
    { destruct (Nat.eq_dec nhi 0) as [E|E]; [apply free_parts; [lia|auto]|].
      destruct (Nat.eq_dec nlo 0) as [E'|E']; [apply free_parts; [lia|auto]|].
      destruct (div_parts b nhi nlo) as (b1 & b2 & Hb); [lia|rewrite <- Cn; auto|]. exists b1, b2. tauto. }
    assert (HZ : exists z1 z2 : K, a = b + fZ (p2 n) * (z1 + fZ (p2 dhi) * z2) /\ (dhi <> 0%nat -> (zval z1 < p2 dhi)%Z) /\ (dlo <> 0%nat -> (zval z2 < p2 dlo)%Z)).
    { assert (HZ' : exists z : K, a = b + fZ (p2 n) * z /\ exists z1 z2 : K, z = z1 + fZ (p2 dhi) * z2 /\ (dhi <> 0%nat -> (zval z1 < p2 dhi)%Z) /\ (dlo <> 0%nat -> (zval z2 < p2 dlo)%Z)).
      { assert (Free : dhi = 0%nat \/ dlo = 0%nat -> exists z : K, a = b + fZ (p2 n) * z /\ exists z1 z2 : K, z = z1 + fZ (p2 dhi) * z2 /\ (dhi <> 0%nat -> (zval z1 < p2 dhi)%Z) /\ (dlo <> 0%nat -> (zval z2 < p2 dlo)%Z)).
        { intros HE. exists (finv (fZ (p2 n)) * (a - b)). split; [pose proof (p2_nz n ltac:(lia)); field; auto|]. apply free_parts; [lia|auto]. }
        destruct (Nat.eq_dec dhi 0) as [E|E]; [apply Free; auto|].
        destruct (Nat.eq_dec dlo 0) as [E'|E']; [apply Free; auto|].
        destruct (H2 E E') as (z & Hz & Ez). exists (fZ z). split; [rewrite Ez, fZ_mul; reflexivity|].
        pose proof (p2_lt dl ltac:(lia)).
        destruct (div_parts (fZ z) dhi dlo) as (z1 & z2 & Hz'); [lia|rewrite <- Cd, zval_fZ; lia|]. exists z1, z2. tauto. }
      destruct HZ' as (z & Ez & z1 & z2 & -> & Hz). exists z1, z2. auto. }
    destruct HB as (b1 & b2 & Eb & Hb1 & Hb2). destruct HZ as (z1 & z2 & Ea & Hz1 & Hz2).
    exists b1, b2, z1, z2. unfold parts. split; auto. split; [|auto]. rewrite Ea, fZ_mul. ring.
  Qed.

  (** The hints that the code computes. *)
  Definition hints (a b : K) : K * K * (K * K) :=
    let z := ((zval a - zval b) / p2 n)%Z in
    (fZ (zval b mod p2 nhi), fZ (zval b / p2 nhi), (fZ (z mod p2 dhi), fZ (z / p2 dhi)))%Z.
  Lemma gate_eq c a b : wf c -> ptype c = Ultra rb -> (a < num_vars c)%nat -> (b < num_vars c)%nat ->
    (zval (hon c b) < p2 n)%Z -> (zval (hon c b) <= zval (hon c a))%Z ->
    truncate_gate zval q nb L a b n c =
    let '(b1, b2, (z1, z2)) := hints (hon c a) (hon c b) in trunc_with a b b1 b2 z1 z2 c.
  Proof.
    intros Hw Ht Ha Hb Hbn Hba. unfold truncate_gate, hints. unfold cbind at 1. unfold lift at 1. unfold support_lookup. rewrite Ht. cbn [negb].
    assert (E : forall v, (v < num_vars c)%nat -> check_var_bound v c = (Ok tt, c)).
    { intros v Hv. unfold check_var_bound, lift. destruct (Nat.leb_spec (num_vars c) v); [lia|reflexivity]. }
    unfold cbind at 1. rewrite (E a Ha). unfold cbind at 1. rewrite (E b Hb).
    unfold cbind at 1. rewrite (get_wit c a Hw Ha). unfold cbind at 1. rewrite (get_wit c b Hw Hb).
    rewrite (zval_pow zval q nb L HF n) by lia. destruct (Z.leb_spec (p2 n) (zval (hon c b))); [lia|]. destruct (Nat.leb_spec nb n); [lia|].
    unfold cbind at 1. unfold lift at 1. unfold range_bit_len. rewrite Ht. destruct (Nat.eqb_spec rb 0); [lia|].
    destruct (Z.ltb_spec (zval (hon c a)) (zval (hon c b))); [lia|].
    rewrite (zval_pow zval q nb L HF nhi), (zval_pow zval q nb L HF dhi) by lia. rewrite !fpow_two. reflexivity.
  Qed.

  Lemma hints_parts a b : (zval b < p2 n)%Z -> (zval b <= zval a)%Z -> ((zval a - zval b) mod p2 n = 0)%Z ->
    let '(b1, b2, (z1, z2)) := hints a b in parts a b b1 b2 z1 z2.
  Proof.
    intros Hb Hba Hm. unfold hints. set (z := ((zval a - zval b) / p2 n)%Z). pose proof (zval_nonneg b). pose proof (zval_nonneg a).
    pose proof (p2_pos n) as Pn. pose proof (p2_pos nhi) as Pnh. pose proof (p2_pos nlo) as Pnl. pose proof (p2_pos dhi) as Pdh. pose proof (p2_pos dlo) as Pdl.
    pose proof (cut n) as Cn. pose proof (cut dl) as Cd.
    assert (Ez : (zval a = zval b + p2 n * z)%Z) by (unfold z; pose proof (Z.div_mod (zval a - zval b) (p2 n)); lia).
    assert (Hz0 : (0 <= z)%Z) by (apply Z.div_pos; lia).
    assert (Hz : (z < p2 dl)%Z).
    { pose proof (proj2 (pf_range _ _ _ _ _ HF a)). pose proof (pf_hi _ _ _ _ _ HF) as Hhi. replace nb with (n + dl)%nat in Hhi by lia. rewrite p2_add in Hhi. nia. }
    assert (En : (p2 nhi * p2 nlo = p2 n)%Z) by (rewrite <- p2_add, <- Cn; reflexivity).
    assert (Ed : (p2 dhi * p2 dlo = p2 dl)%Z) by (rewrite <- p2_add, <- Cd; reflexivity).
    assert (B1 : (0 <= zval b mod p2 nhi < p2 nhi)%Z) by (apply Z.mod_pos_bound; lia).
    assert (B2 : (0 <= zval b / p2 nhi < p2 nlo)%Z) by (split; [apply Z.div_pos; lia|apply Z.div_lt_upper_bound; lia]).
    assert (B3 : (0 <= z mod p2 dhi < p2 dhi)%Z) by (apply Z.mod_pos_bound; lia).
    assert (B4 : (0 <= z / p2 dhi < p2 dlo)%Z) by (split; [apply Z.div_pos; lia|apply Z.div_lt_upper_bound; lia]).
    pose proof (p2_lt nhi ltac:(lia)). pose proof (p2_lt nlo ltac:(pose proof (Nat.mod_le n rb); lia)).
    pose proof (p2_lt dhi ltac:(lia)). pose proof (p2_lt dlo ltac:(pose proof (Nat.mod_le dl rb); lia)).
    unfold parts. rewrite !zval_fZ by lia. split; [|split].
    - rewrite <- fZ_mul, <- fZ_add, Z.add_comm, <- Z.div_mod, (pf_fZ _ _ _ _ _ HF) by lia. reflexivity.
    - rewrite <- (pf_fZ _ _ _ _ _ HF a) at 1. rewrite Ez, (Z.div_mod z (p2 dhi)) at 1 by lia.
      repeat rewrite ?fZ_add, ?fZ_mul. rewrite (pf_fZ _ _ _ _ _ HF). ring.
    - intuition.
  Qed.

  Lemma bind_cong {A B} (m : circ K A) (f g : A -> circ K B) c : (forall a c', m c = (Ok a, c') -> f a c' = g a c') -> cbind m f c = cbind m g c.
  Proof. clear. intros H. unfold cbind. destruct (m c) as [[a| |] c'] eqn:E; auto. Qed.
  Lemma trunc_rel a b (b1 b2 z1 z2 : K) : rel (truncate_gate zval q nb L a b n) (guarded rb (trunc_with a b b1 b2 z1 z2)) eq.
  Proof.
    eapply rel_guarded with (m1 :=
      check_var_bound a >> check_var_bound b >>
      (va <- get_witness a ;; vb <- get_witness b ;;
       if (p2 n <=? zval vb)%Z then fail ParameterError else
       if (zval va <? zval vb)%Z then cpanic else
       let '(b1, b2, (z1, z2)) := hints va vb in trunc_with a b b1 b2 z1 z2)).
    - intros c Ht. unfold truncate_gate, hints. unfold cbind at 1. unfold lift at 1. unfold support_lookup. rewrite Ht. cbn [negb].
      apply bind_cong. intros [] c1 E1. assert (c1 = c) as -> by (unfold check_var_bound, lift in E1; congruence).
      apply bind_cong. intros [] c1 E2. assert (c1 = c) as -> by (unfold check_var_bound, lift in E2; congruence).
      apply bind_cong. intros va c1 E3. assert (c1 = c) as -> by (pose proof (pure_wit a c) as H; rewrite E3 in H; exact H).
      apply bind_cong. intros vb c1 E4. assert (c1 = c) as -> by (pose proof (pure_wit b c) as H; rewrite E4 in H; exact H).
      rewrite (zval_pow zval q nb L HF n) by lia. destruct (p2 n <=? zval vb)%Z; [reflexivity|]. destruct (Nat.leb_spec nb n); [lia|].
      unfold cbind at 1. unfold lift at 1. unfold range_bit_len. rewrite Ht. destruct (Nat.eqb_spec rb 0); [lia|].
      destruct (zval va <? zval vb)%Z; [reflexivity|].
      rewrite (zval_pow zval q nb L HF nhi), (zval_pow zval q nb L HF dhi) by lia. rewrite !fpow_two. reflexivity.
    - clear. apply rel_skip; [apply pure_lift|]. intros _. apply rel_skip; [apply pure_lift|]. intros _.
      apply rel_skip; [apply pure_wit|]. intros va. apply rel_skip; [apply pure_wit|]. intros vb.
      destruct (p2 n <=? zval vb)%Z; [rauto|]. destruct (zval va <? zval vb)%Z; [rauto|]. cbn [hints]. unfold hints. unfold trunc_with.
      pose proof (@lc_gate_ind K). pose proof (fun a n => @range_lookup_ind K zval q nb L a n). pose proof (fun a n => @in_range_ind K zval q nb L a n).
      rauto.
  Qed.

  (** The gate: which values of [a] and [b] it lets through. *)
  Theorem gate_exact_trunc c a b : good c -> ptype c = Ultra rb -> (a < num_vars c)%nat -> (b < num_vars c)%nat ->
    (zval (hon c b) < p2 n)%Z -> (zval (hon c b) <= zval (hon c a))%Z ->
    exists c', truncate_gate zval q nb L a b n c = (Ok tt, c') /\ good c' /\ extends c c' /\
      (forall pub, accepts c (witness c) pub -> ((zval (hon c a) - zval (hon c b)) mod p2 n = 0)%Z -> accepts c' (witness c') pub) /\
      forall ws pub, accepts c ws pub -> ((exists l, accepts c' (ws ++ l) pub) <-> trunc_ok (asg ws a) (asg ws b)).
  Proof.
    intros G Ht Ha Hb Hbn Hba. pose proof (gd_wf _ G) as W.
    destruct (hints (hon c a) (hon c b)) as [[b1 b2] [z1 z2]] eqn:Eh.
    pose proof (gate_eq c a b W Ht Ha Hb Hbn Hba) as Eg. rewrite Eh in Eg.
    pose proof (trunc_with_spec c a b b1 b2 z1 z2 W Ht Ha Hb) as Hs.
    assert (Hs' : vspec zval (truncate_gate zval q nb L a b n) c
      (fun w _ => exists b1 b2 z1 z2, parts (w a) (w b) b1 b2 z1 z2) (fun w => parts (w a) (w b) b1 b2 z1 z2) (fun _ _ => True) (fun _ _ => True))
      by (unfold vspec, wpc in *; rewrite Eg; exact Hs).
    assert (Hloc : forall b1 b2 z1 z2, local (num_vars c) (fun w : nat -> K => parts (w a) (w b) b1 b2 z1 z2)).
    { intros ? ? ? ? w w' E H. now rewrite <- (E a Ha), <- (E b Hb). }
    destruct (vspec_gadget zval _ c _ _ _ _ G (Hloc _ _ _ _) Hs') as ([] & c' & E & G' & Ex & _ & Snd & Cmp & _).
    exists c'. split; [exact E|]. split; auto. split; auto. split.
    - intros pub Hacc Hm. apply Cmp; auto.
      assert (Hp := hints_parts (hon c a) (hon c b) Hbn Hba Hm). rewrite Eh in Hp. exact Hp.
    - intros ws pub Hacc. pose proof (proj1 Hacc) as HL. split.
      + intros (l & Hl). destruct (Snd c' _ pub (extends_refl _) (gd_bd _ G') Hl) as (x1 & x2 & x3 & x4 & Hp).
        assert (Ea : forall v, (v < num_vars c)%nat -> asg (ws ++ l) v = asg ws v) by (intros v Hv; unfold asg; rewrite app_nth1; auto; lia).
        rewrite !Ea in Hp by auto. eapply parts_sound; eauto.
      + intros Hok. destruct (parts_complete _ _ Hok) as (x1 & x2 & x3 & x4 & Hp).
        destruct (call_transfer zval (truncate_gate zval q nb L a b n) (guarded rb (trunc_with a b x1 x2 x3 x4)) c tt c' ws pub
          (fun w _ => exists b1 b2 z1 z2, parts (w a) (w b) b1 b2 z1 z2) (fun w => parts (w a) (w b) x1 x2 x3 x4) (fun _ _ => True) (fun _ _ => True)) as (l & Hl & _); auto.
        * apply trunc_rel.
        * apply vspec_guarded; [exact Ht|]. apply trunc_with_spec; auto. apply (gd_wf _ (good_with c ws G HL)).
        * exists l. exact Hl.
  Qed.

  (** Truncation: which values the result can take. *)
  Definition truncate_with (a : nat) (vb b1 b2 z1 z2 : K) : circ K nat :=
    b <- create_variable vb ;; trunc_with a b b1 b2 z1 z2 >> ret b.
  Lemma truncate_with_spec c a (vb b1 b2 z1 z2 : K) : wf c -> ptype c = Ultra rb -> (a < num_vars c)%nat ->
    vspec zval (truncate_with a vb b1 b2 z1 z2) c
      (fun w b => exists b1 b2 z1 z2, parts (w a) (w b) b1 b2 z1 z2) (fun w => parts (w a) vb b1 b2 z1 z2) (fun w b => w b = vb) out.
  Proof.
    intros Hw Ht Ha. unfold vspec, truncate_with, out.
    apply wpc_bind. eapply wpc_mono; [apply (var_spec zval); auto|]. intros b d1 _ (E1 & L1 & D1 & V1).
    assert (Ld1 : length (d_vals d1) = 1%nat) by now rewrite L1.
    apply wpc_bind. eapply wpc_mono; [apply trunc_with_spec; [wfs|exact Ht|cbn [capp num_vars]; lia..]|]. intros [] d2 _ (S2 & C2 & _).
    wstep. change (ptype (capp c d1)) with (ptype c) in *. split; [|split; [|split]].
    - intros w Hb Hs. rewrite !dsat_cat in Hs. apply S2; tauto.
    - intros w Hb Hh HC. rewrite <- !capp_cat in Hh. apply hext_app1 in Hh; [|wfs]. apply hext_app1 in Hh as Hh1; [|wfs].
      rewrite !dsat_cat. split; [auto|]. split; [|apply dsat_nil]. apply C2; auto. now rewrite (V1 w Hh1).
    - intros w Hh. rewrite <- !capp_cat in Hh. do 2 (apply hext_app1 in Hh; [|wfs]). auto.
    - cbn [dcat d_vals dnil]. rewrite !app_length. cbn [length]. lia.
  Qed.

  Lemma truncate_eq c a : wf c -> ptype c = Ultra rb -> (a < num_vars c)%nat -> exists b1 b2 z1 z2 : K,
    let vb := fZ (zval (hon c a) mod p2 n)%Z : K in zval vb = (zval (hon c a) mod p2 n)%Z /\ parts (hon c a) vb b1 b2 z1 z2 /\
    truncate zval q nb L a n c = truncate_with a vb b1 b2 z1 z2 c.
  Proof.
    intros W Ht Ha. set (va := hon c a). set (vb := fZ (zval va mod p2 n)%Z : K).
    pose proof (p2_pos n) as Pn. pose proof (p2_lt n ltac:(lia)) as Lnq. pose proof (Z.mod_pos_bound (zval va) (p2 n) Pn) as Rb.
    assert (Evb : zval vb = (zval va mod p2 n)%Z) by (apply zval_fZ; lia).
    assert (Hle : (zval vb <= zval va)%Z) by (rewrite Evb; apply Z.mod_le; [apply zval_nonneg|lia]).
    assert (Hm : ((zval va - zval vb) mod p2 n = 0)%Z) by (rewrite Evb, Zminus_mod_idemp_r, Z.sub_diag; reflexivity).
    destruct (hints va vb) as [[b1 b2] [z1 z2]] eqn:Eh.
    assert (Hpt := hints_parts va vb ltac:(rewrite Evb; lia) Hle Hm). rewrite Eh in Hpt.
    assert (Eg : truncate zval q nb L a n c = truncate_with a vb b1 b2 z1 z2 c).
    { unfold truncate, truncate_with. unfold cbind at 1. unfold check_var_bound at 1, lift at 1. destruct (Nat.leb_spec (num_vars c) a); [lia|].
      unfold cbind at 1. rewrite (get_wit c a W Ha). fold va. rewrite (zval_pow zval q nb L HF n) by lia. fold vb.
      apply bind_cong. intros b c1 E1.
      destruct (var_spec zval c vb W) as (b' & d & E1' & _ & Eb & Ld & _ & Vb). rewrite E1 in E1'. injection E1' as -> ->.
      unfold cbind at 1 2. assert (W1 : wf (capp c d)) by wfs.
      assert (Hva : hon (capp c d) a = va) by (apply (hon_capp c d _ W (hext_hon _)); auto).
      assert (Hvb : hon (capp c d) b' = vb) by (apply Vb; apply hext_hon).
      rewrite gate_eq; [|exact W1|exact Ht|cbn [capp num_vars]; lia|cbn [capp num_vars]; rewrite Ld; cbn [length]; lia|rewrite Hvb, Evb; lia|rewrite Hva, Hvb; lia].
      rewrite Hva, Hvb, Eh. reflexivity. }
    exists b1, b2, z1, z2. cbn zeta. fold va vb. auto.
  Qed.
  (** The call, without the assumption that the circuit was built by the library. *)
  Lemma truncate_spec c a : wf c -> ptype c = Ultra rb -> (a < num_vars c)%nat ->
    vspec zval (truncate zval q nb L a n) c (fun w b => trunc_ok (w a) (w b)) (fun w => w a = hon c a)
      (fun w b => w b = fZ (zval (hon c a) mod p2 n)%Z) out.
  Proof.
    intros W Ht Ha. destruct (truncate_eq c a W Ht Ha) as (b1 & b2 & z1 & z2 & Ev & Hp & Eg). set (vb := fZ (zval (hon c a) mod p2 n)%Z : K) in *.
    pose proof (truncate_with_spec c a vb b1 b2 z1 z2 W Ht Ha) as Hs. unfold vspec, wpc in *. rewrite Eg.
    destruct Hs as (b & d & E & Pl & S1 & C1 & V1 & O1). exists b, d. split; [exact E|]. split; [exact Pl|]. split; [|split; [|split]]; auto.
    - intros w Hb Hs. destruct (S1 w Hb Hs) as (x1 & x2 & x3 & x4 & Hx). eapply parts_sound; eauto.
    - intros w Hb Hh Hw. apply C1; auto. now rewrite Hw.
  Qed.

  Theorem truncate_exact_trunc c a : good c -> ptype c = Ultra rb -> (a < num_vars c)%nat ->
    exists b c', truncate zval q nb L a n c = (Ok b, c') /\ good c' /\ extends c c' /\ (b < num_vars c')%nat /\
      (forall pub, accepts c (witness c) pub -> accepts c' (witness c') pub) /\
      zval (asg (witness c') b) = (zval (hon c a) mod p2 n)%Z /\
      forall ws pub v, accepts c ws pub -> ((exists l, accepts c' (ws ++ l) pub /\ asg (ws ++ l) b = v) <-> trunc_ok (asg ws a) v).
  Proof.
    intros G Ht Ha. pose proof (gd_wf _ G) as W. destruct (truncate_eq c a W Ht Ha) as (b1 & b2 & z1 & z2 & Evb & Hpt & Eg).
    set (va := hon c a) in *. set (vb := fZ (zval va mod p2 n)%Z : K) in *.
    pose proof (truncate_with_spec c a vb b1 b2 z1 z2 W Ht Ha) as Hs.
    assert (Hs' : vspec zval (truncate zval q nb L a n) c
      (fun w b => exists b1 b2 z1 z2, parts (w a) (w b) b1 b2 z1 z2) (fun w => parts (w a) vb b1 b2 z1 z2) (fun w b => w b = vb) out)
      by (unfold vspec, wpc in *; rewrite Eg; exact Hs).
    assert (Hloc : forall vb b1 b2 z1 z2, local (num_vars c) (fun w : nat -> K => parts (w a) vb b1 b2 z1 z2)).
    { intros ? ? ? ? ? w w' E H. now rewrite <- (E a Ha). }
    destruct (vspec_gadget zval _ c _ _ _ _ G (Hloc _ _ _ _ _) Hs') as (b & c' & E & G' & Ex & Ob & Snd & Cmp & HV).
    exists b, c'. split; [exact E|]. split; auto. split; auto. split; [exact Ob|]. split; [intros pub Hacc; apply Cmp; auto|]. split; [now rewrite HV|].
    intros ws pub v Hacc. pose proof (proj1 Hacc) as HL. split.
    - intros (l & Hl & <-). destruct (Snd c' _ pub (extends_refl _) (gd_bd _ G') Hl) as (x1 & x2 & x3 & x4 & Hp).
      assert (Ea : asg (ws ++ l) a = asg ws a) by (unfold asg; rewrite app_nth1; auto; lia). rewrite Ea in Hp. eapply parts_sound; eauto.
    - intros Hok. destruct (parts_complete _ _ Hok) as (x1 & x2 & x3 & x4 & Hp).
      destruct (call_transfer zval (truncate zval q nb L a n) (b <- create_variable v ;; guarded rb (trunc_with a b x1 x2 x3 x4) >> ret b) c b c' ws pub
        (fun w b => exists b1 b2 z1 z2, parts (w a) (w b) b1 b2 z1 z2) (fun w => parts (w a) v x1 x2 x3 x4) (fun w b => w b = v) out) as (l & Hl & Hv); auto.
      + unfold truncate. apply rel_skip; [apply pure_lift|]. intros _. apply rel_skip; [apply pure_wit|]. intros va'.
        apply rel_bind_eq; [rauto|]. intros b0. apply rel_bind_eq; [apply trunc_rel|]. intros _. rauto.
      + assert (Ww : wf (with_witness c ws)) by (apply (gd_wf _ (good_with c ws G HL))).
        pose proof (truncate_with_spec (with_witness c ws) a v x1 x2 x3 x4 Ww Ht Ha) as H. unfold vspec, wpc in *.
        replace ((b0 <- create_variable v;; guarded rb (trunc_with a b0 x1 x2 x3 x4) >> ret b0) (with_witness c ws))
          with (truncate_with a v x1 x2 x3 x4 (with_witness c ws)); [exact H|].
        unfold truncate_with. apply bind_cong. intros b0 c0 E0. unfold cbind. f_equal.
        assert (Ht0 : ptype c0 = Ultra rb).
        { destruct (var_spec zval (with_witness c ws) v Ww) as (b' & d & E1' & _). rewrite E0 in E1'. injection E1' as _ ->. exact Ht. }
        unfold guarded. rewrite Ht0, Nat.eqb_refl. reflexivity.
      + exists l. auto.
  Qed.
End Trunc.
