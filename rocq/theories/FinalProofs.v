(** Finalization keeps the constraints of a circuit. *)

From Coq Require Import List Arith ZArith Bool Lia Sorted Permutation.
From Verif Require Import Base ListAux Alg CircuitModel CircuitProofs SatProofs SatGadget FinalModel.
Import ListNotations.


Definition tr (i j k : nat) : nat := if k =? i then j else if k =? j then i else k.
Lemma tr_tr i j k : tr i j (tr i j k) = k.
Proof.
  unfold tr. destruct (Nat.eqb_spec k i); subst.
  - rewrite Nat.eqb_refl. destruct (Nat.eqb_spec j i); auto.
  - destruct (Nat.eqb_spec k j); subst.
    + rewrite Nat.eqb_refl; auto.
    + destruct (Nat.eqb_spec k i); [contradiction|]. destruct (Nat.eqb_spec k j); [contradiction|]. auto.
Qed.

Lemma vswap_ok {X A} (l : list A) i j : i < length l -> j < length l ->
  exists l', @vswap X A l i j = Ok l' /\ length l' = length l /\ forall k, nth_error l' k = nth_error l (tr i j k).
Proof.
  intros Hi Hj. unfold vswap, index.
  destruct (nth_error l i) as [a|] eqn:Ea; [|apply nth_error_None in Ea; lia].
  destruct (nth_error l j) as [b|] eqn:Eb; [|apply nth_error_None in Eb; lia].
  cbn [bind]. eexists; split; [reflexivity|]. split; [now rewrite !set_nth_length|].
  intros k. unfold tr. destruct (Nat.eqb_spec k i) as [->|Hki].
  - destruct (Nat.eq_dec i j) as [->|Hij].
    + rewrite nth_error_set_nth_eq by now rewrite set_nth_length. congruence.
    + rewrite nth_error_set_nth_neq by auto. rewrite nth_error_set_nth_eq by auto. congruence.
  - destruct (Nat.eqb_spec k j) as [->|Hkj].
    + rewrite nth_error_set_nth_eq by now rewrite set_nth_length. congruence.
    + rewrite !nth_error_set_nth_neq by auto. auto.
Qed.

Lemma vresize_length {A} n (d : A) l : length (vresize n d l) = n.
Proof. unfold vresize. rewrite firstn_length, app_length, repeat_length. lia. Qed.
Lemma vresize_eq {A} n (d : A) l : length l <= n -> vresize n d l = l ++ repeat d (n - length l).
Proof.
  intros H. unfold vresize. apply firstn_all2. rewrite app_length, repeat_length. lia.
Qed.

Section Final.
  Context {K : fld}.
  Notation circuit := (circuit K).
  Implicit Types c : circuit.

  Definition hasgr c (g : gate K) (r : row) : Prop :=
    exists j, nth_error (gates c) j = Some g /\ nth_error (rows c) j = Some r.

  (** Everything but gates, rows, public-input ids, permutation and domain. *)
  Record same_env c c' : Prop := {
    se_vars : num_vars c' = num_vars c;
    se_wit : witness c' = witness c;
    se_type : ptype c' = ptype c;
    se_range : range_col c' = range_col c;
    se_tabs : table_ids c' = table_ids c;
    se_ntab : num_table_elems c' = num_table_elems c }.
  Lemma same_env_refl c : same_env c c. Proof. split; auto. Qed.
  Lemma same_env_trans a b c : same_env a b -> same_env b c -> same_env a c.
  Proof. intros [] []. split; congruence. Qed.

  Record same_gr c c' : Prop := {
    sg_len_g : length (gates c') = length (gates c);
    sg_len_r : length (rows c') = length (rows c);
    sg_has : forall g r, hasgr c' g r <-> hasgr c g r;
    sg_perm : Permutation (gates c') (gates c) }.
  Lemma same_gr_refl c : same_gr c c. Proof. split; auto. tauto. Qed.
  Lemma same_gr_trans a b c : same_gr a b -> same_gr b c -> same_gr a c.
  Proof.
    intros [A1 A2 A3 A4] [B1 B2 B3 B4]. split; try congruence; [|etransitivity; eauto].
    intros. rewrite B3. apply A3.
  Qed.

  Lemma swap_gates_ok i j c : length (rows c) = length (gates c) ->
    i < length (gates c) -> j < length (gates c) ->
    exists c', swap_gates K i j c = Ok c' /\ same_env c c' /\ same_gr c c'
      /\ domain c' = domain c /\ pub_ids c' = pub_ids c
      /\ (forall k, nth_error (gates c') k = nth_error (gates c) (tr i j k))
      /\ (forall k, nth_error (rows c') k = nth_error (rows c) (tr i j k)).
  Proof.
    intros Hl Hi Hj. unfold swap_gates.
    destruct (@vswap_ok cerr _ (gates c) i j Hi Hj) as (gs & Eg & Lg & Ng). rewrite Eg. cbn [bind].
    destruct (@vswap_ok cerr _ (rows c) i j ltac:(lia) ltac:(lia)) as (rs & Er & Lr & Nr). rewrite Er. cbn [bind].
    eexists; split; [reflexivity|]. split; [split; auto|]. split; [split; cbn; auto|].
    { intros g r. unfold hasgr; cbn [gates rows set_gr]. split; intros (k & H1 & H2).
      - exists (tr i j k). rewrite Ng in H1. rewrite Nr in H2. auto.
      - exists (tr i j k). rewrite Ng, Nr, tr_tr. auto. }
    { symmetry. apply Permutation_nth_error. split; [auto|]. exists (tr i j). split; [|exact Ng].
      intros a b E. rewrite <- (tr_tr i j a), <- (tr_tr i j b), E. reflexivity. }
    cbn. auto.
  Qed.

  Lemma move_io_ok ids : forall i c, length (rows c) = length (gates c) ->
    StronglySorted lt ids -> Forall (fun id => i <= id < length (gates c)) ids ->
    exists c', move_io K i ids c = Ok (seq i (length ids), c') /\ same_env c c' /\ same_gr c c'
      /\ domain c' = domain c /\ pub_ids c' = pub_ids c
      /\ (forall k, k < i -> nth_error (gates c') k = nth_error (gates c) k /\ nth_error (rows c') k = nth_error (rows c) k)
      /\ (forall k id, nth_error ids k = Some id ->
            nth_error (gates c') (i + k) = nth_error (gates c) id /\ nth_error (rows c') (i + k) = nth_error (rows c) id).
  Proof.
    induction ids as [|id ids IH]; intros i c Hl Hs Hb; cbn [move_io].
    - exists c. split; [reflexivity|]. split; [apply same_env_refl|]. split; [apply same_gr_refl|].
      do 3 (split; auto). intros k id H. destruct k; discriminate.
    - inversion Hs as [|? ? Hs' Hlt]; subst. inversion Hb as [|? ? Hid Hb']; subst.
      assert (Hstep : exists c1, (if i <? id then let* c' := swap_gates K i id c in Ok (i, c') else Ok (id, c)) = Ok (i, c1)
         /\ same_env c c1 /\ same_gr c c1 /\ domain c1 = domain c /\ pub_ids c1 = pub_ids c
         /\ (forall k, nth_error (gates c1) k = nth_error (gates c) (tr i id k))
         /\ (forall k, nth_error (rows c1) k = nth_error (rows c) (tr i id k))).
      { destruct (Nat.ltb_spec i id) as [H|H].
        - destruct (swap_gates_ok i id c Hl ltac:(lia) ltac:(lia)) as (c1 & E & R). rewrite E. cbn [bind].
          exists c1. split; auto.
        - assert (id = i) by lia. subst id. exists c. split; [reflexivity|].
          split; [apply same_env_refl|]. split; [apply same_gr_refl|]. do 2 (split; auto).
          split; intros k; unfold tr; destruct (Nat.eqb_spec k i); subst; auto. }
      destruct Hstep as (c1 & E1 & SE1 & SG1 & D1 & P1 & N1 & N1'). rewrite E1. cbn [bind fst snd].
      assert (Hl1 : length (rows c1) = length (gates c1)) by (rewrite (sg_len_g _ _ SG1), (sg_len_r _ _ SG1); auto).
      destruct (IH (S i) c1 Hl1 Hs') as (c2 & E2 & SE2 & SG2 & D2 & P2 & L2 & M2).
      { rewrite Forall_forall in *. intros x Hx. rewrite (sg_len_g _ _ SG1). specialize (Hlt x Hx). specialize (Hb' x Hx). lia. }
      rewrite E2. cbn [bind fst snd length seq]. exists c2. split; [reflexivity|].
      split; [eapply same_env_trans; eauto|]. split; [eapply same_gr_trans; eauto|].
      split; [congruence|]. split; [congruence|]. split.
      + intros k Hk. destruct (L2 k ltac:(lia)) as [A B]. rewrite A, B, N1, N1'.
        unfold tr. destruct (Nat.eqb_spec k i); [lia|]. destruct (Nat.eqb_spec k id); [lia|]. auto.
      + intros k id' Hk. destruct k as [|k]; cbn [nth_error] in Hk.
        * inversion Hk; subst id'. rewrite Nat.add_0_r. destruct (L2 i ltac:(lia)) as [A B]. rewrite A, B, N1, N1'.
          unfold tr. rewrite Nat.eqb_refl. auto.
        * replace (i + S k) with (S i + k) by lia. destruct (M2 k id' Hk) as [A B]. rewrite A, B, N1, N1'.
          assert (Hin : In id' ids) by (eapply nth_error_In; eauto).
          rewrite Forall_forall in Hlt. specialize (Hlt id' Hin).
          unfold tr. destruct (Nat.eqb_spec id' i); [lia|]. destruct (Nat.eqb_spec id' id); [lia|]. auto.
  Qed.

  Lemma move_tables_ok m ids : forall cur c, length (rows c) = length (gates c) -> cur < length (gates c) ->
    Forall (fun id => m <= id) ids ->
    exists c', move_tables K ids cur c = Ok c' /\ same_env c c' /\ same_gr c c'
      /\ domain c' = domain c /\ pub_ids c' = pub_ids c
      /\ (forall k, k < m -> nth_error (gates c') k = nth_error (gates c) k /\ nth_error (rows c') k = nth_error (rows c) k).
  Proof.
    induction ids as [|id ids IH]; intros cur c Hl Hc Hm; cbn [move_tables].
    - exists c. split; [reflexivity|]. split; [apply same_env_refl|]. split; [apply same_gr_refl|]. auto.
    - inversion Hm; subst. destruct (Nat.ltb_spec id cur) as [H|H].
      + destruct (swap_gates_ok id cur c Hl ltac:(lia) ltac:(lia)) as (c1 & E1 & SE1 & SG1 & D1 & P1 & N1 & N1').
        rewrite E1. cbn [bind].
        assert (Hl1 : length (rows c1) = length (gates c1)) by (rewrite (sg_len_g _ _ SG1), (sg_len_r _ _ SG1); auto).
        destruct (IH (cur - 1) c1 Hl1) as (c2 & E2 & SE2 & SG2 & D2 & P2 & L2).
        { rewrite (sg_len_g _ _ SG1). lia. } { auto. }
        exists c2. split; auto. split; [eapply same_env_trans; eauto|]. split; [eapply same_gr_trans; eauto|].
        split; [congruence|]. split; [congruence|]. intros k Hk. destruct (L2 k Hk) as [A B]. rewrite A, B, N1, N1'.
        unfold tr. destruct (Nat.eqb_spec k id); [lia|]. destruct (Nat.eqb_spec k cur); [lia|]. auto.
      + apply IH; auto.
  Qed.

  (** The circuit held by a builder before finalization. *)
  Record built c : Prop := {
    bt_good : good c;
    bt_sorted : StronglySorted lt (pub_ids c);
    bt_io : forall id, In id (pub_ids c) -> nth_error (gates c) id = Some (io_gate K);
    bt_tabs : num_table_elems c = list_sum (map snd (table_ids c));
    bt_tab_bound : Forall (fun t => fst t + snd t <= length (gates c)) (table_ids c) }.

  (** Table gates are not in the way of the public inputs. *)
  Definition tables_clear c : Prop :=
    ptype c = Turbo \/ Forall (fun t => num_inputs c <= fst t \/ snd t = 0) (table_ids c).

  Lemma table_gate_list_clear m (l : list (nat * nat)) : Forall (fun t => m <= fst t \/ snd t = 0) l ->
    Forall (fun id => m <= id) (concat (map (fun t => rev (seq (fst t) (snd t))) (rev l))).
  Proof.
    intros H. apply Forall_forall. intros x Hx. apply in_concat in Hx as (s & Hs & Hx).
    apply in_map_iff in Hs as (t & <- & Ht). apply in_rev in Ht. rewrite Forall_forall in H.
    apply in_rev in Hx. apply in_seq in Hx. destruct (H t Ht); lia.
  Qed.

  (** What [pad] followed by [rearrange_gates] does. *)
  Lemma pad_rearrange_ok c n : built c -> tables_clear c -> length (gates c) <= n -> 2 <= n ->
    (forall b, ptype c = Ultra b -> length (range_col c) <= n) ->
    exists c', rearrange_gates K (pad_c K (set_domain K n c)) = Ok c'
      /\ num_vars c' = num_vars c /\ witness c' = witness c /\ ptype c' = ptype c /\ domain c' = n
      /\ range_col c' = match ptype c with Turbo => range_col c | Ultra _ => vresize n 0%nat (range_col c) end
      /\ length (gates c') = n /\ length (rows c') = n
      /\ pub_ids c' = seq 0 (num_inputs c)
      /\ (forall g r, hasgr c' g r <-> hasgr c g r \/ (length (gates c) < n /\ g = padding_gate K /\ r = zero_row))
      /\ (forall k id, nth_error (pub_ids c) k = Some id ->
            nth_error (gates c') k = nth_error (gates c) id /\ nth_error (rows c') k = nth_error (rows c) id)
      /\ Permutation (gates c') (gates c ++ repeat (padding_gate K) (n - length (gates c))).
  Proof.
    intros [G Hs Hio _ _] Ht Hn H2 Hr. set (cp := pad_c K (set_domain K n c)).
    pose proof (gd_bd _ G) as B. pose proof (bd_rows _ B) as Hrl.
    assert (Eg : gates cp = gates c ++ repeat (padding_gate K) (n - length (gates c))).
    { unfold cp, pad_c. destruct (ptype (set_domain K n c)); reflexivity. }
    assert (Er : rows cp = rows c ++ repeat zero_row (n - length (rows c))).
    { rewrite <- vresize_eq by lia. unfold cp, pad_c. destruct (ptype (set_domain K n c)); reflexivity. }
    assert (Lg : length (gates cp) = n) by (rewrite Eg, app_length, repeat_length; lia).
    assert (Lr : length (rows cp) = n) by (rewrite Er, app_length, repeat_length; lia).
    assert (Ep : pub_ids cp = pub_ids c) by (unfold cp, pad_c; destruct (ptype (set_domain K n c)); reflexivity).
    assert (Env : num_vars cp = num_vars c /\ witness cp = witness c /\ ptype cp = ptype c /\ domain cp = n
              /\ table_ids cp = table_ids c
              /\ range_col cp = match ptype c with Turbo => range_col c | Ultra _ => vresize n 0%nat (range_col c) end).
    { unfold cp, pad_c. cbn [ptype set_domain]. destruct (ptype c) eqn:Et; cbn; rewrite ?Et; auto 10. }
    destruct Env as (E1 & E2 & E3 & E4 & E5 & E6).
    unfold rearrange_gates. rewrite Ep.
    destruct (move_io_ok (pub_ids c) 0 cp) as (c1 & M & SE1 & SG1 & D1 & P1 & _ & N1).
    { lia. } { auto. }
    { rewrite Lg. eapply Forall_impl; [|exact (bd_pub _ B)]. cbn beta; intros; lia. }
    rewrite M. cbn [bind fst snd]. rewrite E3.
    set (c2 := set_pub_ids K (seq 0 (length (pub_ids c))) c1).
    assert (F : exists c3, match ptype c with Turbo => Ok c2 | Ultra _ => move_tables K (table_gate_list K cp) (domain cp - 2) c2 end = Ok c3
       /\ same_env c2 c3 /\ same_gr c2 c3 /\ domain c3 = domain c2 /\ pub_ids c3 = pub_ids c2
       /\ (forall k, k < num_inputs c -> nth_error (gates c3) k = nth_error (gates c2) k /\ nth_error (rows c3) k = nth_error (rows c2) k)).
    { destruct (ptype c) eqn:Et.
      - exists c2. split; [reflexivity|]. split; [apply same_env_refl|]. split; [apply same_gr_refl|]. auto.
      - apply move_tables_ok.
        + cbn. rewrite (sg_len_g _ _ SG1), (sg_len_r _ _ SG1). lia.
        + cbn. rewrite (sg_len_g _ _ SG1). lia.
        + unfold table_gate_list. rewrite E5. apply table_gate_list_clear. destruct Ht; [congruence|auto]. }
    destruct F as (c3 & -> & SE3 & SG3 & D3 & P3 & N3). exists c3. split; [reflexivity|].
    destruct SE1 as [S1 S2 S3 S4 S5 S6]. destruct SE3 as [T1 T2 T3 T4 T5 T6].
    cbn [c2 set_pub_ids num_vars witness ptype range_col domain pub_ids gates rows] in *.
    split; [congruence|]. split; [congruence|]. split; [congruence|]. split; [congruence|]. split; [congruence|].
    split. { rewrite (sg_len_g _ _ SG3). cbn. rewrite (sg_len_g _ _ SG1). auto. }
    split. { rewrite (sg_len_r _ _ SG3). cbn. rewrite (sg_len_r _ _ SG1). auto. }
    split; [exact P3|]. split.
    - intros g r. rewrite (sg_has _ _ SG3). change (hasgr c2 g r) with (hasgr c1 g r). rewrite (sg_has _ _ SG1).
      unfold hasgr. rewrite Eg, Er. split.
      + intros (j & H1 & H2'). destruct (Nat.lt_ge_cases j (length (gates c))) as [Hj|Hj].
        * left. exists j. rewrite nth_error_app1 in H1 by auto. rewrite nth_error_app1 in H2' by lia. auto.
        * right. rewrite nth_error_app2 in H1 by auto. rewrite nth_error_app2 in H2' by lia.
          apply nth_error_In, repeat_spec in H2'.
          assert (j < n) by (assert (j - length (gates c) < length (repeat (padding_gate K) (n - length (gates c)))) by (apply nth_error_Some; congruence); rewrite repeat_length in *; lia).
          apply nth_error_In, repeat_spec in H1. split; [lia|]. auto.
      + intros [(j & H1 & H2')|(Hlt & -> & ->)].
        * exists j. rewrite !nth_error_app1; auto; apply nth_error_Some; congruence.
        * exists (length (gates c)). rewrite !nth_error_app2 by lia. rewrite Hrl, Nat.sub_diag.
          destruct (n - length (gates c)) eqn:E; [lia|]. auto.
    - split; [|rewrite <- Eg; etransitivity; [exact (sg_perm _ _ SG3)|exact (sg_perm _ _ SG1)]].
      intros k id Hk. assert (Hkn : k < num_inputs c) by (apply nth_error_Some; congruence).
      destruct (N3 k Hkn) as [A1 A2]. destruct (N1 k id Hk) as [B1 B2]. cbn [Nat.add] in *.
      rewrite A1, A2, B1, B2.
      assert (id < length (gates c)) by (pose proof (bd_pub _ B) as F; rewrite Forall_forall in F; apply F; eapply nth_error_In; eauto).
      rewrite Eg, Er. rewrite !nth_error_app1 by lia. auto.
  Qed.

  Variable zval : K -> Z.
  Add Field Kfp : (fth K).
  Notation csat := (csat zval).

  (** Satisfaction only depends on the set of gates with their rows. *)
  Lemma csat_transfer c c' w pub :
    ptype c' = ptype c -> num_inputs c' = num_inputs c ->
    (forall g r, hasgr c' g r <-> hasgr c g r \/ (length (gates c) < length (gates c') /\ g = padding_gate K /\ r = zero_row)) ->
    (forall k, k < num_inputs c -> forall id, nth_error (pub_ids c) k = Some id -> exists id', nth_error (pub_ids c') k = Some id' /\
        nth_error (gates c') id' = nth_error (gates c) id /\ nth_error (rows c') id' = nth_error (rows c) id) ->
    (forall v, In v (range_col c) -> In v (range_col c')) ->
    (forall v, In v (range_col c') -> In v (range_col c) \/ rsat zval (ptype c) w v) ->
    csat c' w pub <-> csat c w pub.
  Proof.
    intros Ht Hi Hg Hp Hr Hr'.
    assert (Hpad : gsat w 0%F (padding_gate K) zero_row).
    { unfold gsat, gate_expected, gate_output, padding_gate, agate; cbn. ring. }
    split; intros C.
    - split.
      + rewrite <- Hi. apply (cs_len _ _ _ _ C).
      + intros i id H. assert (Hk : i < num_inputs c) by (apply nth_error_Some; congruence).
        destruct (Hp i Hk id H) as (id' & H1 & H2 & H3).
        destruct (cs_pub _ _ _ _ C i id' H1) as (g & r & A1 & A2 & A3). exists g, r. split; [congruence|]. split; [congruence|]. auto.
      + intros j g r H1 H2 Hio. destruct (proj2 (Hg g r) (or_introl (ex_intro _ j (conj H1 H2)))) as (j' & A & B).
        eapply (cs_gate _ _ _ _ C); eauto.
      + intros v Hv. rewrite <- Ht. apply (cs_range _ _ _ _ C). auto.
      + intros Hu j g r H1 H2 Hq. rewrite <- Ht in Hu.
        destruct (proj2 (Hg g r) (or_introl (ex_intro _ j (conj H1 H2)))) as (j' & A & B).
        destruct (cs_lookup _ _ _ _ C Hu j' g r A B Hq) as [E|(j2 & g2 & r2 & A2 & B2 & Q2 & E)]; auto.
        right. destruct (proj1 (Hg g2 r2) (ex_intro _ j2 (conj A2 B2))) as [(j3 & A3 & B3)|(_ & -> & _)].
        * exists j3, g2, r2. auto.
        * exfalso. apply Q2. reflexivity.
    - split.
      + rewrite Hi. apply (cs_len _ _ _ _ C).
      + intros i id' H. assert (Hk : i < num_inputs c) by (rewrite <- Hi; apply nth_error_Some; congruence).
        destruct (nth_error (pub_ids c) i) as [id|] eqn:E; [|apply nth_error_None in E; unfold num_inputs in Hk; lia].
        destruct (Hp i Hk id E) as (id2 & H1 & H2 & H3). assert (id2 = id') by congruence. subst id2.
        destruct (cs_pub _ _ _ _ C i id E) as (g & r & A1 & A2 & A3). exists g, r. split; [congruence|]. split; [congruence|]. auto.
      + intros j g r H1 H2 Hio. destruct (proj1 (Hg g r) (ex_intro _ j (conj H1 H2))) as [(j' & A & B)|(_ & -> & ->)].
        * eapply (cs_gate _ _ _ _ C); eauto.
        * exact Hpad.
      + intros v Hv. rewrite Ht. destruct (Hr' v Hv) as [H|H]; auto. apply (cs_range _ _ _ _ C). auto.
      + intros Hu j g r H1 H2 Hq. rewrite Ht in Hu.
        destruct (proj1 (Hg g r) (ex_intro _ j (conj H1 H2))) as [(j' & A & B)|(_ & -> & _)]; [|exfalso; apply Hq; reflexivity].
        destruct (cs_lookup _ _ _ _ C Hu j' g r A B Hq) as [E|(j2 & g2 & r2 & A2 & B2 & Q2 & E)]; auto.
        right. destruct (proj2 (Hg g2 r2) (or_introl (ex_intro _ j2 (conj A2 B2)))) as (j3 & A3 & B3).
        exists j3, g2, r2. auto.
  Qed.
End Final.
