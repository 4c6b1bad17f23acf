(** What the windowed multi-scalar multiplication enforces (ecc/msm.rs:184-365). *)

From Coq Require Import List Arith ZArith Bool Lia Ring Field.
From Verif Require Import Base ListAux Alg Poly Group Edwards CircuitModel CircuitProofs GadgetModel GadgetProofs RangeProofs BitProofs CmpProofs
  RangeLookup EmulatedProofs SatProofs SatGadget FinalModel FinalProofs BuiltProofs FinalProps EccModel EccProofs TableSpec.
Import ListNotations.
Local Open Scope fld_scope.
Local Open Scope circ_scope.

Section Digits.
  Lemma Forall2_len {X Y} (P : X -> Y -> Prop) l l' : Forall2 P l l' -> length l = length l'.
  Proof. induction 1; cbn; auto. Qed.
  Lemma digits_seq B v m : (0 < B)%Z -> digits B v m = map (fun j => ((v / B ^ Z.of_nat j) mod B)%Z) (seq 0 m).
  Proof.
    intros HB. revert v. induction m as [|m IH]; intros v; [reflexivity|]. cbn [digits seq map].
    change (Z.of_nat 0) with 0%Z. rewrite Z.pow_0_r, Z.div_1_r. f_equal. rewrite IH, <- seq_shift, map_map. apply map_ext. intros j.
    rewrite Nat2Z.inj_succ, Z.pow_succ_r, Z.div_div by lia. reflexivity.
  Qed.
  Lemma hval_range B l : (0 < B)%Z -> Forall (fun z => 0 <= z < B)%Z l -> (0 <= hval B l < B ^ Z.of_nat (length l))%Z.
  Proof.
    intros HB. induction 1 as [|z l Hz _ IH]; cbn [hval length]; [cbn; lia|].
    rewrite Nat2Z.inj_succ, Z.pow_succ_r by lia. nia.
  Qed.
  Context {K : fld}.
  Add Field Kmsm : (fth K).
  Lemma peval_digits (xs : list K) ds B : Forall2 (fun x d => x = fZ d) xs ds -> peval xs (fZ B) = fZ (hval B ds).
  Proof.
    induction 1 as [|x d xs ds E _ IH]; cbn [peval hval]; [reflexivity|]. rewrite fZ_add, fZ_mul, IH, E. reflexivity.
  Qed.
End Digits.

Section Msm.
  Context {K : fld}.
  Variable zval : K -> Z.
  Variables A D : K.
  Hypothesis HC : law K A D.
  Variable p : Z.
  Variables nb L : nat.
  Hypothesis HF : pfield K zval p nb L.
  Variable order : Z.
  Notation E := (curve K A D HC).
  Notation cval := (cval K A D HC).
  Notation on := (ins K A D HC).
  Notation tok := (tok zval p).
  Notation True2 := (fun _ _ => True).

  Lemma on_ex (P : pt K) : on P -> exists Q : E, P = cval Q.
  Proof. intros H. now apply (on_cval A D HC) in H. Qed.
  Lemma pout_le (q : pvar) n n' : pout q n -> (n <= n')%nat -> pout q n'.
  Proof. intros [H1 H2] H. split; lia. Qed.
  Lemma pv_later (c c1 : circuit K) T1 q : later c c1 T1 -> pout q (num_vars c) -> pv (hon c1) q = pv (hon c) q.
  Proof. intros LT [H1 H2]. unfold pv. now rewrite !(lt_hon _ _ _ LT). Qed.
  Lemma pv_hext (c : circuit K) w q : hext c w -> pout q (num_vars c) -> pv w q = pv (hon c) q.
  Proof. intros Hx [H1 H2]. unfold pv. now rewrite !Hx. Qed.

  (** [Projective * ScalarField] is the multiple in the group. *)
  Lemma pmulz_gmul k (P : E) : pmulz A D k (cval P) = cval (gmul k P).
  Proof.
    assert (Hpos : forall q (Q : E), Pos.iter_op (tadd K A D) q (cval Q) = cval (gmul_pos E q Q)).
    { induction q as [q IH|q IH|]; intros Q; cbn [Pos.iter_op gmul_pos].
      - change (tadd K A D (cval Q) (cval Q)) with (cval (gadd Q Q)). rewrite IH. reflexivity.
      - change (tadd K A D (cval Q) (cval Q)) with (cval (gadd Q Q)). apply IH.
      - reflexivity. }
    destruct k as [|q|q]; cbn [pmulz gmul]; [reflexivity|apply Hpos|]. rewrite Hpos. reflexivity.
  Qed.

  Lemma tok_add c T a b : reached c T -> pout a (num_vars c) -> pout b (num_vars c) -> on (pv (hon c) a) -> on (pv (hon c) b) ->
    tok (ecc_add A D a b) c T (fun w o => forall P Q : E, pv w a = cval P -> pv w b = cval Q -> pv w o = cval (gadd P Q)) True2 pout 0.
  Proof.
    intros R Ha Hb Oa Ob. apply tok_gspec; auto. apply (ecc_add_group zval A D HC); auto. eapply reached_wf; eauto.
  Qed.
  Lemma tok_point c T (P : pt K) : reached c T -> base (hon c) ->
    tok (create_point_variable P) c T True2 (fun w o => pv w o = P) pout 0.
  Proof.
    intros R B. unfold create_point_variable. eapply tok_bind; [exact R|exact B|now apply tok_var| |reflexivity].
    intros x c1 T1 L1 Rx _. eapply tok_bind; [apply L1|apply L1|now apply tok_var, L1| |reflexivity].
    intros y c2 T2 L2 Ry _. apply tok_ret; [apply L2|auto|..].
    - intros w _ _ _ Ey _ Ex. unfold pv. cbn [fst snd]. rewrite Ex, Ey. now destruct P.
    - pose proof (lt_vars _ _ _ L2). cbn beta in *. split; cbn [fst snd]; lia.
  Qed.

  Section Window.
    Variable c : nat.
    Hypothesis Hc : (1 <= c)%nat.
    Hypothesis Hcp : (2 ^ Z.of_nat c <= p)%Z.
    Hypothesis Hco : (2 ^ Z.of_nat c <= order)%Z.
    Notation W := (2 ^ Z.of_nat c)%Z.
    Lemma W_pos : (2 <= W)%Z.
    Proof. change 2%Z with (2 ^ 1)%Z at 1. apply Z.pow_le_mono_r; lia. Qed.
    Lemma W_nat : W = Z.of_nat (2 ^ c).
    Proof. rewrite Nat2Z.inj_pow. reflexivity. Qed.

    (** The number of windows. *)
    Definition nwin (len : nat) : nat := ((len - 1) / c + 1)%nat.

    Lemma tok_decompose c0 T s len : reached c0 T -> base (hon c0) -> (s < num_vars c0)%nat -> (1 <= len)%nat ->
      (zval (hon c0 s) < W ^ Z.of_nat (nwin len))%Z ->
      tok (decompose_scalar_var zval s c len) c0 T (fun w vs => length vs = nwin len /\ w s = peval (map w vs) (fZ W))
        (fun w vs => Forall2 (fun v d => w v = fZ d) vs (digits W (zval (w s)) (nwin len)))
        (fun vs n => Forall (fun v => v < n)%nat vs) 0.
    Proof.
      intros R B Hs Hl Hv. unfold decompose_scalar_var. destruct (Nat.eqb_spec len 0); [lia|]. fold (nwin len).
      pose proof W_pos as HW.
      eapply tok_step.
      { instantiate (1 := hon c0 s). pose proof (reached_wf _ _ R) as Wf.
        unfold get_witness, check_var_bound, cbind, lift. destruct (Nat.leb_spec (num_vars c0) s); [lia|].
        unfold index. rewrite (nth_error_nth' _ 0); [reflexivity|]. rewrite (wf_wit _ Wf). lia. }
      set (x := hon c0 s) in *.
      eapply tok_bind; [exact R|exact B| | |].
      - apply (tok_mapM zval p _ (fun _ => True2) (fun j w v => w v = fZ ((zval x / 2 ^ Z.of_nat (c * j)) mod W)%Z) (fun v n => v < n)%nat);
          [intros; lia|exact R|exact B|].
        intros j c1 T1 _ L1. apply tok_var, L1.
      - intros vs c1 T1 L1 Rvs Hvs.
        assert (Ex : hon c1 s = x) by now apply (lt_hon _ _ _ L1).
        assert (Dg : forall w, base w -> hext c1 w -> Forall2 (fun v d => w v = fZ d) vs (digits W (zval x) (nwin len))).
        { intros w Bw Hx. destruct (Hvs w Bw Hx) as [_ H]. rewrite digits_seq by lia. clear -H Hc. revert H. generalize (seq 0 (nwin len)).
          intros l H. induction H as [|j v l vs E _ IH]; cbn [map]; constructor; auto. rewrite E. do 3 f_equal.
          rewrite <- Z.pow_mul_r by lia. f_equal. lia. }
        assert (Lv : length vs = nwin len).
        { pose proof (Dg (hon c1) (lt_base _ _ _ L1) (hext_hon _)) as H. apply Forall2_len in H. now rewrite length_digits in H. }
        assert (Nz : (0 < nwin len)%nat) by (unfold nwin; lia).
        eapply tok_bind with (S1 := fun w _ => w s = peval (map w vs) (fZ W)); [apply L1|apply L1| | |].
        + eapply tok_gspec_c; [apply L1|apply decomposition_gate_spec|].
          * eapply lt_wf; eauto.
          * intros ->. cbn in Lv. lia.
          * exact Rvs.
          * pose proof (lt_vars _ _ _ L1). lia.
          * intros w Bw Hx. cbn beta. rewrite (peval_digits (map w vs) (digits W (zval x) (nwin len))).
            -- rewrite hval_digits' by lia. rewrite Z.mod_small by (pose proof (pf_range _ _ _ _ _ HF x); lia).
               rewrite (pf_fZ _ _ _ _ _ HF). rewrite Hx by (pose proof (lt_vars _ _ _ L1); lia). exact Ex.
            -- specialize (Dg w Bw Hx). clear -Dg. induction Dg; constructor; auto.
        + intros [] c2 T2 L2 _ H2. apply tok_ret; [apply L2| | |].
          * intros w Bw Ew _. split; auto.
          * intros w Bw Hx2 Ew _ _ _. assert (Hx : hext c1 w) by (eapply lt_hext; eauto).
            rewrite Hx by (pose proof (lt_vars _ _ _ L1); lia). rewrite Ex. now apply Dg.
          * eapply Forall_impl; [|exact Rvs]. cbn beta. intros v. pose proof (lt_vars _ _ _ L2). lia.
        + reflexivity.
      - reflexivity.
    Qed.

    Lemma tok_point_table b n : forall c0 T last, reached c0 T -> base (hon c0) -> pout b (num_vars c0) -> pout last (num_vars c0) ->
      on (pv (hon c0) b) -> on (pv (hon c0) last) ->
      tok (point_table A D b last n) c0 T
        (fun w l => length l = n /\ forall P Q : E, pv w b = cval P -> pv w last = cval Q ->
           forall i q, nth_error l i = Some q -> pv w q = cval (gadd (gmul (Z.of_nat (S i)) P) Q)) True2
        (fun l m => Forall (fun q => pout q m) l) 0.
    Proof.
      induction n as [|n IH]; intros c0 T last R B Hb Hl Ob Ol; cbn [point_table].
      - apply tok_ret; auto. intros w _. split; auto. intros P Q _ _ i q H. now destruct i.
      - eapply tok_bind; [exact R|exact B|apply tok_add; auto| |reflexivity].
        intros q c1 T1 L1 Rq Hq. pose proof (lt_vars _ _ _ L1) as V1.
        destruct (on_ex _ Ob) as [P0 EP]. destruct (on_ex _ Ol) as [Q0 EQ].
        assert (Oq : on (pv (hon c1) q)).
        { rewrite (proj1 (Hq _ (lt_base _ _ _ L1) (hext_hon _)) P0 Q0); [apply cval_on|..]; rewrite (pv_later _ _ _ _ L1); auto. }
        eapply tok_bind; [apply L1|apply L1|apply IH; try apply L1; auto| |reflexivity].
        + eapply pout_le; eauto.
        + now rewrite (pv_later _ _ _ _ L1).
        + intros l c2 T2 L2 Rl _. apply tok_ret; [apply L2| |auto|].
          * intros w _ [Ll Hl'] Hq'. split; [cbn; auto|]. intros P Q EP' EQ' i r Hi. destruct i as [|i]; cbn in Hi.
            -- injection Hi as <-. rewrite (Hq' P Q EP' EQ'). now rewrite gmul_1.
            -- rewrite (Hl' P (gadd P Q) EP' (Hq' P Q EP' EQ') i r Hi). f_equal.
               rewrite gadd_assoc. f_equal. rewrite (Nat2Z.inj_succ (S i)). unfold Z.succ. now rewrite gmul_add, gmul_1.
          * constructor; auto. eapply pout_le; [exact Rq|]. apply (lt_vars _ _ _ L2).
    Qed.

    (** One base: each point is the multiple of the base by its window. *)
    Definition wins (zr : (nat -> K) -> nat -> Z -> Prop) (len : nat) (w : nat -> K) (s : nat) (P : E) (ps : list pvar) : Prop :=
      exists ds, length ds = nwin len /\ zr w s (hval W ds) /\ Forall2 (fun q d => pv w q = cval (gmul d P)) ps ds.
    (** Any integer below [W ^ nwin] congruent to the scalar. *)
    Definition zmod_rel (len : nat) (w : nat -> K) (s : nat) (z : Z) : Prop := (0 <= z < W ^ Z.of_nat (nwin len))%Z /\ w s = fZ z.
    (** The scalar itself. *)
    Definition zeq_rel (w : nat -> K) (s : nat) (z : Z) : Prop := z = zval (w s).

    Lemma table_row (w : nat -> K) b tl (P : E) i t0 t1 : base w -> pv w b = cval P -> length tl = (2 ^ c - 2)%nat ->
      (forall P Q : E, pv w b = cval P -> pv w b = cval Q ->
           forall i q, nth_error tl i = Some q -> pv w q = cval (gadd (gmul (Z.of_nat (S i)) P) Q)) ->
      nth_error (neutral_point_variable :: b :: tl) i = Some (t0, t1) ->
      (Z.of_nat i < W)%Z /\ pv w (t0, t1) = cval (gmul (Z.of_nat i) P).
    Proof.
      intros Bw EP Ll Ht Hi. assert (H2 : (2 <= 2 ^ c)%nat) by (pose proof (Nat.pow_le_mono_r 2 1 c); cbn in *; lia).
      split.
      - rewrite W_nat. apply Nat2Z.inj_lt. assert (Hlt : (i < length (neutral_point_variable :: b :: tl))%nat) by (apply nth_error_Some; congruence).
        cbn [length] in Hlt. lia.
      - destruct i as [|[|i]]; cbn [nth_error] in Hi.
        + assert (Hq : neutral_point_variable = (t0, t1)) by congruence. rewrite <- Hq, (neutral_pv A D HC w Bw). reflexivity.
        + injection Hi as ->. change (Z.of_nat 1) with 1%Z. now rewrite gmul_1.
        + rewrite (Ht P P EP EP i (t0, t1) Hi). f_equal. rewrite (Nat2Z.inj_succ (S i)). unfold Z.succ. now rewrite gmul_add, gmul_1.
    Qed.
    Lemma fnat_small i d : (Z.of_nat i < W)%Z -> (0 <= d < W)%Z -> fnat (K := K) i = fZ d -> Z.of_nat i = d.
    Proof.
      intros Hi Hd H. rewrite <- fZ_nat in H. apply (f_equal zval) in H. rewrite !(pf_zval _ _ _ _ _ HF) in H.
      rewrite !Z.mod_small in H by lia. exact H.
    Qed.

    Lemma tok_pip_one c0 T b s len : reached c0 T -> base (hon c0) -> ptype c0 <> Turbo -> (1 <= len)%nat ->
      pout b (num_vars c0) -> (s < num_vars c0)%nat -> (zval (hon c0 s) < W ^ Z.of_nat (nwin len))%Z -> on (pv (hon c0) b) ->
      tok (pip_one A D zval order c len b s) c0 T
        (fun w ps => forall P : E, pv w b = cval P -> wins (zmod_rel len) len w s P ps)
        (fun w ps => forall P : E, pv w b = cval P -> wins zeq_rel len w s P ps)
        (fun ps n => Forall (fun q => pout q n) ps) 1.
    Proof.
      intros R B Nt Hl Hb Hs Hv Ob. unfold pip_one. pose proof W_pos as HW.
      eapply tok_bind; [exact R|exact B|apply tok_decompose; auto| |reflexivity].
      intros ss c1 T1 L1 Rs Hh1. pose proof (lt_vars _ _ _ L1) as V1.
      eapply tok_bind; [apply L1|apply L1|apply tok_point_table; try apply L1| |reflexivity].
      1-2: eapply pout_le; eauto. 1-2: now rewrite (pv_later _ _ _ _ L1).
      intros tl c2 T2 L2 Rt Hh2. pose proof (lt_vars _ _ _ L2) as V2. pose proof (later_trans _ _ _ _ _ L1 L2) as L02.
      eapply tok_bind; [apply L2|apply L2| | |].
      { apply (tok_mapM zval p _ (fun _ => True2) (fun v w q => pv w q = pmulz A D (zval (hon c2 v) mod order) (pv (hon c0) b)) pout);
          [intros; eapply pout_le; eauto|apply L2|apply L2|].
        intros v c3 T3 Hin L3. rewrite Forall_forall in Rs. specialize (Rs v Hin).
        assert (Hv3 : (v < num_vars c2)%nat) by lia.
        pose proof (later_trans _ _ _ _ _ L02 L3) as L03. pose proof (lt_vars _ _ _ L3) as V3. pose proof (lt_wf _ _ _ L3) as W3.
        assert (GW : forall u, (u < num_vars c3)%nat -> get_witness u c3 = (Ok (hon c3 u), c3)).
        { intros u Hu. unfold get_witness, check_var_bound, cbind, lift. destruct (Nat.leb_spec (num_vars c3) u); [lia|].
          unfold index. rewrite (nth_error_nth' _ 0); [reflexivity|]. rewrite (wf_wit _ W3). lia. }
        eapply tok_step.
        { instantiate (1 := pmulz A D (zval (hon c2 v) mod order) (pv (hon c0) b)).
          destruct Hb as [Hb1 Hb2]. unfold compute_scalar_mul_value, point_witness, check_point_var_bound, cbind.
          unfold check_var_bound at 1 2, lift.
          destruct (Nat.leb_spec (num_vars c3) (fst b)); [lia|]. destruct (Nat.leb_spec (num_vars c3) (snd b)); [lia|].
          rewrite !GW by lia. unfold ret at 1. rewrite GW by lia. unfold ret. rewrite (lt_hon _ _ _ L3 v Hv3), (lt_hon _ _ _ L03 (fst b) Hb1), (lt_hon _ _ _ L03 (snd b) Hb2). reflexivity. }
        apply tok_point; apply L3. }
      2: reflexivity.
      intros ps c3 T3 L3 Rp Hh3. pose proof (lt_vars _ _ _ L3) as V3. pose proof (later_trans _ _ _ _ _ L02 L3) as L03.
      pose proof (later_trans _ _ _ _ _ L2 L3) as L13.
      destruct (on_ex _ Ob) as [P0 EP0].
      set (rel := fun w : nat -> K => Forall2 (fun v q => exists i, (Z.of_nat i < W)%Z /\ w v = fnat i /\
        forall P : E, pv w b = cval P -> pv w q = cval (gmul (Z.of_nat i) P)) ss ps).
      assert (Lsp : length ss = length ps).
      { destruct (Hh3 (hon c3) (lt_base _ _ _ L3) (hext_hon _)) as [H _]. now apply Forall2_len in H. }
      assert (Lss : length ss = nwin len).
      { destruct (Hh1 (hon c1) (lt_base _ _ _ L1) (hext_hon _)) as [[H _] _]. exact H. }
      assert (Ltl : length tl = (2 ^ c - 2)%nat).
      { destruct (Hh2 (hon c2) (lt_base _ _ _ L2) (hext_hon _)) as [[H _] _]. exact H. }
      (* the constraints of the table *)
      assert (Hrel : forall w, base w -> (exists P : E, pv w b = cval P) ->
        (forall P Q : E, pv w b = cval P -> pv w b = cval Q -> forall i q, nth_error tl i = Some q -> pv w q = cval (gadd (gmul (Z.of_nat (S i)) P) Q)) ->
        looks w (map (fun sp => (fst sp, fst (snd sp), snd (snd sp))) (combine ss ps)) (neutral_point_variable :: b :: tl) -> rel w).
      { intros w Bw [P EP] Ht Hk. unfold rel.
        assert (G : Forall (fun sp => exists i, (Z.of_nat i < W)%Z /\ w (fst sp) = fnat i /\
          forall P : E, pv w b = cval P -> pv w (snd sp) = cval (gmul (Z.of_nat i) P)) (combine ss ps)).
        { apply Forall_forall. intros [v q] Hin.
          destruct (Hk v (fst q) (snd q)) as (i & t0 & t1 & E1 & E2 & E3 & E4).
          { apply in_map_iff. exists (v, q). split; auto. }
          destruct (table_row w b tl P i t0 t1 Bw EP Ltl Ht E1) as [Hi _]. exists i. split; [exact Hi|]. cbn [fst snd]. split; [exact E2|].
          intros P' EP'. destruct (table_row w b tl P' i t0 t1 Bw EP' Ltl Ht E1) as [_ Et]. rewrite <- Et. unfold pv. cbn [fst snd]. now rewrite E3, E4. }
        clear -G Lsp. revert ps Lsp G. induction ss as [|v l IH]; intros [|q ps] Lsp G; try discriminate; constructor.
        - cbn [combine] in G. now inversion_clear G.
        - apply IH; [cbn in Lsp; lia|]. cbn [combine] in G. now inversion_clear G. }
      assert (Hfin : forall w (zr : (nat -> K) -> nat -> Z -> Prop), (forall ds, Forall (fun d => 0 <= d < W)%Z ds -> Forall2 (fun v d => w v = fZ d) ss ds -> zr w s (hval W ds)) ->
        rel w -> forall P : E, pv w b = cval P -> wins zr len w s P ps).
      { intros w zr Hz Hr P EP. unfold wins.
        assert (G : exists ds, Forall (fun d => 0 <= d < W)%Z ds /\ Forall2 (fun v d => w v = fZ d) ss ds /\ Forall2 (fun q d => pv w q = cval (gmul d P)) ps ds).
        { clear -Hr EP. unfold rel in Hr. induction Hr as [|v q ss ps (i & Hi & E1 & E2) _ (ds & D1 & D2 & D3)].
          - exists []. auto.
          - exists (Z.of_nat i :: ds). split; [constructor; auto; lia|]. split; constructor; auto. now rewrite fZ_nat. }
        destruct G as (ds & G1 & G2 & G3). exists ds. split; [apply Forall2_len in G2; lia|]. split; auto. }
      eapply tok_bind; [apply L3|apply L3|apply (tok_table zval p nb L HF); [apply L3|..]| |reflexivity].
      - now rewrite (lt_type _ _ _ L03).
      - split.
        + apply Forall_forall. intros l Hin. apply in_map_iff in Hin as ([v q] & <- & Hin). cbn [fst snd].
          apply in_combine_l in Hin as Hv'. apply in_combine_r in Hin. rewrite Forall_forall in Rs, Rp. specialize (Rs _ Hv'). destruct (Rp _ Hin). lia.
        + constructor; [|constructor].
          * pose proof (wf_two _ (lt_wf _ _ _ L3)). cbn. lia.
          * destruct Hb. lia.
          * eapply Forall_impl; [|exact Rt]. intros q [H1 H2]. lia.
      - (* the honest values are rows of the table *)
        intros w Bw Hx. assert (Hx2 : hext c2 w) by (eapply lt_hext; eauto). assert (Hx1 : hext c1 w) by (eapply lt_hext; eauto).
        assert (Hx0 : hext c0 w) by (eapply lt_hext; eauto).
        assert (EP : pv w b = cval P0) by (rewrite (pv_hext c0); auto).
        destruct (Hh1 w Bw Hx1) as [_ D1]. destruct (Hh2 w Bw Hx2) as [[_ Ht] _]. destruct (Hh3 w Bw Hx) as [_ D3].
        intros key v0 v1 Hin. apply in_map_iff in Hin as ([v q] & Eq & Hin). cbn [fst snd] in Eq. injection Eq as <- <- <-.
        assert (Hd : exists d, (0 <= d < W)%Z /\ w v = fZ d).
        { apply in_combine_l in Hin. pose proof (digits_range W (zval (w s)) (nwin len) ltac:(lia)) as Dr. clear -D1 Dr Hin.
          induction D1 as [|v' d ss ds E _ IH]; [destruct Hin|]. inversion_clear Dr. destruct Hin as [->|Hin]; eauto. }
        assert (Hq : pv w q = pmulz A D (zval (hon c2 v) mod order) (pv (hon c0) b)).
        { clear -D3 Hin. induction D3 as [|v' q' ss ps E _ IH]; [destruct Hin|]. cbn [combine] in Hin. destruct Hin as [H|Hin]; [|auto].
          now injection H as <- <-. }
        destruct Hd as (d & Hd & Ev).
        assert (Hv2 : (v < num_vars c2)%nat) by (apply in_combine_l in Hin; rewrite Forall_forall in Rs; specialize (Rs _ Hin); lia).
        rewrite <- (Hx2 v Hv2), Ev, (pf_zval _ _ _ _ _ HF), (Z.mod_small d p), (Z.mod_small d order) in Hq by lia.
        rewrite EP0, pmulz_gmul in Hq.
        assert (Hi : exists t0 t1, nth_error (neutral_point_variable :: b :: tl) (Z.to_nat d) = Some (t0, t1)).
        { destruct (nth_error (neutral_point_variable :: b :: tl) (Z.to_nat d)) as [[t0 t1]|] eqn:En; eauto.
          exfalso. apply nth_error_None in En. cbn [length] in En. rewrite W_nat in Hd. lia. }
        destruct Hi as (t0 & t1 & Hi). exists (Z.to_nat d), t0, t1. split; [exact Hi|].
        destruct (table_row w b tl P0 _ t0 t1 Bw EP Ltl Ht Hi) as [_ Et]. rewrite Z2Nat.id in Et by lia.
        split; [rewrite <- fZ_nat, Z2Nat.id by lia; exact Ev|].
        rewrite <- Hq in Et. unfold pv in Et. cbn [fst snd] in Et. injection Et as -> ->. auto.
      - intros [] c4 T4 L4 _ Hh4. apply tok_ret; [apply L4| | |].
        + intros w Bw Hk _ [_ Ht] [_ Es] P EP. apply (Hfin w (zmod_rel len)); auto.
          * intros ds Hr Hd. split.
            -- pose proof (hval_range W ds ltac:(lia) Hr). apply Forall2_len in Hd. rewrite <- Lss, Hd. lia.
            -- rewrite Es. apply peval_digits. clear -Hd. induction Hd; constructor; auto.
          * apply Hrel; eauto.
        + intros w Bw Hx Hk _ _ _ [_ Ht] _ [_ Es] D1 P EP. apply (Hfin w zeq_rel); auto.
          * intros ds Hr Hd. unfold zeq_rel. replace ds with (digits W (zval (w s)) (nwin len)).
            -- rewrite hval_digits' by lia. apply Z.mod_small. split; [apply (pf_range _ _ _ _ _ HF)|].
               rewrite (lt_hext _ _ _ w (later_trans _ _ _ _ _ L03 L4) Hx s Hs). exact Hv.
            -- pose proof (digits_range W (zval (w s)) (nwin len) ltac:(lia)) as Dr. revert D1 Dr. generalize (digits W (zval (w s)) (nwin len)).
               clear -Hr Hd HF Hcp. induction Hd as [|v d ss ds E1 _ IH]; intros ds' D1 Dr; inversion D1 as [|v' d' l l' E2 D2 X1 X2]; auto.
               subst ds'. apply Forall_cons_iff in Hr as [Hr1 Hr2]. apply Forall_cons_iff in Dr as [Dr1 Dr2].
               f_equal; [|apply IH; auto]. rewrite E2 in E1.
               apply (f_equal zval) in E1. rewrite !(pf_zval _ _ _ _ _ HF), !Z.mod_small in E1 by lia. auto.
          * apply Hrel; eauto.
        + eapply Forall_impl; [|exact Rp]. intros q Hq. eapply pout_le; [exact Hq|]. apply (lt_vars _ _ _ L4).
    Qed.

    (** The value of a list of window sums. *)
    Fixpoint pval (Qs : list E) : E := match Qs with [] => g0 | Q :: Qs' => gadd Q (gmul W (pval Qs')) end.
    Fixpoint vadd (Qs Rs : list E) : list E :=
      match Qs, Rs with Q :: Qs', R :: Rs' => gadd Q R :: vadd Qs' Rs' | _, _ => [] end.
    Lemma pval_vadd Qs : forall Rs, length Qs = length Rs -> pval (vadd Qs Rs) = gadd (pval Qs) (pval Rs).
    Proof.
      induction Qs as [|Q Qs IH]; intros [|R Rs] H; try discriminate; cbn [pval vadd].
      - symmetry. apply gadd_0_l.
      - rewrite IH by (now injection H). rewrite gmul_add_r. rewrite <- !gadd_assoc. f_equal. rewrite !gadd_assoc. f_equal. apply gadd_comm.
    Qed.
    Lemma vadd_length Qs : forall Rs, length Qs = length Rs -> length (vadd Qs Rs) = length Qs.
    Proof. induction Qs as [|Q Qs IH]; intros [|R Rs] H; try discriminate; cbn [vadd length]; auto. Qed.
    Lemma pval_mul ds (P : E) : pval (map (fun d => gmul d P) ds) = gmul (hval W ds) P.
    Proof.
      induction ds as [|d ds IH]; cbn [map pval hval]; [now rewrite gmul_0|].
      rewrite IH, gmul_add, gmul_mul. reflexivity.
    Qed.
    Lemma pval_fold Qs : fold_right (fun q t => gmul W (gadd t q)) g0 Qs = gmul W (pval Qs).
    Proof.
      induction Qs as [|Q Qs IH]; cbn [fold_right pval]; [now rewrite gmul_0_r|].
      rewrite IH. f_equal. apply gadd_comm.
    Qed.

    (** The sums, over the bases, of the windows. *)
    Definition sums_ok (w : nat -> K) (sums : list pvar) (Qs : list E) : Prop := Forall2 (fun q Q => pv w q = cval Q) sums Qs.
    Definition total (zr : (nat -> K) -> nat -> Z -> Prop) (len : nat) (w : nat -> K) (bs : list (pvar * nat)) (Q0 : E) (sums : list pvar) : Prop :=
      forall Ps : list E, Forall2 (fun b P => pv w (fst b) = cval P) bs Ps ->
        exists zs Qs, Forall2 (fun b z => zr w (snd b) z) bs zs /\ length Qs = nwin len /\ sums_ok w sums Qs /\
          pval Qs = gadd Q0 (gsum A D HC (smul A D HC zs Ps)).

    Definition win_ok (len : nat) (c0 : circuit K) (b : pvar * nat) : Prop :=
      pout (fst b) (num_vars c0) /\ (snd b < num_vars c0)%nat /\ (zval (hon c0 (snd b)) < W ^ Z.of_nat (nwin len))%Z /\ on (pv (hon c0) (fst b)).
    Lemma win_later len c0 c1 T1 b : later c0 c1 T1 -> win_ok len c0 b -> win_ok len c1 b.
    Proof.
      intros LT (H1 & H2 & H3 & H4). pose proof (lt_vars _ _ _ LT). unfold win_ok.
      rewrite (lt_hon _ _ _ LT) by auto. rewrite (pv_later _ _ _ _ LT) by auto. repeat split; auto; try lia; destruct H1; lia.
    Qed.
    Lemma sums_len w sums (Qs : list E) : sums_ok w sums Qs -> length Qs = length sums.
    Proof. intros H. symmetry. exact (Forall2_len _ _ _ H). Qed.
    Lemma sums_on w sums Qs : sums_ok w sums Qs -> Forall (fun q => on (pv w q)) sums.
    Proof. induction 1 as [|q Q sums Qs E _ IH]; constructor; auto. rewrite E. apply cval_on. Qed.
    Lemma win_sums (w : nat -> K) q ds (P : E) : Forall2 (fun q d => pv w q = cval (gmul d P)) q ds -> sums_ok w q (map (fun d => gmul d P) ds).
    Proof. induction 1; constructor; auto. Qed.

    Lemma vadd_sums (w : nat -> K) sums : forall ps o,
      Forall2 (fun (xy : pvar * pvar) q => forall P Q : E, pv w (fst xy) = cval P -> pv w (snd xy) = cval Q -> pv w q = cval (gadd P Q)) (combine sums ps) o ->
      forall Qs Rs, sums_ok w sums Qs -> sums_ok w ps Rs -> sums_ok w o (vadd Qs Rs).
    Proof.
      induction sums as [|x sums IH]; intros ps o H Qs Rs HQ HR; inversion HQ as [|? Q ? Qs' EQ HQ' X1 X2]; subst; cbn [combine vadd] in *.
      - inversion H. constructor.
      - destruct HR as [|y0 R ps Rs Ey HR]; inversion H as [|? q ? o' Hq Ho' X3 X4]; subst; [constructor|]. constructor; [apply Hq; auto|]. eapply IH; eauto.
    Qed.
    Definition win_step (len : nat) (sums : list pvar) (bsv : pvar * nat) : circ K (list pvar) :=
      ps <- pip_one A D zval order c len (fst bsv) (snd bsv) ;;
      match sums with
      | [] => ret ps
      | _ => mapM (fun xy => ecc_add A D (fst xy) (snd xy)) (combine sums ps)
      end.
    Lemma pip_windows_eq len bs : pip_windows A D zval order c len bs = foldM (win_step len) [] bs.
    Proof. reflexivity. Qed.

    Lemma tok_win_step len c0 T sums b : (1 <= len)%nat -> sums <> [] -> reached c0 T -> base (hon c0) -> ptype c0 <> Turbo -> win_ok len c0 b ->
      Forall (fun q => pout q (num_vars c0)) sums -> length sums = nwin len -> Forall (fun q => on (pv (hon c0) q)) sums ->
      let rel zr w o := forall (P : E) Qs, pv w (fst b) = cval P -> sums_ok w sums Qs ->
           exists z Rs, zr w (snd b) z /\ length Rs = nwin len /\ sums_ok w o Rs /\ pval Rs = gadd (pval Qs) (gmul z P) in
      tok (win_step len sums b) c0 T (rel (zmod_rel len)) (rel zeq_rel)
        (fun ps n => Forall (fun q => pout q n) ps) 1.
    Proof.
      intros Hl Hne R B Nt (Hb & Hs & Hv & Ob) Hsum Lsum Osum rel. unfold win_step.
      eapply tok_bind; [exact R|exact B|apply tok_pip_one; auto| |].
      - intros ps c1 T1 L1 Rp Hh1. pose proof (lt_vars _ _ _ L1) as V1.
        replace (match sums with [] => ret ps | _ => mapM (fun xy => ecc_add A D (fst xy) (snd xy)) (combine sums ps) end)
          with (mapM (fun xy => ecc_add A D (fst xy) (snd xy)) (combine sums ps)) by (destruct sums; congruence).
        destruct (on_ex _ Ob) as [P0 EP0].
        assert (HP1 : pv (hon c1) (fst b) = cval P0) by (rewrite (pv_later _ _ _ _ L1); auto).
        assert (Op : length ps = nwin len /\ Forall (fun q => on (pv (hon c1) q)) ps).
        { destruct (Hh1 (hon c1) (lt_base _ _ _ L1) (hext_hon _)) as [H _]. destruct (H P0 HP1) as (ds & Ld & _ & Hd).
          split; [apply Forall2_len in Hd; lia|]. eapply sums_on, win_sums; eauto. }
        destruct Op as [Lp Op].
        eapply tok_weaken with (nt := 0%nat).
        + apply (tok_mapM zval p _ (fun xy w o => forall P Q : E, pv w (fst xy) = cval P -> pv w (snd xy) = cval Q -> pv w o = cval (gadd P Q)) (fun _ => True2) pout).
          * intros; eapply pout_le; eauto.
          * apply L1.
          * apply L1.
          * intros [x y] c2 T2 Hin L2. cbn [fst snd]. apply in_combine_l in Hin as Hx. apply in_combine_r in Hin.
            pose proof (lt_vars _ _ _ L2). rewrite Forall_forall in Hsum, Osum, Rp, Op. specialize (Hsum _ Hx). specialize (Osum _ Hx).
            specialize (Rp _ Hin). specialize (Op _ Hin).
            assert (pout x (num_vars c1)) by (eapply pout_le; eauto).
            apply tok_add; [apply L2|eapply pout_le; eauto; lia..| |].
            -- rewrite (pv_later _ _ _ _ L2), (pv_later _ _ _ _ L1); auto.
            -- rewrite (pv_later _ _ _ _ L2); auto.
        + intros w o _ Ho Hps P Qs EP HQ. destruct (Hps P EP) as (ds & Ld & Hz & Hd).
          exists (hval W ds), (vadd Qs (map (fun d => gmul d P) ds)).
          assert (LL : length Qs = length (map (fun d => gmul d P) ds)) by (rewrite map_length; apply sums_len in HQ; lia).
          split; auto. split; [rewrite vadd_length by exact LL; apply sums_len in HQ; lia|]. split; [exact (vadd_sums w sums ps o Ho Qs _ HQ (win_sums w ps ds P Hd))|].
          now rewrite pval_vadd, pval_mul.
        + intros w o _ Ho _ _ Hps P Qs EP HQ. destruct (Hps P EP) as (ds & Ld & Hz & Hd).
          exists (hval W ds), (vadd Qs (map (fun d => gmul d P) ds)).
          assert (LL : length Qs = length (map (fun d => gmul d P) ds)) by (rewrite map_length; apply sums_len in HQ; lia).
          split; auto. split; [rewrite vadd_length by exact LL; apply sums_len in HQ; lia|]. split; [exact (vadd_sums w sums ps o Ho Qs _ HQ (win_sums w ps ds P Hd))|].
          now rewrite pval_vadd, pval_mul.
        + auto.
        + reflexivity.
      - reflexivity.
    Qed.

    Lemma tok_win_loop len bs : (1 <= len)%nat -> forall c0 T sums, sums <> [] -> reached c0 T -> base (hon c0) -> ptype c0 <> Turbo ->
      Forall (win_ok len c0) bs ->
      Forall (fun q => pout q (num_vars c0)) sums -> length sums = nwin len -> Forall (fun q => on (pv (hon c0) q)) sums ->
      tok (foldM (win_step len) sums bs) c0 T
        (fun w o => forall Qs, sums_ok w sums Qs -> total (zmod_rel len) len w bs (pval Qs) o)
        (fun w o => forall Qs, sums_ok w sums Qs -> total zeq_rel len w bs (pval Qs) o)
        (fun ps n => Forall (fun q => pout q n) ps) (length bs).
    Proof.
      intros Hl. induction bs as [|b bs IH]; intros c0 T sums Hne R B Nt Hbs Hsum Lsum Osum; cbn [foldM length].
      - assert (Core : forall zr (w : nat -> K) Qs, sums_ok w sums Qs -> total zr len w [] (pval Qs) sums).
        { intros zr w Qs HQ Ps HP. inversion HP; subst. exists [], Qs. split; auto. split; [apply sums_len in HQ; lia|]. split; auto.
          unfold smul. cbn [combine map gsum]. symmetry. apply gadd_0_r. }
        apply tok_ret; auto.
      - apply Forall_cons_iff in Hbs as [Hb Hbs]. eapply tok_bind; [exact R|exact B|apply tok_win_step; auto| |].
        + intros o c1 T1 L1 Ro Hh1. pose proof Hb as (Hb1 & Hb2 & Hb3 & Ob). destruct (on_ex _ Ob) as [P0 EP0].
          assert (HP1 : pv (hon c1) (fst b) = cval P0) by (rewrite (pv_later _ _ _ _ L1); auto).
          assert (HQ : exists Qs, sums_ok (hon c1) sums Qs).
          { clear -Hsum Osum L1. induction sums as [|q sums IH]; [exists []; constructor|].
            apply Forall_cons_iff in Hsum as [H1 H2]. apply Forall_cons_iff in Osum as [O1 O2]. destruct (IH H2 O2) as [Qs HQ].
            destruct (on_ex _ O1) as [Q EQ]. exists (Q :: Qs). constructor; auto. now rewrite (pv_later _ _ _ _ L1). }
          destruct HQ as [Qs0 HQ0].
          destruct (Hh1 (hon c1) (lt_base _ _ _ L1) (hext_hon _)) as [H _]. destruct (H P0 Qs0 HP1 HQ0) as (z0 & Rs0 & _ & LR & HR & _). clear H.
          assert (Lo : length o = nwin len) by (apply sums_len in HR; lia).
          assert (Core : forall (zr : (nat -> K) -> nat -> Z -> Prop) w o', (forall Qs, sums_ok w o Qs -> total zr len w bs (pval Qs) o') ->
            (forall (P : E) Qs, pv w (fst b) = cval P -> sums_ok w sums Qs ->
               exists z Rs, zr w (snd b) z /\ length Rs = nwin len /\ sums_ok w o Rs /\ pval Rs = gadd (pval Qs) (gmul z P)) ->
            forall Qs, sums_ok w sums Qs -> total zr len w (b :: bs) (pval Qs) o').
          { intros zr w o' H1 H2 Qs HQ Ps HP. inversion HP as [|? P ? Ps' EP HP' E1 E2]. subst.
            destruct (H2 P Qs EP HQ) as (z & Rs & Hz & _ & HRs & Epv). destruct (H1 Rs HRs Ps' HP') as (zs & Qs' & Hzs & LQ & HQ' & Epv').
            exists (z :: zs), Qs'. split; [constructor; auto|]. split; auto. split; auto.
            rewrite Epv', Epv. unfold smul. cbn [combine map gsum fst snd]. now rewrite gadd_assoc. }
          eapply tok_weaken; [apply IH| | | |reflexivity].
          * intros ->. cbn in Lo. unfold nwin in Lo. lia.
          * apply L1.
          * apply L1.
          * now rewrite (lt_type _ _ _ L1).
          * eapply Forall_impl; [|exact Hbs]. intros b' Hb'. eapply win_later; eauto.
          * exact Ro.
          * exact Lo.
          * eapply sums_on; eauto.
          * intros w o' _ H1 H2. apply Core; auto.
          * intros w o' _ _ H1 _ H2. apply Core; auto.
          * auto.
        + reflexivity.
    Qed.

    Lemma tok_windows len bs c0 T : (1 <= len)%nat -> bs <> [] -> reached c0 T -> base (hon c0) -> ptype c0 <> Turbo -> Forall (win_ok len c0) bs ->
      tok (pip_windows A D zval order c len bs) c0 T
        (fun w o => total (zmod_rel len) len w bs g0 o) (fun w o => total zeq_rel len w bs g0 o)
        (fun ps n => Forall (fun q => pout q n) ps) (length bs).
    Proof.
      intros Hl Hne R B Nt Hbs. rewrite pip_windows_eq. destruct bs as [|b bs]; [congruence|]. cbn [foldM length].
      apply Forall_cons_iff in Hbs as [Hb Hbs]. pose proof Hb as (Hb1 & Hb2 & Hb3 & Ob). destruct (on_ex _ Ob) as [P0 EP0].
      eapply tok_bind with (n1 := 1%nat); [exact R|exact B| | |reflexivity].
      - unfold win_step. eapply tok_ext with (m := pip_one A D zval order c len (fst b) (snd b)); [|apply tok_pip_one; auto].
        unfold cbind. destruct (pip_one _ _ _ _ _ _ _ _ c0) as [[a|e|] c']; reflexivity.
      - intros o c1 T1 L1 Ro Hh1.
        assert (HP1 : pv (hon c1) (fst b) = cval P0) by (rewrite (pv_later _ _ _ _ L1); auto).
        destruct (Hh1 (hon c1) (lt_base _ _ _ L1) (hext_hon _)) as [H _]. destruct (H P0 HP1) as (ds0 & LR & _ & HR). clear H.
        assert (Lo : length o = nwin len) by (apply Forall2_len in HR; lia).
        assert (Core : forall (zr : (nat -> K) -> nat -> Z -> Prop) w o', (forall Qs, sums_ok w o Qs -> total zr len w bs (pval Qs) o') ->
          (forall P : E, pv w (fst b) = cval P -> wins zr len w (snd b) P o) -> total zr len w (b :: bs) g0 o').
        { intros zr w o' H1 H2 Ps HP. inversion HP as [|? P ? Ps' EP HP' E1 E2]. subst.
          destruct (H2 P EP) as (ds & Ld & Hz & Hd). destruct (H1 _ (win_sums _ _ _ _ Hd) Ps' HP') as (zs & Qs' & Hzs & LQ & HQ' & Epv').
          exists (hval W ds :: zs), Qs'. split; [constructor; auto|]. split; auto. split; auto.
          rewrite Epv', pval_mul, gadd_0_l. unfold smul. cbn [combine map gsum fst snd]. reflexivity. }
        eapply tok_weaken; [apply tok_win_loop| | | |reflexivity]; auto.
        + intros ->. cbn in Lo. unfold nwin in Lo. lia.
        + apply L1.
        + apply L1.
        + now rewrite (lt_type _ _ _ L1).
        + eapply Forall_impl; [|exact Hbs]. intros b' Hb'. eapply win_later; eauto.
        + eapply sums_on, win_sums; eauto.
    Qed.

    Lemma tok_doublings n : forall c0 T q, reached c0 T -> base (hon c0) -> pout q (num_vars c0) -> on (pv (hon c0) q) ->
      tok (doublings A D q n) c0 T (fun w o => forall P : E, pv w q = cval P -> pv w o = cval (gmul (2 ^ Z.of_nat n) P)) True2 pout 0.
    Proof.
      induction n as [|n IH]; intros c0 T q R B Hq Oq; cbn [doublings].
      - apply tok_ret; auto.
      - eapply tok_bind; [exact R|exact B|apply tok_unwrap, tok_add; auto| |reflexivity].
        intros o c1 T1 L1 Ro Hh. destruct (on_ex _ Oq) as [P0 EP0].
        eapply tok_weaken; [apply IH; try apply L1; auto| | | |reflexivity]; auto.
        + rewrite (proj1 (Hh _ (lt_base _ _ _ L1) (hext_hon _)) P0 P0); [apply cval_on|..]; rewrite (pv_later _ _ _ _ L1); auto.
        + intros w a _ H1 H2 P EP. rewrite (H1 (gadd P P) (H2 P P EP EP)). f_equal.
          rewrite Nat2Z.inj_succ, Z.pow_succ_r by lia. replace (2 * 2 ^ Z.of_nat n)%Z with (2 ^ Z.of_nat n + 2 ^ Z.of_nat n)%Z by lia.
          now rewrite gmul_add_r, gmul_add.
    Qed.

    Definition tot_step (tot s : pvar) : circ K pvar := t <- unwrap (ecc_add A D tot s) ;; doublings A D t c.
    Lemma tok_total l : forall c0 T tot, reached c0 T -> base (hon c0) -> pout tot (num_vars c0) -> on (pv (hon c0) tot) ->
      Forall (fun q => pout q (num_vars c0)) l -> Forall (fun q => on (pv (hon c0) q)) l ->
      tok (foldM tot_step tot l) c0 T (fun w o => forall (P : E) Qs, pv w tot = cval P -> sums_ok w l Qs ->
        pv w o = cval (fold_left (fun t q => gmul W (gadd t q)) Qs P)) True2 pout 0.
    Proof.
      induction l as [|s l IH]; intros c0 T tot R B Ht Ot Hl Ol; cbn [foldM].
      - apply tok_ret; auto. intros w _ P Qs EP HQ. inversion HQ. exact EP.
      - apply Forall_cons_iff in Hl as [Hs Hl]. apply Forall_cons_iff in Ol as [Os Ol].
        destruct (on_ex _ Ot) as [P0 EP0]. destruct (on_ex _ Os) as [Q0 EQ0].
        eapply tok_bind with (S1 := fun w o => forall P Q : E, pv w tot = cval P -> pv w s = cval Q -> pv w o = cval (gmul W (gadd P Q))) (H1 := True2) (R1 := pout) (n1 := 0%nat);
          [exact R|exact B| | |reflexivity].
        + unfold tot_step. eapply tok_bind; [exact R|exact B|apply tok_unwrap, tok_add; auto| |reflexivity].
          intros t c1 T1 L1 Rt Hh. eapply tok_weaken; [apply tok_doublings; try apply L1; auto| | | |reflexivity]; auto.
          rewrite (proj1 (Hh _ (lt_base _ _ _ L1) (hext_hon _)) P0 Q0); [apply cval_on|..]; rewrite (pv_later _ _ _ _ L1); auto.
        + intros o c1 T1 L1 Ro Hh. pose proof (lt_vars _ _ _ L1) as V1.
          eapply tok_weaken; [apply IH; try apply L1; auto| | | |reflexivity]; auto.
          * rewrite (proj1 (Hh _ (lt_base _ _ _ L1) (hext_hon _)) P0 Q0); [apply cval_on|..]; rewrite (pv_later _ _ _ _ L1); auto.
          * apply Forall_forall. intros q Hin. rewrite Forall_forall in Hl. eapply pout_le; [apply Hl; auto|lia].
          * apply Forall_forall. intros q Hin. rewrite Forall_forall in Hl, Ol. rewrite (pv_later _ _ _ _ L1); auto.
          * intros w o' _ H1 H2 P Qs EP HQ. inversion HQ as [|? Q ? Qs' EQ HQ' E1 E2]. subst. cbn [fold_left]. apply H1; auto.
    Qed.
  End Window.

  Lemma iterM_ok (f : nat * pvar -> circ K unit) (c0 : circuit K) l : (forall x, In x l -> f x c0 = (Ok tt, c0)) -> iterM f l c0 = (Ok tt, c0).
  Proof.
    induction l as [|x l IH]; intros H; cbn [iterM]; [reflexivity|]. unfold cbind. rewrite (H x) by now left. apply IH. intros; apply H; now right.
  Qed.
  Lemma sums_rev w l Qs : sums_ok w l Qs -> sums_ok w (rev l) (rev Qs).
  Proof. induction 1; cbn [rev]; [constructor|]. apply Forall2_app; auto. Qed.

  (** The windowed multiplication yields a sum of multiples by integers congruent to
      the scalars and below [2^(c * windows)]; the values computed while building
      are the multiples by the scalars. *)
  Theorem tok_pippenger c0 T bases scalars len : let c := pip_c len in
    (1 <= c)%nat -> (2 ^ Z.of_nat c <= p)%Z -> (2 ^ Z.of_nat c <= order)%Z -> (1 <= len)%nat ->
    reached c0 T -> base (hon c0) -> ptype c0 <> Turbo -> bases <> [] -> length bases = length scalars ->
    Forall (fun b => pout b (num_vars c0) /\ on (pv (hon c0) b)) bases ->
    Forall (fun s => (s < num_vars c0)%nat /\ (zval (hon c0 s) < (2 ^ Z.of_nat c) ^ Z.of_nat (nwin c len))%Z) scalars ->
    let rel zr w o := forall Ps : list E, Forall2 (fun b P => pv w b = cval P) bases Ps ->
       exists zs, Forall2 (zr w) scalars zs /\ pv w o = cval (gsum A D HC (smul A D HC zs Ps)) in
    tok (msm_pippenger A D zval order bases scalars len) c0 T (rel (zmod_rel c len)) (rel zeq_rel) pout (length bases).
  Proof.
    intros c Hc Hcp Hco Hl R B Nt Hne Lbs HB HS rel. unfold msm_pippenger. fold c.
    eapply tok_step with (a := tt).
    { apply iterM_ok. intros [s b] Hin. cbn [fst snd]. apply in_combine_l in Hin as Hs. apply in_combine_r in Hin as Hb.
      rewrite Forall_forall in HB, HS. destruct (HB b Hb) as [[Hb1 Hb2] _]. destruct (HS s Hs) as [Hs1 _].
      unfold check_point_var_bound, check_var_bound, cbind, lift.
      destruct (Nat.leb_spec (num_vars c0) s); [lia|]. destruct (Nat.leb_spec (num_vars c0) (fst b)); [lia|].
      destruct (Nat.leb_spec (num_vars c0) (snd b)); [lia|]. reflexivity. }
    set (bs := combine bases scalars).
    assert (Nbs : length bs = length bases) by (unfold bs; rewrite combine_length; lia).
    assert (HW : Forall (win_ok c len c0) bs).
    { apply Forall_forall. intros [b s] Hin. apply in_combine_l in Hin as Hb. apply in_combine_r in Hin as Hs.
      rewrite Forall_forall in HB, HS. destruct (HB b Hb). destruct (HS s Hs). repeat split; cbn [fst snd]; auto; apply H. }
    assert (Hspl : forall w (Ps : list E), Forall2 (fun b P => pv w b = cval P) bases Ps -> Forall2 (fun b P => pv w (fst b) = cval P) bs Ps).
    { unfold bs. clear -Lbs. intros w Ps H. revert scalars Lbs. induction H as [|b P bases Ps E0 _ IH]; intros [|s scalars] Lbs; try discriminate; cbn [combine]; constructor; auto. }
    assert (Hspz : forall (zr : (nat -> K) -> nat -> Z -> Prop) (w : nat -> K) zs, Forall2 (fun (b : pvar * nat) z => zr w (snd b) z) bs zs -> Forall2 (zr w) scalars zs).
    { unfold bs. clear -Lbs. intros zr w zs. revert scalars zs Lbs. induction bases as [|b bases IH]; intros [|s scalars] zs Lbs H; try discriminate; cbn [combine] in H.
      - inversion H. constructor.
      - inversion H; subst. constructor; auto. }
    eapply tok_bind; [exact R|exact B|apply tok_windows; auto| |].
    - intros E0. apply Hne. apply length_zero_iff_nil. rewrite <- Nbs, E0. reflexivity.
    - intros sums c1 T1 L1 Rs Hh1. pose proof (lt_vars _ _ _ L1) as V1.
      (* the honest sums are on the curve *)
      assert (HPs : exists Ps : list E, Forall2 (fun b P => pv (hon c1) b = cval P) bases Ps).
      { clear -HB L1. induction HB as [|b bases [H1 H2] _ [Ps IH]]; [exists []; constructor|].
        destruct (on_ex _ H2) as [P EP]. exists (P :: Ps). constructor; auto. now rewrite (pv_later _ _ _ _ L1). }
      destruct HPs as [Ps0 HP0].
      destruct (Hh1 (hon c1) (lt_base _ _ _ L1) (hext_hon _)) as [H _]. destruct (H Ps0 (Hspl _ _ HP0)) as (_ & Qs0 & _ & LQ & HQ & _). clear H.
      assert (Ls : length sums = nwin c len) by (apply sums_len in HQ; lia).
      pose proof (sums_on _ _ _ HQ) as Os.
      destruct sums as [|lowest sums]; [unfold nwin in Ls; cbn in Ls; lia|]. cbn [skipn].
      eapply tok_step; [reflexivity|].
      apply Forall_cons_iff in Rs as [Rl Rs]. apply Forall_cons_iff in Os as [Ol Os].
      pose proof (neutral_pv A D HC (hon c1) (lt_base _ _ _ L1)) as Np.
      eapply tok_bind; [apply L1|apply L1|apply tok_total; try exact Hc; try exact Hcp; try exact Hco; try apply L1| |reflexivity].
      + apply neutral_pout. eapply lt_wf; eauto.
      + rewrite Np. apply cval_on.
      + now apply Forall_rev.
      + now apply Forall_rev.
      + intros b c2 T2 L2 Rb Hh2. pose proof (lt_vars _ _ _ L2) as V2.
        assert (Core : forall (zr : (nat -> K) -> nat -> Z -> Prop) w o, base w ->
          (forall P Q : E, pv w lowest = cval P -> pv w b = cval Q -> pv w o = cval (gadd P Q)) ->
          (forall (P : E) Qs, pv w neutral_point_variable = cval P -> sums_ok w (rev sums) Qs ->
             pv w b = cval (fold_left (fun t q => gmul (2 ^ Z.of_nat c) (gadd t q)) Qs P)) ->
          total c zr len w bs g0 (lowest :: sums) -> rel zr w o).
        { intros zr w o Bw H1 H2 H3 Ps HP. destruct (H3 Ps (Hspl _ _ HP)) as (zs & Qs & Hz & _ & HQs & Epv).
          exists zs. split; [apply (Hspz zr); auto|]. inversion HQs as [|? Q ? Qs' EQ HQ' X1 X2]. subst.
          specialize (H2 g0 (rev Qs') (neutral_pv A D HC w Bw) (sums_rev _ _ _ HQ')).
          rewrite <- fold_left_rev_right, rev_involutive in H2.
          rewrite (pval_fold c) in H2. rewrite (H1 _ _ EQ H2). f_equal. cbn [pval] in Epv. rewrite Epv. apply gadd_0_l. }
        eapply tok_weaken with (nt := 0%nat); [apply tok_add| | | |reflexivity]; auto.
        * apply L2.
        * eapply pout_le; eauto.
        * rewrite (pv_later _ _ _ _ L2); auto.
        * rewrite (proj1 (Hh2 _ (lt_base _ _ _ L2) (hext_hon _)) g0 (rev (tl Qs0))); [apply cval_on|..].
          -- apply (neutral_pv A D HC), L2.
          -- apply sums_rev. inversion HQ as [|? Q ? Qs' EQ HQ' X1 X2]. subst. cbn [tl].
             clear -HQ' L2 Rs. induction HQ' as [|q Q sums Qs Eq _ IH]; constructor.
             ++ apply Forall_cons_iff in Rs as [Rq _]. now rewrite (pv_later _ _ _ _ L2).
             ++ apply IH. now apply Forall_cons_iff in Rs.
    - rewrite Nbs. lia.
  Qed.
End Msm.
