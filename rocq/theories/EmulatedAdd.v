(** Soundness and completeness of the emulated addition gates. *)

From Coq Require Import List Arith ZArith Bool Lia Znumtheory Ring Field.
From Verif Require Import Base ListAux Alg Poly CircuitModel CircuitProofs GadgetModel GadgetProofs RangeProofs
  BitProofs CmpProofs RangeLookup EmulatedModel EmulatedProofs EmulatedMul.
Import ListNotations.
Local Open Scope fld_scope.
Local Open Scope circ_scope.

Section Add.
  Context {K : fld}.
  Variable zval : K -> Z.
  Variable p : Z.
  Variable nb L : nat.
  Hypothesis HF : pfield K zval p nb L.
  Variable q : Z.
  Variables T B NL : nat.
  Hypothesis HB : (1 <= B)%nat.
  Hypothesis HNL : (1 <= NL)%nat.
  Hypothesis HT : T = (B * NL)%nat.
  Hypothesis Hq : (0 < q < 2 ^ Z.of_nat T)%Z.
  Hypothesis Hroom : (4 * Z.of_nat NL * 2 ^ (2 * Z.of_nat B) <= p)%Z.
  Add Field Kfield_ema : (fth K).
  Notation gspec := (gspec zval).
  Notation dsat := (dsat zval).
  Notation beta := (2 ^ Z.of_nat B)%Z.
  Notation zl := (zl zval).
  Notation ev := (ev zval B).
  Notation rng := (rng zval B).
  Notation rok := (rok nb).
  Ltac start := unfold gspec, CircuitProofs.gspec; unfold out, noout.
  Let beta_ge := beta_ge T B NL HB HNL HT.
  Let w_fZ := w_fZ zval p nb L HF.
  Let room2 : (2 * beta < p)%Z.
  Proof. pose proof beta_ge. rewrite (beta2 T B NL HB HNL HT) in Hroom. nia. Qed.

  Lemma in_B c v : wf c -> rok (ptype c) -> (v < num_vars c)%nat ->
    gspec (enforce_in_range zval p nb L v B) c (fun w _ => zval (w v) < beta)%Z (fun w => zval (w v) < beta)%Z noout.
  Proof.
    intros Hw Ht Hv. apply (enforce_in_range_spec zval p nb L HF); auto.
    apply (width_ok zval p nb L HF T B NL); auto. apply (width_B T); auto.
  Qed.

  Definition row_lt (r : @crow K) (n : nat) : Prop := (cr_x r < n /\ cr_y r < n /\ cr_z r < n)%nat.
  Definition row_eq (w : nat -> K) (r : @crow K) (carry next : K) : Prop :=
    w (cr_z r) = cr_cx r * w (cr_x r) + cr_cy r * w (cr_y r) + carry - fZ beta * next.

  Lemma carry_row_spec check carry r v c : wf c -> rok (ptype c) -> row_lt r (num_vars c) -> (carry < num_vars c)%nat ->
    cr_hint r c = (Ok v, c) ->
    wpc (carry_row zval p nb L B check carry r) c (fun next d =>
      (forall w, base w -> dsat (ptype c) w d -> isb (w next) /\ row_eq w r (w carry) (w next)
         /\ (check = true -> zval (w (cr_z r)) < beta)%Z)
      /\ (forall w, base w -> hext (capp c d) w -> isb v -> row_eq w r (w carry) v ->
            (check = true -> zval (w (cr_z r)) < beta)%Z -> dsat (ptype c) w d)
      /\ (next < num_vars c + length (d_vals d))%nat
      /\ (forall w, hext (capp c d) w -> w next = v)).
  Proof.
    intros Hw Ht (Hx & Hy & Hz) Hc Hv. unfold carry_row. eapply wpc_bind_pure; [exact Hv|].
    wstep. set (next := num_vars c). use (enforce_bool_spec zval). use (lc_gate_spec zval).
    assert (Hfin : forall c' : circuit K, wf c' -> rok (ptype c') -> (cr_z r < num_vars c')%nat ->
      gspec (if check then enforce_in_range zval p nb L (cr_z r) B else ret tt) c'
        (fun w _ => check = true -> zval (w (cr_z r)) < beta)%Z (fun w => check = true -> zval (w (cr_z r)) < beta)%Z noout).
    { intros c' Hw' Ht' Hz'. destruct check.
      - unfold gspec, CircuitProofs.gspec. eapply wpc_mono; [apply in_B; auto|]. intros [] d' _ (S & C & _).
        split; [intros w Hb Hs _; apply S; auto|split; auto].
      - apply gspec_ret; [discriminate|exact I]. }
    apply wpc_bind. eapply wpc_mono; [apply Hfin; [wfs|auto|bnd]|].
    intros [] d3 _ (S3 & C3 & _). wstep. rewrite !ptype_capp in *.
    split; [|split; [|split]].
    - intros w Hb Hs. rewrite !dsat_cat in Hs. destruct Hs as (_ & D1 & D2 & D3 & _).
      split; [apply Snd; auto|split; [|apply S3; auto]].
      unfold row_eq. rewrite (Snd0 w Hb D2). ring.
    - intros w Hb Hh Hi He Hr. rewrite <- !capp_cat in Hh. hx. rewrite !dsat_cat, dsat_val. fold next in E.
      split; [exact I|split; [|split; [|split]]]; try apply dsat_nil.
      + apply Cmp; auto. unfold next in *. rewrite E. exact Hi.
      + apply Cmp0; auto. rewrite E. unfold row_eq in He. rewrite He. ring.
      + apply C3; auto.
    - unfold next. bnd.
    - intros w Hh. rewrite <- !capp_cat in Hh. hx. exact E.
  Qed.

  Fixpoint chain (w : nat -> K) (carry : K) (rs : list (@crow K)) (ns : list K) : Prop :=
    match rs, ns with
    | [], [] => True
    | r :: rs', n :: ns' => isb n /\ row_eq w r carry n /\ chain w n rs' ns'
    | _, _ => False
    end.
  Lemma chain_carry w c c' rs ns : c = c' -> chain w c rs ns -> chain w c' rs ns.
  Proof. intros ->; auto. Qed.

  Lemma carry_chain_spec check rs : forall vs carry c, wf c -> rok (ptype c) ->
    Forall (fun r => row_lt r (num_vars c)) rs -> (carry < num_vars c)%nat ->
    Forall2 (fun r v => forall d, cr_hint r (capp c d) = (Ok v, capp c d)) rs vs ->
    wpc (foldM (carry_row zval p nb L B check) carry rs) c (fun last d =>
      (forall w, base w -> dsat (ptype c) w d -> exists ns, chain w (w carry) rs ns)
      /\ (forall w, base w -> dsat (ptype c) w d -> check = true -> Forall (fun r => zval (w (cr_z r)) < beta)%Z rs)
      /\ (forall w, base w -> dsat (ptype c) w d -> hext (capp c d) w -> chain w (w carry) rs vs)
      /\ (forall w, base w -> hext (capp c d) w -> chain w (w carry) rs vs ->
            (check = true -> Forall (fun r => zval (w (cr_z r)) < beta)%Z rs) -> dsat (ptype c) w d)).
  Proof.
    induction rs as [|r rs IH]; intros vs carry c Hw Ht Hr Hc Hh; cbn [foldM].
    - inversion_clear Hh. wstep. split; [|split; [|split]].
      + intros. exists []. exact I.
      + constructor.
      + intros. exact I.
      + intros. apply dsat_nil.
    - inversion_clear Hh as [|? v ? vs' H1 H2]. inversion_clear Hr as [|? ? Hr1 Hr2].
      assert (Hnil : capp c dnil = c).
      { destruct c; unfold capp, dnil; cbn. rewrite ?app_nil_r, ?Nat.add_0_r; reflexivity. }
      apply wpc_bind. eapply wpc_mono; [apply (carry_row_spec check carry r v c); auto|].
      { specialize (H1 dnil). rewrite Hnil in H1. exact H1. }
      intros next d _ (S1 & C1 & B1 & V1).
      eapply wpc_mono; [apply (IH vs' next (capp c d)); auto; try wfs|].
      { eapply Forall_impl; [|exact Hr2]. intros r' (? & ? & ?). unfold row_lt. repeat split; bnd. }
      { clear -H2. induction H2 as [|r' v' l l' Hr' _ IH]; constructor; auto. intros d'. rewrite capp_cat. apply Hr'. }
      intros last d' _ (S2 & S3 & S4 & C2). rewrite ptype_capp in *. split; [|split; [|split]].
      + intros w Hb Hs. rewrite dsat_cat in Hs. destruct Hs as [D1 D2]. destruct (S1 w Hb D1) as (I1 & E1 & _).
        destruct (S2 w Hb D2) as [ns Hns]. exists (w next :: ns). cbn. auto.
      + intros w Hb Hs Hk. rewrite dsat_cat in Hs. destruct Hs as [D1 D2]. constructor.
        * apply S1; auto.
        * apply S3; auto.
      + intros w Hb Hs Hx. rewrite dsat_cat in Hs. destruct Hs as [D1 D2]. rewrite <- capp_cat in Hx.
        assert (Hx1 : hext (capp c d) w) by (hx; auto).
        destruct (S1 w Hb D1) as (I1 & E1 & _). rewrite (V1 w Hx1) in *. cbn. split; [exact I1|split; [exact E1|]].
        rewrite <- (V1 w Hx1). apply S4; auto.
      + intros w Hb Hx Hch Hk. rewrite <- capp_cat in Hx. assert (Hx1 : hext (capp c d) w) by (hx; auto).
        rewrite dsat_cat. cbn in Hch. destruct Hch as (I1 & E1 & Hch). split.
        * apply C1; auto. intros Hk'. specialize (Hk Hk'). inversion Hk; auto.
        * apply C2; auto. { rewrite (V1 w Hx1). exact Hch. }
          intros Hk'. specialize (Hk Hk'). inversion Hk; auto.
  Qed.

  (** The chain over the integers. *)
  Definition rows_val (w : nat -> K) (rs : list (@crow K)) (xs : list Z) : Prop :=
    Forall2 (fun r x => (0 <= x <= 2 * beta - 2)%Z /\ cr_cx r * w (cr_x r) + cr_cy r * w (cr_y r) = fZ x) rs xs.
  Definition zs (w : nat -> K) (rs : list (@crow K)) : list Z := map (fun r => zval (w (cr_z r))) rs.

  Lemma isb_z (x : K) : isb x -> exists u, (u = 0 \/ u = 1)%Z /\ x = fZ u.
  Proof. intros [-> | ->]; [exists 0%Z|exists 1%Z]; split; auto; symmetry; apply fZ_1. Qed.

  Lemma row_int w r carry next x c u :
    row_eq w r carry next -> carry = fZ c -> next = fZ u -> (c = 0 \/ c = 1)%Z -> (u = 0 \/ u = 1)%Z ->
    (0 <= x <= 2 * beta - 2)%Z -> cr_cx r * w (cr_x r) + cr_cy r * w (cr_y r) = fZ x -> (zval (w (cr_z r)) < beta)%Z ->
    (x + c = zval (w (cr_z r)) + beta * u)%Z.
  Proof.
    intros He -> -> Hc Hu Hx Ex Hz. unfold row_eq in He. rewrite Ex in He.
    pose proof (pf_range _ _ _ _ _ HF (w (cr_z r))) as P. pose proof beta_ge.
    assert (E : (fZ (zval (w (cr_z r)) + beta * u) : K) = fZ (x + c)).
    { rewrite !fZ_add, fZ_mul, <- w_fZ, He. ring. }
    apply (f_equal zval) in E. rewrite !(zval_small zval p nb L HF) in E; [lia| |]; destruct Hc, Hu; subst; lia.
  Qed.

  Lemma chain_int w rs : forall ns carry c xs, chain w carry rs ns -> carry = fZ c -> (c = 0 \/ c = 1)%Z ->
    rows_val w rs xs -> Forall (fun r => zval (w (cr_z r)) < beta)%Z rs ->
    exists u, (u = 0 \/ u = 1)%Z /\ (c + hval beta xs = hval beta (zs w rs) + beta ^ Z.of_nat (length rs) * u)%Z.
  Proof.
    induction rs as [|r rs IH]; intros ns carry c xs Hch Ec Hc Hv Hr.
    - destruct xs; [|inversion Hv]. exists c. split; auto. cbn [hval zs map length Z.of_nat]. rewrite Z.pow_0_r. lia.
    - destruct xs as [|x xs']; [inversion Hv|]. inversion_clear Hv as [|? ? ? ? [Hx Ex] Hv']. inversion_clear Hr as [|? ? Hr1 Hr2].
      destruct ns as [|n ns]; [contradiction|]. destruct Hch as (In & En & Hch).
      destruct (isb_z n In) as (u & Hu & Eu).
      pose proof (row_int w r _ _ x c u En Ec Eu Hc Hu Hx Ex Hr1) as E.
      destruct (IH ns n u xs' Hch Eu Hu Hv' Hr2) as (u' & Hu' & E').
      exists u'. split; auto. cbn [hval zs map length]. rewrite Nat2Z.inj_succ, Z.pow_succ_r by lia.
      fold (zs w rs). lia.
  Qed.

  (** The carries of a limb-wise sum. *)
  Fixpoint carries (c : Z) (xs : list Z) : list Z :=
    match xs with [] => [] | x :: xs' => ((x + c) / beta)%Z :: carries ((x + c) / beta)%Z xs' end.
  (** Without a limb equal to [beta - 1] the carry into a limb does not change
      the carry out of it. *)
  Lemma carries_local xs : forall c, (c = 0 \/ c = 1)%Z -> Forall (fun x => 0 <= x <= 2 * beta - 2)%Z xs ->
    Forall (fun x => x <> beta - 1)%Z xs -> carries c xs = map (fun x => x / beta)%Z xs.
  Proof.
    induction xs as [|x xs IH]; intros c Hc Hr Hn; [reflexivity|].
    inversion_clear Hr as [|? ? Hx Hr']. inversion_clear Hn as [|? ? Hx' Hn']. pose proof beta_ge.
    assert (Eq : ((x + c) / beta = x / beta)%Z).
    { symmetry. apply (Z.div_unique_pos _ _ _ (x mod beta + c)).
      - pose proof (Z.mod_pos_bound x beta). assert (x mod beta <> beta - 1)%Z; [|lia].
        intros Hm. pose proof (Z.div_mod x beta). assert (x / beta = 0 \/ x / beta >= 1 \/ x / beta < 0)%Z as [E0|[E0|E0]] by lia.
        + rewrite E0 in *. lia.
        + nia.
        + nia.
      - pose proof (Z.div_mod x beta). lia. }
    assert (Hu : (0 <= x / beta < 2)%Z) by (split; [apply Z.div_pos; lia|apply Z.div_lt_upper_bound; lia]).
    cbn [carries map]. rewrite Eq. f_equal. apply IH; auto. lia.
  Qed.

  Lemma chain_complete w rs : forall carry c xs u, carry = fZ c -> (c = 0 \/ c = 1)%Z ->
    rows_val w rs xs -> Forall (fun r => zval (w (cr_z r)) < beta)%Z rs ->
    (c + hval beta xs = hval beta (zs w rs) + beta ^ Z.of_nat (length rs) * u)%Z ->
    chain w carry rs (map fZ (carries c xs)).
  Proof.
    induction rs as [|r rs IH]; intros carry c xs u Ec Hc Hv Hr E.
    - destruct xs; [|inversion Hv]. exact I.
    - destruct xs as [|x xs']; [inversion Hv|]. inversion_clear Hv as [|? ? ? ? [Hx Ex] Hv']. inversion_clear Hr as [|? ? Hr1 Hr2].
      cbn [carries map chain].
      pose proof (pf_range _ _ _ _ _ HF (w (cr_z r))) as P. pose proof beta_ge.
      cbn [hval zs map length] in E. rewrite Nat2Z.inj_succ, Z.pow_succ_r in E by lia. fold (zs w rs) in E.
      set (z := zval (w (cr_z r))) in *.
      assert (Ed : (x + c = z + beta * ((x + c) / beta))%Z).
      { assert (Em : ((x + c) mod beta = z)%Z).
        { assert (Ex' : (x + c = z + (hval beta (zs w rs) + beta ^ Z.of_nat (length rs) * u - hval beta xs') * beta)%Z).
          { clear -E. lia. }
          rewrite Ex'. rewrite Z.mod_add by lia. apply Z.mod_small. lia. }
        pose proof (Z.div_mod (x + c) beta). lia. }
      assert (Hu : ((x + c) / beta = 0 \/ (x + c) / beta = 1)%Z).
      { assert (0 <= (x + c) / beta < 2)%Z; [|lia]. split; [apply Z.div_pos; lia|apply Z.div_lt_upper_bound; lia]. }
      split; [destruct Hu as [-> | ->]; [left; reflexivity|right; apply fZ_1]|]. split.
      + unfold row_eq. rewrite Ec, Ex, (w_fZ w (cr_z r)). fold z. replace z with (x + c - beta * ((x + c) / beta))%Z by lia.
        rewrite fZ_sub, fZ_add, fZ_mul. reflexivity.
      + apply (IH _ ((x + c) / beta)%Z xs' u); auto.
        apply (Z.mul_reg_l _ _ beta); [lia|]. lia.
  Qed.

  (** ** The two chains *)
  Notation op := (nat * K * (nat * K))%type.
  Definition mk_rows (hs : list (circ K K)) (ops : list op) (zvs : list nat) : list (@crow K) :=
    map (fun t : circ K K * op * nat => let '(h, (x, cx, (y, cy)), z) := t in mk_crow h x cx y cy z) (izip hs ops zvs).
  (** The addition gates with the values of the hints as arguments. *)
  Definition add_with (s : Z) (k : bool) (ops : list op) (h1 h2 : list (circ K K)) (c : list nat) : circ K unit :=
    var_k <- create_boolean_variable k ;;
    sums <- mapM create_variable (biguint_to_limbs s B NL) ;;
    carry_chain zval p nb L B true (mk_rows h1 ops sums) >>
    carry_chain zval p nb L B false (mk_rows h2 (combine (map (fun m => (var_k, m)) (biguint_to_limbs q B NL))
                                                        (map (fun v => (v, 1)) c)) sums) >> ret tt.

  Definition ops_val (w : nat -> K) (ops : list op) (xs : list Z) : Prop :=
    Forall2 (fun (o : op) x => let '(v, cx, (u, cy)) := o in
      (0 <= x <= 2 * beta - 2)%Z /\ cx * w v + cy * w u = fZ x) ops xs.

  Lemma mk_rows_val w ops : forall hs zvs xs, length hs = length ops -> length zvs = length ops ->
    ops_val w ops xs -> rows_val w (mk_rows hs ops zvs) xs.
  Proof.
    induction ops as [|[[v cx] [u cy]] ops IH]; intros hs zvs xs Lh Lz Ho.
    - destruct xs; [|inversion Ho]. destruct hs; [constructor|discriminate].
    - destruct xs as [|x xs]; [inversion Ho|]. inversion_clear Ho as [|? ? ? ? Hx Ho'].
      destruct hs as [|h hs]; [discriminate|]. destruct zvs as [|z zvs]; [discriminate|].
      constructor; [exact Hx|]. apply IH; auto.
  Qed.
  Lemma mk_rows_z hs ops zvs : length hs = length ops -> length zvs = length ops -> map cr_z (mk_rows hs ops zvs) = zvs.
  Proof.
    revert hs zvs; induction ops as [|[[v cx] [u cy]] ops IH]; intros [|h hs] [|z zvs] Lh Lz; try discriminate; [reflexivity|].
    cbn [mk_rows izip combine map cr_z]. f_equal. apply IH; auto.
  Qed.
  Lemma mk_rows_len hs ops zvs : length hs = length ops -> length zvs = length ops -> length (mk_rows hs ops zvs) = length ops.
  Proof. intros. unfold mk_rows, izip. rewrite map_length, !combine_length. lia. Qed.
  Lemma mk_rows_lt hs ops zvs n : Forall (fun o : op => fst (fst o) < n /\ fst (snd o) < n)%nat ops ->
    Forall (fun v => v < n)%nat zvs -> Forall (fun r => row_lt r n) (mk_rows hs ops zvs).
  Proof.
    intros Ho Hz. revert hs zvs Hz. induction Ho as [|[[v cx] [u cy]] ops [H1 H2] _ IH]; intros [|h hs] [|z zvs] Hz; try constructor.
    - inversion_clear Hz. unfold row_lt. cbn in *. auto.
    - apply IH. inversion_clear Hz; auto.
  Qed.
  Lemma mk_rows_hint (c : circuit K) (hs : list (circ K K)) ops zvs vs : length hs = length ops -> length zvs = length ops ->
    Forall2 (fun (h : circ K K) v => forall d, h (capp c d) = (Ok v, capp c d)) hs vs ->
    Forall2 (fun r v => forall d, cr_hint r (capp c d) = (Ok v, capp c d)) (mk_rows hs ops zvs) vs.
  Proof.
    intros Lh Lz H. revert ops zvs Lh Lz. induction H as [|h v hs vs Hh _ IH]; intros [|[[x cx] [u cy]] ops] [|z zvs] Lh Lz; try discriminate; constructor.
    - exact Hh.
    - apply IH; auto.
  Qed.
  Lemma zs_map w rs : zs w rs = zl w (map cr_z rs).
  Proof. unfold zs, EmulatedMul.zl. now rewrite map_map. Qed.

  (** The relation the gate imposes: [x] is the limb-wise sum of the operands. *)
  Definition add_rel (x C k : Z) : Prop :=
    (k = 0 \/ k = 1)%Z /\ exists s u v, (0 <= s < 2 ^ Z.of_nat T)%Z /\ (u = 0 \/ u = 1)%Z /\ (v = 0 \/ v = 1)%Z
      /\ (x = s + 2 ^ Z.of_nat T * u)%Z /\ (k * q + C = s + 2 ^ Z.of_nat T * v)%Z.

  Definition kq_limbs (k : Z) (w : nat -> K) (c : list nat) : list Z :=
    map (fun mz => k * fst mz + snd mz)%Z (combine (digits beta q NL) (zl w c)).
  Lemma hval_lin k : forall ms zs', length ms = length zs' ->
    (hval beta (map (fun mz => k * fst mz + snd mz)%Z (combine ms zs')) = k * hval beta ms + hval beta zs')%Z.
  Proof.
    induction ms as [|m ms IH]; intros [|z zs'] H; try discriminate; cbn [combine map hval fst snd]; [lia|].
    rewrite IH by (injection H; auto). ring.
  Qed.

  Lemma create_boolean_val b c : wf c -> wpc (create_boolean_variable b) c (fun v d =>
    (forall w, base w -> dsat (ptype c) w d -> isb (w v)) /\ (forall w, base w -> hext (capp c d) w -> dsat (ptype c) w d)
    /\ (v < num_vars c + length (d_vals d))%nat /\ (forall w, hext (capp c d) w -> w v = if b then 1 else 0)).
  Proof.
    intros Hw. unfold create_boolean_variable. wstep. use (enforce_bool_spec zval). wstep. rewrite ptype_capp in *.
    split; [|split; [|split]].
    - intros w Hb Hs. rewrite !dsat_cat in Hs. apply Snd; tauto.
    - intros w Hb Hh. rewrite <- !capp_cat in Hh. hx. rewrite !dsat_cat, dsat_val. split; [exact I|]. split; [|apply dsat_nil].
      apply Cmp; auto. rewrite E. destruct b; unfold isb; auto.
    - bnd.
    - intros w Hh. rewrite <- !capp_cat in Hh. hx. exact E.
  Qed.

  Lemma ptype_eq_rok (c : circuit K) d : rok (ptype c) -> rok (ptype (capp c d)).
  Proof. auto. Qed.

  Lemma add_with_spec s k ops (h1 h2 : list (circ K K)) v1 v2 c c0 : wf c0 -> rok (ptype c0) ->
    length ops = NL -> length c = NL -> length h1 = NL -> length h2 = NL ->
    Forall (fun o : op => fst (fst o) < num_vars c0 /\ fst (snd o) < num_vars c0)%nat ops ->
    Forall (fun v => v < num_vars c0)%nat c ->
    Forall2 (fun (h : circ K K) v => forall d, h (capp c0 d) = (Ok v, capp c0 d)) h1 v1 ->
    Forall2 (fun (h : circ K K) v => forall d, h (capp c0 d) = (Ok v, capp c0 d)) h2 v2 ->
    wpc (add_with s k ops h1 h2 c) c0 (fun _ d =>
      (forall w xs, base w -> dsat (ptype c0) w d -> ops_val w ops xs -> rng w c ->
         exists kz, add_rel (hval beta xs) (ev w c) kz)
      /\ (forall w xs, base w -> dsat (ptype c0) w d -> hext (capp c0 d) w -> ops_val w ops xs ->
           exists sums, chain w 0 (mk_rows h1 ops sums) v1 /\ length sums = NL
             /\ Forall (fun r => zval (w (cr_z r)) < beta)%Z (mk_rows h1 ops sums))
      /\ (forall w xs u v, base w -> hext (capp c0 d) w -> ops_val w ops xs -> rng w c ->
            (0 <= s)%Z -> (hval beta xs = s mod 2 ^ Z.of_nat T + 2 ^ Z.of_nat T * u)%Z ->
            (Z.b2z k * q + ev w c = s mod 2 ^ Z.of_nat T + 2 ^ Z.of_nat T * v)%Z ->
            v1 = map fZ (carries 0 xs) -> v2 = map fZ (carries 0 (kq_limbs (Z.b2z k) w c)) ->
            dsat (ptype c0) w d)).
  Proof.
    intros Hw Ht Lo Lc L1 L2 Bo Bc H1 H2. unfold add_with. pose proof beta_ge as Hb2.
    apply wpc_bind. eapply wpc_mono; [apply create_boolean_val; auto|]. intros vk d1 _ (Snd & Cmp & R & Vk).
    set (sl := biguint_to_limbs s B NL).
    assert (Lsl : length sl = NL) by apply (length_limbs B).
    apply wpc_bind. eapply wpc_mono; [apply (mapM_var_spec zval sl); wfs|].
    intros sums d2 _ (Es & V2 & D2). rewrite Lsl in Es.
    assert (Lv2 : length (d_vals d2) = NL) by (rewrite V2; auto).
    assert (Ls : length sums = NL) by (rewrite Es; apply seq_length).
    assert (Bs : Forall (fun v => v < num_vars (capp (capp c0 d1) d2))%nat sums).
    { rewrite Es. apply Forall_forall. intros v Hv. apply in_seq in Hv. bnd. }
    assert (Bo' : Forall (fun o : op => fst (fst o) < num_vars (capp (capp c0 d1) d2) /\ fst (snd o) < num_vars (capp (capp c0 d1) d2))%nat ops).
    { eapply Forall_impl; [|exact Bo]. cbn beta. intros; bnd. }
    assert (Hd : forall c1 d1 hs vs, Forall2 (fun (h : circ K K) v => forall d, h (capp c1 d) = (Ok v, capp c1 d)) hs vs ->
       Forall2 (fun (h : circ K K) v => forall d, h (capp (capp c1 d1) d) = (Ok v, capp (capp c1 d1) d)) hs vs).
    { clear. intros c1 d1 hs vs H. induction H; constructor; auto. intros d. rewrite capp_cat. auto. }
    unfold carry_chain.
    apply wpc_bind. eapply wpc_mono.
    { apply (carry_chain_spec true _ v1); [wfs|auto| |bnd|].
      - apply mk_rows_lt; auto.
      - apply mk_rows_hint; try lia. apply Hd, Hd, H1. }
    intros l1 d3 _ (S3 & S3r & S3h & C3). rewrite !ptype_capp in *.
    set (qops := combine (map (fun m => (vk, m)) (biguint_to_limbs q B NL)) (map (fun v => (v, 1)) c)).
    assert (Lq : length qops = NL).
    { unfold qops. rewrite combine_length, !map_length, (length_limbs B). lia. }
    apply wpc_bind. eapply wpc_mono.
    { apply (carry_chain_spec false _ v2); [wfs|auto| |bnd|].
      - apply mk_rows_lt.
        + unfold qops. apply Forall_forall. intros [[x cx] [y cy]] Hin. cbn [fst snd].
          pose proof (in_combine_l _ _ _ _ Hin) as I1. pose proof (in_combine_r _ _ _ _ Hin) as I2.
          apply in_map_iff in I1. destruct I1 as (m & E & _). injection E as <- _.
          apply in_map_iff in I2. destruct I2 as (v & E & Iv). injection E as <- _.
          rewrite Forall_forall in Bc. specialize (Bc _ Iv). split; bnd.
        + eapply Forall_impl; [|exact Bs]. cbn beta. intros; bnd.
      - apply mk_rows_hint; try lia. apply Hd, Hd, Hd, H2. }
    intros l2 d4 _ (S4 & _ & _ & C4). rewrite !ptype_capp in *. wstep.
    assert (Eqd : hval beta (digits beta q NL) = q).
    { rewrite hval_digits' by lia. rewrite <- (pow_T T B NL); auto. apply Z.mod_small. lia. }
    assert (Hqv : forall w kz, (kz = 0 \/ kz = 1)%Z -> w vk = fZ kz -> rng w c -> ops_val w qops (kq_limbs kz w c)).
    { intros w kz Hkz Ek Rc. unfold qops, kq_limbs, ops_val. rewrite (limbs_map B).
      pose proof (digits_range beta q NL ltac:(lia)) as Hdr. pose proof (length_digits beta q NL) as Hdl.
      revert Hdr Hdl. generalize (digits beta q NL) as ms. intros ms Hdr Hdl. rewrite <- Lc in Hdl.
      clear -Hdr Hdl Rc Ek Hkz HF w_fZ Hb2.
      revert ms Hdr Hdl. induction Rc as [|v c Hv _ IH]; intros [|m ms] Hdr Hdl; try discriminate; cbn [map combine fst snd EmulatedMul.zl]; constructor.
      - inversion_clear Hdr as [|? ? Hm Hdr']. pose proof (pf_range _ _ _ _ _ HF (w v)). split.
        + cbn [fst snd]; destruct Hkz as [-> | ->]; lia.
        + rewrite Ek, fZ_add, fZ_mul, <- w_fZ. ring.
      - inversion_clear Hdr. apply IH; auto. }
    assert (Hkq : forall w kz, hval beta (kq_limbs kz w c) = (kz * q + ev w c)%Z).
    { intros w kz. unfold kq_limbs. rewrite hval_lin by (rewrite length_digits, (length_zl zval); auto).
      rewrite Eqd. reflexivity. }
    assert (Z1 : map cr_z (mk_rows h1 ops sums) = sums) by (apply mk_rows_z; lia).
    assert (Z2 : map cr_z (mk_rows h2 qops sums) = sums) by (apply mk_rows_z; lia).
    assert (Hrs : forall w (rs : list (@crow K)), map cr_z rs = sums -> (Forall (fun r => zval (w (cr_z r)) < beta)%Z rs <-> rng w sums)).
    { intros w rs <-. unfold EmulatedMul.rng. rewrite Forall_map. reflexivity. }
    split; [|split].
    - intros w xs Hb Hs Hx Rc. rewrite !dsat_cat in Hs. destruct Hs as (Dk & _ & D3 & D4 & _).
      pose proof (S3r w Hb D3 eq_refl) as Rs1. pose proof (proj1 (Hrs w _ Z1) Rs1) as Rs.
      pose proof (proj2 (Hrs w _ Z2) Rs) as Rs2.
      destruct (isb_z (w vk) (Snd w Hb Dk)) as (kz & Hkz & Ek).
      destruct (S3 w Hb D3) as [ns1 N1]. destruct (S4 w Hb D4) as [ns2 N2].
      pose proof (proj1 Hb) as Hb0.
      destruct (chain_int w _ ns1 _ 0%Z xs N1) as (u & Hu & E1); auto.
      { apply mk_rows_val; auto; lia. }
      destruct (chain_int w _ ns2 _ 0%Z (kq_limbs kz w c) N2) as (v & Hv & E2); auto.
      { apply mk_rows_val; auto; lia. }
      rewrite zs_map, Z1, mk_rows_len in E1 by lia. rewrite zs_map, Z2, mk_rows_len in E2 by lia. rewrite Hkq in E2.
      rewrite Lo in E1. rewrite Lq in E2. rewrite <- (pow_T T B NL) in E1, E2 by auto.
      exists kz. split; auto. exists (ev w sums), u, v. split; [apply (ev_range zval p nb L HF T B NL); auto|].
      unfold EmulatedMul.ev. repeat split; auto; lia.
    - intros w xs Hb Hs Hh Hx. rewrite !dsat_cat in Hs. destruct Hs as (Dk & _ & D3 & D4 & _).
      rewrite <- !capp_cat in Hh. hx. exists sums. split; [|split; auto]. rewrite <- (proj1 Hb). apply S3h; auto.
    - intros w xs u v Hb Hh Hx Rc Hs0 E1 E2 Hv1 Hv2. rewrite <- !capp_cat in Hh. hx. rewrite !dsat_cat.
      assert (Dk : dsat (ptype c0) w d1) by (apply Cmp; auto).
      pose proof (proj1 Hb) as Hb0.
      assert (Ms : map w sums = sl) by (rewrite Es; apply (dig_vals B w (capp c0 d1) d2); auto; wfs).
      assert (Zs : zl w sums = digits beta s NL) by (apply (zl_limbs zval p nb L HF T B NL HB HNL HT Hroom); auto).
      assert (Evs : ev w sums = (s mod 2 ^ Z.of_nat T)%Z).
      { unfold EmulatedMul.ev. rewrite Zs, hval_digits' by lia. rewrite <- (pow_T T B NL) by auto. reflexivity. }
      assert (Rs : rng w sums).
      { unfold EmulatedMul.rng. pose proof (digits_range beta s NL ltac:(lia)) as Hdr. rewrite <- Zs in Hdr.
        unfold EmulatedMul.zl in Hdr. rewrite Forall_map in Hdr. eapply Forall_impl; [|exact Hdr]. cbn beta; lia. }
      assert (Ek : w vk = fZ (Z.b2z k)).
      { rewrite Vk by auto. destruct k; [symmetry; apply fZ_1|reflexivity]. }
      split; [exact Dk|]. split; [apply D2|]. split; [|split; [|apply dsat_nil]].
      + apply C3; auto.
        * rewrite Hb0, Hv1. apply (chain_complete w _ _ 0%Z xs u); auto.
          -- apply mk_rows_val; auto; lia.
          -- apply Hrs; auto.
          -- rewrite zs_map, Z1, mk_rows_len by lia. fold (ev w sums). rewrite Lo, <- (pow_T T B NL) by auto.
             change (hval beta (zl w sums)) with (ev w sums). rewrite Evs. lia.
        * intros _. apply Hrs; auto.
      + apply C4; auto; [|discriminate].
        rewrite Hb0, Hv2. apply (chain_complete w _ _ 0%Z _ v); auto.
        * apply mk_rows_val; auto; try lia. apply Hqv; auto. destruct k; cbn; auto.
        * apply Hrs; auto.
        * rewrite zs_map, Z2, mk_rows_len by lia. rewrite Lq, <- (pow_T T B NL), Hkq by auto.
          change (hval beta (zl w sums)) with (ev w sums). rewrite Evs. lia.
  Qed.
End Add.
