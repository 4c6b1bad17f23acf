(** Merging a type A and a type B circuit. *)

From Coq Require Import List Arith ZArith Bool Lia.
From Verif Require Import Base ListAux Alg CircuitModel CircuitProofs GadgetProofs BitProofs SatProofs SatGadget
  FinalModel FinalProofs PermProofs FinalizeProofs.
Import ListNotations.

Lemma nth_error_rev {A} (l : list A) i : i < length l -> nth_error (rev l) i = nth_error l (length l - 1 - i).
Proof.
  revert i. induction l as [|a l IH]; intros i Hi; [cbn in Hi; lia|]. cbn [rev length] in *.
  destruct (Nat.lt_ge_cases i (length l)).
  - rewrite nth_error_app1 by (rewrite rev_length; auto). rewrite IH by auto.
    replace (S (length l) - 1 - i) with (S (length l - 1 - i)) by lia. reflexivity.
  - rewrite nth_error_app2 by (rewrite rev_length; auto). rewrite rev_length.
    replace (i - length l) with 0 by lia. replace (S (length l) - 1 - i) with 0 by lia. reflexivity.
Qed.

Lemma fold_index_set {X} (perm base : list (nat * nat)) (l : list (nat * nat)) (f k : nat * nat -> nat) (v : nat * nat -> nat * nat -> nat * nat) :
  (forall ij, In ij l -> f ij < length perm) ->
  fold_left (fun acc ij => let* p := acc in let* s := index perm (f ij) in Ok (set_nth p (k ij) (v ij s))) l (@Ok X _ base)
  = Ok (fold_left (fun p kv => set_nth p (fst kv) (snd kv)) (map (fun ij => (k ij, v ij (nth (f ij) perm (0, 0)))) l) base).
Proof.
  revert base. induction l as [|ij l IH]; intros base H; cbn [fold_left map fst snd]; auto.
  cbn [bind]. unfold index at 2. rewrite (nth_error_nth' perm (0, 0)) by (apply H; left; auto). cbn [bind].
  apply IH. intros; apply H; right; auto.
Qed.

Definition rfl (n : nat) (s : nat * nat) : nat * nat := (fst s, 2 * n - 1 - snd s).

Lemma NoDup_list_prod {A B} (l : list A) (l' : list B) : NoDup l -> NoDup l' -> NoDup (list_prod l l').
Proof.
  intros H H'. induction H as [|a l Ha H IH]; cbn; [constructor|]. apply NoDup_app_intro; auto.
  - apply NoDup_map_inj; auto. congruence.
  - intros x Hx Hx'. apply in_map_iff in Hx as (b & <- & _). apply in_prod_iff in Hx' as [Hx' _]. auto.
Qed.

Lemma mul_lt_inj i j i' j' n : j < n -> j' < n -> i * n + j = i' * n + j' -> i = i' /\ j = j'.
Proof. intros. assert (i = i') by nia. subst. lia. Qed.

Lemma widen_perm_spec nw n t (perm : list (nat * nat)) : length perm = nw * n ->
  exists p, widen_perm nw n t perm = Ok p /\ length p = nw * 2 * n /\
    forall i j, i < nw -> j < n ->
      nth (i * 2 * n + match t with TypeA => j | TypeB => 2 * n - 1 - j end) p (0, 0) =
      match t with TypeA => nth (i * n + j) perm (0, 0) | TypeB => rfl n (nth (i * n + j) perm (0, 0)) end.
Proof.
  intros L. set (l := list_prod (seq 0 nw) (seq 0 n)).
  assert (Hl : forall ij, In ij l <-> fst ij < nw /\ snd ij < n).
  { intros [i j]. unfold l. rewrite in_prod_iff, !in_seq. cbn. lia. }
  pose (k := fun ij : nat * nat => fst ij * 2 * n + match t with TypeA => snd ij | TypeB => 2 * n - 1 - snd ij end).
  pose (v := fun (ij : nat * nat) (s : nat * nat) => match t with TypeA => s | TypeB => rfl n s end).
  assert (E : widen_perm nw n t perm = Ok (fold_left (fun p kv => set_nth p (fst kv) (snd kv))
            (map (fun ij => (k ij, v ij (nth (fst ij * n + snd ij) perm (0, 0)))) l) (repeat (nw, 0) (nw * 2 * n)))).
  { unfold widen_perm. fold l.
    rewrite <- (fold_index_set perm (repeat (nw, 0) (nw * 2 * n)) l (fun ij => fst ij * n + snd ij) k v).
    - apply fold_left_ext. intros acc ij Hin. apply Hl in Hin. destruct acc as [p| |]; cbn [bind]; auto.
      destruct (index perm (fst ij * n + snd ij)); cbn [bind]; auto. unfold k, v, rfl. destruct t; auto.
      replace (fst ij * 2 * n + 2 * n - 1 - snd ij) with (fst ij * 2 * n + (2 * n - 1 - snd ij)) by lia. reflexivity.
    - intros ij Hin. apply Hl in Hin. rewrite L. nia. }
  rewrite E. eexists; split; [reflexivity|].
  match goal with |- context [fold_left ?f ?kvs ?b] => destruct (fold_set_spec kvs b) as (A & B & _) end.
  - rewrite map_map. cbn [fst]. apply NoDup_map_inj.
    + intros [i j] [i' j'] H H' Ek. apply Hl in H, H'. cbn [fst snd] in *. unfold k in Ek; cbn [fst snd] in Ek.
      assert (i * (2 * n) + (match t with TypeA => j | TypeB => 2 * n - 1 - j end) =
              i' * (2 * n) + (match t with TypeA => j' | TypeB => 2 * n - 1 - j' end)) by (destruct t; lia).
      apply mul_lt_inj in H0; [|destruct t; lia|destruct t; lia]. destruct H0 as [-> E2]. f_equal. destruct t; lia.
    + apply NoDup_list_prod; apply seq_NoDup.
  - apply Forall_forall. intros kv H. apply in_map_iff in H as ([i j] & <- & H). apply Hl in H. cbn [fst snd] in *.
    rewrite repeat_length. unfold k; cbn [fst snd]. destruct t; nia.
  - rewrite repeat_length in A. split; auto. intros i j Hi Hj.
    assert (Hin : In (k (i, j), v (i, j) (nth (i * n + j) perm (0, 0))) (map (fun ij => (k ij, v ij (nth (fst ij * n + snd ij) perm (0, 0)))) l)).
    { apply in_map_iff. exists (i, j). split; auto. apply Hl. auto. }
    apply B in Hin. unfold k in Hin; cbn [fst snd] in Hin. rewrite (nth_error_nth _ _ _ Hin). unfold v. destruct t; auto.
Qed.

Section Merge.
  Context {K : fld}.
  Variable ta : nat.
  Implicit Types c a b f m : circuit K.

  (** A circuit after [finalize_for_mergeable_circuit], from the finalized [f]. *)
  Record widened (t : merge_type) f c' : Prop := {
    wd_vars : num_vars c' = num_vars f;
    wd_wit : witness c' = witness f;
    wd_type : ptype c' = Turbo;
    wd_ftype : ptype f = Turbo;
    wd_dom : domain c' = 2 * domain f;
    wd_gates : gates c' = match t with TypeA => gates f ++ repeat (padding_gate K) (domain f)
                                  | TypeB => repeat (padding_gate K) (domain f) ++ rev (gates f) end;
    wd_rows : rows c' = match t with TypeA => rows f ++ repeat zero_row (domain f)
                                  | TypeB => repeat zero_row (domain f) ++ rev (rows f) end;
    wd_pub : pub_ids c' = match t with TypeA => pub_ids f | TypeB => map (fun i => 2 * domain f - 1 - i) (pub_ids f) end;
    wd_perm : forall i j, i < num_wire_types f -> j < domain f ->
      nth (i * 2 * domain f + match t with TypeA => j | TypeB => 2 * domain f - 1 - j end) (wire_perm c') (0, 0) =
      match t with TypeA => sigma (domain f) (wire_perm f) (i, j) | TypeB => rfl (domain f) (sigma (domain f) (wire_perm f) (i, j)) end }.

  Lemma rev_repeat {A} (x : A) k : rev (repeat x k) = repeat x k.
  Proof.
    induction k; cbn; auto. rewrite IHk. clear. induction k; cbn; auto. now rewrite IHk.
  Qed.
  Lemma radix2_double n l : n = 2 ^ l -> 2 <= n -> forall n2, radix2_size ta (2 * n) = Some n2 -> n2 = 2 * n.
  Proof.
    intros -> H n2. replace (2 * 2 ^ l) with (2 ^ S l) by (rewrite Nat.pow_succ_r'; lia).
    unfold radix2_size. rewrite Nat.log2_up_pow2 by lia. destruct (_ <=? ta); [|discriminate]. congruence.
  Qed.

  Theorem mergeable_ok t c n n2 : built c -> tables_clear c -> ptype c = Turbo ->
    radix2_size ta (slots_needed K c) = Some n -> radix2_size ta (2 * n) = Some n2 ->
    exists f c', finalize_for_arithmetization K ta c = (Ok tt, f) /\ finalized_from ta c f /\ domain f = n /\
      finalize_for_mergeable_circuit K ta t c = (Ok tt, c') /\ widened t f c'.
  Proof.
    intros B T Et R R2. destruct (finalize_ok ta c n B T R) as (f & Ef & F & Ed).
    exists f. unfold finalize_for_mergeable_circuit. rewrite Et, Ef.
    destruct (ff_dom _ _ _ F) as (l & El & _). pose proof (ff_dom2 _ _ _ F) as D2. rewrite Ed in *.
    assert (Efin : is_finalized f = true).
    { unfold is_finalized. rewrite Ed. destruct (Nat.eqb_spec n 1); auto. lia. }
    rewrite Efin. cbn [negb]. rewrite R2.
    pose proof (radix2_double n l El D2 n2 R2) as ->.
    destruct (wire_permutation_spec f (ff_cols _ _ _ F)) as (p & Ep & Lp & _).
    rewrite (ff_perm _ _ _ F) in Ep. inversion Ep; subst p. rewrite Ed in Lp.
    destruct (widen_perm_spec (num_wire_types f) n t (wire_perm f) Lp) as (p & Ew & Lw & Hw). rewrite Ew.
    pose proof (co_rows _ (ff_cols _ _ _ F)) as Lr. rewrite Ed in Lr.
    assert (Er : vresize (2 * n) zero_row (rows f) = rows f ++ repeat zero_row n).
    { rewrite vresize_eq by lia. rewrite Lr. repeat f_equal. lia. }
    assert (Etf : ptype f = Turbo) by (rewrite (ff_type _ _ _ F); auto).
    assert (Hwf : forall i j, i < num_wire_types f -> j < n -> nth (i * n + j) (wire_perm f) (0, 0) = sigma n (wire_perm f) (i, j)).
    { intros i j _ _. reflexivity. }
    destruct t; (eexists; split; [reflexivity|]; split; [exact F|]; split; [reflexivity|]; split; [reflexivity|]);
      split; cbn [set_perm set_gr set_domain set_pub_ids num_vars witness ptype domain gates rows pub_ids wire_perm]; rewrite ?Ed; auto.
    all: rewrite ?Er, ?rev_app_distr, ?rev_repeat; reflexivity.
  Qed.

  Section Two.
    Variables fa fb a b : circuit K.
    Variables ca cb : circuit K.
    Hypothesis Ba : built ca.
    Hypothesis Bb : built cb.
    Hypothesis Fa : finalized_from ta ca fa.
    Hypothesis Fb : finalized_from ta cb fb.
    Hypothesis Wa : widened TypeA fa a.
    Hypothesis Wb : widened TypeB fb b.
    Hypothesis Hn : domain fa = domain fb.
    Hypothesis Hi : num_inputs ca = num_inputs cb.
    Hypothesis Hi1 : 1 <= num_inputs ca.
    Notation n := (domain fa).
    Notation ni := (num_inputs ca).

    Definition merged_of : circuit K :=
      mk_circuit K (num_vars fa + num_vars fb) (gates fa ++ rev (gates fb))
        (rows fa ++ map (shift_row (num_vars fa)) (rev (rows fb))) []
        (seq 0 ni ++ map (fun i => 2 * n - 1 - i) (seq 0 ni)) (witness fa ++ witness fb)
        (merge_perm 5 n (wire_perm a) (wire_perm b)) (2 * n) Turbo 0 [].

    Lemma ni_le : ni <= n.
    Proof.
      pose proof (bd_pub _ (finalized_bounded ta ca fa Ba Fa)) as H. rewrite (ff_pub _ _ _ Fa), (ff_gates _ _ _ Fa) in H.
      rewrite Forall_forall in H. destruct (Nat.eq_dec ni 0); [lia|]. specialize (H (ni - 1)).
      rewrite in_seq in H. specialize (H ltac:(lia)). lia.
    Qed.
    Lemma lgA : length (gates fa) = n. Proof. apply (ff_gates _ _ _ Fa). Qed.
    Lemma lgB : length (gates fb) = n. Proof. rewrite Hn. apply (ff_gates _ _ _ Fb). Qed.
    Lemma lrA : length (rows fa) = n. Proof. apply (co_rows _ (ff_cols _ _ _ Fa)). Qed.
    Lemma lrB : length (rows fb) = n. Proof. rewrite Hn. apply (co_rows _ (ff_cols _ _ _ Fb)). Qed.

    Theorem merge_ok : merge K a b = Ok merged_of.
    Proof.
      pose proof (ff_dom2 _ _ _ Fa) as D2. unfold merge, is_finalized. rewrite (wd_dom _ _ _ Wa), (wd_dom _ _ _ Wb), <- Hn.
      destruct (Nat.eqb_spec (2 * n) 1) as [Hx|Hx]; [lia|]. cbn [negb]. rewrite Nat.eqb_refl. cbn [negb].
      rewrite (wd_type _ _ _ Wa), (wd_type _ _ _ Wb).
      assert (Pa : pub_ids a = seq 0 ni) by (rewrite (wd_pub _ _ _ Wa); apply (ff_pub _ _ _ Fa)).
      assert (Pb : pub_ids b = map (fun i => 2 * n - 1 - i) (seq 0 ni)).
      { rewrite (wd_pub _ _ _ Wb), (ff_pub _ _ _ Fb), <- Hi, <- Hn. reflexivity. }
      unfold num_inputs at 1 2. rewrite Pa, Pb, map_length, seq_length, Nat.eqb_refl. cbn [negb].
      assert (S0 : seq 0 ni = 0 :: seq 1 (ni - 1)) by (destruct ni; [lia|]; cbn; repeat f_equal; lia).
      unfold index at 1. rewrite S0 at 1. cbn [nth_error bind Nat.eqb negb].
      unfold index at 1. rewrite S0 at 1. cbn [map nth_error bind]. rewrite Nat.sub_0_r, Nat.eqb_refl. cbn [negb].
      unfold merged_of. f_equal.
      assert (Ed : 2 * n / 2 = n) by (rewrite Nat.mul_comm; apply Nat.div_mul; lia).
      rewrite Ed, (wd_vars _ _ _ Wa), (wd_vars _ _ _ Wb), (wd_wit _ _ _ Wa), (wd_wit _ _ _ Wb), (wd_gates _ _ _ Wa), (wd_gates _ _ _ Wb).
      rewrite <- Hn. rewrite firstn_app, lgA, Nat.sub_diag. cbn [firstn].
      rewrite firstn_all2 by (rewrite lgA; lia). rewrite app_nil_r.
      rewrite skipn_app, repeat_length, Nat.sub_diag. rewrite skipn_all2 by (rewrite repeat_length; lia). cbn [skipn app].
      rewrite rev_length, lgA, lgB.
      assert (Nw : num_wire_types a = 5) by (unfold num_wire_types; now rewrite (wd_type _ _ _ Wa)).
      rewrite Nw. f_equal. f_equal.
      - apply list_ext. intros j. rewrite nth_error_map, nth_error_seq. destruct (Nat.ltb_spec j n) as [Hj|Hj]; cbn.
        + unfold row_at. rewrite (wd_rows _ _ _ Wa), app_nth1 by (rewrite lrA; auto).
          symmetry. apply nth_error_nth'. now rewrite lrA.
        + symmetry. apply nth_error_None. now rewrite lrA.
      - apply list_ext. intros j. rewrite !nth_error_map, nth_error_seq. destruct (Nat.ltb_spec j n) as [Hj|Hj]; cbn.
        + unfold row_at. rewrite (wd_rows _ _ _ Wb), app_nth2 by (rewrite repeat_length, <- Hn; lia).
          rewrite repeat_length, <- Hn. replace (n + j - n) with j by lia.
          rewrite (nth_error_nth' (rev (rows fb)) zero_row) by (rewrite rev_length, lrB; auto). reflexivity.
        + rewrite (proj2 (nth_error_None (rev (rows fb)) j)); auto. now rewrite rev_length, lrB.
    Qed.

    (** The two halves of the merged circuit. *)
    Lemma merged_low j : j < n -> nth_error (gates merged_of) j = nth_error (gates fa) j /\ nth_error (rows merged_of) j = nth_error (rows fa) j.
    Proof. intros Hj. unfold merged_of; cbn [gates rows]. rewrite !nth_error_app1 by (rewrite ?lgA, ?lrA; auto). auto. Qed.
    Lemma merged_high j : j < n -> nth_error (gates merged_of) (2 * n - 1 - j) = nth_error (gates fb) j /\
      nth_error (rows merged_of) (2 * n - 1 - j) = option_map (shift_row (num_vars fa)) (nth_error (rows fb) j).
    Proof.
      intros Hj. unfold merged_of; cbn [gates rows]. rewrite !nth_error_app2 by (rewrite ?lgA, ?lrA; lia). rewrite lgA, lrA.
      rewrite nth_error_map, !nth_error_rev by (rewrite ?lgB, ?lrB; lia). rewrite lgB, lrB.
      replace (n - 1 - (2 * n - 1 - j - n)) with j by lia. auto.
    Qed.
    Lemma merged_len : length (gates merged_of) = 2 * n /\ length (rows merged_of) = 2 * n.
    Proof. unfold merged_of; cbn [gates rows]. rewrite !app_length, map_length, !rev_length, lgA, lgB, lrA, lrB. lia. Qed.
    Lemma gsat_shift (w : nat -> K) pi g r k : gsat w pi g (shift_row k r) <-> gsat (fun v => w (v + k)) pi g r.
    Proof. unfold gsat. cbn [shift_row r0 r1 r2 r3 r4]. tauto. Qed.

    Variable zval : K -> Z.
    Theorem merged_csat w pub : csat zval merged_of w pub <->
      length pub = ni + ni /\ csat zval fa w (firstn ni pub) /\ csat zval fb (fun v => w (v + num_vars fa)) (skipn ni pub).
    Proof.
      pose proof ni_le as Hni.
      assert (Ia : num_inputs fa = ni) by (unfold num_inputs; rewrite (ff_pub _ _ _ Fa), seq_length; auto).
      assert (Ib : num_inputs fb = ni) by (unfold num_inputs; rewrite (ff_pub _ _ _ Fb), seq_length; auto).
      assert (Pl : forall k, k < ni -> nth_error (pub_ids merged_of) k = Some k).
      { intros k Hk. cbn [merged_of pub_ids]. rewrite nth_error_app1 by (rewrite seq_length; auto).
        rewrite nth_error_seq. destruct (Nat.ltb_spec k ni); [auto|lia]. }
      assert (Ph : forall k, k < ni -> nth_error (pub_ids merged_of) (ni + k) = Some (2 * n - 1 - k)).
      { intros k Hk. cbn [merged_of pub_ids]. rewrite nth_error_app2 by (rewrite seq_length; lia). rewrite seq_length.
        replace (ni + k - ni) with k by lia. rewrite nth_error_map, nth_error_seq. destruct (Nat.ltb_spec k ni); [auto|lia]. }
      assert (Im : num_inputs merged_of = ni + ni).
      { unfold num_inputs at 1. cbn [merged_of pub_ids]. rewrite app_length, map_length, !seq_length. auto. }
      assert (Nf : forall k l (d : K), k < ni -> nth k (firstn ni l) d = nth k l d).
      { intros k l d Hk. destruct (Nat.lt_ge_cases k (length l)).
        - rewrite <- (firstn_skipn ni l) at 2. rewrite app_nth1; auto. rewrite firstn_length. lia.
        - rewrite !nth_overflow; auto. rewrite firstn_length. lia. }
      assert (Ns : forall k l (d : K), nth k (skipn ni l) d = nth (ni + k) l d).
      { intros k l d. destruct (Nat.lt_ge_cases ni (length l)).
        - rewrite <- (firstn_skipn ni l) at 2. rewrite app_nth2 by (rewrite firstn_length; lia).
          f_equal. rewrite firstn_length. lia.
        - rewrite skipn_all2 by auto. rewrite !nth_overflow; auto; cbn; lia. }
      split.
      - intros C. pose proof (cs_len _ _ _ _ C) as L. rewrite Im in L. split; auto. split.
        + split.
          * rewrite Ia, firstn_length. lia.
          * intros k id Hk. rewrite (ff_pub _ _ _ Fa), nth_error_seq in Hk. destruct (Nat.ltb_spec k ni) as [Hk'|]; [|discriminate].
            cbn in Hk. inversion Hk; subst id.
            destruct (cs_pub _ _ _ _ C k k (Pl k Hk')) as (g & r & A1 & A2 & A3).
            destruct (merged_low k ltac:(lia)) as [E1 E2]. exists g, r. rewrite Nf by auto. split; [congruence|]. split; [congruence|auto].
          * intros j g r G1 G2 Hio. assert (Hj : j < n) by (rewrite <- lgA; apply nth_error_Some; congruence).
            destruct (merged_low j Hj) as [E1 E2]. apply (cs_gate _ _ _ _ C j); congruence.
          * intros v _. rewrite (wd_ftype _ _ _ Wa). exact I.
          * rewrite (wd_ftype _ _ _ Wa). congruence.
        + split.
          * rewrite Ib, skipn_length. lia.
          * intros k id Hk. rewrite (ff_pub _ _ _ Fb), <- Hi, nth_error_seq in Hk. destruct (Nat.ltb_spec k ni) as [Hk'|]; [|discriminate].
            cbn in Hk. inversion Hk; subst id.
            destruct (cs_pub _ _ _ _ C _ _ (Ph k Hk')) as (g & r & A1 & A2 & A3).
            destruct (merged_high k ltac:(lia)) as [E1 E2]. rewrite E1 in A1. rewrite E2 in A2.
            destruct (nth_error (rows fb) k) as [r'|] eqn:Er; [|discriminate]. cbn [option_map] in A2. inversion A2; subst r.
            exists g, r'. rewrite Ns. apply gsat_shift in A3. repeat split; auto.
          * intros j g r G1 G2 Hio. assert (Hj : j < n) by (rewrite <- lgB; apply nth_error_Some; congruence).
            destruct (merged_high j Hj) as [E1 E2]. rewrite G2 in E2. cbn [option_map] in E2.
            apply (proj1 (gsat_shift _ _ _ _ _)). apply (cs_gate _ _ _ _ C (2 * n - 1 - j)); congruence.
          * intros v _. rewrite (wd_ftype _ _ _ Wb). exact I.
          * rewrite (wd_ftype _ _ _ Wb). congruence.
      - intros (L & Ca & Cb). split.
        + rewrite Im. auto.
        + intros k id Hk. destruct (Nat.lt_ge_cases k ni) as [Hk'|Hk'].
          * rewrite (Pl k Hk') in Hk. inversion Hk; subst id.
            destruct (cs_pub _ _ _ _ Ca k k) as (g & r & A1 & A2 & A3).
            { rewrite (ff_pub _ _ _ Fa), nth_error_seq. destruct (Nat.ltb_spec k ni); [auto|lia]. }
            destruct (merged_low k ltac:(lia)) as [E1 E2]. exists g, r. rewrite Nf in A3 by auto. split; [congruence|]. split; [congruence|auto].
          * assert (Hk2 : k < ni + ni) by (rewrite <- Im; apply nth_error_Some; congruence).
            replace k with (ni + (k - ni)) in Hk by lia. rewrite Ph in Hk by lia. inversion Hk; subst id.
            destruct (cs_pub _ _ _ _ Cb (k - ni) (k - ni)) as (g & r & A1 & A2 & A3).
            { rewrite (ff_pub _ _ _ Fb), <- Hi, nth_error_seq. destruct (Nat.ltb_spec (k - ni) ni); [auto|lia]. }
            destruct (merged_high (k - ni) ltac:(lia)) as [E1 E2]. rewrite A2 in E2. cbn [option_map] in E2.
            exists g, (shift_row (num_vars fa) r). split; [congruence|]. split; [congruence|].
            apply (proj2 (gsat_shift _ _ _ _ _)). rewrite Ns in A3. now replace (ni + (k - ni)) with k in A3 by lia.
        + intros j g r G1 G2 Hio. destruct (Nat.lt_ge_cases j n) as [Hj|Hj].
          * destruct (merged_low j Hj) as [E1 E2]. apply (cs_gate _ _ _ _ Ca j); congruence.
          * assert (Hj2 : j < 2 * n) by (rewrite <- (proj1 merged_len); apply nth_error_Some; congruence).
            destruct (merged_high (2 * n - 1 - j) ltac:(lia)) as [E1 E2].
            replace (2 * n - 1 - (2 * n - 1 - j)) with j in E1, E2 by lia.
            rewrite G1 in E1. rewrite G2 in E2. destruct (nth_error (rows fb) (2 * n - 1 - j)) as [r'|] eqn:Er; [|discriminate].
            cbn [option_map] in E2. inversion E2; subst r. apply (proj2 (gsat_shift _ _ _ _ _)). apply (cs_gate _ _ _ _ Cb (2 * n - 1 - j)); congruence.
        + intros v [].
        + cbn. congruence.
    Qed.

    Lemma merged_columns : columns_ok merged_of.
    Proof.
      pose proof (ff_dom2 _ _ _ Fa) as D2. split; try (cbn; discriminate).
      - cbn [merged_of domain]. lia.
      - apply merged_len.
      - cbn [merged_of num_vars rows]. apply Forall_app; split.
        + eapply Forall_impl; [|apply (co_row_lt _ (ff_cols _ _ _ Fa))]. unfold row_lt; cbn; intros; lia.
        + apply Forall_forall. intros r Hr. apply in_map_iff in Hr as (r' & <- & Hr). apply in_rev in Hr.
          pose proof (co_row_lt _ (ff_cols _ _ _ Fb)) as H. rewrite Forall_forall in H. specialize (H _ Hr).
          unfold row_lt in *; cbn. lia.
    Qed.

    (** The merged wire permutation. *)
    Notation sm := (sigma (2 * n) (wire_perm merged_of)).
    Notation sa := (sigma n (wire_perm fa)).
    Notation sb := (sigma n (wire_perm fb)).
    Lemma merge_perm_nth nw pa pb i j : i < nw -> j < 2 * n -> nth (i * (2 * n) + j) (merge_perm nw n pa pb) (0, 0) =
      nth (i * (2 * n) + j) (if j <? n then pa else pb) (0, 0).
    Proof.
      unfold merge_perm. intros Hi' Hj.
      assert (G : forall s k, i < k -> nth (i * (2 * n) + j) (concat (map (fun i => map (fun j => nth (i * 2 * n + j) pa (0, 0)) (seq 0 n)
                ++ map (fun j => nth (i * 2 * n + n + j) pb (0, 0)) (seq 0 n)) (seq s k))) (0, 0) =
         nth ((s + i) * (2 * n) + j) (if j <? n then pa else pb) (0, 0)).
      { clear Hi'. induction i as [|i IH]; intros s [|k] Hk; try lia; cbn [seq map concat].
        - rewrite app_nth1 by (rewrite app_length, !map_length, !seq_length; lia). rewrite Nat.mul_0_l, Nat.add_0_l, Nat.add_0_r.
          destruct (Nat.ltb_spec j n).
          + rewrite app_nth1 by (rewrite map_length, seq_length; lia).
            erewrite nth_indep by (rewrite map_length, seq_length; lia).
            rewrite (map_nth (fun j => nth (s * 2 * n + j) pa (0, 0)) (seq 0 n) 0), seq_nth by lia. f_equal; lia.
          + rewrite app_nth2 by (rewrite map_length, seq_length; lia). rewrite map_length, seq_length.
            erewrite nth_indep by (rewrite map_length, seq_length; lia).
            rewrite (map_nth (fun j => nth (s * 2 * n + n + j) pb (0, 0)) (seq 0 n) 0), seq_nth by lia. f_equal; lia.
        - rewrite app_nth2 by (rewrite app_length, !map_length, !seq_length; lia). rewrite app_length, !map_length, !seq_length.
          replace (S i * (2 * n) + j - (n + n)) with (i * (2 * n) + j) by lia. rewrite IH by lia. f_equal. lia. }
      apply (G 0 nw Hi').
    Qed.
    Lemma sm_low i j : i < 5 -> j < n -> sm (i, j) = sa (i, j).
    Proof.
      intros Hi' Hj. unfold sigma at 1, enc. cbn [fst snd merged_of wire_perm]. rewrite merge_perm_nth by lia.
      destruct (Nat.ltb_spec j n); [|lia].
      pose proof (wd_perm _ _ _ Wa i j) as P. unfold num_wire_types in P. rewrite (wd_ftype _ _ _ Wa) in P. rewrite <- P by auto.
      f_equal. lia.
    Qed.
    Lemma sm_high i j : i < 5 -> j < n -> sm (rfl n (i, j)) = rfl n (sb (i, j)).
    Proof.
      intros Hi' Hj. unfold sigma at 1, enc, rfl at 1 2. cbn [fst snd merged_of wire_perm]. rewrite merge_perm_nth by lia.
      destruct (Nat.ltb_spec (2 * n - 1 - j) n); [lia|].
      pose proof (wd_perm _ _ _ Wb i j) as P. unfold num_wire_types in P. rewrite (wd_ftype _ _ _ Wb), <- Hn in P. rewrite <- P by auto.
      f_equal. lia.
    Qed.
    Lemma slot_low i j : i < 5 -> j < n -> slot_var merged_of (i, j) = slot_var fa (i, j).
    Proof.
      intros Hi' Hj. unfold slot_var, wire_variable; cbn [fst snd]. destruct (Nat.ltb_spec i 5); [|lia].
      cbn [merged_of rows]. now rewrite app_nth1 by (rewrite lrA; auto).
    Qed.
    Lemma slot_high i j : i < 5 -> j < n -> slot_var merged_of (rfl n (i, j)) = slot_var fb (i, j) + num_vars fa.
    Proof.
      intros Hi' Hj. unfold slot_var, wire_variable, rfl; cbn [fst snd]. destruct (Nat.ltb_spec i 5); [|lia].
      destruct (merged_high j Hj) as [_ E].
      rewrite (nth_error_nth' (rows fb) (mk_row 0 0 0 0 0)) in E by (rewrite lrB; auto). cbn [option_map] in E.
      rewrite (nth_error_nth _ _ _ E). destruct i as [|[|[|[|[|i]]]]]; try reflexivity.
    Qed.
    Lemma is_slot_m s : is_slot merged_of s <-> fst s < 5 /\ snd s < 2 * n.
    Proof. unfold is_slot. cbn. tauto. Qed.
    Lemma is_slot_a s : is_slot fa s <-> fst s < 5 /\ snd s < n.
    Proof. unfold is_slot, num_wire_types. rewrite (wd_ftype _ _ _ Wa). tauto. Qed.
    Lemma is_slot_b s : is_slot fb s <-> fst s < 5 /\ snd s < n.
    Proof. unfold is_slot, num_wire_types. rewrite (wd_ftype _ _ _ Wb), <- Hn. tauto. Qed.
    Lemma rfl_rfl s : snd s < 2 * n -> rfl n (rfl n s) = s.
    Proof. destruct s as [i j]; unfold rfl; cbn. intros. f_equal. lia. Qed.

    Theorem merged_encodes : perm_encodes merged_of (wire_perm merged_of).
    Proof.
      pose proof (sigma_encodes fa (wire_perm fa) (ff_cols _ _ _ Fa) (ff_perm _ _ _ Fa)) as Pa.
      pose proof (sigma_encodes fb (wire_perm fb) (ff_cols _ _ _ Fb) (ff_perm _ _ _ Fb)) as Pb.
      change (domain merged_of) with (2 * n) in *.
      assert (Ca : forall s, is_slot merged_of s -> is_slot fa s \/ exists t, is_slot fb t /\ s = rfl n t).
      { intros [i j] H. apply (proj1 (is_slot_m _)) in H. cbn [fst snd] in H. destruct (Nat.lt_ge_cases j n).
        - left. apply (proj2 (is_slot_a _)). cbn [fst snd]. lia.
        - right. exists (rfl n (i, j)). split; [apply (proj2 (is_slot_b _)); unfold rfl; cbn; lia|]. rewrite rfl_rfl; auto. cbn; lia. }
      assert (La : forall s, is_slot fa s -> sm s = sa s /\ is_slot fa (sa s) /\ slot_var merged_of s = slot_var fa s).
      { intros [i j] H. pose proof H as H'. apply (proj1 (is_slot_a _)) in H. cbn in H. split; [apply sm_low; lia|]. split; [apply (pe_slot _ _ Pa); auto|apply slot_low; lia]. }
      assert (Lb : forall s, is_slot fb s -> sm (rfl n s) = rfl n (sb s) /\ is_slot fb (sb s) /\ slot_var merged_of (rfl n s) = slot_var fb s + num_vars fa).
      { intros [i j] H. pose proof H as H'. apply (proj1 (is_slot_b _)) in H. cbn in H. split; [apply sm_high; lia|].
        split; [rewrite Hn; apply (pe_slot _ _ Pb); auto|apply slot_high; lia]. }
      assert (Rinj : forall s t, is_slot fb s -> is_slot fb t -> rfl n s = rfl n t -> s = t).
      { intros s t Hs Ht E. apply (proj1 (is_slot_b _)) in Hs, Ht. rewrite <- (rfl_rfl s), <- (rfl_rfl t) by lia. congruence. }
      assert (Rab : forall s t, is_slot fa s -> is_slot fb t -> s <> rfl n t).
      { intros s t Hs Ht E. apply (proj1 (is_slot_a _)) in Hs. apply (proj1 (is_slot_b _)) in Ht. subst s. unfold rfl in Hs; cbn in Hs. lia. }
      assert (Ia : forall k s, is_slot fa s -> Nat.iter k sm s = Nat.iter k sa s /\ is_slot fa (Nat.iter k sa s)).
      { induction k as [|k IH]; intros s Hs; [auto|].
        change (Nat.iter (S k) sm s) with (sm (Nat.iter k sm s)). change (Nat.iter (S k) sa s) with (sa (Nat.iter k sa s)).
        destruct (IH s Hs) as [E F]. rewrite E. destruct (La _ F) as (A1 & A2 & _). auto. }
      assert (Ib : forall k s, is_slot fb s -> Nat.iter k sm (rfl n s) = rfl n (Nat.iter k sb s) /\ is_slot fb (Nat.iter k sb s)).
      { induction k as [|k IH]; intros s Hs; [auto|].
        change (Nat.iter (S k) sm (rfl n s)) with (sm (Nat.iter k sm (rfl n s))). change (Nat.iter (S k) sb s) with (sb (Nat.iter k sb s)).
        destruct (IH s Hs) as [E F]. rewrite E. destruct (Lb _ F) as (A1 & A2 & _). auto. }
      assert (Va : forall s, is_slot fa s -> slot_var fa s < num_vars fa) by (intros; apply slot_var_lt; auto; apply (ff_cols _ _ _ Fa)).
      assert (SMa : forall s, is_slot fa s -> is_slot merged_of s).
      { intros s H. apply (proj1 (is_slot_a _)) in H. apply (proj2 (is_slot_m _)). lia. }
      assert (SMb : forall s, is_slot fb s -> is_slot merged_of (rfl n s)).
      { intros s H. apply (proj1 (is_slot_b _)) in H. apply (proj2 (is_slot_m _)). unfold rfl; cbn. lia. }
      assert (Hsb : forall s t, is_slot fb s -> is_slot fb t -> slot_var fb s = slot_var fb t <-> exists k, Nat.iter k sb s = t).
      { intros s t Hs Ht. rewrite Hn. apply (pe_cycles _ _ Pb); auto. }
      split; change (domain merged_of) with (2 * n).
      - intros s Hs. destruct (Ca s Hs) as [A|(t & A & ->)].
        + destruct (La s A) as (-> & B & _). auto.
        + destruct (Lb t A) as (-> & B & _). auto.
      - intros s t Hs Ht E. destruct (Ca s Hs) as [A|(s' & A & ->)]; destruct (Ca t Ht) as [B|(t' & B & ->)].
        + destruct (La s A) as (E1 & _ & _), (La t B) as (E2 & _ & _). apply (pe_inj _ _ Pa); auto. congruence.
        + destruct (La s A) as (E1 & A1 & _), (Lb t' B) as (E2 & B1 & _). exfalso. apply (Rab _ _ A1 B1). congruence.
        + destruct (Lb s' A) as (E1 & A1 & _), (La t B) as (E2 & B1 & _). exfalso. apply (Rab _ _ B1 A1). congruence.
        + destruct (Lb s' A) as (E1 & A1 & _), (Lb t' B) as (E2 & B1 & _). f_equal.
          apply (pe_inj _ _ Pb); auto. rewrite <- Hn. apply Rinj; auto. congruence.
      - intros s t Hs Ht. destruct (Ca s Hs) as [A|(s' & A & ->)]; destruct (Ca t Ht) as [B|(t' & B & ->)].
        + destruct (La s A) as (_ & _ & ->), (La t B) as (_ & _ & ->). rewrite (pe_cycles _ _ Pa s t A B).
          split; intros [k E]; exists k; destruct (Ia k s A); congruence.
        + destruct (La s A) as (_ & _ & ->), (Lb t' B) as (_ & _ & ->). split.
          * intros E. specialize (Va s A). lia.
          * intros [k E]. destruct (Ia k s A) as [E1 E2]. exfalso. apply (Rab _ _ E2 B). congruence.
        + destruct (Lb s' A) as (_ & _ & ->), (La t B) as (_ & _ & ->). split.
          * intros E. specialize (Va t B). lia.
          * intros [k E]. destruct (Ib k s' A) as [E1 E2]. exfalso. apply (Rab _ _ B E2). congruence.
        + destruct (Lb s' A) as (_ & _ & ->), (Lb t' B) as (_ & _ & ->).
          assert (X : slot_var fb s' + num_vars fa = slot_var fb t' + num_vars fa <-> slot_var fb s' = slot_var fb t') by lia.
          rewrite X, (Hsb s' t' A B).
          split; intros [k E]; exists k; destruct (Ib k s' A) as [E1 E2].
          * congruence.
          * apply Rinj; auto. congruence.
    Qed.
  End Two.
End Merge.
