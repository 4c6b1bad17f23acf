(** Proofs about the Rescue model. *)

From Coq Require Import List Arith NArith ZArith Lia Ring Field Znumtheory Bool.
From Verif Require Import Base ListAux Alg ConvModel RescueModel FiniteField.
Import ListNotations.
Local Open Scope fld_scope.

Lemma prime_pred_N p : prime p -> N.of_nat (Z.to_nat p - 1) = (Z.to_N p - 1)%N.
Proof. intro Hp. pose proof (prime_ge_2 _ Hp). lia. Qed.

Section RescueProofs.
  Variable K : fld.
  Add Field Krp : (fth K).

  Lemma v4_ext (a b : vec4 K) :
    w0 a = w0 b -> w1 a = w1 b -> w2 a = w2 b -> w3 a = w3 b -> a = b.
  Proof. destruct a, b. cbn. congruence. Qed.

  (** The determinant, expanded along the first row. *)
  Definition det3 (a b c d e f g h i : K) : K :=
    a * (e * i - f * h) - b * (d * i - f * g) + c * (d * h - e * g).
  Definition mdet (m : mat4 K) : K :=
    w0 (row0 m) * det3 (w1 (row1 m)) (w2 (row1 m)) (w3 (row1 m)) (w1 (row2 m)) (w2 (row2 m)) (w3 (row2 m)) (w1 (row3 m)) (w2 (row3 m)) (w3 (row3 m))
    - w1 (row0 m) * det3 (w0 (row1 m)) (w2 (row1 m)) (w3 (row1 m)) (w0 (row2 m)) (w2 (row2 m)) (w3 (row2 m)) (w0 (row3 m)) (w2 (row3 m)) (w3 (row3 m))
    + w2 (row0 m) * det3 (w0 (row1 m)) (w1 (row1 m)) (w3 (row1 m)) (w0 (row2 m)) (w1 (row2 m)) (w3 (row2 m)) (w0 (row3 m)) (w1 (row3 m)) (w3 (row3 m))
    - w3 (row0 m) * det3 (w0 (row1 m)) (w1 (row1 m)) (w2 (row1 m)) (w0 (row2 m)) (w1 (row2 m)) (w2 (row2 m)) (w0 (row3 m)) (w1 (row3 m)) (w2 (row3 m)).

  Definition adj (m : mat4 K) : mat4 K :=
    let '(M4 (V4 a b c d) (V4 e f g h) (V4 i j k l) (V4 q r s t)) := m in
    M4 (V4 (det3 f g h j k l r s t) (- det3 b c d j k l r s t) (det3 b c d f g h r s t) (- det3 b c d f g h j k l))
       (V4 (- det3 e g h i k l q s t) (det3 a c d i k l q s t) (- det3 a c d e g h q s t) (det3 a c d e g h i k l))
       (V4 (det3 e f h i j l q r t) (- det3 a b d i j l q r t) (det3 a b d e f h q r t) (- det3 a b d e f h i j l))
       (V4 (- det3 e f g i j k q r s) (det3 a b c i j k q r s) (- det3 a b c e f g q r s) (det3 a b c e f g i j k)).
  Definition v4_scale (c : K) (v : vec4 K) : vec4 K := V4 (c * w0 v) (c * w1 v) (c * w2 v) (c * w3 v).

  Lemma adj_l m v : mul_vec (adj m) (mul_vec m v) = v4_scale (mdet m) v.
  Proof.
    destruct m as [[a b c d] [e f g h] [i j k l] [q r s t]], v as [x y z u].
    apply v4_ext; unfold mul_vec, v4_dot, v4_scale, mdet, adj, det3;
      cbn [w0 w1 w2 w3 row0 row1 row2 row3]; ring.
  Qed.
  Lemma adj_r m v : mul_vec m (mul_vec (adj m) v) = v4_scale (mdet m) v.
  Proof.
    destruct m as [[a b c d] [e f g h] [i j k l] [q r s t]], v as [x y z u].
    apply v4_ext; unfold mul_vec, v4_dot, v4_scale, mdet, adj, det3;
      cbn [w0 w1 w2 w3 row0 row1 row2 row3]; ring.
  Qed.
  Lemma mul_vec_scale m c v : mul_vec m (v4_scale c v) = v4_scale c (mul_vec m v).
  Proof.
    apply v4_ext; unfold mul_vec, v4_dot, v4_scale; cbn [w0 w1 w2 w3]; ring.
  Qed.
  Lemma mul_vec_bij m : mdet m <> 0 -> bij (mul_vec m).
  Proof.
    intro Hd. exists (fun v => v4_scale (1 / mdet m) (mul_vec (adj m) v)). split; intro v.
    - rewrite adj_l. apply v4_ext; unfold v4_scale; cbn [w0 w1 w2 w3]; field; auto.
    - rewrite mul_vec_scale, adj_r. apply v4_ext; unfold v4_scale; cbn [w0 w1 w2 w3]; field; auto.
  Qed.
  Lemma v4_add_bij c : bij (fun v : vec4 K => v4_add v c).
  Proof.
    exists (fun v => V4 (w0 v - w0 c) (w1 v - w1 c) (w2 v - w2 c) (w3 v - w3 c)).
    split; intro v; apply v4_ext; unfold v4_add; cbn [w0 w1 w2 w3]; ring.
  Qed.
  Lemma v4_pow_bij (a : N) : bij (fun x : K => fpow_N x a) -> bij (fun v : vec4 K => v4_pow v a).
  Proof.
    intros (g & G1 & G2). exists (fun v => V4 (g (w0 v)) (g (w1 v)) (g (w2 v)) (g (w3 v))).
    split; intro v; apply v4_ext; unfold v4_pow; cbn [w0 w1 w2 w3]; auto.
  Qed.

  Section Bij.
    Variable P : rescue_params K.
    Variable q : nat.
    Hypothesis Hq : has_card K q.
    Hypothesis Ha : ((rp_a P * limbs_N (rp_a_inv P)) mod N.of_nat (q - 1) = 1)%N.
    Hypothesis Hm : mdet (rp_mds P) <> 0.

    Lemma round_exp_bij i : bij (fun v : vec4 K => v4_pow v (round_exp P i)).
    Proof.
      apply v4_pow_bij. unfold round_exp. destruct (i mod 2 =? 0)%nat.
      - apply (fpow_N_bij K q _ (rp_a P)); auto. rewrite N.mul_comm. auto.
      - apply (fpow_N_bij K q _ (limbs_N (rp_a_inv P))); auto.
    Qed.
    Lemma prp_rounds_bij keys : forall i, bij (prp_rounds P i keys).
    Proof.
      induction keys as [|k keys IH]; intro i; cbn [prp_rounds].
      - apply bij_id.
      - apply (bij_comp (fun s => linear (v4_pow s (round_exp P i)) (rp_mds P) k) (prp_rounds P (S i) keys)); auto.
        unfold linear.
        apply (bij_comp (fun s => mul_vec (rp_mds P) (v4_pow s (round_exp P i))) (fun v => v4_add v k)).
        + apply (bij_comp (fun s => v4_pow s (round_exp P i)) (mul_vec (rp_mds P))).
          * apply round_exp_bij.
          * apply mul_vec_bij. auto.
        + apply v4_add_bij.
    Qed.
    Lemma prp_keys_bij keys : length keys = 25%nat ->
      exists f, bij f /\ forall x, prp_with_round_keys P keys x = Ok (f x).
    Proof.
      intro Hl. unfold prp_with_round_keys. rewrite Hl. cbn [Nat.eqb Nat.add Nat.mul ROUNDS].
      destruct keys as [|k0 ks]; [discriminate Hl|].
      exists (fun x => prp_rounds P 0 ks (v4_add x k0)). split; [|reflexivity].
      apply (bij_comp (fun x => v4_add x k0) (prp_rounds P 0 ks)); [apply v4_add_bij|apply prp_rounds_bij].
    Qed.
  End Bij.

  Lemma schedule_loop_ok (P : rescue_params K) n : forall i aux, (i + n <= length (rp_inject P))%nat ->
    exists r, schedule_loop P i n aux = Ok r /\ length r = n.
  Proof.
    induction n as [|n IH]; intros i aux H; cbn [schedule_loop].
    - exists []. auto.
    - unfold index. destruct (nth_error (rp_inject P) i) as [inj|] eqn:E.
      + cbn [bind]. destruct (IH (S i) (linear (v4_pow aux (round_exp P i)) (rp_mds P) inj)) as (r & -> & Hr); [lia|].
        cbn [bind]. eexists. split; [reflexivity|]. cbn [length]. lia.
      + apply nth_error_None in E. lia.
  Qed.
  Lemma key_schedule_ok (P : rescue_params K) key : (24 <= length (rp_inject P))%nat ->
    exists ks, key_schedule P key = Ok ks /\ length ks = 25%nat.
  Proof.
    intro H. unfold key_schedule.
    destruct (schedule_loop_ok P (2 * ROUNDS) 0 (v4_add key (rp_init P))) as (r & -> & Hr).
    - unfold ROUNDS. lia.
    - cbn [bind]. eexists. split; [reflexivity|]. cbn [length]. rewrite Hr. reflexivity.
  Qed.

  (** *** Sponge *)
  Section Sponge.
    Variable P : rescue_params K.
    Hypothesis Hk : length (rp_keys P) = 25%nat.

    Definition peval_v (s : vec4 K) : vec4 K :=
      match perm_eval P s with Ok v => v | _ => v4_zero end.
    Lemma perm_eval_ok s : perm_eval P s = Ok (peval_v s).
    Proof.
      unfold peval_v, perm_eval, prp_with_round_keys. rewrite Hk.
      destruct (rp_keys P); [discriminate Hk|reflexivity].
    Qed.
    Definition absorb_v (cs : list (list K)) (s : vec4 K) : vec4 K :=
      fold_left (fun s c => peval_v (v4_add_elems s c)) cs s.
    Lemma absorb_chunks_ok cs : forall s, absorb_chunks P cs s = Ok (absorb_v cs s).
    Proof.
      induction cs as [|c cs IH]; intro s; cbn [absorb_chunks]; [reflexivity|].
      rewrite perm_eval_ok. cbn [bind]. apply IH.
    Qed.
    Lemma absorb_ok rate input s : (0 < rate)%nat -> absorb P rate input s = Ok (absorb_v (chunks rate input) s).
    Proof.
      intro Hr. unfold absorb. destruct (Nat.eqb_spec rate 0); [lia|]. apply absorb_chunks_ok.
    Qed.

    Lemma squeeze_loop_ok rate : (0 < rate <= 4)%nat -> forall fuel n s, (n < fuel)%nat ->
      exists out s', squeeze_loop P fuel rate n s = Ok (out, s') /\ length out = n.
    Proof.
      intro Hr. induction fuel as [|fuel IH]; intros n s Hn; [lia|]. cbn [squeeze_loop].
      destruct (Nat.ltb_spec STATE_SIZE (Nat.min n rate)) as [H|H]; [unfold STATE_SIZE in H; lia|].
      assert (Hl : length (firstn (Nat.min n rate) (v4_elems s)) = Nat.min n rate).
      { rewrite firstn_length. cbn [length v4_elems]. lia. }
      destruct (Nat.eqb_spec (n - Nat.min n rate) 0) as [H0|H0].
      - exists (firstn (Nat.min n rate) (v4_elems s)), s. split; [reflexivity|]. rewrite Hl. lia.
      - rewrite perm_eval_ok. cbn [bind].
        destruct (IH (n - Nat.min n rate)%nat (peval_v s)) as (out & s' & -> & Ho); [lia|].
        cbn [bind]. eexists _, s'. split; [reflexivity|]. rewrite app_length, Hl, Ho. lia.
    Qed.
    Lemma squeeze_ok rate n s : (0 < rate <= 4)%nat ->
      exists out s', squeeze P rate n s = Ok (out, s') /\ length out = n.
    Proof. intro Hr. apply squeeze_loop_ok; auto. Qed.

    (** More fuel does not change the result. *)
    Lemma squeeze_loop_fuel rate : (0 < rate)%nat -> forall f1 f2 n s, (n < f1)%nat -> (n < f2)%nat ->
      squeeze_loop P f1 rate n s = squeeze_loop P f2 rate n s.
    Proof.
      intro Hr. induction f1 as [|f1 IH]; intros f2 n s H1 H2; [lia|]. destruct f2 as [|f2]; [lia|].
      cbn [squeeze_loop]. destruct (Nat.ltb_spec STATE_SIZE (Nat.min n rate)); [reflexivity|].
      destruct (Nat.eqb_spec (n - Nat.min n rate) 0) as [H0|H0]; [reflexivity|].
      rewrite perm_eval_ok. cbn [bind]. rewrite (IH f2); [reflexivity|lia|lia].
    Qed.
    Lemma squeeze_step rate n s : (0 < rate <= 4)%nat -> (rate < n)%nat ->
      squeeze P rate n s =
      (let* (more, s'') := squeeze P rate (n - rate) (peval_v s) in Ok (firstn rate (v4_elems s) ++ more, s'')).
    Proof.
      intros Hr Hn. unfold squeeze at 1. cbn [squeeze_loop].
      rewrite Nat.min_r by lia. destruct (Nat.ltb_spec STATE_SIZE rate) as [H|H]; [unfold STATE_SIZE in H; lia|].
      destruct (Nat.eqb_spec (n - rate) 0); [lia|]. rewrite perm_eval_ok. cbn [bind].
      unfold squeeze. rewrite (squeeze_loop_fuel rate ltac:(lia) n (S (n - rate))) by lia. reflexivity.
    Qed.
    Lemma squeeze_small rate n s : (0 < rate <= 4)%nat -> (n <= rate)%nat ->
      squeeze P rate n s = Ok (firstn n (v4_elems s), s).
    Proof.
      intros Hr Hn. unfold squeeze. cbn [squeeze_loop]. rewrite Nat.min_l by lia.
      destruct (Nat.ltb_spec STATE_SIZE n) as [H|H]; [unfold STATE_SIZE in H; lia|].
      rewrite Nat.sub_diag. reflexivity.
    Qed.

    Lemma firstn_firstn_le {A} a b (l : list A) : (a <= b)%nat -> firstn a (firstn b l) = firstn a l.
    Proof. intro H. rewrite firstn_firstn. rewrite Nat.min_l by lia. reflexivity. Qed.

    Lemma squeeze_prefix rate : (0 < rate <= 4)%nat -> forall m n s a sa b sb, (n <= m)%nat ->
      squeeze P rate m s = Ok (a, sa) -> squeeze P rate n s = Ok (b, sb) -> b = firstn n a.
    Proof.
      intro Hr. intro m. induction m as [m IH] using lt_wf_ind. intros n s a sa b sb Hnm Ea Eb.
      destruct (Nat.le_gt_cases m rate) as [Hm|Hm].
      - rewrite squeeze_small in Ea, Eb by (auto; lia). injection Ea as <- _. injection Eb as <- _.
        rewrite firstn_firstn_le by lia. reflexivity.
      - rewrite (squeeze_step rate m s Hr Hm) in Ea.
        destruct (squeeze P rate (m - rate) (peval_v s)) as [[more s'']| |] eqn:E; cbn [bind] in Ea; try discriminate Ea.
        injection Ea as <- <-.
        assert (Hl : length (firstn rate (v4_elems s)) = rate) by (rewrite firstn_length; cbn [length v4_elems]; lia).
        destruct (Nat.le_gt_cases n rate) as [Hn|Hn].
        + rewrite squeeze_small in Eb by (auto; lia). injection Eb as <- _.
          rewrite firstn_app, Hl. replace (n - rate)%nat with 0%nat by lia. cbn [firstn]. rewrite app_nil_r.
          rewrite firstn_firstn_le by lia. reflexivity.
        + rewrite (squeeze_step rate n s Hr Hn) in Eb.
          destruct (squeeze P rate (n - rate) (peval_v s)) as [[more2 s2]| |] eqn:E2; cbn [bind] in Eb; try discriminate Eb.
          injection Eb as <- _. rewrite firstn_app, Hl, (firstn_all2 (firstn rate (v4_elems s))) by (rewrite Hl; lia). f_equal.
          eapply (IH (m - rate)%nat); [lia| |exact E|exact E2]. lia.
    Qed.
  End Sponge.

  (** *** Padding *)
  Lemma pad_ok (v : list K) m : (0 < m)%nat -> exists k,
    pad_with_zeros 0 v m = Ok (v ++ repeat 0 k) /\ ((length v + k) mod m = 0)%nat /\ (k < m)%nat /\
    k = ((m - length v mod m) mod m)%nat.
  Proof.
    intro Hm. unfold pad_with_zeros, compute_len_to_next_multiple.
    destruct (Nat.eqb_spec m 0); [lia|].
    pose proof (Nat.mod_upper_bound (length v) m ltac:(lia)) as Hb.
    destruct (Nat.eqb_spec (length v mod m) 0) as [H0|H0]; cbn [bind].
    - exists 0%nat. rewrite Nat.sub_diag, firstn_all. repeat split; [|lia|].
      + rewrite Nat.add_0_r. auto.
      + rewrite H0, Nat.sub_0_r, Nat.mod_same by lia. reflexivity.
    - exists (m - length v mod m)%nat.
      assert (Hs : ((m - length v mod m) mod m = m - length v mod m)%nat).
      { apply Nat.mod_small. revert Hb H0. generalize (length v mod m)%nat. intros. lia. }
      rewrite Hs.
      replace (length v + m - length v mod m - length v)%nat with (m - length v mod m)%nat
        by (revert Hb; generalize (length v mod m)%nat; intros; lia).
      rewrite firstn_all2 by (revert Hb; generalize (length v mod m)%nat; intros; lia).
      repeat split; [|revert Hb H0; generalize (length v mod m)%nat; intros; lia].
      pose proof (Nat.div_mod (length v) m ltac:(lia)) as E.
      replace (length v + (m - length v mod m))%nat with ((length v / m + 1) * m)%nat
        by (revert Hb E; generalize (length v mod m)%nat, (length v / m)%nat; intros; nia).
      apply Nat.mod_mul. lia.
  Qed.

  (** [x ++ 1 :: zeros] determines [x]. *)
  Lemma bit_pad_inj (x y : list K) : forall j k,
    (x ++ [1]) ++ repeat 0 j = (y ++ [1]) ++ repeat 0 k -> x = y.
  Proof.
    revert y. induction x as [|a x IH]; intros y j k E.
    - destruct y as [|b y]; [reflexivity|]. exfalso. cbn [app] in E. injection E as _ E.
      assert (Hin : In 1 (repeat (0:K) j)).
      { rewrite E. apply in_or_app. left. apply in_or_app. right. left. reflexivity. }
      apply repeat_spec in Hin. exact (f1_neq_0 K Hin).
    - destruct y as [|b y].
      + exfalso. cbn [app] in E. injection E as _ E.
        assert (Hin : In 1 (repeat (0:K) k)).
        { rewrite <- E. apply in_or_app. left. apply in_or_app. right. left. reflexivity. }
        apply repeat_spec in Hin. exact (f1_neq_0 K Hin).
      + cbn [app] in E. injection E as <- E. f_equal. eapply IH. exact E.
  Qed.

  Lemma chunks_app_mul {A} n (l l' : list A) : (0 < n)%nat -> (length l mod n = 0)%nat ->
    chunks n (l ++ l') = chunks n l ++ chunks n l'.
  Proof.
    intros Hn. assert (forall k l, length l = (k * n)%nat -> chunks n (l ++ l') = chunks n l ++ chunks n l') as H.
    { induction k as [|k IH]; intros m Hl.
      - destruct m; [|discriminate Hl]. rewrite chunks_nil. reflexivity.
      - assert (Hne : m <> []) by (intros ->; cbn [length] in Hl; nia).
        rewrite (chunks_cons n m) by (auto; lia).
        rewrite (chunks_cons n (m ++ l')) by (try lia; destruct m; cbn [app]; congruence).
        rewrite firstn_app, skipn_app. replace (n - length m)%nat with 0%nat by nia. cbn [firstn skipn].
        rewrite app_nil_r. cbn [app]. f_equal. apply IH. rewrite skipn_length. nia. }
    intro Hl. apply (H (length l / n)%nat). pose proof (Nat.div_mod (length l) n ltac:(lia)). lia.
  Qed.

  Lemma add_elems_zeros (s : vec4 K) c k : v4_add_elems s (c ++ repeat 0 k) = v4_add_elems s c.
  Proof.
    assert (H : forall i, nth i (c ++ repeat (0:K) k) 0 = nth i c 0).
    { intro i. destruct (Nat.lt_ge_cases i (length c)) as [H|H].
      - apply app_nth1. auto.
      - rewrite app_nth2, nth_repeat, nth_overflow by auto. reflexivity. }
    unfold v4_add_elems. rewrite !H. reflexivity.
  Qed.
  Lemma add_elems_inj (s : vec4 K) c d : length c = length d -> (length c <= 4)%nat ->
    v4_add_elems s c = v4_add_elems s d -> c = d.
  Proof.
    intros Hl H4 E. injection E as E0 E1 E2 E3.
    apply fadd_cancel_l in E0, E1, E2, E3.
    apply (nth_ext c d 0 0); auto. intros i Hi.
    do 4 (destruct i as [|i]; [assumption|]). lia.
  Qed.
End RescueProofs.

(** Boolean equality of vectors and of key lists. *)
Definition v4_eqb {K : fld} (a b : vec4 K) : bool :=
  feqb (w0 a) (w0 b) && feqb (w1 a) (w1 b) && feqb (w2 a) (w2 b) && feqb (w3 a) (w3 b).
Lemma v4_eqb_eq {K : fld} (a b : vec4 K) : v4_eqb a b = true <-> a = b.
Proof.
  unfold v4_eqb. rewrite !andb_true_iff, !feqb_eq. split.
  - intros [[[A B] C] D]. apply v4_ext; auto.
  - intros ->. auto.
Qed.

(** Checking a key schedule without computing the large power: [nxt] follows
    [prev] in an even round when the [A]-th power of what the linear layer was
    applied to is [prev].  Everything is scaled by the determinant to avoid a
    division. *)
Section ScheduleCheck.
  Variable K : fld.
  Add Field Ksc : (fth K).
  Variable P : rescue_params K.
  Definition even_step (adjm : mat4 K) (deta : K) (prev inj nxt : vec4 K) : bool :=
    let d := V4 (w0 nxt - w0 inj) (w1 nxt - w1 inj) (w2 nxt - w2 inj) (w3 nxt - w3 inj) in
    v4_eqb (v4_pow (mul_vec adjm d) (rp_a P)) (v4_scale K deta prev).
  Definition odd_step (prev inj nxt : vec4 K) : bool :=
    v4_eqb (linear (v4_pow prev (rp_a P)) (rp_mds P) inj) nxt.
  Fixpoint check_schedule (adjm : mat4 K) (deta : K) (even : bool) (prev : vec4 K) (injs keys : list (vec4 K)) : bool :=
    match injs, keys with
    | [], [] => true
    | i :: injs', k :: keys' =>
        (if even then even_step adjm deta prev i k else odd_step prev i k) &&
        check_schedule adjm deta (negb even) k injs' keys'
    | _, _ => false
    end.
  Definition check_keys : bool :=
    match rp_keys P with
    | [] => false
    | k0 :: ks =>
        let adjm := adj K (rp_mds P) in
        let deta := fpow_N (mdet K (rp_mds P)) (rp_a P) in
        v4_eqb k0 (v4_add v4_zero (rp_init P)) && check_schedule adjm deta true k0 (rp_inject P) ks
    end.

  Variable q : nat.
  Hypothesis Hq : has_card K q.
  Hypothesis Ha : ((rp_a P * limbs_N (rp_a_inv P)) mod N.of_nat (q - 1) = 1)%N.
  Hypothesis Hm : mdet K (rp_mds P) <> 0.

  Lemma fpow_N_mult (x y : K) e : fpow_N (x * y) e = fpow_N x e * fpow_N y e.
  Proof. rewrite !fpow_N_ok. apply fpow_mult_base. Qed.
  Lemma fpow_N_neq_0 (x : K) e : x <> 0 -> fpow_N x e <> 0.
  Proof. rewrite fpow_N_ok. apply fpow_neq_0. Qed.

  Lemma even_step_ok prev inj nxt :
    even_step (adj K (rp_mds P)) (fpow_N (mdet K (rp_mds P)) (rp_a P)) prev inj nxt = true ->
    linear (v4_pow prev (limbs_N (rp_a_inv P))) (rp_mds P) inj = nxt.
  Proof.
    unfold even_step. set (D := mdet K (rp_mds P)) in *. set (d := V4 _ _ _ _). intro E.
    apply v4_eqb_eq in E. set (z := mul_vec (adj K (rp_mds P)) d) in *.
    set (y := v4_scale K (1 / D) z).
    assert (HDa : fpow_N D (rp_a P) <> 0) by (apply fpow_N_neq_0; auto).
    assert (Hy : v4_pow y (rp_a P) = prev).
    { assert (G : forall s t : K, fpow_N s (rp_a P) = fpow_N D (rp_a P) * t -> fpow_N (1 / D * s) (rp_a P) = t).
      { intros s t Hst. apply (fmul_cancel_l K (fpow_N D (rp_a P))); auto.
        rewrite <- fpow_N_mult. replace (D * (1 / D * s)) with s by (field; auto). auto. }
      unfold v4_pow, v4_scale in E. injection E as E0 E1 E2 E3.
      apply v4_ext; unfold y, v4_pow, v4_scale; cbn [w0 w1 w2 w3]; apply G; assumption. }
    assert (Hp : v4_pow prev (limbs_N (rp_a_inv P)) = y).
    { rewrite <- Hy. apply v4_ext; unfold v4_pow; cbn [w0 w1 w2 w3]; apply (fpow_N_inverse K q); auto. }
    rewrite Hp. unfold linear, y. rewrite mul_vec_scale. unfold z. rewrite adj_r. fold D.
    apply v4_ext; unfold v4_add, v4_scale, d; cbn [w0 w1 w2 w3]; field; auto.
  Qed.

  Lemma check_schedule_ok : forall n i injs keys prev,
    n = length injs -> (forall j, nth_error (rp_inject P) (i + j) = nth_error injs j) ->
    check_schedule (adj K (rp_mds P)) (fpow_N (mdet K (rp_mds P)) (rp_a P)) (i mod 2 =? 0)%nat prev injs keys = true ->
    schedule_loop P i n prev = Ok keys.
  Proof.
    induction n as [|n IH]; intros i injs keys prev Hn Hnth Hc.
    - destruct injs; [|discriminate Hn]. destruct keys; [|discriminate Hc]. reflexivity.
    - destruct injs as [|inj injs]; [discriminate Hn|]. destruct keys as [|k keys]; [discriminate Hc|].
      cbn [check_schedule] in Hc. apply andb_prop in Hc as [Hs Hc].
      cbn [schedule_loop]. unfold index. specialize (Hnth 0%nat) as H0. rewrite Nat.add_0_r in H0.
      rewrite H0. cbn [nth_error bind].
      assert (Hk : linear (v4_pow prev (round_exp P i)) (rp_mds P) inj = k).
      { unfold round_exp. destruct (i mod 2 =? 0)%nat.
        - apply even_step_ok. auto.
        - apply v4_eqb_eq. exact Hs. }
      rewrite Hk, (IH (S i) injs keys k); [reflexivity|..].
      + injection Hn as ->. reflexivity.
      + intro j. specialize (Hnth (S j)). replace (S i + j)%nat with (i + S j)%nat by lia. exact Hnth.
      + rewrite <- Hc. f_equal.
        clear. replace (S i mod 2 =? 0)%nat with (Nat.even (S i)).
        * replace (i mod 2 =? 0)%nat with (Nat.even i).
          -- rewrite Nat.even_succ, Nat.negb_even. reflexivity.
          -- pose proof (Nat.mod_upper_bound i 2 ltac:(lia)).
             destruct (Nat.even i) eqn:E.
             ++ apply Nat.even_spec in E as [t ->]. rewrite Nat.mul_comm, Nat.mod_mul by lia. reflexivity.
             ++ assert (O : Nat.odd i = true) by (rewrite <- Nat.negb_even, E; reflexivity).
                apply Nat.odd_spec in O as [t ->]. rewrite Nat.add_comm, Nat.mul_comm, Nat.mod_add by lia. reflexivity.
        * destruct (Nat.even (S i)) eqn:E.
          -- apply Nat.even_spec in E as [t ->]. rewrite Nat.mul_comm, Nat.mod_mul by lia. reflexivity.
          -- assert (O : Nat.odd (S i) = true) by (rewrite <- Nat.negb_even, E; reflexivity).
             apply Nat.odd_spec in O as [t ->]. rewrite Nat.add_comm, Nat.mul_comm, Nat.mod_add by lia. reflexivity.
  Qed.
  Lemma check_keys_ok : length (rp_inject P) = 24%nat -> check_keys = true ->
    key_schedule P v4_zero = Ok (rp_keys P).
  Proof.
    unfold check_keys. intros Hl Hc. destruct (rp_keys P) as [|k0 ks] eqn:Ek; [discriminate Hc|].
    apply andb_prop in Hc as [H0 Hc]. apply v4_eqb_eq in H0.
    unfold key_schedule. rewrite <- H0.
    rewrite (check_schedule_ok (2 * ROUNDS) 0 (rp_inject P) ks k0); [reflexivity|..].
    - rewrite Hl. reflexivity.
    - reflexivity.
    - exact Hc.
  Qed.
End ScheduleCheck.
