(** Proofs about the Poseidon2 model. *)

From Coq Require Import List Arith NArith ZArith Lia Ring Field Znumtheory Bool.
From Verif Require Import Base ListAux Alg ConvModel RescueModel FiniteField RescueProofs PoseidonModel.
Import ListNotations.
Local Open Scope fld_scope.

(** A bijection of the lists of one length. *)
Definition lbij {A} (n : nat) (f : list A -> list A) : Prop :=
  (forall l, length l = n -> length (f l) = n) /\
  exists g, forall l, length l = n -> length (g l) = n /\ g (f l) = l /\ f (g l) = l.

Lemma lbij_id {A} n : lbij n (fun l : list A => l).
Proof. split; auto. exists (fun l => l). auto. Qed.
Lemma lbij_comp {A} n (f h : list A -> list A) : lbij n f -> lbij n h -> lbij n (fun l => h (f l)).
Proof.
  intros (F1 & g & G) (H1 & k & Kk). split; [auto|]. exists (fun l => g (k l)). intros l Hl.
  destruct (G l Hl) as (_ & A1 & _). destruct (Kk l Hl) as (B0 & _ & B2).
  destruct (Kk (f l) (F1 l Hl)) as (_ & B1 & _). destruct (G (k l) B0) as (C0 & _ & C2).
  rewrite B1, A1, C2, B2. auto.
Qed.
Lemma lbij_ext {A} n (f h : list A -> list A) : (forall l, length l = n -> f l = h l) -> lbij n f -> lbij n h.
Proof.
  intros E (F1 & g & G). split.
  - intros l Hl. rewrite <- E; auto.
  - exists g. intros l Hl. destruct (G l Hl) as (A0 & A1 & A2). rewrite <- !E by auto. auto.
Qed.
Lemma lbij_map {A} n (f : A -> A) : bij f -> lbij n (map f).
Proof.
  intros (g & G1 & G2). split; [intros; rewrite map_length; auto|]. exists (map g). intros l Hl.
  rewrite !map_map, map_length. repeat split; auto.
  - rewrite <- (map_id l) at 2. apply map_ext. auto.
  - rewrite <- (map_id l) at 2. apply map_ext. auto.
Qed.

Section PoseidonProofs.
  Variable K : fld.
  Add Field Kpp : (fth K).

  (** *** States as lists of quadruples *)
  Definition flat (qs : list (vec4 K)) : list K := concat (map v4_elems qs).
  Definition quad (c : list K) : vec4 K := V4 (nth 0 c 0) (nth 1 c 0) (nth 2 c 0) (nth 3 c 0).
  Definition quads (st : list K) : list (vec4 K) := map quad (chunks 4 st).
  Definition vsum4 (qs : list (vec4 K)) : vec4 K := fold_right v4_add v4_zero qs.

  Lemma flat_cons q qs : flat (q :: qs) = w0 q :: w1 q :: w2 q :: w3 q :: flat qs.
  Proof. reflexivity. Qed.
  Lemma length_flat qs : length (flat qs) = (4 * length qs)%nat.
  Proof. induction qs as [|q qs IH]; [reflexivity|]. rewrite flat_cons. cbn [length]. rewrite IH. lia. Qed.
  Lemma chunks_flat qs : chunks 4 (flat qs) = map v4_elems qs.
  Proof.
    induction qs as [|q qs IH]; [reflexivity|]. rewrite flat_cons.
    rewrite chunks_cons by (try lia; discriminate). cbn [firstn skipn map]. rewrite IH. reflexivity.
  Qed.
  Lemma quads_flat qs : quads (flat qs) = qs.
  Proof.
    unfold quads. rewrite chunks_flat, map_map. rewrite <- (map_id qs) at 2. apply map_ext.
    intros [a b c d]. reflexivity.
  Qed.
  Lemma flat_quads k : forall st, length st = (4 * k)%nat -> flat (quads st) = st /\ length (quads st) = k.
  Proof.
    induction k as [|k IH]; intros st Hl.
    - destruct st; [auto|discriminate Hl].
    - destruct st as [|a [|b [|c [|d st]]]]; cbn [length] in Hl; try lia.
      unfold quads. rewrite chunks_cons by (try lia; discriminate). cbn [firstn skipn map].
      destruct (IH st ltac:(lia)) as [E L]. split.
      + rewrite flat_cons. cbn [quad w0 w1 w2 w3 nth]. fold (quads st). rewrite E. reflexivity.
      + cbn [length]. fold (quads st). lia.
  Qed.

  Definition p2_m4 : mat4 K :=
    let two := 1 + 1 in let three := 1 + 1 + 1 in
    M4 (V4 two three 1 1) (V4 1 two three 1) (V4 1 1 two three) (V4 three 1 1 two).
  Lemma list4_ext (a b c d a' b' c' d' : K) :
    a = a' -> b = b' -> c = c' -> d = d' -> [a; b; c; d] = [a'; b'; c'; d'].
  Proof. intros -> -> -> ->. reflexivity. Qed.
  Lemma list2_ext (a b a' b' : K) : a = a' -> b = b' -> [a; b] = [a'; b'].
  Proof. intros -> ->. reflexivity. Qed.
  Lemma list3_ext (a b c a' b' c' : K) : a = a' -> b = b' -> c = c' -> [a; b; c] = [a'; b'; c'].
  Proof. intros -> -> ->. reflexivity. Qed.
  Lemma mds_mat4_ok q : mds_mat4 (v4_elems q) = v4_elems (mul_vec p2_m4 q).
  Proof.
    destruct q as [a b c d]. unfold v4_elems, mul_vec, v4_dot, p2_m4, mds_mat4, double.
    cbn [w0 w1 w2 w3 row0 row1 row2 row3]. apply list4_ext; ring.
  Qed.
  Lemma col_sum_flat qs k : (k < 4)%nat -> col_sum (flat qs) k = nth k (v4_elems (vsum4 qs)) 0.
  Proof.
    intro Hk. unfold col_sum. rewrite length_flat, (Nat.mul_comm 4), Nat.div_mul by lia.
    induction qs as [|q qs IH].
    - cbn. do 4 (destruct k as [|k]; [reflexivity|]). lia.
    - cbn [length seq map]. rewrite <- seq_shift, map_map, fsum_cons.
      transitivity (nth k (v4_elems q) 0 + fsum (map (fun j => nth (4 * j + k) (flat qs) 0) (seq 0 (length qs)))).
      + f_equal.
        * rewrite flat_cons. cbn [Nat.mul Nat.add]. do 4 (destruct k as [|k]; [reflexivity|]). lia.
        * f_equal. apply map_ext. intro j. rewrite flat_cons.
          replace (4 * S j + k)%nat with (S (S (S (S (4 * j + k))))) by lia. reflexivity.
      + rewrite IH. cbn [vsum4 fold_right]. fold (vsum4 qs). unfold v4_add.
        do 4 (destruct k as [|k]; [reflexivity|]). lia.
  Qed.
  Lemma add_cols (h : nat -> K) qs : forall s,
    map (fun ix => snd ix + h (fst ix mod 4)%nat) (combine (seq (4 * s) (length (flat qs))) (flat qs)) =
    flat (map (fun q => v4_add q (V4 (h 0%nat) (h 1%nat) (h 2%nat) (h 3%nat))) qs).
  Proof.
    induction qs as [|q qs IH]; intro s; [reflexivity|].
    cbn [map]. rewrite !flat_cons. cbn [length seq combine map fst snd].
    replace (S (S (S (S (4 * s))))) with (4 * S s)%nat by lia. rewrite IH.
    replace (4 * s)%nat with (0 + s * 4)%nat by lia.
    rewrite (Nat.mod_add 0 s 4) by lia.
    replace (S (0 + s * 4)) with (1 + s * 4)%nat by lia. rewrite (Nat.mod_add 1 s 4) by lia.
    replace (S (1 + s * 4)) with (2 + s * 4)%nat by lia. rewrite (Nat.mod_add 2 s 4) by lia.
    replace (S (2 + s * 4)) with (3 + s * 4)%nat by lia. rewrite (Nat.mod_add 3 s 4) by lia.
    reflexivity.
  Qed.

  Definition ext_quads (qs : list (vec4 K)) : list (vec4 K) :=
    let qs1 := map (mul_vec p2_m4) qs in map (fun q => v4_add q (vsum4 qs1)) qs1.

  Definition big_size (n : nat) : Prop := In n [4; 8; 12; 16; 20; 24]%nat.
  Lemma big_size_mul n : big_size n -> exists k, (1 <= k)%nat /\ n = (4 * k)%nat.
  Proof.
    unfold big_size. cbn [In].
    intros [<-|[<-|[<-|[<-|[<-|[<-|[]]]]]]]; [exists 1%nat|exists 2%nat|exists 3%nat|exists 4%nat|exists 5%nat|exists 6%nat]; lia.
  Qed.
  Lemma matmul_external_big qs : big_size (length (flat qs)) ->
    matmul_external (flat qs) = Ok (flat (ext_quads qs)).
  Proof.
    intro Hb. pose proof (big_size_mul _ Hb) as (k & Hk & Hl). rewrite length_flat in Hl.
    destruct qs as [|q qs]; [cbn [length] in Hl; lia|].
    set (Q := q :: qs) in *.
    assert (Hm : matmul_external (flat Q) =
      if existsb (Nat.eqb (length (flat Q))) [4; 8; 12; 16; 20; 24]%nat then
          let st1 := concat (map mds_mat4 (chunks 4 (flat Q))) in
          Ok (map (fun ix => snd ix + col_sum st1 (fst ix mod 4)) (combine (seq 0 (length st1)) st1))
        else Panic) by reflexivity.
    rewrite Hm. replace (existsb _ _) with true.
    2: { symmetry. apply existsb_exists. exists (length (flat Q)). split; [exact Hb|apply Nat.eqb_refl]. }
    cbv zeta. f_equal.
    assert (E : concat (map mds_mat4 (chunks 4 (flat Q))) = flat (map (mul_vec p2_m4) Q)).
    { rewrite chunks_flat, map_map. unfold flat. rewrite map_map. f_equal. apply map_ext. apply mds_mat4_ok. }
    rewrite E. set (Q1 := map (mul_vec p2_m4) Q).
    etransitivity; [exact (add_cols (col_sum (flat Q1)) Q1 0)|]. unfold ext_quads. fold Q1. f_equal. apply map_ext. intro u. f_equal.
    rewrite !col_sum_flat by lia. destruct (vsum4 Q1). reflexivity.
  Qed.

  Lemma p2_m4_det : mdet K p2_m4 = - fnat 35.
  Proof.
    unfold mdet, det3, p2_m4. cbn [w0 w1 w2 w3 row0 row1 row2 row3].
    cbn [fnat]. ring.
  Qed.

  Lemma vsum4_add_all c qs :
    vsum4 (map (fun q => v4_add q c) qs) = v4_add (vsum4 qs) (v4_scale K (fnat (length qs)) c).
  Proof.
    induction qs as [|q qs IH].
    - apply v4_ext; unfold v4_add, v4_scale; cbn [map vsum4 fold_right v4_zero w0 w1 w2 w3 length fnat]; ring.
    - cbn [map vsum4 fold_right]. fold (vsum4 (map (fun q => v4_add q c) qs)). fold (vsum4 qs). rewrite IH.
      apply v4_ext; unfold v4_add, v4_scale; cbn [w0 w1 w2 w3 length]; cbn [fnat]; ring.
  Qed.

  Lemma ext_quads_bij n : fnat (K := K) 35 <> 0 -> fnat (K := K) (S n) <> 0 -> lbij n ext_quads.
  Proof.
    intros H35 Hn.
    assert (Hd : mdet K p2_m4 <> 0).
    { rewrite p2_m4_det. intro E. apply H35. apply fopp_eq_0. exact E. }
    assert (HM : bij (mul_vec p2_m4)) by (apply mul_vec_bij; auto).
    apply (lbij_comp n (map (mul_vec p2_m4)) (fun qs1 => map (fun q => v4_add q (vsum4 qs1)) qs1)).
    - apply lbij_map. exact HM.
    - split; [intros; rewrite map_length; auto|].
      exists (fun qs => map (fun q => v4_add q (v4_scale K (- (1 / fnat (S n))) (vsum4 qs))) qs).
      intros qs Hl. split; [rewrite map_length; auto|]. split.
      + rewrite map_map, vsum4_add_all, Hl. transitivity (map (fun q => q) qs); [|apply map_id]. apply map_ext. intro q.
        apply v4_ext; unfold v4_add, v4_scale; cbn [w0 w1 w2 w3]; cbn [fnat] in *; field; auto.
      + rewrite map_map, vsum4_add_all, Hl. transitivity (map (fun q => q) qs); [|apply map_id]. apply map_ext. intro q.
        apply v4_ext; unfold v4_add, v4_scale; cbn [w0 w1 w2 w3]; cbn [fnat] in *; field; auto.
  Qed.

  (** The characteristic does not divide the determinants that occur. *)
  Definition big_char : Prop := forall n, (1 <= n <= 35)%nat -> fnat (K := K) n <> 0.

  Definition sizes : list nat := [2; 3; 4; 8; 12; 16; 20; 24]%nat.

  (** [field] leaves its side conditions in an unfolded form of these. *)
  Ltac nz H :=
    let E := fresh "E" in
    intro E; apply H;
    first [ transitivity (1 + (1 + 1) : K); [ring|exact E]
          | transitivity ((1 + 1) * (1 + 1) : K); [ring|exact E]
          | transitivity (1 + (1 + 1) * (1 + 1) : K); [ring|exact E]
          | transitivity (1 + (1 + 1) * (1 + (1 + 1)) : K); [ring|exact E] ].

  Lemma matmul_external_bij T : In T sizes -> big_char ->
    exists f, lbij T f /\ forall l : list K, length l = T -> matmul_external l = Ok (f l).
  Proof.
    intros HT Hc.
    destruct (Nat.eq_dec T 2) as [->|H2]; [|destruct (Nat.eq_dec T 3) as [->|H3]].
    - pose proof (Hc 3%nat ltac:(lia)) as H3. cbn [fnat] in H3.
      exists (fun l => match l with [a; b] => [a + (a + b); b + (a + b)] | _ => l end). split.
      + split.
        * intros l Hl. destruct l as [|a [|b [|c l]]]; try discriminate Hl. reflexivity.
        * exists (fun l => match l with [a; b] => let s := (a + b) / (1 + (1 + (1 + 0))) in [a - s; b - s] | _ => l end).
          intros l Hl. destruct l as [|a [|b [|c l]]]; try discriminate Hl.
          split; [reflexivity|]. split; cbv zeta; apply list2_ext; field; nz H3.
      + intros l Hl. destruct l as [|a [|b [|c l]]]; try discriminate Hl. reflexivity.
    - pose proof (Hc 4%nat ltac:(lia)) as H4. cbn [fnat] in H4.
      exists (fun l => match l with [a; b; c] => [a + (a + b + c); b + (a + b + c); c + (a + b + c)] | _ => l end). split.
      + split.
        * intros l Hl. destruct l as [|a [|b [|c [|d l]]]]; try discriminate Hl. reflexivity.
        * exists (fun l => match l with [a; b; c] => let s := (a + b + c) / (1 + (1 + (1 + (1 + 0)))) in [a - s; b - s; c - s] | _ => l end).
          intros l Hl. destruct l as [|a [|b [|c [|d l]]]]; try discriminate Hl.
          split; [reflexivity|]. split; cbv zeta; apply list3_ext; field; nz H4.
      + intros l Hl. destruct l as [|a [|b [|c [|d l]]]]; try discriminate Hl. reflexivity.
    - assert (Hb : big_size T).
      { unfold sizes in HT. cbn [In] in HT. unfold big_size. cbn [In]. intuition congruence. }
      destruct (big_size_mul _ Hb) as (k & Hk & HTk).
      assert (Hk6 : (k <= 6)%nat) by (unfold big_size in Hb; cbn [In] in Hb; lia).
      destruct (ext_quads_bij k (Hc 35%nat ltac:(lia)) (Hc (S k) ltac:(lia))) as (E1 & g & G).
      exists (fun l => flat (ext_quads (quads l))). split.
      + split.
        * intros l Hl. rewrite length_flat, E1; [lia|]. apply flat_quads. lia.
        * exists (fun l => flat (g (quads l))). intros l Hl. destruct (flat_quads k l ltac:(lia)) as [F1 F2].
          destruct (G (quads l) F2) as (G0 & G1 & G2).
          rewrite length_flat, G0, !quads_flat, G1, G2, F1. repeat split. lia.
      + intros l Hl. destruct (flat_quads k l ltac:(lia)) as [F1 F2].
        rewrite <- F1 at 1. apply matmul_external_big. rewrite F1, Hl. exact Hb.
  Qed.

  (** *** The internal layer *)
  Definition inv_sum (diag : list K) : K := fsum (map (fun v => 1 / v) diag).
  Definition gen_internal (diag st : list K) : list K :=
    map (fun xv => fst xv * snd xv + fsum st) (combine st diag).
  Lemma matmul_internal_gen st diag : length st <> 2%nat -> length st <> 3%nat ->
    matmul_internal st diag = gen_internal diag st.
  Proof. intros H2 H3. destruct st as [|a [|b [|c [|d st]]]]; try reflexivity; cbn [length] in *; congruence. Qed.

  Lemma combine_map_fst {A B} (l : list A) (l' : list B) : length l = length l' -> map fst (combine l l') = l.
  Proof.
    revert l'. induction l as [|a l IH]; intros [|b l'] H; try discriminate H; [reflexivity|].
    cbn [combine map fst]. f_equal. apply IH. injection H as ->. reflexivity.
  Qed.
  Lemma gen_internal_bij diag : (forall v, In v diag -> v <> 0) -> 1 + inv_sum diag <> 0 ->
    lbij (length diag) (gen_internal diag).
  Proof.
    intros Hv Hs. unfold inv_sum in Hs. split.
    { intros l Hl. unfold gen_internal. rewrite map_length, combine_length. lia. }
    set (W := fsum (map (fun v => 1 / v) diag)) in *.
    exists (fun y =>
      let s := fsum (map (fun yv => fst yv / snd yv) (combine y diag)) / (1 + W) in
      map (fun yv => (fst yv - s) / snd yv) (combine y diag)).
    intros l Hl. split; [rewrite map_length, combine_length; lia|]. split.
    - (* left inverse *)
      unfold gen_internal.
      assert (E1 : forall sg (x vs : list K), (forall v, In v vs -> v <> 0) -> length x = length vs ->
        fsum (map (fun yv => fst yv / snd yv) (combine (map (fun xv => fst xv * snd xv + sg) (combine x vs)) vs))
        = fsum x + sg * fsum (map (fun v => 1 / v) vs)).
      { intros sg. induction x as [|a x IH]; intros [|v vs] Hn Hlen; try discriminate Hlen.
        - cbn. ring.
        - cbn [combine map fst snd]. rewrite !fsum_cons, IH; [|intros; apply Hn; right; auto|injection Hlen as ->; reflexivity].
          field. apply Hn. left. reflexivity. }
      cbv zeta. rewrite E1 by auto. fold W. replace ((fsum l + fsum l * W) / (1 + W)) with (fsum l) by (field; auto).
      assert (E2 : forall sg (x vs : list K), (forall v, In v vs -> v <> 0) -> length x = length vs ->
        map (fun yv => (fst yv - sg) / snd yv) (combine (map (fun xv => fst xv * snd xv + sg) (combine x vs)) vs) = x).
      { intros sg. induction x as [|a x IH]; intros [|v vs] Hn Hlen; try discriminate Hlen.
        - reflexivity.
        - cbn [combine map fst snd]. rewrite IH; [|intros; apply Hn; right; auto|injection Hlen as ->; reflexivity].
          f_equal. field. apply Hn. left. reflexivity. }
      apply E2; auto.
    - (* right inverse *)
      cbv zeta. set (s := fsum (map (fun yv => fst yv / snd yv) (combine l diag)) / (1 + W)).
      unfold gen_internal.
      assert (E1 : forall sg (y vs : list K), (forall v, In v vs -> v <> 0) -> length y = length vs ->
        fsum (map (fun yv => (fst yv - sg) / snd yv) (combine y vs)) =
        fsum (map (fun yv => fst yv / snd yv) (combine y vs)) - sg * fsum (map (fun v => 1 / v) vs)).
      { intros sg. induction y as [|a y IH]; intros [|v vs] Hn Hlen; try discriminate Hlen.
        - cbn. ring.
        - cbn [combine map fst snd]. rewrite !fsum_cons, IH; [|intros; apply Hn; right; auto|injection Hlen as ->; reflexivity].
          field. apply Hn. left. reflexivity. }
      rewrite E1 by auto. fold W.
      replace (fsum (map (fun yv => fst yv / snd yv) (combine l diag)) - s * W) with s by (unfold s; field; auto).
      assert (E2 : forall sg (y vs : list K), (forall v, In v vs -> v <> 0) -> length y = length vs ->
        map (fun xv => fst xv * snd xv + sg) (combine (map (fun yv => (fst yv - sg) / snd yv) (combine y vs)) vs) = y).
      { intros sg. induction y as [|a y IH]; intros [|v vs] Hn Hlen; try discriminate Hlen.
        - reflexivity.
        - cbn [combine map fst snd]. rewrite IH; [|intros; apply Hn; right; auto|injection Hlen as ->; reflexivity].
          f_equal. field. apply Hn. left. reflexivity. }
      apply E2; auto.
  Qed.

  (** What the internal diagonal has to satisfy at the sizes that use it. *)
  Definition diag_ok (T : nat) (diag : list K) : Prop :=
    T = 2%nat \/ T = 3%nat \/ (length diag = T /\ (forall v, In v diag -> v <> 0) /\ 1 + inv_sum diag <> 0).

  Lemma matmul_internal_bij T diag : big_char -> (2 <= T)%nat -> diag_ok T diag ->
    lbij T (fun st => matmul_internal st diag).
  Proof.
    intros Hc HT2 Hd.
    destruct (Nat.eq_dec T 2) as [->|H2]; [|destruct (Nat.eq_dec T 3) as [->|H3]].
    - pose proof (Hc 5%nat ltac:(lia)) as H5. cbn [fnat] in H5. split.
      + intros l Hl. destruct l as [|a [|b [|c l]]]; try discriminate Hl. reflexivity.
      + (* [2 1; 1 3], inverse [3 -1; -1 2] / 5 *)
        exists (fun l => match l with [a; b] => let five := (1 + (1 + (1 + (1 + (1 + 0))))) in
                   [((1 + 1 + 1) * a - b) / five; ((1 + 1) * b - a) / five] | _ => l end).
        intros l Hl. destruct l as [|a [|b [|c l]]]; try discriminate Hl. cbn [matmul_internal double].
        unfold double. split; [reflexivity|]. split; cbv zeta; apply list2_ext; field; nz H5.
    - pose proof (Hc 7%nat ltac:(lia)) as H7. cbn [fnat] in H7. split.
      + intros l Hl. destruct l as [|a [|b [|c [|d l]]]]; try discriminate Hl. reflexivity.
      + (* [2 1 1; 1 2 1; 1 1 3], inverse [5 -2 -1; -2 5 -1; -1 -1 3] / 7 *)
        exists (fun l => match l with [a; b; c] => let seven := (1 + (1 + (1 + (1 + (1 + (1 + (1 + 0))))))) in
                   let two := 1 + 1 in let three := 1 + 1 + 1 in let five := 1 + 1 + 1 + 1 + 1 in
                   [(five * a - two * b - c) / seven; (five * b - two * a - c) / seven; (three * c - a - b) / seven] | _ => l end).
        intros l Hl. destruct l as [|a [|b [|c [|d l]]]]; try discriminate Hl. unfold matmul_internal, double.
        split; [reflexivity|]. split; cbv zeta; apply list3_ext; field; nz H7.
    - destruct Hd as [|[|(Hl & Hv & Hs)]]; try contradiction.
      apply (lbij_ext T (gen_internal diag)).
      + intros l Hll. symmetry. apply matmul_internal_gen; congruence.
      + rewrite <- Hl. apply gen_internal_bij; auto.
  Qed.

  Lemma s_box_pow x d : s_box x d = fpow_N (K := K) x d.
  Proof.
    unfold s_box. destruct (N.eqb_spec d 5) as [->|]; [|reflexivity]. cbn [fpow_N fpow_pos]. cbv zeta. ring.
  Qed.
  Lemma s_box_bij q d e : has_card K q -> ((d * e) mod N.of_nat (q - 1) = 1)%N -> bij (fun x : K => s_box x d).
  Proof.
    intros Hq Hd. apply (bij_ext (fun x => fpow_N x d)); [intro; symmetry; apply s_box_pow|].
    apply (fpow_N_bij K q d e); auto.
  Qed.

  Lemma add_rcs_bij T rc : length rc = T -> lbij T (fun st : list K => add_rcs st rc).
  Proof.
    intros Hl. split.
    - intros l H. unfold add_rcs. rewrite map_length, combine_length. lia.
    - exists (fun l => map (fun xc => fst xc - snd xc) (combine l rc)). intros l H.
      split; [rewrite map_length, combine_length; lia|]. subst T. unfold add_rcs. revert rc H.
      induction l as [|a l IH]; intros [|c rc] H; try discriminate H; [split; reflexivity|].
      cbn [combine map fst snd]. destruct (IH rc ltac:(injection H as ->; reflexivity)) as [-> ->].
      split; f_equal; ring.
  Qed.

  Section Rounds.
    Variable T : nat.
    Variable d : N.
    Hypothesis HT : In T sizes.
    Hypothesis Hc : big_char.
    Hypothesis Hd : bij (fun x : K => s_box x d).

    Lemma T_ge_2 : (2 <= T)%nat.
    Proof. unfold sizes in HT. cbn [In] in HT. lia. Qed.

    Lemma ext_round_bij rc : length rc = T ->
      exists f, lbij T f /\ forall l : list K, length l = T -> ext_round d rc l = Ok (f l).
    Proof.
      intro Hl. destruct (matmul_external_bij T HT Hc) as (f & Hf & E).
      exists (fun l => f (map (fun x => s_box x d) (add_rcs l rc))). split.
      - apply (lbij_comp T (fun l => map (fun x => s_box x d) (add_rcs l rc)) f); auto.
        apply (lbij_comp T (fun l => add_rcs l rc) (map (fun x => s_box x d))); [apply add_rcs_bij; auto|].
        apply lbij_map. auto.
      - intros l H. unfold ext_round. apply E. rewrite map_length.
        apply (proj1 (add_rcs_bij T rc Hl)). auto.
    Qed.
    Lemma ext_rounds_bij rcs : (forall rc, In rc rcs -> length rc = T) ->
      exists f, lbij T f /\ forall l : list K, length l = T -> ext_rounds d rcs l = Ok (f l).
    Proof.
      induction rcs as [|rc rcs IH]; intro Hl.
      - exists (fun l => l). split; [apply lbij_id|reflexivity].
      - destruct (ext_round_bij rc (Hl rc (or_introl eq_refl))) as (f & Hf & Ef).
        destruct IH as (h & Hh & Eh); [intros; apply Hl; right; auto|].
        exists (fun l => h (f l)). split; [apply lbij_comp; auto|].
        intros l H. cbn [ext_rounds]. rewrite Ef by auto. cbn [bind]. apply Eh. apply (proj1 Hf). auto.
    Qed.

    Variable diag : list K.
    Hypothesis Hdiag : diag_ok T diag.
    Lemma int_round_bij rc : lbij T (int_round d diag rc).
    Proof.
      pose proof T_ge_2 as H2. destruct Hd as (g & G1 & G2).
      apply (lbij_ext T (fun st => matmul_internal
        (match st with [] => [] | x :: st' => s_box (x + rc) d :: st' end) diag)).
      - intros l Hl. destruct l; [cbn [length] in Hl; lia|reflexivity].
      - apply (lbij_comp T (fun st => match st with [] => [] | x :: st' => s_box (x + rc) d :: st' end)
                 (fun st => matmul_internal st diag)).
        + split; [intros [|x l] Hl; auto|].
          exists (fun st => match st with [] => [] | x :: st' => (g x - rc) :: st' end).
          intros [|x l] Hl; [auto|]. split; [exact Hl|]. rewrite G1. split; f_equal; [ring|].
          replace (g x - rc + rc) with (g x) by ring. apply G2.
        + apply matmul_internal_bij; auto.
    Qed.
    Lemma int_rounds_bij rcs : lbij T (int_rounds d diag rcs).
    Proof.
      unfold int_rounds. induction rcs as [|rc rcs IH].
      - apply lbij_id.
      - cbn [fold_left]. apply (lbij_comp T (int_round d diag rc) (fun s => fold_left (fun s rc => int_round d diag rc s) rcs s)); auto.
        apply int_round_bij.
    Qed.
  End Rounds.

  Lemma permute_bij (P : p2_params K) q e :
    sanity_check P = true -> has_card K q -> big_char ->
    ((p2_d P * e) mod N.of_nat (q - 1) = 1)%N ->
    (forall rc, In rc (p2_ext_rc P) -> length rc = p2_t P) ->
    diag_ok (p2_t P) (p2_diag P) ->
    exists f, lbij (p2_t P) f /\ forall l, length l = p2_t P -> permute P l = Ok (f l).
  Proof.
    intros Hs Hq Hc He Hrc Hdg.
    assert (HT : In (p2_t P) sizes).
    { unfold sanity_check in Hs. rewrite !andb_true_iff in Hs. destruct Hs as [[[[H _] _] _] _].
      apply existsb_exists in H as (x & Hx & E). apply Nat.eqb_eq in E. rewrite E. exact Hx. }
    assert (Hd : bij (fun x : K => s_box x (p2_d P))) by (apply (s_box_bij q _ e); auto).
    destruct (matmul_external_bij _ HT Hc) as (f0 & B0 & E0).
    destruct (ext_rounds_bij _ _ HT Hc Hd (firstn (p2_ext_rounds P / 2) (p2_ext_rc P))) as (f1 & B1 & E1).
    { intros rc Hi. apply Hrc. rewrite <- (firstn_skipn (p2_ext_rounds P / 2)). apply in_or_app. auto. }
    destruct (ext_rounds_bij _ _ HT Hc Hd (skipn (p2_ext_rounds P / 2) (firstn (p2_ext_rounds P) (p2_ext_rc P)))) as (f3 & B3 & E3).
    { intros rc Hi. apply Hrc. rewrite <- (firstn_skipn (p2_ext_rounds P)). apply in_or_app. left.
      rewrite <- (firstn_skipn (p2_ext_rounds P / 2) (firstn (p2_ext_rounds P) (p2_ext_rc P))). apply in_or_app. auto. }
    pose proof (int_rounds_bij _ _ HT Hc Hd _ Hdg (p2_int_rc P)) as B2.
    exists (fun l => f3 (int_rounds (p2_d P) (p2_diag P) (p2_int_rc P) (f1 (f0 l)))). split.
    - apply (lbij_comp _ (fun l => int_rounds (p2_d P) (p2_diag P) (p2_int_rc P) (f1 (f0 l))) f3); auto.
      apply (lbij_comp _ (fun l => f1 (f0 l)) (int_rounds (p2_d P) (p2_diag P) (p2_int_rc P))); auto.
      apply lbij_comp; auto.
    - intros l Hl. unfold permute. rewrite Hs, E0 by auto. cbn [bind].
      rewrite E1 by (apply (proj1 B0); auto). cbn [bind]. apply E3.
      apply (proj1 B2). apply (proj1 B1). apply (proj1 B0). auto.
  Qed.

  (** *** The layers as matrices *)
  Lemma fsum_quads (f : nat -> K) k :
    fsum (map f (seq 0 (4 * k))) =
    fsum (map (fun b => f (4 * b)%nat + f (4 * b + 1)%nat + f (4 * b + 2)%nat + f (4 * b + 3)%nat) (seq 0 k)).
  Proof.
    induction k as [|k IH]; [reflexivity|].
    replace (4 * S k)%nat with (4 * k + 4)%nat by lia. rewrite seq_app, map_app, fsum_app, IH.
    rewrite (seq_S k), map_app, fsum_app. f_equal. cbn [seq map Nat.add]. rewrite !fsum_cons.
    replace (S (4 * k)) with (4 * k + 1)%nat by lia. replace (S (4 * k + 1)) with (4 * k + 2)%nat by lia.
    replace (S (4 * k + 2)) with (4 * k + 3)%nat by lia. unfold fsum. cbn [fold_right]. ring.
  Qed.
  Lemma nth_flat qs : forall b c, (c < 4)%nat ->
    nth (4 * b + c) (flat qs) 0 = nth c (v4_elems (nth b qs v4_zero)) 0.
  Proof.
    induction qs as [|q qs IH]; intros b c Hc.
    - rewrite nth_overflow by (cbn; lia). destruct b; do 4 (destruct c as [|c]; [reflexivity|]); lia.
    - rewrite flat_cons. destruct b as [|b].
      + cbn [Nat.mul Nat.add nth]. do 4 (destruct c as [|c]; [reflexivity|]). lia.
      + replace (4 * S b + c)%nat with (S (S (S (S (4 * b + c))))) by lia. cbn [nth]. apply IH. auto.
  Qed.
End PoseidonProofs.
