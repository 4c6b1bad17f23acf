(** Grand products: completeness and soundness of the permutation argument. *)

From Coq Require Import List Arith ZArith Bool Lia Permutation Ring Field.
From Verif Require Import Base ListAux Alg Poly CircuitModel CircuitProofs SatProofs FinalModel PermProofs.
Import ListNotations.
Local Open Scope fld_scope.

Section GP.
  Context {K : fld}.
  Add Field KfieldGP : (fth K).

  Lemma fprod_perm (l l' : list K) : Permutation l l' -> fprod l = fprod l'.
  Proof. induction 1; rewrite ?fprod_cons; auto; try congruence. ring. Qed.

  (** A value of one list that is missing from the other separates the products. *)
  Lemma prod_gap (a b : list K) x gs : length a = length b -> In x a -> ~ In x b -> NoDup gs ->
    (forall g, In g gs -> fprod (map (fun y => g + y) a) = fprod (map (fun y => g + y) b)) ->
    (length gs <= length a)%nat.
  Proof.
    intros El Ha Hb Nd He. destruct (Nat.le_gt_cases (length gs) (length a)); auto. exfalso.
    set (P := psub (pvanish (map fopp a)) (pvanish (map fopp b))).
    assert (Hev : forall (l : list K) g, peval (pvanish (map fopp l)) g = fprod (map (fun y => g + y) l)).
    { intros l g. rewrite peval_pvanish, map_map. apply fprod_map_ext. intros; ring. }
    assert (HP : pzero P).
    { apply (root_bound K gs); auto.
      - intros g Hg. unfold P. rewrite peval_psub, !Hev, He by auto. ring.
      - unfold P. rewrite length_psub, !length_pvanish, !map_length. lia. }
    assert (E : peval P (- x) = 0) by (apply peval_pzero; auto).
    unfold P in E. rewrite peval_psub, !Hev in E. apply fsub_0_eq in E.
    assert (Z : fprod (map (fun y => - x + y) a) = 0).
    { clear - Ha. induction a as [|y a IH]; [destruct Ha|]. cbn [map]. rewrite fprod_cons.
      destruct Ha as [->|Ha]; [ring|rewrite IH by auto; ring]. }
    rewrite Z in E. symmetry in E. apply fprod_eq_0 in E. apply in_map_iff in E as (y & Ey & Hy).
    apply Hb. replace x with y; auto. transitivity (y + (- x + x)); [ring|]. transitivity ((- x + y) + x); [ring|]. rewrite Ey. ring.
  Qed.

  (** The vector of partial products. *)
  Lemma prod_vec_length num den k : forall j (z : K), length (prod_vec K z num den j k) = k.
  Proof. induction k; intros; cbn [prod_vec length]; auto. Qed.
  Lemma prod_vec_nth num den k : forall j (z : K) i, (i < k)%nat ->
    (forall t, (t < i)%nat -> den (j + t)%nat <> 0) ->
    nth i (prod_vec K z num den j k) 0 * fprod (map (fun t => den (j + t)%nat) (seq 0 i))
    = z * fprod (map (fun t => num (j + t)%nat) (seq 0 i)).
  Proof.
    induction k as [|k IH]; intros j z i Hi Hd; [lia|]. cbn [prod_vec]. destruct i as [|i].
    - cbn. ring.
    - cbn [nth seq map]. rewrite !fprod_cons, <- !seq_shift, !map_map.
      assert (E : nth i (prod_vec K (z * num j * finv (den j)) num den (S j) k) 0 *
        fprod (map (fun t => den (j + S t)%nat) (seq 0 i)) =
        z * num j * finv (den j) * fprod (map (fun t => num (j + S t)%nat) (seq 0 i))).
      { specialize (IH (S j) (z * num j * finv (den j)) i ltac:(lia)).
        assert (X : forall t, (t < i)%nat -> den (S j + t)%nat <> 0).
        { intros t Ht. replace (S j + t)%nat with (j + S t)%nat by lia. apply Hd. lia. }
        specialize (IH X). rewrite (map_ext (fun t => den (j + S t)%nat) (fun t => den (S j + t)%nat)) by (intros; f_equal; lia).
        rewrite (map_ext (fun t => num (j + S t)%nat) (fun t => num (S j + t)%nat)) by (intros; f_equal; lia). exact IH. }
      replace (j + 0)%nat with j by lia.
      assert (Hj : den j <> 0). { specialize (Hd 0%nat ltac:(lia)). now rewrite Nat.add_0_r in Hd. }
      match goal with |- ?a * (?b * ?d) = _ => transitivity (b * (a * d)); [ring|] end.
      rewrite E. field. auto.
  Qed.
  Lemma prod_vec_step num den k : forall j (z : K) i, (S i < k)%nat -> den (j + i)%nat <> 0 ->
    nth (S i) (prod_vec K z num den j k) 0 * den (j + i)%nat = nth i (prod_vec K z num den j k) 0 * num (j + i)%nat.
  Proof.
    induction k as [|k IH]; intros j z i Hi Hd; [lia|]. cbn [prod_vec]. destruct i as [|i].
    - destruct k; [lia|]. cbn [nth prod_vec]. rewrite Nat.add_0_r in *. field. auto.
    - cbn [nth]. replace (j + S i)%nat with (S j + i)%nat in * by lia. apply IH; auto. lia.
  Qed.

  (** What a cyclic running product forces, whatever the vector [z] is. *)
  Lemma running_product (num den z : nat -> K) n : z 0%nat = 1 ->
    (forall j, (j < n)%nat -> z (S j) * den j = z j * num j) ->
    z n * fprod (map den (seq 0 n)) = fprod (map num (seq 0 n)).
  Proof.
    intros Z0. induction n as [|n IH]; intros H.
    - cbn. rewrite Z0. ring.
    - rewrite seq_S, !map_app, !fprod_app. cbn [map Nat.add fprod fold_right].
      assert (E : z n * fprod (map den (seq 0 n)) = fprod (map num (seq 0 n))) by (apply IH; intros; apply H; lia).
      rewrite <- E. transitivity (z (S n) * den n * fprod (map den (seq 0 n))); [ring|]. rewrite H by lia. ring.
  Qed.

  (** All slots, row by row. *)
  Definition all_slots (nw n : nat) : list (nat * nat) := concat (map (fun j => map (fun i => (i, j)) (seq 0 nw)) (seq 0 n)).
  Lemma In_all_slots nw n s : In s (all_slots nw n) <-> (fst s < nw /\ snd s < n)%nat.
  Proof.
    unfold all_slots. rewrite in_concat. split.
    - intros (l & Hl & Hs). apply in_map_iff in Hl as (j & <- & Hj). apply in_map_iff in Hs as (i & <- & Hi).
      apply in_seq in Hi, Hj. cbn; lia.
    - intros [H1 H2]. exists (map (fun i => (i, snd s)) (seq 0 nw)). split.
      + apply in_map_iff. exists (snd s). split; auto. apply in_seq; lia.
      + apply in_map_iff. exists (fst s). split; [destruct s; auto|]. apply in_seq; lia.
  Qed.
  Lemma NoDup_all_slots nw n : NoDup (all_slots nw n).
  Proof.
    unfold all_slots. apply NoDup_concat.
    - apply seq_NoDup.
    - intros j _. apply NoDup_map_inj; [|apply seq_NoDup]. congruence.
    - intros j j' s _ _ H1 H2. apply in_map_iff in H1 as (? & <- & _), H2 as (? & E & _). congruence.
  Qed.
  Lemma all_slots_length nw n : length (all_slots nw n) = (n * nw)%nat.
  Proof.
    unfold all_slots. generalize (seq 0 n) as l, (seq_length n 0). intros l <-.
    induction l; cbn [map concat length]; auto. rewrite app_length, map_length, seq_length. lia.
  Qed.
  Lemma fprod_all_slots (f : nat -> nat -> K) nw n :
    fprod (map (fun j => fprod (map (fun i => f i j) (seq 0 nw))) (seq 0 n)) =
    fprod (map (fun s => f (fst s) (snd s)) (all_slots nw n)).
  Proof.
    unfold all_slots. generalize (seq 0 n) as l. induction l as [|j l IH]; cbn [map concat]; auto.
    rewrite map_app, fprod_app, fprod_cons, IH, map_map. reflexivity.
  Qed.

  Section Perm.
    Variable c : circuit K.
    Variable p : list (nat * nat).
    Hypothesis H : perm_encodes c p.
    Notation n := (domain c).
    Notation nw := (num_wire_types c).
    Notation sg := (sigma n p).

    Lemma sigma_all_slots : Permutation (map sg (all_slots nw n)) (all_slots nw n).
    Proof.
      apply NoDup_Permutation_bis.
      - apply NoDup_map_inj; [|apply NoDup_all_slots]. intros x y Hx Hy. apply In_all_slots in Hx, Hy.
        apply (pe_inj _ _ H); auto.
      - now rewrite map_length.
      - intros s Hs. apply in_map_iff in Hs as (t & <- & Ht). apply In_all_slots in Ht.
        apply In_all_slots. apply (pe_slot _ _ H t Ht).
    Qed.

    (** Honest values: the two products agree. *)
    Lemma perm_products (w : nat -> K) (ids : list K) beta gamma :
      fprod (map (perm_num K nw n (fun i j => w (wire_variable c i j)) ids beta gamma) (seq 0 n)) =
      fprod (map (perm_den K nw n (fun i j => w (wire_variable c i j)) ids p beta gamma) (seq 0 n)).
    Proof.
      unfold perm_num, perm_den.
      rewrite (fprod_all_slots (fun i j => w (wire_variable c i j) + gamma + beta * nth (i * n + j) ids 0)).
      rewrite (fprod_all_slots (fun i j => let s := nth (i * n + j) p (0%nat, 0%nat) in
          w (wire_variable c i j) + gamma + beta * nth (fst s * n + snd s) ids 0)).
      rewrite <- (fprod_perm _ _ (Permutation_map _ sigma_all_slots)). rewrite map_map.
      apply fprod_map_ext. intros s Hs. apply In_all_slots in Hs.
      pose proof (pe_var c p H s Hs) as E. unfold slot_var in E. cbv zeta. rewrite E. reflexivity.
    Qed.

    (** Dishonest values: outside few challenges the products differ. *)
    Lemma perm_sound (f : nat * nat -> K) (ids : list K) s t :
      (forall s t, is_slot c s -> is_slot c t -> nth (enc n s) ids 0 = nth (enc n t) ids 0 -> s = t) ->
      is_slot c s -> is_slot c t -> slot_var c s = slot_var c t -> f s <> f t ->
      exists bad : list K, (length bad <= (n * nw) * (n * nw))%nat /\
        forall beta, ~ In beta bad -> forall gs, NoDup gs ->
          (forall gamma, In gamma gs ->
             fprod (map (perm_num K nw n (fun i j => f (i, j)) ids beta gamma) (seq 0 n)) =
             fprod (map (perm_den K nw n (fun i j => f (i, j)) ids p beta gamma) (seq 0 n))) ->
          (length gs <= n * nw)%nat.
    Proof.
      intros Hid Hs Ht Ev Hne.
      assert (Hbad : exists u, is_slot c u /\ f (sg u) <> f u).
      { destruct (existsb (fun u => negb (feqb (f (sg u)) (f u))) (all_slots nw n)) eqn:Ex.
        - apply existsb_exists in Ex as (u & Hu & E). apply In_all_slots in Hu. exists u. split; auto.
          apply negb_true_iff in E. apply feqb_neq in E. exact E.
        - exfalso. apply Hne. assert (Hinv : forall u, is_slot c u -> f (sg u) = f u).
          { intros u Hu. destruct (feq_dec (f (sg u)) (f u)) as [E|E]; auto. exfalso.
            assert (existsb (fun u => negb (feqb (f (sg u)) (f u))) (all_slots nw n) = true); [|congruence].
            apply existsb_exists. exists u. split; [now apply In_all_slots|]. apply negb_true_iff. now apply feqb_neq. }
          apply (proj1 (pe_invariant c p H f) Hinv); auto. }
      destruct Hbad as (u & Hu & Hne'). clear s t Hs Ht Ev Hne.
      pose (id := fun s : nat * nat => nth (enc n s) ids 0).
      set (S0 := all_slots nw n).
      exists (map (fun st => (f (snd st) - f (fst st)) / (id (fst st) - id (sg (snd st)))) (list_prod S0 S0)). split.
      { rewrite map_length, prod_length. unfold S0. rewrite !all_slots_length. lia. }
      intros beta Hb gs Nd He.
      set (x := f (sg u) + beta * id (sg u)).
      pose proof (prod_gap (map (fun s => f s + beta * id s) S0) (map (fun s => f s + beta * id (sg s)) S0) x gs) as G.
      assert (HS : length S0 = (n * nw)%nat) by apply all_slots_length. rewrite !map_length, HS in G. apply G; auto.
      - apply in_map_iff. exists (sg u). split; auto. apply In_all_slots. apply (pe_slot _ _ H u Hu).
      - intros Hx. apply in_map_iff in Hx as (t & Et & Ht). apply In_all_slots in Ht. unfold x in Et.
        destruct (feq_dec (id (sg u)) (id (sg t))) as [Ei|Ei].
        + assert (E2 : sg u = sg t).
          { apply Hid; auto; apply (pe_slot _ _ H); auto. }
          apply (pe_inj _ _ H) in E2; auto. subst t. apply Hne'.
          apply (fadd_cancel_l _ (beta * id (sg u))). transitivity (f (sg u) + beta * id (sg u)); [ring|]. rewrite <- Et. ring.
        + apply Hb. apply in_map_iff. exists (sg u, t). cbn [fst snd]. split.
          * assert (Hd : id (sg u) - id (sg t) <> 0) by (intros E; apply Ei, fsub_0_eq, E).
            assert (E3 : f t - f (sg u) = beta * (id (sg u) - id (sg t))).
            { transitivity (f t + beta * id (sg t) - f (sg u) - beta * id (sg t)); [ring|]. rewrite Et. ring. }
            rewrite E3. field. auto.
          * apply in_prod; apply In_all_slots; auto. apply (pe_slot _ _ H u Hu).
      - intros g Hg. specialize (He g Hg). unfold perm_num, perm_den in He.
        rewrite (fprod_all_slots (fun i j => f (i, j) + g + beta * nth (i * n + j) ids 0)) in He.
        rewrite (fprod_all_slots (fun i j => let s := nth (i * n + j) p (0%nat, 0%nat) in
          f (i, j) + g + beta * nth (fst s * n + snd s) ids 0)) in He.
        rewrite !map_map. transitivity (fprod (map (fun s => f (fst s, snd s) + g + beta * nth (fst s * n + snd s) ids 0) (all_slots nw n))).
        + apply fprod_map_ext. intros [i j] _. unfold id, enc. cbn [fst snd]. ring.
        + rewrite He. apply fprod_map_ext. intros [i j] _. unfold id, sigma, enc. cbn [fst snd]. ring.
    Qed.
  End Perm.
End GP.
