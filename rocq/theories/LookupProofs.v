(** Lemmas for the lookup argument: the sorted vector and the grand product. *)

From Coq Require Import List Arith Bool Lia Permutation Ring Field.
From Verif Require Import Base Alg Poly CircuitModel FinalModel GrandProd.
Import ListNotations.
Local Open Scope fld_scope.

Section Lists.
  Context {A : Type}.
  Lemma windows2_cons (a b : A) l : windows2 (a :: b :: l) = (a, b) :: windows2 (b :: l).
  Proof. reflexivity. Qed.
  Lemma windows2_repeat (a : A) k l : windows2 (repeat a k ++ a :: l) = repeat (a, a) k ++ windows2 (a :: l).
  Proof.
    induction k as [|k IH]; [reflexivity|]. cbn [repeat app]. rewrite <- IH.
    destruct k; reflexivity.
  Qed.
  Lemma windows2_length (l : list A) : length (windows2 l) = (length l - 1)%nat.
  Proof. unfold windows2. rewrite combine_length. destruct l; cbn [length tl]; lia. Qed.
  Lemma windows2_nth (l : list A) d :
    windows2 l = map (fun j => (nth j l d, nth (S j) l d)) (seq 0 (length l - 1)).
  Proof.
    induction l as [|a l IH]; [reflexivity|]. destruct l as [|b l]; [reflexivity|].
    rewrite windows2_cons, IH. cbn [length]. replace (S (S (length l)) - 1)%nat with (S (length l)) by lia.
    replace (S (length l) - 1)%nat with (length l) by lia.
    change (seq 0 (S (length l))) with (0%nat :: seq 1 (length l)). rewrite <- seq_shift.
    cbn [map]. f_equal. rewrite map_map. reflexivity.
  Qed.
  Lemma windows2_In (l : list A) a b : In (a, b) (windows2 l) -> In a l /\ In b l.
  Proof.
    intros H. unfold windows2 in H. split; [eapply in_combine_l; eauto|].
    apply in_combine_r in H. destruct l; [contradiction|right; exact H].
  Qed.
  Lemma windows2_closed (P : A -> Prop) l : (forall a b, In (a, b) (windows2 l) -> (P a <-> P b)) ->
    forall x, In x l -> P x -> Forall P l.
  Proof.
    induction l as [|a l IH]; intros H x Hx Px; [constructor|].
    destruct l as [|b l].
    - destruct Hx as [<-|[]]. auto.
    - assert (Hab : P a <-> P b) by (apply H; rewrite windows2_cons; left; auto).
      assert (H' : forall u v, In (u, v) (windows2 (b :: l)) -> (P u <-> P v)).
      { intros u v Hu. apply H. rewrite windows2_cons. right; auto. }
      destruct Hx as [<-|Hx].
      + constructor; auto. apply (IH H' b); [left; auto|tauto].
      + pose proof (IH H' x Hx Px) as F. constructor; auto. apply Hab. now inversion F.
  Qed.
End Lists.

Lemma seq_shift_add a k : seq a k = map (fun j => (a + j)%nat) (seq 0 k).
Proof.
  revert a. induction k as [|k IH]; intros a; [reflexivity|]. cbn [seq map]. rewrite Nat.add_0_r. f_equal.
  rewrite IH, <- seq_shift, map_map. apply map_ext. intros; lia.
Qed.

Section Lookup.
  Variable K : fld.
  Add Field LookupProofsK : (fth K).
  Implicit Types t s l : list K.

  Lemma existsb_feqb (x : K) l : existsb (feqb x) l = true <-> In x l.
  Proof.
    rewrite existsb_exists. split.
    - intros (y & Hy & E). apply feqb_eq in E. congruence.
    - intros H. exists x. split; auto. apply feqb_refl.
  Qed.

  (** The copies that the lookups add to the table. *)
  Fixpoint ins t (seen : list K) l : list K :=
    match t with
    | [] => []
    | e :: t' => if existsb (feqb e) seen then ins t' seen l else repeat e (count K e l) ++ ins t' (e :: seen) l
    end.

  Lemma count_occ_count (x : K) l : count_occ feq_dec l x = count K x l.
  Proof.
    induction l as [|y l IH]; [reflexivity|]. cbn [count_occ count].
    destruct (feq_dec y x) as [->|N].
    - rewrite feqb_refl, IH. auto.
    - destruct (feqb x y) eqn:E; [apply feqb_eq in E; congruence|auto].
  Qed.
  Lemma sorted_vec_head e t' seen l : exists s', sorted_vec K (e :: t') seen l = e :: s'.
  Proof. cbn [sorted_vec]. destruct (existsb (feqb e) seen); cbn [repeat app]; eauto. Qed.
  Lemma repeat_snoc {A} (a : A) k (l : list A) : repeat a (S k) ++ l = repeat a k ++ a :: l.
  Proof. induction k; cbn in *; [auto|]. f_equal. rewrite <- IHk. reflexivity. Qed.
  Lemma sorted_windows t : forall seen l,
    Permutation (windows2 (sorted_vec K t seen l)) (windows2 t ++ map (fun f => (f, f)) (ins t seen l)).
  Proof.
    induction t as [|e t IH]; intros seen l; [constructor|].
    assert (Hstep : forall seen', Permutation (windows2 (e :: sorted_vec K t seen' l))
                    (windows2 (e :: t) ++ map (fun f => (f, f)) (ins t seen' l))).
    { intros seen'. destruct t as [|e' t'].
      - cbn. constructor.
      - destruct (sorted_vec_head e' t' seen' l) as [s' Hs]. rewrite Hs, !windows2_cons, <- Hs.
        cbn [app]. constructor. apply IH. }
    cbn [sorted_vec ins]. destruct (existsb (feqb e) seen); [apply Hstep|].
    rewrite repeat_snoc, windows2_repeat, Hstep, map_app.
    replace (map (fun f => (f, f)) (repeat e (count K e l))) with (repeat (e, e) (count K e l)).
    - rewrite !app_assoc. apply Permutation_app_tail. apply Permutation_app_comm.
    - induction (count K e l); cbn; congruence.
  Qed.
  Lemma sorted_perm t : forall seen l, Permutation (sorted_vec K t seen l) (t ++ ins t seen l).
  Proof.
    induction t as [|e t IH]; intros seen l; [constructor|].
    cbn [sorted_vec ins app]. destruct (existsb (feqb e) seen); [now constructor|].
    cbn [repeat app]. constructor. rewrite IH, !app_assoc. apply Permutation_app_tail, Permutation_app_comm.
  Qed.
  Lemma count_ins x t : forall seen l,
    count K x (ins t seen l) = if existsb (feqb x) t && negb (existsb (feqb x) seen) then count K x l else 0%nat.
  Proof.
    induction t as [|e t IH]; intros seen l; [reflexivity|].
    cbn [ins existsb].
    assert (Hr : forall k m, count K x (repeat e k ++ m) = ((if feqb x e then k else 0) + count K x m)%nat).
    { intros k m. induction k; cbn [repeat app count]; destruct (feqb x e); cbn; auto. }
    destruct (existsb (feqb e) seen) eqn:Es.
    - rewrite IH. destruct (feqb x e) eqn:E; cbn [orb].
      + apply feqb_eq in E. subst e. rewrite Es. cbn. rewrite andb_false_r. auto.
      + auto.
    - rewrite Hr, IH. cbn [existsb]. destruct (feqb x e) eqn:E; cbn [orb negb andb].
      + apply feqb_eq in E. subst e. rewrite Es, andb_false_r. cbn. lia.
      + lia.
  Qed.
  Lemma count_filter x t l :
    count K x (filter (fun y => existsb (feqb y) t) l) = if existsb (feqb x) t then count K x l else 0%nat.
  Proof.
    induction l as [|y l IH]; cbn [filter count]; [destruct (existsb _ t); auto|].
    destruct (feqb x y) eqn:E.
    - apply feqb_eq in E. subst y. destruct (existsb (feqb x) t) eqn:Et; cbn [count].
      + rewrite feqb_refl, IH. auto.
      + auto.
    - destruct (existsb (feqb y) t); cbn [count]; rewrite ?E; auto.
  Qed.
  Lemma ins_filter t l : Permutation (ins t [] l) (filter (fun y => existsb (feqb y) t) l).
  Proof.
    apply (Permutation_count_occ feq_dec). intros x. rewrite !count_occ_count, count_ins, count_filter.
    cbn [existsb negb]. now rewrite andb_true_r.
  Qed.
  Lemma filter_all {A} (p : A -> bool) (l : list A) : (forall x, In x l -> p x = true) -> filter p l = l.
  Proof.
    induction l as [|a l IH]; intros H; auto. cbn. rewrite (H a) by (left; auto). f_equal. apply IH. intros; apply H; now right.
  Qed.
  Lemma filter_short {A} (p : A -> bool) (l : list A) : length (filter p l) = length l -> forall x, In x l -> p x = true.
  Proof.
    induction l as [|a l IH]; intros H x Hx; [contradiction|]. cbn [filter] in H.
    destruct (p a) eqn:E.
    - destruct Hx as [<-|Hx]; [auto|]. apply IH; [cbn [length] in H; lia|exact Hx].
    - exfalso. cbn [length] in H. assert (length (filter p l) <= length l)%nat by (clear; induction l as [|b l IH]; cbn; [lia|destruct (p b); cbn; lia]). lia.
  Qed.

  (** The honest sorted vector exists exactly when every lookup is in the table. *)
  Lemma sorted_vec_spec n t l : length t = n -> length l = (n - 1)%nat -> (1 <= n)%nat ->
    (lookup_sorted_vec K n t l = Ok (sorted_vec K t [] l) /\ incl l t)
    \/ (lookup_sorted_vec K n t l = Err ParameterError /\ exists x, In x l /\ ~ In x t).
  Proof.
    intros Ht Hl Hn. unfold lookup_sorted_vec.
    rewrite (Permutation_length (sorted_perm t [] l)), app_length, (Permutation_length (ins_filter t l)), Ht.
    destruct (forallb (fun y => existsb (feqb y) t) l) eqn:F.
    - left. rewrite forallb_forall in F. rewrite filter_all by auto. rewrite Hl.
      destruct (Nat.eqb_spec (n + (n - 1)) (2 * n - 1)); [|lia]. split; auto.
      intros x Hx. apply existsb_feqb. auto.
    - right. destruct (Nat.eqb_spec (n + length (filter (fun y => existsb (feqb y) t) l)) (2 * n - 1)) as [E|E].
      + exfalso. assert (E' : length (filter (fun y => existsb (feqb y) t) l) = length l) by lia.
        pose proof (filter_short _ _ E') as H.
        rewrite (proj2 (forallb_forall _ _) H) in F. discriminate.
      + split; auto. clear E. induction l as [|y l IH] in F |- *; [discriminate|]. cbn [forallb] in F.
        destruct (existsb (feqb y) t) eqn:Ey.
        * destruct (IH F) as (x & Hx & Nx). exists x. split; [right|]; auto.
        * exists y. split; [left; auto|]. intros Hy. apply existsb_feqb in Hy. congruence.
  Qed.
  Lemma sorted_vec_perm t l : incl l t -> Permutation (sorted_vec K t [] l) (t ++ l).
  Proof.
    intros H. rewrite sorted_perm, ins_filter, filter_all; [reflexivity|]. intros x Hx. apply existsb_feqb; auto.
  Qed.

  (** The factor of an adjacent pair. *)
  Definition pairf (beta gamma : K) (p : K * K) : K := gamma * (1 + beta) + fst p + beta * snd p.
  Definition diag (l : list K) : list (K * K) := map (fun f => (f, f)) l.

  Lemma map_nth_seq {A} (l : list A) d : map (fun j => nth j l d) (seq 0 (length l)) = l.
  Proof.
    induction l as [|a l IH]; [reflexivity|]. cbn [length seq map nth]. f_equal.
    rewrite <- seq_shift, map_map. exact IH.
  Qed.
  Lemma lookup_num_prod n t l beta gamma : length t = n -> length l = (n - 1)%nat ->
    fprod (map (lookup_num K t l beta gamma) (seq 0 (n - 1))) = fprod (map (pairf beta gamma) (windows2 t ++ diag l)).
  Proof.
    intros Ht Hl. rewrite map_app, fprod_app. rewrite (windows2_nth t 0), Ht. unfold diag. rewrite !map_map.
    rewrite <- (map_nth_seq l 0) at 2. rewrite Hl, map_map, <- fprod_map_mul.
    f_equal. apply map_ext. intros j. unfold lookup_num, pairf. cbn [fst snd]. ring.
  Qed.
  Lemma lookup_den_prod n s beta gamma : (1 <= n)%nat -> length s = (2 * n - 1)%nat ->
    fprod (map (lookup_den K n s beta gamma) (seq 0 (n - 1))) = fprod (map (pairf beta gamma) (windows2 s)).
  Proof.
    intros Hn Hs. rewrite (windows2_nth s 0), Hs. replace (2 * n - 1 - 1)%nat with ((n - 1) + (n - 1))%nat by lia.
    rewrite seq_app, !map_app, fprod_app, !map_map. cbn [Nat.add].
    replace (seq (n - 1) (n - 1)) with (map (fun j => (n - 1 + j)%nat) (seq 0 (n - 1))).
    - rewrite map_map, <- fprod_map_mul. f_equal. apply map_ext. intros j. unfold lookup_den, pairf. cbn [fst snd].
      replace (S (n - 1 + j)) with (n + j)%nat by lia. reflexivity.
    - symmetry. apply seq_shift_add.
  Qed.

  Lemma pairf_mul beta gamma p : 1 + beta <> 0 ->
    pairf beta gamma p = (1 + beta) * (gamma + (fst p + beta * snd p) * finv (1 + beta)).
  Proof. intros H. unfold pairf. field. auto. Qed.
  Lemma pairf_prod beta gamma (P : list (K * K)) : 1 + beta <> 0 ->
    fprod (map (pairf beta gamma) P)
    = fpow (1 + beta) (length P) * fprod (map (fun y => gamma + y) (map (fun p => (fst p + beta * snd p) * finv (1 + beta)) P)).
  Proof.
    intros H. induction P as [|p P IH].
    - cbn. ring.
    - cbn [map length]. rewrite !fprod_cons, IH, fpow_S, (pairf_mul _ _ _ H). ring.
  Qed.

  (** The challenges that may confuse two distinct pairs. *)
  Definition bad_betas (P Q : list (K * K)) : list K :=
    fopp 1 :: map (fun pq => (fst (snd pq) - fst (fst pq)) * finv (snd (fst pq) - snd (snd pq))) (list_prod P Q).
  Lemma bad_betas_length P Q : length (bad_betas P Q) = S (length P * length Q).
  Proof. unfold bad_betas. cbn [length]. now rewrite map_length, prod_length. Qed.
  Lemma bad_betas_spec P Q beta : ~ In beta (bad_betas P Q) ->
    1 + beta <> 0 /\ forall p q, In p P -> In q Q -> fst p + beta * snd p = fst q + beta * snd q -> p = q.
  Proof.
    intros H. split.
    - intros E. apply H. left. transitivity (fopp 1 + (1 + beta)); [rewrite E; ring|ring].
    - intros [a b] [a' b'] Hp Hq E. cbn [fst snd] in E. destruct (feq_dec b b') as [->|N].
      + f_equal. transitivity (a + beta * b' - beta * b'); [ring|]. rewrite E. ring.
      + exfalso. apply H. right. apply in_map_iff. exists ((a, b), (a', b')). split; [|now apply in_prod].
        cbn [fst snd]. assert (Nb : b - b' <> 0) by (intros X; apply N, (fsub_0_eq _ _ _ X)).
        assert (E2 : a' - a = beta * (b - b')).
        { transitivity (a' + beta * b' - a - beta * b'); [ring|]. rewrite <- E. ring. }
        rewrite E2. field. auto.
  Qed.

  (** Products that agree for more challenges than factors come from the same pairs. *)
  Lemma pair_products P Q beta gs : length P = length Q -> ~ In beta (bad_betas P Q) -> NoDup gs ->
    (forall gamma, In gamma gs -> fprod (map (pairf beta gamma) P) = fprod (map (pairf beta gamma) Q)) ->
    (length P < length gs)%nat -> forall p, In p P <-> In p Q.
  Proof.
    intros El Hb Nd He Hlt. destruct (bad_betas_spec _ _ _ Hb) as [N Hsep].
    set (u := fun p : K * K => (fst p + beta * snd p) * finv (1 + beta)).
    assert (Hu : forall p q, In p P -> In q Q -> u p = u q -> p = q).
    { intros p q Hp Hq E. apply Hsep; auto. unfold u in E.
      apply (fmul_cancel_l K (finv (1 + beta))); [now apply finv_neq_0|].
      transitivity ((fst p + beta * snd p) * finv (1 + beta)); [ring|]. rewrite E. ring. }
    assert (Hg : forall g, In g gs -> fprod (map (fun y => g + y) (map u P)) = fprod (map (fun y => g + y) (map u Q))).
    { intros g Hin. specialize (He g Hin). rewrite !pairf_prod in He by auto. rewrite <- El in He.
      apply fmul_cancel_l in He; auto. now apply fpow_neq_0. }
    intros p. split; intros Hp.
    - destruct (in_dec feq_dec (u p) (map u Q)) as [Hi|Hi].
      + apply in_map_iff in Hi as (q & E & Hq). rewrite (Hu p q Hp Hq); auto.
      + exfalso. pose proof (prod_gap (map u P) (map u Q) (u p) gs) as G. rewrite !map_length in G.
        assert (length gs <= length P)%nat; [|lia]. apply G; auto. now apply in_map.
    - destruct (in_dec feq_dec (u p) (map u P)) as [Hi|Hi].
      + apply in_map_iff in Hi as (q & E & Hq). rewrite <- (Hu q p Hq Hp); auto.
      + exfalso. pose proof (prod_gap (map u Q) (map u P) (u p) gs) as G. rewrite !map_length in G.
        assert (length gs <= length Q)%nat; [|lia]. apply G; auto; [now apply in_map|]. intros; symmetry; auto.
  Qed.

  Lemma same_pairs_incl t l s : (2 <= length t)%nat ->
    (forall p, In p (windows2 t ++ diag l) <-> In p (windows2 s)) -> incl l t.
  Proof.
    intros Ht H x Hx. destruct (in_dec feq_dec x t) as [Hi|Hi]; auto. exfalso.
    assert (Hxx : In (x, x) (windows2 s)).
    { apply H, in_or_app. right. apply in_map_iff. eauto. }
    assert (Hall : Forall (eq x) s).
    { apply (windows2_closed (eq x) s) with (x := x); auto; [|now apply windows2_In in Hxx].
      intros a b Hab. apply H, in_app_or in Hab as [Hab|Hab].
      - apply windows2_In in Hab as [Ha Hb]. split; intros <-; contradiction.
      - apply in_map_iff in Hab as (y & E & _). inversion E; subst. tauto. }
    destruct t as [|t0 [|t1 t']]; cbn [length] in Ht; try lia.
    assert (H01 : In (t0, t1) (windows2 s)) by (apply H; left; auto).
    apply windows2_In in H01 as [H0 _]. rewrite Forall_forall in Hall. apply Hi. rewrite (Hall _ H0). left; auto.
  Qed.

  (** Soundness of the argument for any sorted vector and any running product. *)
  Theorem lookup_sound n t l s : (2 <= n)%nat -> length t = n -> length l = (n - 1)%nat -> length s = (2 * n - 1)%nat ->
    ~ incl l t ->
    exists bad : list K, (length bad <= S ((2 * n - 2) * (2 * n - 2)))%nat /\
      forall beta, ~ In beta bad -> forall gs, NoDup gs ->
        (forall gamma, In gamma gs -> exists z : nat -> K, z 0%nat = 1 /\ z (n - 1)%nat = 1 /\
           forall j, (j < n - 1)%nat -> z (S j) * lookup_den K n s beta gamma j = z j * lookup_num K t l beta gamma j) ->
        (length gs <= 2 * n - 2)%nat.
  Proof.
    intros Hn Ht Hl Hs Hni. set (P := windows2 t ++ diag l). set (Q := windows2 s).
    assert (LP : length P = (2 * n - 2)%nat).
    { unfold P, diag. rewrite app_length, windows2_length, map_length. lia. }
    assert (LQ : length Q = (2 * n - 2)%nat) by (unfold Q; rewrite windows2_length; lia).
    exists (bad_betas P Q). split; [rewrite bad_betas_length, LP, LQ; lia|].
    intros beta Hb gs Nd Hz. destruct (Nat.le_gt_cases (length gs) (2 * n - 2)) as [|Hgt]; auto.
    exfalso. apply Hni. apply (same_pairs_incl t l s); [lia|].
    apply (pair_products P Q beta gs); auto; [congruence| |lia].
    intros g Hg. destruct (Hz g Hg) as (z & Z0 & Z1 & Hst).
    unfold P, Q. rewrite <- (lookup_num_prod n t l), <- (lookup_den_prod n s) by (auto; lia).
    rewrite <- (running_product _ (lookup_den K n s beta g) z (n - 1) Z0 Hst), Z1. ring.
  Qed.

  (** The honest vector: all transition equations hold and the product closes. *)
  Theorem lookup_honest n t l beta gamma : (2 <= n)%nat -> length t = n -> length l = (n - 1)%nat -> incl l t ->
    let s := sorted_vec K t [] l in
    length s = (2 * n - 1)%nat /\
    fprod (map (lookup_num K t l beta gamma) (seq 0 (n - 1))) = fprod (map (lookup_den K n s beta gamma) (seq 0 (n - 1))).
  Proof.
    intros Hn Ht Hl Hi s.
    assert (Ls : length s = (2 * n - 1)%nat).
    { unfold s. rewrite (Permutation_length (sorted_vec_perm t l Hi)), app_length. lia. }
    split; auto. rewrite (lookup_num_prod n t l), (lookup_den_prod n s) by (auto; lia).
    apply fprod_perm, Permutation_map. unfold s. rewrite sorted_windows.
    apply Permutation_app_head. unfold diag. apply Permutation_map.
    rewrite ins_filter, filter_all; [reflexivity|]. intros x Hx. apply existsb_feqb; auto.
  Qed.
  Theorem lookup_prod_vec_ok n t l beta gamma : (2 <= n)%nat -> length t = n -> length l = (n - 1)%nat -> incl l t ->
    let s := sorted_vec K t [] l in
    (forall j, (S j < n - 1)%nat -> lookup_den K n s beta gamma j <> 0) ->
    let z := lookup_prod_vec K n t l s beta gamma in
    length z = n /\ nth 0 z 0 = 1 /\ nth (n - 1) z 0 = 1 /\
    forall j, (j < n - 1)%nat -> nth (S j) z 0 * lookup_den K n s beta gamma j = nth j z 0 * lookup_num K t l beta gamma j.
  Proof.
    intros Hn Ht Hl Hi s Hd z.
    assert (Lz : length z = n).
    { unfold z, lookup_prod_vec. rewrite app_length, prod_vec_length. cbn. lia. }
    assert (Zin : forall j, (j < n - 1)%nat -> nth j z 0 =
              nth j (prod_vec K 1 (lookup_num K t l beta gamma) (lookup_den K n s beta gamma) 0 (n - 1)) 0).
    { intros j Hj. unfold z, lookup_prod_vec. apply app_nth1. rewrite prod_vec_length. auto. }
    assert (Zl : nth (n - 1) z 0 = 1).
    { unfold z, lookup_prod_vec. rewrite app_nth2 by (rewrite prod_vec_length; lia).
      rewrite prod_vec_length, Nat.sub_diag. reflexivity. }
    split; auto. split.
    { rewrite Zin by lia. destruct (n - 1)%nat eqn:E; [lia|]. reflexivity. }
    split; auto. intros j Hj. destruct (Nat.eq_dec (S j) (n - 1)) as [E|E].
    - rewrite E, Zl, Zin by auto.
      pose proof (prod_vec_nth (lookup_num K t l beta gamma) (lookup_den K n s beta gamma) (n - 1) 0 1 j Hj
        ltac:(intros; apply Hd; lia)) as Hp. cbn [Nat.add] in Hp.
      pose proof (proj2 (lookup_honest n t l beta gamma Hn Ht Hl Hi)) as Hh. fold s in Hh.
      rewrite <- E in Hh. rewrite !seq_S, !map_app, !fprod_app in Hh. cbn [map Nat.add fprod fold_right] in Hh.
      change (fold_right fmul 1) with (@fprod K) in Hh.
      assert (Nz : fprod (map (lookup_den K n s beta gamma) (seq 0 j)) <> 0).
      { apply fprod_neq_0. intros x Hx. apply in_map_iff in Hx as (i & <- & Hi'). apply in_seq in Hi'. apply Hd. lia. }
      apply (fmul_cancel_l K _ _ _ Nz).
      set (D := fprod (map (lookup_den K n s beta gamma) (seq 0 j))) in *.
      set (N := fprod (map (lookup_num K t l beta gamma) (seq 0 j))) in *.
      assert (Hp' : nth j (prod_vec K 1 (lookup_num K t l beta gamma) (lookup_den K n s beta gamma) 0 (n - 1)) 0 * D = 1 * N)
        by exact Hp.
      transitivity (D * (lookup_den K n s beta gamma j * 1)); [ring|]. rewrite <- Hh.
      transitivity ((1 * N) * lookup_num K t l beta gamma j); [ring|]. rewrite <- Hp'. ring.
    - rewrite !Zin by lia. apply (prod_vec_step _ _ (n - 1) 0 1 j); [lia|]. cbn [Nat.add]. apply Hd. lia.
  Qed.
End Lookup.
