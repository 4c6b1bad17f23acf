(** The wire permutation: cycles through the slots of each variable. *)

From Coq Require Import List Arith ZArith Bool Lia Permutation.
From Verif Require Import Base ListAux Alg CircuitModel CircuitProofs SatProofs FinalModel.
Import ListNotations.

Lemma fold_set_spec {A} (kvs : list (nat * A)) : forall P : list A,
  NoDup (map fst kvs) -> Forall (fun kv => fst kv < length P) kvs ->
  let R := fold_left (fun p kv => set_nth p (fst kv) (snd kv)) kvs P in
  length R = length P /\ (forall k v, In (k, v) kvs -> nth_error R k = Some v)
  /\ (forall q, ~ In q (map fst kvs) -> nth_error R q = nth_error P q).
Proof.
  induction kvs as [|[k v] kvs IH]; intros P Hn Hb; cbn [fold_left map fst snd].
  - split; auto. split; auto. intros ? ? [].
  - inversion Hn as [|? ? Hk Hn']; subst. inversion Hb as [|? ? Hbk Hb']; subst. cbn [fst] in *.
    destruct (IH (set_nth P k v)) as (L & F & G); auto.
    { rewrite set_nth_length; auto. }
    rewrite set_nth_length in L. split; auto. split.
    + intros k' v' [E|Hin]; [|auto]. inversion E; subst. rewrite G by auto. now apply nth_error_set_nth_eq.
    + intros q Hq. rewrite G by (intros Hq'; apply Hq; right; auto). apply nth_error_set_nth_neq. intros E. apply Hq. left. auto.
Qed.

Lemma fold_left_concat {A B} (f : B -> A -> B) (ls : list (list A)) : forall b,
  fold_left f (concat ls) b = fold_left (fun b l => fold_left f l b) ls b.
Proof. induction ls as [|l ls IH]; intros b; cbn; auto. rewrite fold_left_app. apply IH. Qed.
Lemma fold_left_map {A B C} (f : B -> A -> B) (g : C -> A) (l : list C) : forall b,
  fold_left f (map g l) b = fold_left (fun b x => f b (g x)) l b.
Proof. induction l; intros b; cbn; auto. Qed.
Lemma fold_left_ext {A B} (f g : B -> A -> B) (l : list A) : (forall b a, In a l -> f b a = g b a) ->
  forall b, fold_left f l b = fold_left g l b.
Proof. induction l as [|a l IH]; intros H b; cbn; auto. rewrite H by (left; auto). apply IH. intros. apply H. right; auto. Qed.

Section Cycles.
  Variable n : nat.
  Definition enc (s : nat * nat) : nat := fst s * n + snd s.
  Definition cyc_pairs (l : list (nat * nat)) : list (nat * (nat * nat)) :=
    match l with [] => [] | s0 :: _ => map (fun ab => (enc (fst ab), snd ab)) (windows2 (l ++ [s0])) end.
  Lemma link_cycle_fold p l : link_cycle n p l = fold_left (fun p kv => set_nth p (fst kv) (snd kv)) (cyc_pairs l) p.
  Proof. unfold link_cycle, cyc_pairs. destruct l as [|s0 l]; auto. rewrite fold_left_map. reflexivity. Qed.
  Lemma windows_combine (l : list (nat * nat)) : forall l' : list (nat * nat), length l' = length l ->
    map fst (combine l l') = l.
  Proof. induction l as [|a l IH]; intros [|b l'] H; cbn in *; try lia; auto. f_equal; apply IH; lia. Qed.
  Lemma windows2_app (s0 : nat * nat) l x : windows2 ((s0 :: l) ++ [x]) = combine (s0 :: l) (l ++ [x]).
  Proof.
    unfold windows2. cbn [tl app]. change (s0 :: l ++ [x]) with ((s0 :: l) ++ [x]).
    assert (G : forall (a b : list (nat * nat)) x, length b = length a -> combine (a ++ [x]) b = combine a b).
    { induction a as [|u a IH]; intros [|y b] z H; cbn in *; try lia; auto. f_equal. apply IH. lia. }
    apply G. rewrite app_length. cbn. lia.
  Qed.
  Lemma cyc_pairs_keys l : map fst (cyc_pairs l) = map enc l.
  Proof.
    destruct l as [|s0 l]; auto. unfold cyc_pairs. rewrite windows2_app, map_map. cbn [fst].
    rewrite <- (map_map fst enc). f_equal. apply windows_combine; auto. rewrite app_length; cbn; lia.
  Qed.
  Lemma cyc_pairs_nth l k s : nth_error l k = Some s ->
    exists t, nth_error l (S k mod length l) = Some t /\ In (enc s, t) (cyc_pairs l).
  Proof.
    intros Hk. assert (Hlt : k < length l) by (apply nth_error_Some; congruence).
    destruct l as [|s0 l]; [cbn in Hlt; lia|]. set (L := s0 :: l) in *.
    assert (Hw : forall t, nth_error (l ++ [s0]) k = Some t -> In (enc s, t) (cyc_pairs L)).
    { intros t Ht. unfold cyc_pairs, L. rewrite windows2_app. apply in_map_iff. exists (s, t). split; auto.
      apply (nth_error_In _ k). rewrite nth_error_combine. rewrite Ht. fold L. now rewrite Hk. }
    destruct (Nat.eq_dec (S k) (length L)) as [E|E].
    - exists s0. rewrite E, Nat.mod_same by (cbn; lia). split; auto. apply Hw.
      rewrite nth_error_app2 by (cbn in E; lia). replace (k - length l) with 0 by (cbn in E; lia). reflexivity.
    - rewrite Nat.mod_small by lia. destruct (nth_error L (S k)) as [t|] eqn:Et; [|apply nth_error_None in Et; lia].
      exists t. split; auto. apply Hw. cbn in Et. rewrite nth_error_app1; auto. cbn in *; lia.
  Qed.

  (** Linking several cycles with distinct slots. *)
  Lemma link_all (m : list (list (nat * nat))) (P : list (nat * nat)) :
    NoDup (map enc (concat m)) -> Forall (fun s => enc s < length P) (concat m) ->
    length (fold_left (link_cycle n) m P) = length P
    /\ forall l k s, In l m -> nth_error l k = Some s ->
         nth_error (fold_left (link_cycle n) m P) (enc s) = nth_error l (S k mod length l).
  Proof.
    intros Hn Hb.
    assert (E : fold_left (link_cycle n) m P = fold_left (fun p kv => set_nth p (fst kv) (snd kv)) (concat (map cyc_pairs m)) P).
    { rewrite fold_left_concat, fold_left_map. apply fold_left_ext. intros. apply link_cycle_fold. }
    assert (Hk : map fst (concat (map cyc_pairs m)) = map enc (concat m)).
    { rewrite concat_map, map_map, (concat_map enc). f_equal. apply map_ext. intros. apply cyc_pairs_keys. }
    destruct (fold_set_spec (concat (map cyc_pairs m)) P) as (L & F & _).
    { now rewrite Hk. }
    { apply Forall_forall. intros kv Hkv. rewrite Forall_forall in Hb.
      assert (Hin : In (fst kv) (map enc (concat m))) by (rewrite <- Hk; now apply in_map).
      apply in_map_iff in Hin as (s & <- & Hs). auto. }
    rewrite E. split; auto. intros l k s Hl Hs.
    destruct (cyc_pairs_nth l k s Hs) as (t & Ht & Hin). rewrite Ht. apply F.
    apply in_concat. exists (cyc_pairs l). split; auto. now apply in_map.
  Qed.
End Cycles.

Section Map.
  Notation slot := (nat * nat)%type.
  (** The map from variables to slots. *)
  Lemma wires_map_ok (svs : list (slot * nat)) : forall m : list (list slot),
    Forall (fun sv => snd sv < length m) svs ->
    exists m', wires_map svs m = Ok m' /\ length m' = length m /\
      forall v l, nth_error m v = Some l ->
        nth_error m' v = Some (l ++ map fst (filter (fun sv => snd sv =? v) svs)).
  Proof.
    induction svs as [|[s v0] svs IH]; intros m H; cbn [wires_map].
    - exists m. split; auto. split; auto. intros v l Hl. cbn. now rewrite app_nil_r.
    - inversion H; subst. cbn [snd] in *. unfold index.
      destruct (nth_error m v0) as [l0|] eqn:E0; [|apply nth_error_None in E0; lia]. cbn [bind].
      destruct (IH (set_nth m v0 (l0 ++ [s]))) as (m' & E & L & F).
      { rewrite set_nth_length; auto. }
      exists m'. split; auto. rewrite set_nth_length in L. split; auto.
      intros v l Hl. cbn [filter snd]. destruct (Nat.eqb_spec v0 v) as [->|Hne].
      + rewrite (F v (l0 ++ [s])) by (apply nth_error_set_nth_eq; auto).
        cbn [map fst]. rewrite <- app_assoc. cbn. congruence.
      + apply F. rewrite nth_error_set_nth_neq; auto.
  Qed.

  Lemma In_combine_seq {A} (l : list A) : forall a i x, In (i, x) (combine (seq a (length l)) l) <-> a <= i /\ nth_error l (i - a) = Some x.
  Proof.
    intros a i x. split.
    - intros H. apply In_nth_error in H as [k Hk]. rewrite nth_error_combine, nth_error_seq in Hk.
      destruct (Nat.ltb_spec k (length l)); [|discriminate].
      destruct (nth_error l k) eqn:E; [|discriminate]. inversion Hk; subst. split; [lia|]. replace (a + k - a) with k by lia. auto.
    - intros [H E]. apply (nth_error_In _ (i - a)). rewrite nth_error_combine, nth_error_seq, E.
      assert (i - a < length l) by (apply nth_error_Some; congruence).
      destruct (Nat.ltb_spec (i - a) (length l)); [|lia]. do 2 f_equal. lia.
  Qed.
  Lemma In_slot_vars cols i j v : In ((i, j), v) (slot_vars cols) <->
    exists col, nth_error cols i = Some col /\ nth_error col j = Some v.
  Proof.
    unfold slot_vars. rewrite in_concat. split.
    - intros (x & Hx & Hin). apply in_map_iff in Hx as ([i' col] & <- & Hc). cbn [fst snd] in Hin.
      apply in_map_iff in Hin as ([j' v'] & E & Hj). cbn in E. inversion E; subst.
      apply In_combine_seq in Hc as [_ Hc]. apply In_combine_seq in Hj as [_ Hj].
      rewrite Nat.sub_0_r in *. eauto.
    - intros (col & Hc & Hj). eexists; split.
      + apply in_map_iff. exists (i, col). split; [reflexivity|]. apply In_combine_seq. rewrite Nat.sub_0_r. split; [lia|auto].
      + cbn [fst snd]. apply in_map_iff. exists (j, v). split; auto. apply In_combine_seq. rewrite Nat.sub_0_r. split; [lia|auto].
  Qed.
  Lemma NoDup_app_intro {A} (l l' : list A) : NoDup l -> NoDup l' -> (forall x, In x l -> ~ In x l') -> NoDup (l ++ l').
  Proof.
    induction l as [|a l IH]; cbn; auto. intros H H' D. inversion H; subst. constructor.
    - rewrite in_app_iff. intros [Hi|Hi]; [auto|]. apply (D a); auto.
    - apply IH; auto.
  Qed.
  Lemma NoDup_concat {A B} (f : A -> list B) (l : list A) : NoDup l -> (forall a, In a l -> NoDup (f a)) ->
    (forall a a' b, In a l -> In a' l -> In b (f a) -> In b (f a') -> a = a') -> NoDup (concat (map f l)).
  Proof.
    induction l as [|a l IH]; cbn; intros H Hn D; [constructor|]. inversion H; subst.
    apply NoDup_app_intro; auto.
    - apply IH; auto. intros; eapply D; eauto.
    - intros x Hx Hc. apply in_concat in Hc as (y & Hy & Hxy). apply in_map_iff in Hy as (a' & <- & Ha').
      assert (a = a') by (eapply D; eauto). subst. auto.
  Qed.
  Lemma NoDup_map_fst {A B} (l : list (A * B)) : NoDup (map fst l) -> NoDup l.
  Proof. apply NoDup_map_inv. Qed.
  Lemma map_fst_combine_seq {A} (l : list A) a : map fst (combine (seq a (length l)) l) = seq a (length l).
  Proof. revert a; induction l; intros; cbn; auto. f_equal; auto. Qed.
  Lemma NoDup_slots cols : NoDup (map fst (slot_vars cols)).
  Proof.
    unfold slot_vars. rewrite concat_map, map_map.
    apply NoDup_concat.
    - apply NoDup_map_fst. rewrite map_fst_combine_seq. apply seq_NoDup.
    - intros [i col] _. cbn [fst snd]. rewrite map_map. cbn [fst].
      rewrite <- (map_map fst (fun j => (i, j))). rewrite map_fst_combine_seq.
      apply FinFun.Injective_map_NoDup; [|apply seq_NoDup]. intros x y E. congruence.
    - intros [i col] [i' col'] [x y] H H' Hx Hx'. cbn [fst snd] in *. rewrite map_map in Hx, Hx'.
      apply in_map_iff in Hx as (? & E & _). apply in_map_iff in Hx' as (? & E' & _). cbn in *.
      assert (i = i') by congruence. subst i'. f_equal.
      apply In_combine_seq in H as [_ H]. apply In_combine_seq in H' as [_ H']. congruence.
  Qed.
End Map.

(** A finalized circuit's columns all have [n] entries and carry existing
    variables. *)
Section Perm.
  Context {K : fld}.
  Implicit Types c : circuit K.
  Notation slot := (nat * nat)%type.

  Record columns_ok c : Prop := {
    co_pos : 1 <= domain c;
    co_rows : length (rows c) = domain c;
    co_range : forall b, ptype c = Ultra b -> length (range_col c) = domain c;
    co_row_lt : Forall (row_lt (num_vars c)) (rows c);
    co_range_lt : forall b, ptype c = Ultra b -> Forall (fun v => v < num_vars c) (range_col c) }.

  Definition is_slot c (s : slot) : Prop := fst s < num_wire_types c /\ snd s < domain c.
  Definition slot_var c (s : slot) : nat := wire_variable c (fst s) (snd s).

  Lemma wire_cols_nth c i : nth_error (wire_cols K c) i =
    if i <? 5 then Some (map (wire_of i) (rows c))
    else match ptype c with Turbo => None | Ultra _ => if i =? 5 then Some (range_col c) else None end.
  Proof.
    unfold wire_cols. destruct (Nat.ltb_spec i 5).
    - rewrite nth_error_app1 by (rewrite map_length, seq_length; lia).
      destruct i as [|[|[|[|[|i]]]]]; cbn; auto. lia.
    - rewrite nth_error_app2 by (rewrite map_length, seq_length; lia). rewrite map_length, seq_length.
      destruct (ptype c); destruct (Nat.eqb_spec i 5) as [->|Hn]; cbn; auto.
      + destruct (i - 5) eqn:E; [lia|]. destruct n; auto.
      + destruct (i - 5) eqn:E; [lia|]. destruct n; auto.
  Qed.

  Lemma slot_vars_spec c : columns_ok c -> forall s v,
    In (s, v) (slot_vars (wire_cols K c)) <-> is_slot c s /\ v = slot_var c s.
  Proof.
    intros H [i j] v. rewrite In_slot_vars. unfold is_slot, slot_var, wire_variable; cbn [fst snd].
    pose proof (co_rows _ H) as Hr. split.
    - intros (col & Hc & Hv). rewrite wire_cols_nth in Hc. destruct (Nat.ltb_spec i 5) as [Hi|Hi].
      + inversion Hc; subst. assert (Hj : j < length (rows c)).
        { apply nth_error_Some. intros E. rewrite nth_error_map, E in Hv. discriminate. }
        unfold num_wire_types. split; [destruct (ptype c); lia|].
        rewrite nth_error_map in Hv. destruct (nth_error (rows c) j) as [r|] eqn:Er; [|discriminate]. cbn in Hv. inversion Hv.
        rewrite (nth_error_nth _ _ _ Er). reflexivity.
      + destruct (ptype c) as [|b] eqn:Et; [discriminate|]. destruct (Nat.eqb_spec i 5); [|discriminate]. inversion Hc; subst.
        assert (Hj : j < length (range_col c)) by (apply nth_error_Some; congruence).
        rewrite (co_range _ H _ Et) in Hj. unfold num_wire_types. rewrite Et. split; [lia|].
        symmetry. now apply nth_error_nth.
    - intros [[Hi Hj] ->]. unfold num_wire_types in Hi. rewrite wire_cols_nth. destruct (Nat.ltb_spec i 5).
      + eexists; split; [reflexivity|]. rewrite nth_error_map.
        rewrite (nth_error_nth' (rows c) (mk_row 0 0 0 0 0)) by lia. reflexivity.
      + destruct (ptype c) as [|b] eqn:Et; [lia|]. assert (i = 5) by lia. subst i. rewrite Nat.eqb_refl.
        eexists; split; [reflexivity|]. apply nth_error_nth'. rewrite (co_range _ H _ Et). auto.
  Qed.
  Lemma slot_var_lt c s : columns_ok c -> is_slot c s -> slot_var c s < num_vars c.
  Proof.
    intros H [Hi Hj]. destruct s as [i j]. unfold slot_var, wire_variable; cbn [fst snd] in *.
    destruct (Nat.ltb_spec i 5).
    - pose proof (co_row_lt _ H) as F. rewrite Forall_forall in F.
      destruct (F (nth j (rows c) (mk_row 0 0 0 0 0))) as (A0 & A1 & A2 & A3 & A4).
      { apply nth_In. rewrite (co_rows _ H); auto. }
      destruct i as [|[|[|[|i]]]]; cbn [wire_of]; auto.
    - unfold num_wire_types in Hi. destruct (ptype c) eqn:Et; [lia|].
      pose proof (co_range_lt _ H _ Et) as F. rewrite Forall_forall in F. apply F. apply nth_In.
      rewrite (co_range _ H _ Et). auto.
  Qed.

  Definition var_slots c v : list slot := map fst (filter (fun sv => snd sv =? v) (slot_vars (wire_cols K c))).
  Lemma In_var_slots c v s : columns_ok c -> In s (var_slots c v) <-> is_slot c s /\ slot_var c s = v.
  Proof.
    intros H. unfold var_slots. rewrite in_map_iff. split.
    - intros ([s' v'] & <- & Hin). apply filter_In in Hin as [Hin E]. cbn [fst snd] in *. apply Nat.eqb_eq in E. subst.
      apply (slot_vars_spec c H) in Hin as [A B]. auto.
    - intros [A B]. exists (s, v). split; auto. apply filter_In. cbn. split; [|apply Nat.eqb_refl].
      apply (slot_vars_spec c H). auto.
  Qed.
  Lemma NoDup_filter_map {A B} (f : A -> B) (p : A -> bool) l : NoDup (map f l) -> NoDup (map f (filter p l)).
  Proof.
    induction l as [|a l IH]; cbn; auto. intros H. inversion H; subst. destruct (p a); cbn; auto.
    constructor; auto. intros Hin. apply in_map_iff in Hin as (x & E & Hx). apply filter_In in Hx as [Hx _].
    apply H2. rewrite <- E. now apply in_map.
  Qed.
  Lemma NoDup_var_slots c v : NoDup (var_slots c v).
  Proof. apply NoDup_filter_map, NoDup_slots. Qed.

  Lemma NoDup_map_inj {A B} (f : A -> B) l : (forall x y, In x l -> In y l -> f x = f y -> x = y) ->
    NoDup l -> NoDup (map f l).
  Proof.
    induction l as [|a l IH]; cbn; intros Hi Hn; [constructor|]. inversion Hn; subst. constructor; auto.
    intros Hin. apply in_map_iff in Hin as (x & E & Hx). apply Hi in E; auto. subst. auto.
  Qed.
  Lemma enc_inj n s t : snd s < n -> snd t < n -> enc n s = enc n t -> s = t.
  Proof.
    destruct s as [i j], t as [i' j']; unfold enc; cbn [fst snd]. intros Hj Hj' E.
    assert (i = i') by nia. subst. f_equal. lia.
  Qed.

  (** The permutation sends each slot to the next slot of its variable. *)
  Theorem wire_permutation_spec c : columns_ok c ->
    exists p, compute_wire_permutation K c = Ok p /\ length p = num_wire_types c * domain c /\
      forall v k s, nth_error (var_slots c v) k = Some s ->
        nth_error p (enc (domain c) s) = nth_error (var_slots c v) (S k mod length (var_slots c v)).
  Proof.
    intros H. unfold compute_wire_permutation.
    destruct (wires_map_ok (slot_vars (wire_cols K c)) (repeat [] (num_vars c))) as (m & Em & Lm & Fm).
    { apply Forall_forall. intros [s v] Hin. rewrite repeat_length. cbn [snd].
      apply (slot_vars_spec c H) in Hin as [A ->]. now apply slot_var_lt. }
    rewrite Em. cbn [bind]. eexists; split; [reflexivity|]. rewrite repeat_length in Lm.
    assert (Hm : forall v, v < num_vars c -> nth_error m v = Some (var_slots c v)).
    { intros v Hv. rewrite (Fm v []); [reflexivity|]. now apply nth_error_repeat_lt. }
    assert (Hmeq : m = map (var_slots c) (seq 0 (num_vars c))).
    { apply list_ext. intros i. rewrite nth_error_map_seq. destruct (Nat.ltb_spec i (num_vars c)).
      - now apply Hm.
      - apply nth_error_None. lia. }
    assert (Hin : forall s, In s (concat m) -> is_slot c s).
    { intros s Hs. rewrite Hmeq in Hs. apply in_concat in Hs as (l & Hl & Hs). apply in_map_iff in Hl as (v & <- & _).
      now apply (In_var_slots c v s H) in Hs. }
    destruct (link_all (domain c) m (repeat (0, 0) (num_wire_types c * domain c))) as (L & F).
    { apply NoDup_map_inj.
      - intros s t Hs Ht. apply enc_inj; [apply (Hin s Hs)|apply (Hin t Ht)].
      - rewrite Hmeq. apply NoDup_concat; [apply seq_NoDup| |].
        + intros. apply NoDup_var_slots.
        + intros v v' s _ _ A B. apply (In_var_slots c v s H) in A as [_ <-]. now apply (In_var_slots c v' s H) in B as [_ <-]. }
    { apply Forall_forall. intros s Hs. rewrite repeat_length. destruct (Hin s Hs) as [A B]. unfold enc. nia. }
    rewrite repeat_length in L. split; auto. intros v k s Hk.
    apply F; auto.
    assert (Hs : In s (var_slots c v)) by (eapply nth_error_In; eauto).
    apply (In_var_slots c v s H) in Hs as [A B]. apply (nth_error_In _ v). apply Hm.
    rewrite <- B. now apply slot_var_lt.
  Qed.

  (** The permutation as a function on slots. *)
  Definition sigma (n : nat) (p : list slot) (s : slot) : slot := nth (enc n s) p (0, 0).

  Section Sigma.
    Variable c : circuit K.
    Hypothesis H : columns_ok c.
    Variable p : list slot.
    Hypothesis Hp : compute_wire_permutation K c = Ok p.
    Notation sg := (sigma (domain c) p).

    Lemma sigma_next v k s : nth_error (var_slots c v) k = Some s ->
      nth_error (var_slots c v) (S k mod length (var_slots c v)) = Some (sg s).
    Proof.
      intros Hk. destruct (wire_permutation_spec c H) as (p' & E & L & F). rewrite Hp in E. inversion E; subst p'.
      assert (Hlt : k < length (var_slots c v)) by (apply nth_error_Some; congruence).
      pose proof (F v k s Hk) as G.
      destruct (nth_error (var_slots c v) (S k mod length (var_slots c v))) as [t|] eqn:Et.
      - f_equal. symmetry. unfold sigma. now apply nth_error_nth.
      - apply nth_error_None in Et. pose proof (Nat.mod_upper_bound (S k) (length (var_slots c v))). lia.
    Qed.
    Lemma sigma_iter v t : forall k s, nth_error (var_slots c v) k = Some s ->
      nth_error (var_slots c v) ((k + t) mod length (var_slots c v)) = Some (Nat.iter t sg s).
    Proof.
      induction t as [|t IH]; intros k s Hk.
      - rewrite Nat.add_0_r. assert (k < length (var_slots c v)) by (apply nth_error_Some; congruence).
        rewrite Nat.mod_small by auto. exact Hk.
      - pose proof (sigma_next v _ _ (IH k s Hk)) as E.
        refine (eq_trans _ E). f_equal.
        assert (Hl : length (var_slots c v) <> 0) by (assert (k < length (var_slots c v)) by (apply nth_error_Some; congruence); lia).
        rewrite <- (Nat.add_1_r ((k + t) mod _)), Nat.add_mod_idemp_l by auto. f_equal. lia.
    Qed.
    Lemma slot_pos s : is_slot c s -> exists k, nth_error (var_slots c (slot_var c s)) k = Some s.
    Proof. intros Hs. apply In_nth_error. apply In_var_slots; auto. Qed.

    Theorem sigma_slot s : is_slot c s -> is_slot c (sg s) /\ slot_var c (sg s) = slot_var c s.
    Proof.
      intros Hs. destruct (slot_pos s Hs) as [k Hk]. apply sigma_next in Hk. apply nth_error_In in Hk.
      now apply In_var_slots in Hk.
    Qed.
    Theorem sigma_cycles s t : is_slot c s -> is_slot c t ->
      (slot_var c s = slot_var c t <-> exists k, Nat.iter k sg s = t).
    Proof.
      intros Hs Ht. split.
      - intros E. destruct (slot_pos s Hs) as [a Ha]. destruct (slot_pos t Ht) as [b Hb]. rewrite <- E in Hb.
        set (l := var_slots c (slot_var c s)) in *.
        assert (Ha' : a < length l) by (apply nth_error_Some; congruence).
        assert (Hb' : b < length l) by (apply nth_error_Some; congruence).
        exists (length l - a + b). pose proof (sigma_iter _ (length l - a + b) _ _ Ha) as I. fold l in I.
        replace (a + (length l - a + b)) with (b + 1 * length l) in I by lia.
        rewrite Nat.mod_add in I by lia. rewrite Nat.mod_small in I by lia. congruence.
      - intros [k <-]. clear Ht. induction k as [|k IH]; auto.
        change (Nat.iter (S k) sg s) with (sg (Nat.iter k sg s)).
        assert (Hk : is_slot c (Nat.iter k sg s)).
        { clear IH. induction k; auto. change (Nat.iter (S k) sg s) with (sg (Nat.iter k sg s)). now apply sigma_slot. }
        rewrite (proj2 (sigma_slot _ Hk)). auto.
    Qed.
    Theorem sigma_inj s t : is_slot c s -> is_slot c t -> sg s = sg t -> s = t.
    Proof.
      intros Hs Ht E. assert (Ev : slot_var c s = slot_var c t).
      { rewrite <- (proj2 (sigma_slot s Hs)), <- (proj2 (sigma_slot t Ht)), E. auto. }
      destruct (slot_pos s Hs) as [a Ha]. destruct (slot_pos t Ht) as [b Hb]. rewrite <- Ev in Hb.
      pose proof (sigma_next _ _ _ Ha) as Na. pose proof (sigma_next _ _ _ Hb) as Nb. rewrite E in Na.
      set (l := var_slots c (slot_var c s)) in *.
      assert (Ha' : a < length l) by (apply nth_error_Some; congruence).
      assert (Hb' : b < length l) by (apply nth_error_Some; congruence).
      assert (Em : S a mod length l = S b mod length l).
      { apply (proj1 (NoDup_nth_error l) (NoDup_var_slots c _)); [apply Nat.mod_upper_bound; lia|congruence]. }
      assert (a = b); [|congruence].
      destruct (Nat.eq_dec (S a) (length l)) as [Ea|Ea]; destruct (Nat.eq_dec (S b) (length l)) as [Eb|Eb]; try lia.
      - rewrite Ea, Nat.mod_same, Nat.mod_small in Em by lia. lia.
      - rewrite Eb, Nat.mod_same, Nat.mod_small in Em by lia. lia.
      - rewrite !Nat.mod_small in Em by lia. lia.
    Qed.
    Theorem sigma_surj t : is_slot c t -> exists s, is_slot c s /\ sg s = t.
    Proof.
      intros Ht. destruct (slot_pos t Ht) as [b Hb]. set (l := var_slots c (slot_var c t)) in *.
      assert (Hb' : b < length l) by (apply nth_error_Some; congruence).
      set (a := (b + (length l - 1)) mod length l).
      assert (Ha : a < length l) by (apply Nat.mod_upper_bound; lia).
      destruct (nth_error l a) as [s|] eqn:Es; [|apply nth_error_None in Es; lia].
      pose proof (nth_error_In _ _ Es) as Hin. unfold l in Hin. apply In_var_slots in Hin as [Hs _]; auto.
      exists s. split; auto. pose proof (sigma_next _ _ _ Es) as N. fold l in N.
      assert (E : S a mod length l = b).
      { unfold a. rewrite <- Nat.add_1_r, Nat.add_mod_idemp_l by lia.
        replace (b + (length l - 1) + 1) with (b + 1 * length l) by lia. rewrite Nat.mod_add, Nat.mod_small by lia. auto. }
      rewrite E in N. congruence.
    Qed.
    Theorem sigma_invariant {A} (d : A) (f : slot -> A) :
      (forall s, is_slot c s -> f (sg s) = f s) <-> exists w : nat -> A, forall s, is_slot c s -> f s = w (slot_var c s).
    Proof.
      split.
      - intros Hf. exists (fun v => match var_slots c v with s :: _ => f s | [] => d end). intros s Hs.
        destruct (var_slots c (slot_var c s)) as [|s0 l] eqn:El.
        + destruct (slot_pos s Hs) as [k Hk]. rewrite El in Hk. destruct k; discriminate.
        + assert (H0 : In s0 (var_slots c (slot_var c s))) by (rewrite El; left; auto).
          apply In_var_slots in H0 as [H0 E0]; auto.
          destruct (proj1 (sigma_cycles s0 s H0 Hs) E0) as [k <-]. clear -Hf H0 H Hp.
          induction k as [|k IH]; auto. change (Nat.iter (S k) sg s0) with (sg (Nat.iter k sg s0)).
          rewrite Hf; auto. clear IH. induction k; auto. change (Nat.iter (S k) sg s0) with (sg (Nat.iter k sg s0)). now apply sigma_slot.
      - intros [w Hw] s Hs. destruct (sigma_slot s Hs) as [A1 A2]. rewrite !Hw by auto. now rewrite A2.
    Qed.
  End Sigma.

  (** What it means for a permutation of slots to express the copy constraints:
      its cycles are the sets of slots that carry the same variable. *)
  Record perm_encodes c (p : list slot) : Prop := {
    pe_slot : forall s, is_slot c s -> is_slot c (sigma (domain c) p s);
    pe_inj : forall s t, is_slot c s -> is_slot c t -> sigma (domain c) p s = sigma (domain c) p t -> s = t;
    pe_cycles : forall s t, is_slot c s -> is_slot c t ->
      (slot_var c s = slot_var c t <-> exists k, Nat.iter k (sigma (domain c) p) s = t) }.
  Theorem sigma_encodes c p : columns_ok c -> compute_wire_permutation K c = Ok p -> perm_encodes c p.
  Proof.
    intros H Hp. split.
    - intros s Hs. apply (sigma_slot c H p Hp s Hs).
    - apply (sigma_inj c H p Hp).
    - apply (sigma_cycles c H p Hp).
  Qed.
  Section Encodes.
    Variable c : circuit K.
    Variable p : list slot.
    Hypothesis H : perm_encodes c p.
    Notation sg := (sigma (domain c) p).
    Lemma pe_iter_slot k s : is_slot c s -> is_slot c (Nat.iter k sg s).
    Proof. intros Hs. induction k; auto. change (Nat.iter (S k) sg s) with (sg (Nat.iter k sg s)). now apply (pe_slot _ _ H). Qed.
    Lemma pe_var s : is_slot c s -> slot_var c (sg s) = slot_var c s.
    Proof. intros Hs. symmetry. apply (pe_cycles _ _ H); auto; [now apply (pe_slot _ _ H)|]. exists 1. reflexivity. Qed.
    Lemma pe_surj t : is_slot c t -> exists s, is_slot c s /\ sg s = t.
    Proof.
      intros Ht. pose proof (pe_slot _ _ H t Ht) as Hs.
      destruct (proj1 (pe_cycles _ _ H (sg t) t Hs Ht) (pe_var t Ht)) as [k Hk].
      destruct k as [|k].
      - exists t. auto.
      - exists (Nat.iter k sg (sg t)). split; auto. now apply pe_iter_slot.
    Qed.
    Theorem pe_invariant {A} (f : slot -> A) :
      (forall s, is_slot c s -> f (sg s) = f s) <-> (forall s t, is_slot c s -> is_slot c t -> slot_var c s = slot_var c t -> f s = f t).
    Proof.
      split.
      - intros Hf s t Hs Ht E. apply (pe_cycles _ _ H) in E as [k <-]; auto. clear Ht.
        induction k as [|k IH]; auto. change (Nat.iter (S k) sg s) with (sg (Nat.iter k sg s)).
        rewrite Hf; auto. now apply pe_iter_slot.
      - intros Hf s Hs. apply Hf; auto; [now apply (pe_slot _ _ H)|now apply pe_var].
    Qed.
  End Encodes.

End Perm.
