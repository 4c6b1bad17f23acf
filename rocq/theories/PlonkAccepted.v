(** Accepted and finalized circuits are provable: on every row, with the public input
    the prover puts there, the gate holds.  Used by C57. *)
From Coq Require Import List Arith ZArith Lia Bool Ring Field Permutation Sorted.
From Verif Require Import Base ListAux Alg Poly KzgModel KzgProofs KzgFft CircuitModel CircuitProofs SatProofs SatGadget FinalModel BuiltProofs FinalProofs FinalizeProofs PermProofs
  CosetProofs FinalProps PlonkModel LagrangeProofs PlonkPoly PlonkHelpProps PlonkInst PlonkLin PlonkVanish PlonkRounds.
Import ListNotations.

Section Accepted.
  Variable K : fld.
  Local Open Scope fld_scope.
  Add Field Kacc : (fth K).
  Notation circuit := (circuit K).
  Variable zval : K -> Z.

  (** The vector of public inputs. *)
  Lemma fold_set_nth (f : nat -> K) ids : forall v, Forall (fun i => (i < length v)%nat) ids ->
    length (fold_left (fun v i => set_nth v i (f i)) ids v) = length v /\
    forall j, nth j (fold_left (fun v i => set_nth v i (f i)) ids v) 0 = if existsb (Nat.eqb j) ids then f j else nth j v 0.
  Proof.
    induction ids as [|i ids IH]; intros v H; cbn [fold_left existsb]; [auto|]. inversion H as [|? ? Hi Hids]; subst.
    destruct (IH (set_nth v i (f i))) as [L N]. { rewrite set_nth_length. exact Hids. }
    rewrite set_nth_length in L. split; [exact L|]. intro j. rewrite N. destruct (existsb (Nat.eqb j) ids) eqn:E; [now rewrite orb_true_r|].
    rewrite orb_false_r. destruct (Nat.eqb_spec j i) as [->|Hne].
    - apply nth_error_nth. now apply nth_error_set_nth_eq.
    - rewrite <- !nth_default_eq. unfold nth_default. rewrite nth_error_set_nth_neq by auto. reflexivity.
  Qed.
  Lemma pub_vec_at (c : circuit) j : Forall (fun i => (i < domain c)%nat) (pub_ids c) -> (j < domain c)%nat ->
    nth j (pub_input_vec K c) 0 = if existsb (Nat.eqb j) (pub_ids c) then wit K c (r4 (row_at K c j)) else 0.
  Proof.
    intros H Hj. unfold pub_input_vec.
    destruct (fold_set_nth (fun id => nth (r4 (row_at K c id)) (witness c) 0) (pub_ids c) (repeat 0 (domain c))) as [_ N].
    { now rewrite repeat_length. }
    rewrite N. destruct (existsb _ _); [reflexivity|]. apply nth_repeat.
  Qed.
  Lemma pub_at (c : circuit) pub i id : public_input c = Ok pub -> nth_error (pub_ids c) i = Some id ->
    nth i pub 0 = wit K c (r4 (row_at K c id)).
  Proof.
    intros H Hi. unfold public_input in H. apply map_res_ok in H as [L N]. specialize (N i id 0 Hi).
    apply bind_ok in N as (r & Hr & E). apply index_ok in Hr. unfold row_at. rewrite (nth_error_nth _ _ _ Hr).
    unfold wval in E. destruct (_ <=? _)%nat; [discriminate|]. apply index_nth with (d := 0) in E as [_ ->]. reflexivity.
  Qed.
  Lemma public_input_len (c : circuit) pub : public_input c = Ok pub -> length pub = num_inputs c.
  Proof. intro H. apply map_res_ok in H as [L _]. exact L. Qed.

  (** Every gate for public inputs is one of the registered ones. *)
  Definition io_registered (c : circuit) : Prop :=
    forall j g, nth_error (gates c) j = Some g -> is_io g = true -> In j (pub_ids c).

  Theorem provable_csat (c : circuit) pub : length (gates c) = domain c -> columns_ok c -> perm_encodes c (wire_perm c) ->
    Forall (fun i => (i < domain c)%nat) (pub_ids c) -> io_registered c -> public_input c = Ok pub ->
    csat zval c (wit K c) pub -> provable K c.
  Proof.
    intros Hg Hc Hp Hids Hio Hpub S. constructor; auto. intros j Hj. rewrite pub_vec_at by auto.
    assert (Eg : nth_error (gates c) j = Some (gate_at K c j)) by (apply nth_error_nth'; lia).
    assert (Er : nth_error (rows c) j = Some (row_at K c j)) by (apply nth_error_nth'; rewrite (co_rows _ Hc); lia).
    destruct (existsb (Nat.eqb j) (pub_ids c)) eqn:E.
    - apply existsb_exists in E as (j' & Hin & Ej). apply Nat.eqb_eq in Ej. subst j'. apply In_nth_error in Hin as (i & Hi).
      destruct (cs_pub _ _ _ _ S i j Hi) as (g & r & Hg' & Hr' & Hs). rewrite Eg in Hg'. rewrite Er in Hr'. injection Hg' as <-. injection Hr' as <-.
      now rewrite (pub_at c pub i j Hpub Hi) in Hs.
    - apply (cs_gate _ _ _ _ S j _ _ Eg Er). destruct (is_io (gate_at K c j)) eqn:Ei; [|reflexivity]. exfalso.
      pose proof (Hio j _ Eg Ei) as Hin. assert (existsb (Nat.eqb j) (pub_ids c) = true); [|congruence].
      apply existsb_exists. exists j. split; auto. apply Nat.eqb_refl.
  Qed.

  (** ** Finalization keeps the gates for public inputs registered *)
  Definition nio (l : list (gate K)) : nat := length (filter is_io l).
  Lemma nio_perm l l' : Permutation l l' -> nio l = nio l'.
  Proof.
    intro H. unfold nio. induction H as [|x l l' H IH|x y l|l1 l2 l3 H1 IH1 H2 IH2]; cbn; auto; [|destruct (is_io x), (is_io y); reflexivity|congruence].
    destruct (is_io x); cbn; congruence.
  Qed.
  Lemma nio_app l l' : nio (l ++ l') = (nio l + nio l')%nat.
  Proof. unfold nio. now rewrite filter_app, app_length. Qed.
  Lemma nio_repeat g k : is_io g = false -> nio (repeat g k) = 0%nat.
  Proof. intro H. unfold nio. induction k; cbn; auto. now rewrite H. Qed.
  Lemma nio_pos l g : In g l -> is_io g = true -> (1 <= nio l)%nat.
  Proof. intros H E. unfold nio. assert (In g (filter is_io l)) by (apply filter_In; auto). destruct (filter is_io l); cbn in *; [tauto|lia]. Qed.
  (** The number of such gates is at most the number of places they may be in. *)
  Lemma nio_le l : forall s ids, (forall j g, nth_error l j = Some g -> is_io g = true -> In (s + j)%nat ids) ->
    exists ids', (forall x, In x ids' -> In x ids /\ (s <= x)%nat) /\ NoDup ids' /\ length ids' = nio l.
  Proof.
    induction l as [|g l IH]; intros s ids H; [exists []; split; [intros x []|split; [constructor|reflexivity]]|].
    destruct (IH (S s) ids) as (ids' & I & N & L).
    { intros j g' Hj Hg. rewrite Nat.add_succ_l, <- Nat.add_succ_r. now apply (H (S j) g'). }
    unfold nio in *. cbn [filter]. destruct (is_io g) eqn:E.
    - exists (s :: ids'). split; [|split].
      + intros x [<-|Hx]; [|destruct (I x Hx); split; auto; lia]. split; [|lia]. specialize (H 0%nat g eq_refl E). now rewrite Nat.add_0_r in H.
      + constructor; auto. intro Hx. destruct (I s Hx). lia.
      + cbn. now rewrite L.
    - exists ids'. split; [|auto]. intros x Hx. destruct (I x Hx). split; auto. lia.
  Qed.
  Lemma finalized_io ta (c c' : circuit) : built c -> finalized_from ta c c' -> io_registered c -> io_registered c'.
  Proof.
    intros B F Hio. destruct (nio_le (gates c) 0 (pub_ids c) Hio) as (ids & I & N & L).
    assert (Le : (nio (gates c) <= num_inputs c)%nat).
    { rewrite <- L. apply NoDup_incl_length; auto. intros x Hx. now apply I. }
    pose proof (nio_perm _ _ (ff_gperm _ _ _ F)) as E. rewrite nio_app, (nio_repeat (padding_gate K)), Nat.add_0_r in E by reflexivity.
    assert (Hk : forall k, (k < num_inputs c)%nat -> nth_error (gates c') k = Some (io_gate K)).
    { intros k Hk. destruct (nth_error (pub_ids c) k) as [id|] eqn:Ek; [|apply nth_error_None in Ek; unfold num_inputs in Hk; lia].
      destruct (ff_pub_rows _ _ _ F k id Ek) as [-> _]. apply (bt_io _ B). eapply nth_error_In; eauto. }
    assert (F1 : nio (firstn (num_inputs c) (gates c')) = num_inputs c).
    { assert (Lf : (num_inputs c <= length (gates c'))%nat).
      { destruct (Nat.eq_dec (num_inputs c) 0) as [->|Hne]; [lia|].
        assert (nth_error (gates c') (num_inputs c - 1) <> None) by (rewrite Hk by lia; discriminate). apply nth_error_Some in H. lia. }
      clear - Hk Lf. revert Hk Lf. generalize (gates c') as l. generalize (num_inputs c) as m. induction m as [|m IH]; intros l Hk Lf; [reflexivity|].
      destruct l as [|g l]; cbn in Lf; [lia|]. cbn [firstn]. pose proof (Hk 0%nat ltac:(lia)) as H0. cbn in H0. injection H0 as ->.
      unfold nio in *. cbn [filter]. change (is_io (io_gate K)) with true. cbn [length]. rewrite IH; auto; [|lia].
      intros k Hk'. apply (Hk (S k)). lia. }
    intros j g Hj Hg. rewrite (ff_pub _ _ _ F). apply in_seq. destruct (Nat.lt_ge_cases j (num_inputs c)) as [Hlt|Hge]; [lia|]. exfalso.
    rewrite <- (firstn_skipn (num_inputs c) (gates c')), nio_app, F1 in E.
    assert (In g (skipn (num_inputs c) (gates c'))).
    { rewrite <- (firstn_skipn (num_inputs c) (gates c')) in Hj. rewrite nth_error_app2 in Hj by (rewrite firstn_length; lia). eapply nth_error_In; eauto. }
    pose proof (nio_pos _ _ H Hg). lia.
  Qed.

  (** The satisfiability check accepts an assignment of the finalized circuit: it is provable with it. *)
  Theorem provable_finalized ta (c c' : circuit) T ws pub : reached c T -> tables_clear c -> io_registered c ->
    finalize_for_arithmetization K ta c = (Ok tt, c') ->
    accepts zval c' ws pub -> public_input (with_witness c' ws) = Ok pub ->
    provable K (with_witness c' ws) /\ (exists l, domain c' = 2 ^ l)%nat /\ (2 <= domain c')%nat /\ pub_ids c' = seq 0 (length pub)
    /\ (length pub <= domain c')%nat.
  Proof.
    intros R TC Hio E Hacc Hpub. pose proof (reached_inv _ _ R) as (B & _).
    destruct (finalized_encodes ta c c' T R TC E) as [Hperm Hcols].
    destruct (radix2_size ta (slots_needed K c)) as [n0|] eqn:Er.
    2:{ exfalso. unfold finalize_for_arithmetization, is_finalized in E.
        rewrite (wf_open _ (gd_wf _ (bt_good _ B))) in E. cbn [Nat.eqb negb] in E. rewrite Er in E. discriminate. }
    destruct (finalize_ok ta c n0 B TC Er) as (c2 & E2 & F & D). rewrite E in E2. inversion E2; subst c2. clear E2.
    pose proof (finalized_bounded ta c c' B F) as Bd.
    assert (Ln : length pub = num_inputs c).
    { rewrite (public_input_len _ _ Hpub). unfold num_inputs at 1. cbn [with_witness pub_ids]. now rewrite (ff_pub _ _ _ F), seq_length. }
    assert (Hids : Forall (fun i => (i < domain c')%nat) (pub_ids c')).
    { pose proof (bd_pub _ Bd) as H. rewrite (ff_gates _ _ _ F) in H. exact H. }
    split; [|split; [|split; [apply (ff_dom2 _ _ _ F)|split]]].
    - apply (provable_csat (with_witness c' ws) pub); auto.
      + apply (ff_gates _ _ _ F).
      + destruct Hcols. constructor; auto.
      + destruct Hperm. constructor; auto.
      + pose proof (finalized_io ta c c' B F Hio) as H. exact H.
      + apply (accepts_csat zval c' ws pub Bd (proj1 Hacc)) in Hacc. destruct Hacc; constructor; auto.
    - destruct (ff_dom _ _ _ F) as (l & El & _). eauto.
    - rewrite (ff_pub _ _ _ F). now rewrite Ln.
    - rewrite (ff_pub _ _ _ F) in Hids. destruct (Nat.eq_dec (length pub) 0) as [->|Hne]; [lia|].
      rewrite Forall_forall in Hids. specialize (Hids (length pub - 1)%nat). rewrite in_seq in Hids. lia.
  Qed.

  (** What the verifier computes from the public input is the prover's polynomial. *)
  Lemma ipoly_interp (d : dom K) (Hd : dom_ok K d) l f : (forall j, (j < dsize d)%nat -> nth j l 0 = f j) -> interpolates K d 1 f (ipoly K d l).
  Proof. intro H. destruct (ipoly_ok K d Hd l) as [A B]. split; auto. intros j Hj. rewrite B by auto. auto. Qed.
  Theorem pi_ok ta root m (d : dom K) (c : circuit) pub z : root_ok K ta root -> radix2_new K ta root m = Some d -> dsize d = domain c ->
    pub_ids c = seq 0 (length pub) -> (length pub <= domain c)%nat -> public_input c = Ok pub ->
    evaluate_pi_poly K d pub z false = Ok (peval (ipoly K d (pub_input_vec K c)) z).
  Proof.
    intros Hr E Hn Hids Hl Hpub. rewrite (C61_pi_eval K ta root Hr m d pub z (ipoly K d (pub_input_vec K c)) E).
    - destruct (Nat.leb_spec (length pub) (dsize d)); [reflexivity|lia].
    - apply ipoly_interp; [eapply radix2_ok; eauto|]. intros j Hj. rewrite pub_vec_at, Hids; [|rewrite Hids; apply Forall_forall; intros x Hx; apply in_seq in Hx; lia|lia].
      destruct (Nat.lt_ge_cases j (length pub)) as [Hlt|Hge].
      + replace (existsb (Nat.eqb j) (seq 0 (length pub))) with true.
        * symmetry. apply pub_at; auto. rewrite Hids. rewrite (nth_error_nth' _ 0%nat) by (now rewrite seq_length). now rewrite seq_nth.
        * symmetry. apply existsb_exists. exists j. split; [apply in_seq; lia|apply Nat.eqb_refl].
      + rewrite (nth_overflow pub) by lia. replace (existsb (Nat.eqb j) (seq 0 (length pub))) with false; [reflexivity|].
        symmetry. apply not_true_iff_false. intro H. apply existsb_exists in H as (x & Hx & Ex). apply in_seq in Hx. apply Nat.eqb_eq in Ex. lia.
  Qed.
End Accepted.
