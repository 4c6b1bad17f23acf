(** Specifications of circuit-building programs that create lookup tables.

    [gspec] only covers programs that append plain constraints.  [tok] also allows
    tables: it describes a run from a circuit reached by the builder. *)

From Coq Require Import List Arith ZArith Bool Lia.
From Verif Require Import Base ListAux Alg CircuitModel CircuitProofs GadgetModel GadgetProofs RangeProofs BitProofs CmpProofs
  SatProofs SatGadget FinalModel FinalProofs BuiltProofs FinalProps EccModel EccProofs.
Import ListNotations.
Local Open Scope fld_scope.
Local Open Scope circ_scope.

Section Tok.
  Context {K : fld}.
  Variable zval : K -> Z.
  Variable p : Z.
  Variable nb L : nat.
  Hypothesis HF : pfield K zval p nb L.
  Notation accepts := (accepts zval).

  (** Every lookup is the row of the table that its key names. *)
  Definition looks (w : nat -> K) (lookups : list (nat * nat * nat)) (table : list (nat * nat)) : Prop :=
    forall key v0 v1, In (key, v0, v1) lookups ->
      exists i t0 t1, nth_error table i = Some (t0, t1) /\ w key = fnat i /\ w v0 = w t0 /\ w v1 = w t1.

  (** [m] succeeds on [c] and creates [nt] tables; [S] holds of every assignment
      accepted in the resulting circuit or in a later one; [S] and [H] hold of the
      values computed while building, and these are accepted if they were. *)
  Definition tok {X} (m : circ K X) (c : circuit K) (T : tabs_t) (S : (nat -> K) -> X -> Prop)
      (H : (nat -> K) -> X -> Prop) (R : X -> nat -> Prop) (nt : nat) : Prop :=
    exists a c' Tn, m c = (Ok a, c') /\ length Tn = nt /\ reached c' (T ++ Tn) /\ extends c c' /\ R a (num_vars c') /\
      (exists l, witness c' = witness c ++ l) /\
      (forall w, base w -> hext c' w -> S w a /\ H w a) /\
      (forall c'' T'' ws pub, reached c'' (T ++ Tn ++ T'') -> extends c' c'' -> (Z.of_nat (length (T ++ Tn ++ T'')) < p)%Z ->
         accepts c'' ws pub -> S (asg ws) a) /\
      (forall pub, (Z.of_nat (length T + nt) < p)%Z -> accepts c (witness c) pub -> accepts c' (witness c') pub).

  Lemma reached_good (c : circuit K) T : reached c T -> good c.
  Proof. intros R. apply reached_inv in R as (B & _). apply (bt_good _ B). Qed.
  Lemma reached_wf (c : circuit K) T : reached c T -> wf c.
  Proof. intros R. apply gd_wf. eapply reached_good; eauto. Qed.
  Lemma reached_len (c : circuit K) T : reached c T -> length (witness c) = num_vars c.
  Proof. intros R. apply (wf_wit _ (reached_wf _ _ R)). Qed.
  Lemma hon_ext (c c' : circuit K) T l v : reached c T -> witness c' = witness c ++ l -> (v < num_vars c)%nat -> hon c' v = hon c v.
  Proof. intros R E Hv. unfold hon. rewrite E. apply app_nth1. now rewrite (reached_len _ _ R). Qed.
  Lemma base_ext (c c' : circuit K) T l : reached c T -> witness c' = witness c ++ l -> base (hon c) -> base (hon c').
  Proof.
    intros R E [B0 B1]. pose proof (wf_two _ (reached_wf _ _ R)).
    split; rewrite (hon_ext c c' T l) by (auto; lia); auto.
  Qed.
  Lemma hext_ext (c c' : circuit K) T l w : reached c T -> extends c c' -> witness c' = witness c ++ l -> hext c' w -> hext c w.
  Proof. intros R X E Hx v Hv. rewrite (Hx v) by (pose proof (ex_vars _ _ X); lia). eapply hon_ext; eauto. Qed.

  Lemma accepts_base (c : circuit K) T ws pub : reached c T -> accepts c ws pub -> base (asg ws).
  Proof.
    intros R A. pose proof (reached_good _ _ R) as G. pose proof (proj1 A) as Hl. apply accepts_csat in A; auto; [|apply (gd_bd _ G)].
    eapply csat_base; eauto.
  Qed.
  Lemma tok_weaken {X} (m : circ K X) c T S H R nt (S' H' : (nat -> K) -> X -> Prop) (R' : X -> nat -> Prop) nt' : tok m c T S H R nt ->
    (forall w a, base w -> S w a -> S' w a) -> (forall w a, base w -> S w a -> H w a -> H' w a) ->
    (forall a n, (num_vars c <= n)%nat -> R a n -> R' a n) -> nt = nt' ->
    tok m c T S' H' R' nt'.
  Proof.
    intros (a & c1 & T1 & E & L1 & Rc1 & X1 & Ra & Wl & Hh & Snd & Cmp) HS HH HR <-.
    exists a, c1, T1. do 4 (split; auto). split; [apply HR; auto; apply (ex_vars _ _ X1)|]. split; auto. split; [|split; eauto].
    - intros w Bw Hx. destruct (Hh w Bw Hx). eauto.
    - intros c'' T'' ws pub R'' X'' Hp A. apply HS; [eapply accepts_base; eauto|]. eapply Snd; eauto.
  Qed.

  (** A plain program with facts [H] about the values it computes. *)
  Lemma tok_wpc {X} (m : circ K X) c T (S H : (nat -> K) -> X -> Prop) (R : X -> nat -> Prop) : reached c T ->
    wpc m c (fun a d => (forall w, base w -> dsat zval (ptype c) w d -> S w a)
      /\ (forall w, base w -> hext (capp c d) w -> dsat zval (ptype c) w d)
      /\ R a (num_vars c + length (d_vals d))%nat /\ (forall w, base w -> hext (capp c d) w -> H w a)) ->
    tok m c T S H R 0.
  Proof.
    intros Rc (a & d & E & P & Snd & Cmp & HR & HH). pose proof (reached_wf _ _ Rc) as W.
    assert (GS : gspec zval m c S (fun _ => True) R).
    { exists a, d. repeat (split; auto). }
    exists a, (capp c d), []. rewrite app_nil_r. split; auto. split; auto.
    split; [eapply r_gadget; eauto|]. split; [apply extends_capp|]. split; [exact HR|]. split; [cbn; eauto|].
    split. { intros w Bw Hx. split; auto. }
    destruct (gspec_gadget zval m c S (fun _ => True) R (reached_good _ _ Rc) ltac:(intros ? ? ? ?; exact I) GS)
      as (a2 & c2 & E2 & G2 & _ & _ & _ & S2 & _ & C2).
    rewrite E in E2. injection E2 as <- <-. split.
    - intros c'' T'' ws pub R'' X'' _ A. apply (S2 c'' ws pub X''); auto. apply gd_bd. eapply reached_good; eauto.
    - intros pub _ A. apply C2; auto.
  Qed.
  Lemma tok_gspec {X} (m : circ K X) c T S R : reached c T -> gspec zval m c S (fun _ => True) R ->
    tok m c T S (fun _ _ => True) R 0.
  Proof.
    intros Rc G. apply tok_wpc; auto. eapply wpc_mono; [exact G|]. intros a d _ (Sd & Cc & Rr). split; [exact Sd|]. split; [intros; now apply Cc|]. auto.
  Qed.
  Lemma tok_gspec_c {X} (m : circ K X) c T S C R : reached c T -> gspec zval m c S C R -> (forall w, base w -> hext c w -> C w) ->
    tok m c T S (fun _ _ => True) R 0.
  Proof.
    intros Rc G HC. apply tok_wpc; auto. pose proof (reached_wf _ _ Rc) as W. eapply wpc_mono; [exact G|]. intros a d _ (Sd & Cc & Rr).
    split; [exact Sd|]. split; [|auto]. intros w Bw Hx. apply Cc; auto. apply HC; auto. eapply hext_capp; eauto.
  Qed.
  Lemma tok_ret {X} (a : X) c T (S H : (nat -> K) -> X -> Prop) (R : X -> nat -> Prop) : reached c T ->
    (forall w, base w -> S w a) -> (forall w, base w -> hext c w -> H w a) -> R a (num_vars c) -> tok (ret a) c T S H R 0.
  Proof.
    intros Rc HS HH HR. apply tok_wpc; auto. apply wpc_ret. split; [auto|]. split; [intros; apply dsat_nil|].
    cbn. rewrite Nat.add_0_r. split; auto. rewrite capp_nil. auto.
  Qed.
  Lemma tok_var c T x : reached c T ->
    tok (create_variable x) c T (fun _ _ => True) (fun w v => w v = x) (fun v n => v < n)%nat 0.
  Proof.
    intros Rc. apply tok_wpc; auto. pose proof (reached_wf _ _ Rc) as W.
    apply wpc_var; auto.
    split; auto. split; [intros; now apply dsat_val|]. cbn. split; [lia|].
    intros w _ Hx. apply hext_capp in Hx as [_ Hx]; auto. specialize (Hx 0%nat ltac:(cbn; lia)). cbn in Hx. now rewrite Nat.add_0_r in Hx.
  Qed.

  (** A later moment of the same build. *)
  Record later (c c1 : circuit K) (T1 : tabs_t) : Prop := {
    lt_reached : reached c1 T1;
    lt_ext : extends c c1;
    lt_base : base (hon c1);
    lt_hon : forall v, (v < num_vars c)%nat -> hon c1 v = hon c v }.
  Lemma lt_vars c c1 T1 : later c c1 T1 -> (num_vars c <= num_vars c1)%nat.
  Proof. intros H. apply (ex_vars _ _ (lt_ext _ _ _ H)). Qed.
  Lemma lt_hext c c1 T1 w : later c c1 T1 -> hext c1 w -> hext c w.
  Proof. intros H Hx v Hv. rewrite Hx by (pose proof (lt_vars _ _ _ H); lia). now apply (lt_hon _ _ _ H). Qed.
  Lemma later_refl c T : reached c T -> base (hon c) -> later c c T.
  Proof. intros R B. split; auto using extends_refl. Qed.
  Lemma later_trans c c1 T1 c2 T2 : later c c1 T1 -> later c1 c2 T2 -> later c c2 T2.
  Proof.
    intros H1 H2. pose proof (lt_vars _ _ _ H1) as Hv. destruct H1 as [A1 A2 A3 A4], H2 as [B1 B2 B3 B4]. split; auto.
    - eapply extends_trans; eauto.
    - intros v H. rewrite B4 by lia. auto.
  Qed.
  Lemma lt_type c c1 T1 : later c c1 T1 -> ptype c1 = ptype c.
  Proof. intros H. apply (ex_type _ _ (lt_ext _ _ _ H)). Qed.
  Lemma lt_wf c c1 T1 : later c c1 T1 -> wf c1.
  Proof. intros H. eapply reached_wf, (lt_reached _ _ _ H). Qed.

  Lemma tok_bind {X Y} (m : circ K X) (k : X -> circ K Y) c T S1 H1 R1 n1 (S H : (nat -> K) -> Y -> Prop) (R : Y -> nat -> Prop) n2 nt :
    reached c T -> base (hon c) -> tok m c T S1 H1 R1 n1 ->
    (forall a c1 T1, later c c1 T1 -> R1 a (num_vars c1) ->
       (forall w, base w -> hext c1 w -> S1 w a /\ H1 w a) ->
       tok (k a) c1 T1 (fun w b => S1 w a -> S w b) (fun w b => S1 w a -> H1 w a -> H w b) R n2) ->
    nt = (n1 + n2)%nat ->
    tok (cbind m k) c T S H R nt.
  Proof.
    intros Rc B (a & c1 & T1 & E & L1 & Rc1 & X1 & Ra & (l1 & W1) & Hh & Snd & Cmp) Hk ->.
    assert (LT : later c c1 (T ++ T1)).
    { split; [exact Rc1|exact X1|exact (base_ext _ _ _ _ Rc W1 B)|]. intros v. exact (hon_ext _ _ _ _ v Rc W1). }
    destruct (Hk a c1 (T ++ T1) LT Ra Hh)
      as (b & c2 & T2 & E2 & L2 & Rc2 & X2 & Rb & (l2 & W2) & Hh2 & Snd2 & Cmp2).
    exists b, c2, (T1 ++ T2). split; [unfold cbind; now rewrite E|]. split; [rewrite app_length; lia|].
    split; [rewrite app_assoc; exact Rc2|]. split; [eapply extends_trans; eauto|]. split; [exact Rb|].
    split; [exists (l1 ++ l2); rewrite W2, W1, app_assoc; reflexivity|].
    split.
    { intros w Bw Hx. assert (Hx1 : hext c1 w) by (eapply hext_ext; eauto). destruct (Hh w Bw Hx1). destruct (Hh2 w Bw Hx). auto. }
    split.
    - intros c'' T'' ws pub R'' X'' Hp A. apply (Snd2 c'' T'' ws pub); auto.
      + now rewrite <- !app_assoc in *.
      + now rewrite <- !app_assoc in *.
      + apply (Snd c'' (T2 ++ T'') ws pub); auto.
        * now rewrite <- !app_assoc in *.
        * eapply extends_trans; eauto.
        * now rewrite <- !app_assoc in *.
    - intros pub Hp A. apply Cmp2; [rewrite app_length; lia|]. apply Cmp; auto. lia.
  Qed.
  Lemma tok_mapM {X Y} (f : X -> circ K Y) (S H : X -> (nat -> K) -> Y -> Prop) (R : Y -> nat -> Prop) l :
    (forall y n n', R y n -> (n <= n')%nat -> R y n') ->
    forall c T, reached c T -> base (hon c) ->
    (forall x c1 T1, In x l -> later c c1 T1 -> tok (f x) c1 T1 (S x) (H x) R 0) ->
    tok (mapM f l) c T (fun w ys => Forall2 (fun x y => S x w y) l ys) (fun w ys => Forall2 (fun x y => H x w y) l ys)
      (fun ys n => Forall (fun y => R y n) ys) 0.
  Proof.
    intros Rm. induction l as [|x l IH]; intros c T Rc B Hf; cbn [mapM].
    - apply tok_ret; auto.
    - eapply tok_bind; [exact Rc|exact B|apply Hf; [now left|now apply later_refl]| |reflexivity].
      intros y c1 T1 LT Ry Hy. eapply tok_bind; [apply LT|apply LT|apply IH; [apply LT|apply LT|]| |reflexivity].
      + intros x' c2 T2 Hin LT2. apply Hf; [now right|]. eapply later_trans; eauto.
      + intros ys c2 T2 LT2 Rys Hys. apply tok_ret; [apply LT2|auto..].
        constructor; auto. eapply Rm; [exact Ry|]. apply (lt_vars _ _ _ LT2).
  Qed.
  Lemma tok_unwrap {X} (m : circ K X) c T S H R nt : tok m c T S H R nt -> tok (unwrap m) c T S H R nt.
  Proof.
    intros (b & c2 & T2 & E2 & Q). exists b, c2, T2. split; [|exact Q]. unfold unwrap. rewrite E2. reflexivity.
  Qed.
  (** A step that changes nothing. *)
  Lemma tok_step {X Y} (m : circ K X) (k : X -> circ K Y) c T S H R nt a : m c = (Ok a, c) ->
    tok (k a) c T S H R nt -> tok (cbind m k) c T S H R nt.
  Proof.
    intros E (b & c2 & T2 & E2 & Q). exists b, c2, T2. split; [|exact Q]. unfold cbind. now rewrite E.
  Qed.
  Lemma tok_ext {X} (m m' : circ K X) c T S H R nt : m' c = m c -> tok m c T S H R nt -> tok m' c T S H R nt.
  Proof. intros E (b & c2 & T2 & E2 & Q). exists b, c2, T2. split; [|exact Q]. congruence. Qed.

  Lemma tok_table c T lookups table : reached c T -> ptype c <> Turbo -> vars_in c lookups table ->
    (forall w, base w -> hext c w -> looks w lookups table) ->
    tok (create_table_and_lookup_variables lookups table) c T (fun w _ => looks w lookups table) (fun _ _ => True) (fun _ _ => True) 1.
  Proof.
    intros Rc Nt V Hh. pose proof (reached_inv _ _ Rc) as (B & _).
    destruct (tables_run c lookups table B) as [[_ E]|[V' _]]; [|contradiction].
    pose proof (r_table _ _ _ _ _ Rc E) as Rc'.
    exists tt, (after_tables c lookups table), [(lookups, table)]. split; auto. split; auto. split; auto.
    assert (X : extends c (after_tables c lookups table)).
    { split; cbn; eauto. exists []. now rewrite app_nil_r. }
    split; auto. split; auto. split; [exists []; cbn; now rewrite app_nil_r|]. split.
    { intros w Bw Hx. split; auto. }
    split.
    - intros c'' T'' ws pub R'' X'' Hp A.
      intros key v0 v1 Hin. apply (C66_lookup_tables zval p nb L HF c'' _ ws pub R'') with (t := length T) (lookups := lookups); auto.
      + rewrite (ex_type _ _ X''). exact Nt.
      + rewrite nth_error_app2, Nat.sub_diag by lia. reflexivity.
    - intros pub Hp A. apply (C66_lookup_tables_only zval p nb L HF c T _ pub lookups table _ Rc Nt); auto.
      + lia.
      + split; auto. cbn [after_tables witness]. apply Hh.
        * apply (accepts_base _ _ _ _ Rc A).
        * apply hext_hon.
  Qed.
End Tok.
