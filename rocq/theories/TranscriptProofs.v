(** Hash chains: a state that is replaced by the hash of itself and everything appended
    since the last challenge. *)
From Coq Require Import List Arith Lia.
From Verif Require Import Base ListAux.
Import ListNotations.

Section Chain.
  Variables (X A O : Type).
  (** what an operation appends; [None] for drawing a challenge *)
  Variable enc : O -> option (outcome X (list A)).
  Variable H : list A -> outcome X (list A).
  Variable len : nat.
  Hypothesis Hlen : forall x y, H x = Ok y -> length y = len.

  (** the state (hash, appended since), with the inputs hashed on the way *)
  Definition step (s : list A * list A) (o : O) : outcome X ((list A * list A) * list (list A)) :=
    match enc o with
    | None => let* h := H (fst s ++ snd s) in Ok ((h, []), [fst s ++ snd s])
    | Some e => let* a := e in Ok ((fst s, snd s ++ a), [])
    end.
  Fixpoint run (s : list A * list A) (os : list O) : outcome X ((list A * list A) * list (list A)) :=
    match os with
    | [] => Ok (s, [])
    | o :: os => let* r := step s o in let* r' := run (fst r) os in Ok (fst r', snd r ++ snd r')
    end.

  Lemma run_len s os s' hs : length (fst s) = len -> run s os = Ok (s', hs) -> length (fst s') = len.
  Proof.
    revert s hs. induction os as [|o os IH]; intros s hs L E; cbn in E; [injection E as <- _; exact L|].
    unfold step in E. destruct (enc o) as [e|].
    - destruct e as [a| |]; cbn in E; try discriminate. destruct (run _ os) as [[s1 h1]| |] eqn:E1; cbn in E; try discriminate.
      injection E as <- _. eapply IH; [|exact E1]. exact L.
    - destruct (H _) as [h| |] eqn:Eh; cbn in E; try discriminate. destruct (run _ os) as [[s1 h1]| |] eqn:E1; cbn in E; try discriminate.
      injection E as <- _. eapply IH; [|exact E1]. cbn. eapply Hlen; eauto.
  Qed.

  (** [agree o o']: both draw a challenge, or both append, the same number of elements. *)
  Definition alike (o o' : O) : Prop :=
    match enc o, enc o' with
    | None, None => True
    | Some e, Some e' => forall a a', e = Ok a -> e' = Ok a' -> length a = length a'
    | _, _ => False
    end.
  Definition equals (o o' : O) : Prop :=
    match enc o, enc o' with
    | None, None => True
    | Some e, Some e' => e = e'
    | _, _ => False
    end.
  Definition collision (hs hs' : list (list A)) : Prop :=
    exists x y h, In x hs /\ In y hs' /\ x <> y /\ H x = Ok h /\ H y = Ok h.

  Lemma app_eq_len {B} (a b c d : list B) : length a = length c -> a ++ b = c ++ d -> a = c /\ b = d.
  Proof.
    revert c. induction a as [|x a IH]; intros [|y c] L E; cbn in *; try discriminate; auto.
    injection E as -> E. injection L as L. destruct (IH c L E). now subst.
  Qed.
  Lemma app_eq_len_r {B} (a b c d : list B) : length b = length d -> a ++ b = c ++ d -> a = c /\ b = d.
  Proof. intros L E. apply app_eq_len; auto. apply (f_equal (@length B)) in E. rewrite !app_length in E. lia. Qed.

  Variable A_dec : forall a b : list A, {a = b} + {a <> b}.

  (** Two runs that end in the same state started in the same state and appended the same,
      or two of the hashed inputs collide. *)
  Theorem run_binding os os' s s' t hs hs' : length (fst s) = len -> length (fst s') = len ->
    Forall2 alike os os' -> run s os = Ok (t, hs) -> run s' os' = Ok (t, hs') ->
    (s = s' /\ Forall2 equals os os') \/ collision hs hs'.
  Proof.
    intros L L' Ha. revert s s' hs hs' L L'. induction Ha as [|o o' os os' Ho Ha IH]; intros s s' hs hs' L L' E E'.
    { cbn in E, E'. left. split; auto. congruence. }
    cbn in E, E'. unfold step in E, E'. unfold alike in Ho.
    destruct (enc o) as [e|] eqn:Eo, (enc o') as [e'|] eqn:Eo'; try contradiction.
    - destruct e as [a| |]; cbn in E; try discriminate. destruct e' as [a'| |]; cbn in E'; try discriminate.
      destruct (run _ os) as [[t1 h1]| |] eqn:E1; cbn in E; try discriminate.
      destruct (run _ os') as [[t1' h1']| |] eqn:E1'; cbn in E'; try discriminate.
      injection E as -> ->. injection E' as -> ->.
      destruct (IH (fst s, snd s ++ a) (fst s', snd s' ++ a') _ _ L L' E1 E1') as [[Es Hf]|C]; [|now right].
      left. injection Es as Es1 Es2. apply app_eq_len_r in Es2 as [Es2 Es3]; [|now apply Ho].
      split; [destruct s, s'; cbn in *; now subst|]. constructor; auto. unfold equals. rewrite Eo, Eo'. now subst.
    - destruct (H (fst s ++ snd s)) as [h| |] eqn:Eh; cbn in E; try discriminate.
      destruct (H (fst s' ++ snd s')) as [h'| |] eqn:Eh'; cbn in E'; try discriminate.
      destruct (run _ os) as [[t1 h1]| |] eqn:E1; cbn in E; try discriminate.
      destruct (run _ os') as [[t1' h1']| |] eqn:E1'; cbn in E'; try discriminate.
      injection E as -> <-. injection E' as -> <-.
      destruct (IH (h, []) (h', []) _ _ (Hlen _ _ Eh) (Hlen _ _ Eh') E1 E1') as [[Es Hf]|C].
      + injection Es as <-. destruct (A_dec (fst s ++ snd s) (fst s' ++ snd s')) as [Ex|Nx].
        * apply app_eq_len in Ex as [Ea Eb]; [|congruence]. left. split; [destruct s, s'; cbn in *; now subst|].
          constructor; auto. unfold equals. now rewrite Eo, Eo'.
        * right. exists (fst s ++ snd s), (fst s' ++ snd s'), h. cbn. auto 6.
      + right. destruct C as (x & y & z & Hx & Hy & R). exists x, y, z. cbn. tauto.
  Qed.

  Lemma run_chain s os t hs i x : run s os = Ok (t, hs) -> nth_error hs i = Some x ->
    exists h tr, x = h ++ tr /\ match i with 0%nat => h = fst s | S j => exists w, nth_error hs j = Some w /\ H w = Ok h end.
  Proof.
    revert s hs i. induction os as [|o os IH]; intros s hs i E Hx; cbn in E.
    { injection E as _ <-. destruct i; discriminate. }
    unfold step in E. destruct (enc o) as [e|].
    - destruct e as [a| |]; cbn in E; try discriminate. destruct (run _ os) as [[t1 h1]| |] eqn:E1; cbn in E; try discriminate.
      injection E as -> ->. destruct (IH _ _ i E1 Hx) as (h & tr & Ex & Hi). eauto.
    - destruct (H (fst s ++ snd s)) as [h| |] eqn:Eh; cbn in E; try discriminate.
      destruct (run _ os) as [[t1 h1]| |] eqn:E1; cbn in E; try discriminate. injection E as -> <-.
      destruct i as [|i]; cbn in Hx.
      + injection Hx as <-. exists (fst s), (snd s). auto.
      + destruct (IH _ _ i E1 Hx) as (h' & tr & Ex & Hi). exists h', tr. split; auto.
        destruct i as [|i]; [exists (fst s ++ snd s); cbn in *; now subst|exact Hi].
  Qed.

  (** No two challenges of a run come from the same input, unless two inputs collide or one
      hashes to the initial state. *)
  Theorem run_fresh s os t hs i j x : length (fst s) = len -> run s os = Ok (t, hs) ->
    (i < j)%nat -> nth_error hs i = Some x -> nth_error hs j = Some x ->
    collision hs hs \/ exists w, In w hs /\ H w = Ok (fst s).
  Proof.
    intros L E. revert j x. induction i as [|i IH]; intros j x Hij Hi Hj.
    - destruct j as [|j]; [lia|]. destruct (run_chain _ _ _ _ 0 x E Hi) as (h & tr & Ex & ->).
      destruct (run_chain _ _ _ _ (S j) x E Hj) as (h' & tr' & Ex' & w & Hw & Hh). right. exists w. split; [eapply nth_error_In; eauto|].
      rewrite Ex in Ex'. apply app_eq_len in Ex' as [-> _]; auto. rewrite L. symmetry. eapply Hlen; eauto.
    - destruct j as [|j]; [lia|]. destruct (run_chain _ _ _ _ (S i) x E Hi) as (h & tr & Ex & w & Hw & Hh).
      destruct (run_chain _ _ _ _ (S j) x E Hj) as (h' & tr' & Ex' & w' & Hw' & Hh').
      rewrite Ex in Ex'. apply app_eq_len in Ex' as [-> _]; [|now rewrite (Hlen _ _ Hh), (Hlen _ _ Hh')].
      destruct (A_dec w w') as [<-|N]; [apply (IH j w); auto; lia|].
      left. exists w, w', h'. split; [eapply nth_error_In; eauto|]. split; [eapply nth_error_In; eauto|]. auto.
  Qed.
End Chain.

(** Machines whose every step may be inverted unless two of the calls collide. *)
Section Calls.
  Variables S E : Type.
  Variable f : S -> E -> S.
  Variable SE_dec : forall a b : S * E, {a = b} + {a <> b}.
  Definition calls (es : list E) (s : S) : S := fold_left f es s.
  Fixpoint made (es : list E) (s : S) : list (S * E) :=
    match es with [] => [] | e :: es => (s, e) :: made es (f s e) end.
  Lemma calls_binding es : forall es' s s', length es = length es' -> calls es s = calls es' s' ->
    (s = s' /\ es = es') \/
    exists a b, In a (made es s) /\ In b (made es' s') /\ a <> b /\ f (fst a) (snd a) = f (fst b) (snd b).
  Proof.
    induction es as [|e es IH]; intros [|e' es'] s s' L H; cbn in L; try discriminate; [left; auto|].
    cbn in H. injection L as L. destruct (IH es' _ _ L H) as [[Hs ->]|(a & b & Ha & Hb & R)].
    - destruct (SE_dec (s, e) (s', e')) as [D|D]; [injection D as -> ->; auto|]. right. exists (s, e), (s', e'). cbn. auto.
    - right. exists a, b. cbn. auto.
  Qed.
End Calls.
