(** Concrete trees over a free (injective) hash: the theorems of [MerkleProps]
    instantiated, and claims that are false of the code. *)
From Coq Require Import List Arith Lia Bool.
From Verif Require Import Base MerkleModel MerkleSpec MerklePrune MerkleRange MerkleHistory MerkleProps.
Import ListNotations.

(** The free hash: digests are terms. *)
Inductive tm := TD | TL (p e : nat) | TN (l : list tm).

Fixpoint tm_eqb (a b : tm) {struct a} : bool :=
  match a, b with
  | TD, TD => true
  | TL p e, TL p' e' => (p =? p') && (e =? e')
  | TN l, TN l' =>
      (fix go (l l' : list tm) {struct l} : bool :=
         match l, l' with
         | [], [] => true
         | x :: r, x' :: r' => tm_eqb x x' && go r r'
         | _, _ => false
         end) l l'
  | _, _ => false
  end.

Fixpoint tm_eqb_eq (a b : tm) {struct a} : tm_eqb a b = true <-> a = b.
Proof.
  destruct a as [|p e|l], b as [|p' e'|l']; simpl; try (split; congruence).
  - rewrite andb_true_iff, !Nat.eqb_eq. split; [intros [-> ->]; auto|intros [= -> ->]; auto].
  - revert l'. induction l as [|x r IH]; intros [|x' r']; try (split; congruence).
    rewrite andb_true_iff, (tm_eqb_eq x x'), IH.
    split; [intros [-> H]; congruence|intros [= -> ->]; auto].
Qed.

(** No two different queries have the same digest, so every collision-freeness
    hypothesis holds. *)
Lemma tm_injective (q1 q2 : hquery nat tm) : hash TD TN TL q1 = hash TD TN TL q2 -> q1 = q2.
Proof. destruct q1, q2; simpl; congruence. Qed.

Lemma tm_collision_free arity n pos el pf : collision_free TD TN TL arity n pos el pf.
Proof. intros q1 q2 _ _ H. apply tm_injective, H. Qed.

Notation upd := (update_with TD TN TL 3).
Notation ulk := (universal_lookup TD 3).
Notation com := (@commitment nat tm TD).
Definition tree0 : @tree nat tm := tree_new 2.

(** A small session on a ternary tree of height 2: keys 1, 7 written, 7 overwritten,
    5 written and removed, 1 forgotten. *)
Definition ok_or {A} (d : A) (r : outcome merr A) : A := match r with Ok a => a | _ => d end.
Definition set (k v : nat) (t : @tree nat tm) := fst (ok_or (t, LNotInMemory) (upd t k (fun _ => Some v))).
Definition del (k : nat) (t : @tree nat tm) := fst (ok_or (t, LNotInMemory) (upd t k (fun _ => None))).
Definition fgt (k : nat) (t : @tree nat tm) := fst (ok_or (t, LNotInMemory) (universal_forget TD 3 t k)).
Definition session := fgt 1 (del 5 (set 5 9 (set 7 12 (set 7 11 (set 1 10 tree0))))).
Definition session_map : kmap nat :=
  kset (kset (kset (kset (kset kempty 1 (Some 10)) 7 (Some 11)) 7 (Some 12)) 5 (Some 9)) 5 None.

Example session_hist : uhist TD TN TL 3 session session_map.
Proof.
  set (s1 := set 1 10 tree0). set (s2 := set 7 11 s1). set (s3 := set 7 12 s2).
  set (s4 := set 5 9 s3). set (s5 := del 5 s4).
  eapply (uh_forget _ _ _ _ s5 _ 1); [|vm_compute; lia|vm_compute; reflexivity].
  unfold session_map.
  eapply (uh_update _ _ _ _ s4 _ 5 (fun _ => None)); [|vm_compute; lia|vm_compute; reflexivity].
  eapply (uh_update _ _ _ _ s3 _ 5 (fun _ => Some 9)); [|vm_compute; lia|vm_compute; reflexivity].
  eapply (uh_update _ _ _ _ s2 _ 7 (fun _ => Some 12)); [|vm_compute; lia|vm_compute; reflexivity].
  eapply (uh_update _ _ _ _ s1 _ 7 (fun _ => Some 11)); [|vm_compute; lia|vm_compute; reflexivity].
  eapply (uh_update _ _ _ _ tree0 _ 1 (fun _ => Some 10)); [|vm_compute; lia|vm_compute; reflexivity].
  apply uh_new.
Qed.

(** Hypotheses of C01, C03, C10, C12: key 7 found, key 5 absent, key 1 out of memory. *)
Example session_lookups :
  (exists pf, lookup TD 3 session 7 = Ok (LOk 12 pf)) /\
  (exists pf, ulk session 5 = Ok (LNotFound pf)) /\
  ulk session 1 = Ok LNotInMemory /\
  num_leaves session = 2.
Proof. repeat split; eexists; vm_compute; reflexivity. Qed.

(** Hypotheses of C02: an accepted proof for key 7. *)
Example session_verify :
  exists pf, verify tm_eqb TD TN TL 3 (com session) 7 12 pf = Ok true /\
             collision_free TD TN TL 3 (canon TD TN TL 3 session_map 2 0) 7 (Some 12) pf.
Proof.
  exists [[TD; TD]; [TN [TD; TL 1 10; TD]; TD]]. split; [|apply tm_collision_free].
  vm_compute. reflexivity.
Qed.

(** C04 on two different histories with equal contents. *)
Example same_contents_same_commitment :
  com (del 5 (set 5 9 (set 7 12 (set 1 10 tree0)))) = com (set 1 10 (set 7 12 tree0)).
Proof. vm_compute. reflexivity. Qed.

(** Hypotheses of C11 and C14: remembering key 1, and restoring absent key 0
    (all levels of its proof are full) after everything was forgotten. *)
Definition session2 := fgt 7 session.
Example session2_forgotten : exists v, root session2 = Forgotten v.
Proof. eexists. vm_compute. reflexivity. Qed.
Definition proof_of (r : outcome merr (lookup_result nat (list (list tm)) (list (list tm)))) :=
  match r with Ok (LOk _ p) => p | Ok (LNotFound p) => p | _ => [] end.
Definition before_forget := del 5 (set 5 9 (set 7 12 (set 7 11 (set 1 10 tree0)))).
Example session2_remember :
  exists t', remember tm_eqb TD TN TL 3 session2 1 10 (proof_of (ulk before_forget 1)) = Ok t' /\
             com t' = com session2 /\ exists pf, lookup TD 3 t' 1 = Ok (LOk 10 pf).
Proof. eexists. split; [vm_compute; reflexivity|]. split; [vm_compute; reflexivity|]. eexists. vm_compute. reflexivity. Qed.
Example session2_nm_remember :
  let pf := proof_of (ulk before_forget 0) in
  Forall (fun s => length s = 2) pf /\ length pf = 2 /\
  non_membership_verify tm_eqb TD TN TL 3 (com session2) 0 pf = Ok true /\
  exists t', non_membership_remember tm_eqb TD TN TL 3 session2 0 pf = Ok t' /\ com t' = com session2.
Proof.
  cbv zeta. split; [vm_compute; repeat constructor|]. split; [vm_compute; reflexivity|].
  split; [vm_compute; reflexivity|]. eexists. split; vm_compute; reflexivity.
Qed.

(** Append-only: build, extend past the capacity, range proof. *)
Notation bld := (build TD TN TL 3).
Notation extd := (ext TD TN TL 3).
Example append_session :
  exists t, bld false (Some 2) [10; 11; 12; 13] = Ok t /\
    snd (extd false t [14; 15]) = Ok tt /\
    snd (extd false t [14; 15; 16; 17; 18; 19; 20]) = Err ExceedCapacity /\
    snd (extd false (fst (extd false t [14; 15; 16; 17; 18; 19; 20])) [1]) = Err ExistingLeaf /\
    (exists pf, range_lookup TD 3 t 1 3 = Ok (LOk ([1; 2; 3], [11; 12; 13]) pf) /\
       verify_merkle_range_proof tm_eqb TN TL 3 (com t) [1; 2; 3] [11; 12; 13] pf = Ok true) /\
    iter_collect 100 100 [root t] = [(0, 10); (1, 11); (2, 12); (3, 13)].
Proof.
  eexists. split; [vm_compute; reflexivity|]. split; [vm_compute; reflexivity|].
  split; [vm_compute; reflexivity|]. split; [vm_compute; reflexivity|]. split.
  - eexists. split; vm_compute; reflexivity.
  - vm_compute. reflexivity.
Qed.
Example light_weight_session :
  exists t t', bld false (Some 2) [10; 11; 12; 13; 14] = Ok t /\ bld true (Some 2) [10; 11; 12; 13; 14] = Ok t' /\
    com t = com t' /\ root t <> root t' /\
    snd (extd true t' [15; 16; 17; 18]) = Ok tt /\
    snd (extd true (fst (extd true t' [15; 16; 17; 18])) [1]) = Err ForgottenLeaf.
Proof.
  eexists. eexists. split; [vm_compute; reflexivity|]. split; [vm_compute; reflexivity|].
  split; [vm_compute; reflexivity|]. split; [discriminate|]. split; vm_compute; reflexivity.
Qed.

(** ** Claims that are false of the code *)

(** C13 without the length restriction: the verifier takes the height from the
    proof, so a proof that is too short speaks about another position.  In a
    ternary tree of height 2 that stores key 1, a one-level proof of absence of
    key 1 is accepted, although the hash is injective. *)
Theorem C13_any_length_refuted :
  exists (t : @tree nat tm) m k e pf,
    uhist_full TD TN TL 3 t m /\ k < 3 ^ height t /\ m k = Some e /\
    non_membership_verify tm_eqb TD TN TL 3 (com t) k pf = Ok true.
Proof.
  exists (set 1 10 tree0), (kset kempty 1 (Some 10)), 1, 10, [[value TD (nth 0 (match root (set 1 10 tree0) with Branch _ cs => cs | _ => [] end) Empty); TD]].
  split.
  { eapply (uf_update _ _ _ _ tree0 _ 1 (fun _ => Some 10)); [apply uf_new|vm_compute; lia|vm_compute; reflexivity]. }
  split; [vm_compute; lia|]. split; reflexivity.
Qed.

(** C14: an honest non-membership proof with an empty level.  After key 0 was
    forgotten, restoring absent key 6 changes the commitment, and restoring absent
    key 8 panics. *)
Theorem C14_empty_level_refuted :
  exists (t : @tree nat tm) m t6,
    uhist TD TN TL 3 t m /\
    m 6 = None /\ m 8 = None /\
    (let p6 := proof_of (ulk (set 0 10 tree0) 6) in
     let p8 := proof_of (ulk (set 0 10 tree0) 8) in
     non_membership_verify tm_eqb TD TN TL 3 (com t) 6 p6 = Ok true /\
     non_membership_verify tm_eqb TD TN TL 3 (com t) 8 p8 = Ok true /\
     non_membership_remember tm_eqb TD TN TL 3 t 6 p6 = Ok t6 /\ com t6 <> com t /\
     non_membership_remember tm_eqb TD TN TL 3 t 8 p8 = Panic).
Proof.
  exists (fgt 0 (set 0 10 tree0)), (kset kempty 0 (Some 10)). eexists. split.
  { eapply (uh_forget _ _ _ _ (set 0 10 tree0) _ 0); [|vm_compute; lia|vm_compute; reflexivity].
    eapply (uh_update _ _ _ _ tree0 _ 0 (fun _ => Some 10)); [apply uh_new|vm_compute; lia|vm_compute; reflexivity]. }
  split; [reflexivity|]. split; [reflexivity|]. cbv zeta.
  split; [vm_compute; reflexivity|]. split; [vm_compute; reflexivity|].
  split; [vm_compute; reflexivity|]. split; [vm_compute; discriminate|]. vm_compute. reflexivity.
Qed.

(** C04 with remembering in the history: write, forget, remember and delete key
    0.  The tree is empty again but its commitment is not that of an empty tree. *)
Theorem C04_after_remember_refuted :
  exists (t : @tree nat tm) m, uhist_rem tm_eqb TD TN TL 3 t m /\
    (forall k, k < 3 ^ height t -> m k = None) /\ num_leaves t = 0 /\
    com t <> com (tree_new (height t)).
Proof.
  set (t1 := set 0 10 tree0). set (pf := proof_of (ulk t1 0)). set (t2 := fgt 0 t1).
  set (t3 := ok_or t2 (remember tm_eqb TD TN TL 3 t2 0 10 pf)). set (t4 := del 0 t3).
  exists t4, (kset (kset kempty 0 (Some 10)) 0 None). split.
  { eapply (ur_update _ _ _ _ _ t3 _ 0 (fun _ => None)); [|vm_compute; lia|vm_compute; reflexivity].
    eapply (ur_remember _ _ _ _ _ t2 _ 0 10 pf); [|vm_compute; lia|reflexivity|vm_compute; reflexivity|apply tm_collision_free|vm_compute; reflexivity].
    eapply (ur_forget _ _ _ _ _ t1 _ 0); [|vm_compute; lia|vm_compute; reflexivity].
    eapply (ur_update _ _ _ _ _ tree0 _ 0 (fun _ => Some 10)); [apply ur_new|vm_compute; lia|vm_compute; reflexivity]. }
  split; [|split; [vm_compute; reflexivity|vm_compute; discriminate]].
  intros [|k] _; reflexivity.
Qed.

(** C12 for [universal_forget]: the non-membership proof it returns for an absent
    key need not verify (here it is one level short). *)
Theorem C12_universal_forget_proof_refuted :
  exists (t : @tree nat tm) m t' pf,
    uhist_full TD TN TL 3 t m /\ m 3 = None /\
    universal_forget TD 3 t 3 = Ok (t', LNotFound pf) /\
    non_membership_verify tm_eqb TD TN TL 3 (com t) 3 pf = Ok false.
Proof.
  exists (set 0 10 tree0), (kset kempty 0 (Some 10)). eexists. eexists. split.
  { eapply (uf_update _ _ _ _ tree0 _ 0 (fun _ => Some 10)); [apply uf_new|vm_compute; lia|vm_compute; reflexivity]. }
  split; [reflexivity|]. split; vm_compute; reflexivity.
Qed.

(** C03 for keys out of range: nothing rejects them; writing key 9 into a tree of
    capacity 9 overwrites key 0. *)
Theorem C03_out_of_range_refuted :
  exists (t : @tree nat tm) m t' r, uhist_full TD TN TL 3 t m /\ 3 ^ height t <= 9 /\ m 0 = Some 10 /\
    upd t 9 (fun _ => Some 11) = Ok (t', r) /\ exists pf, ulk t' 0 = Ok (LOk 11 pf).
Proof.
  exists (set 0 10 tree0), (kset kempty 0 (Some 10)). eexists. eexists. split.
  { eapply (uf_update _ _ _ _ tree0 _ 0 (fun _ => Some 10)); [apply uf_new|vm_compute; lia|vm_compute; reflexivity]. }
  split; [vm_compute; lia|]. split; [reflexivity|]. split; [vm_compute; reflexivity|].
  eexists. vm_compute. reflexivity.
Qed.

(** C62 needs the leaf digest to depend on the position.  The SHA3 and Keccak
    instances (prelude.rs 179-186) ignore it: then a range proof is accepted with
    arbitrary indices. *)
Definition blind_leaf (_ e : nat) : tm := TL 0 e.
Theorem C62_position_blind_refuted :
  exists (t : @tree nat tm) xs pf,
    ahist_full TD TN blind_leaf 3 false t xs /\
    verify_merkle_range_proof tm_eqb TN blind_leaf 3 (com t) [5; 2; 77] [11; 12; 13] pf = Ok true.
Proof.
  eexists. exists [10; 11; 12; 13].
  exists (match range_lookup TD 3 (ok_or tree0 (build TD TN blind_leaf 3 false (Some 2) [10; 11; 12; 13])) 1 3 with
          | Ok (LOk _ pf) => pf | _ => mk_range_proof [] [] end).
  split.
  - eapply (af_build _ _ _ _ _ (Some 2)). vm_compute. reflexivity.
  - vm_compute. reflexivity.
Qed.

(** A light client that starts from a commitment can be made to panic: the length
    of the proof given to [remember] is not checked against the height. *)
Theorem C11_short_proof_panics_refuted :
  exists (t : @tree nat tm) pf, t = from_commitment (TL 0 10) 1 1 /\
    verify tm_eqb TD TN TL 3 (com t) 0 10 pf = Ok true /\
    remember tm_eqb TD TN TL 3 t 0 10 pf = Panic.
Proof. eexists. exists []. split; [reflexivity|]. split; vm_compute; reflexivity. Qed.
