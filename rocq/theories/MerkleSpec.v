(** Specification side of the Merkle tree claims.  Nothing here mentions the
    algorithms of the model (lookup, update, extend, ...): it defines key/value
    maps, the Merkle tree of a map, and the relation "some subtrees were dropped
    from memory". *)
From Coq Require Import List Arith Bool.
From Verif Require Import Base MerkleModel.
Import ListNotations.

(** Key/value maps: what a Merkle tree is supposed to hold. *)
Definition kmap (E : Type) := nat -> option E.
Definition kempty {E} : kmap E := fun _ => None.
Definition kset {E} (m : kmap E) (k : nat) (v : option E) : kmap E :=
  fun i => if i =? k then v else m i.

(** The map of an append-only list: key [i] holds the [i]-th element. *)
Definition klist {E} (xs : list E) : kmap E := fun i => nth_error xs i.

(** Number of keys below [n] that are present. *)
Definition ksize {E} (m : kmap E) (n : nat) : nat :=
  length (filter (fun k => match m k with Some _ => true | None => false end) (seq 0 n)).

(** The present keys below [n] with their values, in increasing key order. *)
Definition kentries {E} (m : kmap E) (n : nat) : list (nat * E) :=
  flat_map (fun k => match m k with Some e => [(k, e)] | None => [] end) (seq 0 n).

Section Spec.
  Context {E T : Type}.
  Variable T0 : T.
  Variable digest : list T -> T.
  Variable digest_leaf : nat -> E -> T.
  Variable arity : nat.

  (** The Merkle tree of the part of [m] with keys in
      [base, base + arity^h): an absent key is [Empty], a present key is a leaf,
      a block without present keys is [Empty], any other block is a branch over
      its [arity] sub-blocks. *)
  Fixpoint canon (m : kmap E) (h base : nat) : node E T :=
    match h with
    | 0 => match m base with
           | Some e => Leaf (digest_leaf base e) base e
           | None => Empty
           end
    | S h' =>
        let cs := map (fun i => canon m h' (base + i * arity ^ h')) (seq 0 arity) in
        if forallb is_empty cs then Empty
        else Branch (digest (map (value T0) cs)) cs
    end.

  (** [prunes n full]: [n] is [full] with some subtrees replaced by their hash. *)
  Inductive prunes : node E T -> node E T -> Prop :=
  | pr_empty : prunes Empty Empty
  | pr_leaf v p e : prunes (Leaf v p e) (Leaf v p e)
  | pr_branch v cs cs' : Forall2 prunes cs cs' -> prunes (Branch v cs) (Branch v cs')
  | pr_forgotten full : prunes (Forgotten (value T0 full)) full.

  (** A tree object holds [m] in full. *)
  Definition holds (t : @tree E T) (m : kmap E) : Prop :=
    root t = canon m (height t) 0 /\ num_leaves t = ksize m (arity ^ height t).

  (** A tree object holds [m], possibly with parts dropped from memory. *)
  Definition holds_pruned (t : @tree E T) (m : kmap E) : Prop :=
    prunes (root t) (canon m (height t) 0) /\ num_leaves t = ksize m (arity ^ height t).
End Spec.
