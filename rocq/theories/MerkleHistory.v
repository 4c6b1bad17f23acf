(** Histories of API calls on Merkle trees, with the contents a user expects
    after each call.  Only the public functions of the model are used. *)
From Coq Require Import List Arith Bool.
From Verif Require Import Base MerkleModel MerkleSpec MerklePrune.
Import ListNotations.

Section History.
  Context {E T : Type}.
  Variable Teqb : T -> T -> bool.
  Variable T0 : T.
  Variable digest : list T -> T.
  Variable digest_leaf : nat -> E -> T.
  Variable arity : nat.

  Notation tree := (@tree E T).
  Notation update_with := (update_with T0 digest digest_leaf arity).
  Notation universal_forget := (universal_forget T0 arity).
  Notation remember := (remember Teqb T0 digest digest_leaf arity).
  Notation forget := (forget T0 arity).

  (** The hash queries of one verification do not collide with those of the
      nodes of tree [n] that are in memory. *)
  Definition collision_free (n : node E T) (pos : nat) (el : option E) (pf : @proof T) : Prop :=
    no_collision T0 digest digest_leaf n (verify_queries T0 digest digest_leaf arity pos el pf).

  (** Universal tree: any mix of updates, deletions ([f] returning [None]) and
      forgetting, on keys in range. *)
  Inductive uhist : tree -> kmap E -> Prop :=
  | uh_new h : uhist (tree_new h) kempty
  | uh_update t m k f t' r :
      uhist t m -> k < arity ^ height t -> update_with t k f = Ok (t', r) ->
      uhist t' (kset m k (f (m k)))
  | uh_forget t m k t' r :
      uhist t m -> k < arity ^ height t -> universal_forget t k = Ok (t', r) ->
      uhist t' m.

  (** Updates only: everything stays in memory. *)
  Inductive uhist_full : tree -> kmap E -> Prop :=
  | uf_new h : uhist_full (tree_new h) kempty
  | uf_update t m k f t' r :
      uhist_full t m -> k < arity ^ height t -> update_with t k f = Ok (t', r) ->
      uhist_full t' (kset m k (f (m k))).

  (** Additionally remembering elements that are in the map, with any accepted
      proof of the tree's height whose verification exhibits no hash collision. *)
  Inductive uhist_rem : tree -> kmap E -> Prop :=
  | ur_new h : uhist_rem (tree_new h) kempty
  | ur_update t m k f t' r :
      uhist_rem t m -> k < arity ^ height t -> update_with t k f = Ok (t', r) ->
      uhist_rem t' (kset m k (f (m k)))
  | ur_forget t m k t' r :
      uhist_rem t m -> k < arity ^ height t -> universal_forget t k = Ok (t', r) ->
      uhist_rem t' m
  | ur_remember t m k e pf t' :
      uhist_rem t m -> k < arity ^ height t -> m k = Some e -> length pf = height t ->
      collision_free (root t) k (Some e) pf ->
      remember t k e pf = Ok t' ->
      uhist_rem t' m.

  (** ** Append-only ([lw = false]) and light-weight ([lw = true]) trees. *)
  Definition build (lw : bool) (oh : option nat) (xs : list E) : outcome merr tree :=
    if lw then lw_from_elems T0 digest digest_leaf arity oh xs
    else from_elems T0 digest digest_leaf arity oh xs.
  Definition ext (lw : bool) (t : tree) (es : list E) : tree * outcome merr unit :=
    if lw then lw_extend T0 digest digest_leaf arity t es
    else extend T0 digest digest_leaf arity t es.

  (** What [extend] leaves in the tree: the elements that fit, unless it was
      refused altogether. *)
  Definition after_extend (cap : nat) (xs es : list E) (r : outcome merr unit) : list E :=
    match r with
    | Ok _ | Err ExceedCapacity => xs ++ firstn (cap - length xs) es
    | _ => xs
    end.

  Inductive ahist_full (lw : bool) : tree -> list E -> Prop :=
  | af_new h : ahist_full lw (tree_new h) []
  | af_build oh xs t : build lw oh xs = Ok t -> ahist_full lw t xs
  | af_extend t xs es t' r :
      ahist_full lw t xs -> ext lw t es = (t', r) ->
      ahist_full lw t' (after_extend (arity ^ height t) xs es r).

  (** With forgetting and remembering in between.  A remembered proof must not
      exhibit a collision with the hashes of the tree of [xs]. *)
  Inductive ahist (lw : bool) : tree -> list E -> Prop :=
  | ah_new h : ahist lw (tree_new h) []
  | ah_build oh xs t : build lw oh xs = Ok t -> ahist lw t xs
  | ah_extend t xs es t' r :
      ahist lw t xs -> ext lw t es = (t', r) ->
      ahist lw t' (after_extend (arity ^ height t) xs es r)
  | ah_forget t xs k t' r :
      ahist lw t xs -> k < arity ^ height t -> forget t k = Ok (t', r) -> ahist lw t' xs
  | ah_remember t xs k e pf t' :
      ahist lw t xs -> k < arity ^ height t -> remember t k e pf = Ok t' ->
      collision_free (canon T0 digest digest_leaf arity (klist xs) (height t) 0) k (Some e) pf ->
      ahist lw t' xs.
End History.
