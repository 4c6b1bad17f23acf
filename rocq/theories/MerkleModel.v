(** Model of the [merkle_tree] crate: node type, traversal paths, lookup, update,
    extension, construction, forgetting, remembering, iteration and proof
    verification.

    Simplifications that hold for the whole file:
    - Indices ([u64], [BigUint], ...) and leaf counts are [nat]; overflow of
      [u64]/[i64] is not modelled.
    - [H::digest] and [H::digest_leaf] are total functions: the error they may
      return ([DigestError], raised by serialization) is not modelled.
    - [Arc] sharing is not modelled: values are immutable. *)

From Coq Require Import List Arith Bool.
From Verif Require Import Base.
Import ListNotations.

(** merkle_tree/src/errors.rs, the variants raised by the modelled code. *)
Inductive merr :=
| InconsistentStructure
| ExceedCapacity
| ForgottenLeaf
| ExistingLeaf
| ParametersError.

(** merkle_tree/src/internal.rs 22-51: [enum MerkleNode]. *)
Inductive node (E T : Type) : Type :=
| Empty
| Branch (value : T) (children : list (node E T))
| Leaf (value : T) (pos : nat) (elem : E)
| Forgotten (value : T).
Arguments Empty {E T}.
Arguments Branch {E T} value children.
Arguments Leaf {E T} value pos elem.
Arguments Forgotten {E T} value.

(** merkle_tree/src/lib.rs 51-59: [enum LookupResult]. *)
Inductive lookup_result (F P N : Type) : Type :=
| LOk (x : F) (p : P)
| LNotInMemory
| LNotFound (n : N).
Arguments LOk {F P N} x p.
Arguments LNotInMemory {F P N}.
Arguments LNotFound {F P N} n.

(** merkle_tree/src/macros.rs 273-281 and 291-299: [to_traversal_path]; least
    significant digit first, exactly [height] digits.  [arity = 0] would panic in
    Rust (division by zero); every theorem assumes a positive arity. *)
Fixpoint to_traversal_path (arity pos height : nat) : list nat :=
  match height with
  | 0 => []
  | S h => pos mod arity :: to_traversal_path arity (pos / arity) h
  end.

Section Merkle.
  Context {E T : Type}.
  Variable Teqb : T -> T -> bool.            (* [PartialEq] of node values *)
  Variable T0 : T.                           (* [T::default()] *)
  Variable digest : list T -> T.             (* [H::digest] *)
  Variable digest_leaf : nat -> E -> T.      (* [H::digest_leaf] *)
  Variable arity : nat.                      (* [ARITY] *)

  Notation node := (node E T).
  (** internal.rs 86: [struct MerkleTreeProof(pub Vec<Vec<T>>)]. *)
  Definition proof := list (list T).

  (** internal.rs 61-72: [MerkleNode::value]. *)
  Definition value (n : node) : T :=
    match n with
    | Empty => T0
    | Leaf v _ _ => v
    | Branch v _ => v
    | Forgotten v => v
    end.

  Definition is_empty (n : node) : bool :=
    match n with Empty => true | _ => false end.

  (** internal.rs 75-77: [is_forgotten]. *)
  Definition is_forgotten (n : node) : bool :=
    match n with Forgotten _ => true | _ => false end.

  (** internal.rs 428-440: [digest_branch]. *)
  Definition digest_branch (cs : list node) : T := digest (map value cs).

  (** The [enumerate().filter(|(id,_)| *id != b).map(value)] pipeline used at
      internal.rs 472-477, 504-510, 629-634, 641-646. *)
  Definition siblings (b : nat) (cs : list node) : list T :=
    map (fun ic => value (snd ic))
        (filter (fun ic => negb (fst ic =? b)) (combine (seq 0 (length cs)) cs)).

  (** internal.rs 157-169: the closure folded over the path by
      [verify_merkle_proof].  [data[..b]], [data[b]], [data[b+1..]] are filled
      from [values] and the running value. *)
  Definition verify_step (val : T) (bv : nat * list T) : T :=
    let '(b, values) := bv in
    match values with
    | [] => T0
    | _ => digest (firstn b values ++ val :: skipn b values)
    end.

  (** internal.rs 107-175: [verify_merkle_proof].  [Ok true] is [Ok(SUCCESS)],
      [Ok false] is [Ok(FAIL)]. *)
  Definition verify_merkle_proof (commitment : T) (pos : nat) (element : option E)
             (pf : proof) : outcome merr bool :=
    let init := match element with Some e => digest_leaf pos e | None => T0 end in
    let well_formed :=
      match element with
      | Some _ => forallb (fun v => length v =? arity - 1) pf
      | None => forallb (fun v => (length v =? arity - 1) || (length v =? 0)) pf
      end in
    if well_formed then
      Ok (Teqb (fold_left verify_step
                          (combine (to_traversal_path arity pos (length pf)) pf) init)
               commitment)
    else Err InconsistentStructure.

  (** internal.rs 190-193: [MerkleTreeRangeProof]. *)
  Record range_proof := mk_range_proof { lbound : list (list T); rbound : list (list T) }.

  (** internal.rs 224-235: the loop of [verify_merkle_range_proof]. *)
  Fixpoint range_fold (lr : list (list T * list T)) (values : list T)
    : outcome merr (list T) :=
    match lr with
    | [] => Ok values
    | (l, r) :: rest =>
        let to_digest := l ++ values ++ r in
        if length to_digest mod arity =? 0
        then range_fold rest (map digest (chunks arity to_digest))
        else Err InconsistentStructure
    end.

  (** internal.rs 202-246: [verify_merkle_range_proof]. *)
  Definition verify_merkle_range_proof (commitment : T) (indices : list nat)
             (elements : list E) (pf : range_proof) : outcome merr bool :=
    if negb (length indices =? length elements) then Err ParametersError
    else
      let values := map (fun ie => digest_leaf (fst ie) (snd ie))
                        (combine indices elements) in
      let* vs := range_fold (combine (lbound pf) (rbound pf)) values in
      match vs with
      | [v] => Ok (Teqb v commitment)
      | _ => Err InconsistentStructure
      end.

  (** internal.rs 616-659: [lookup_internal].  A branch at height 0 makes
      [height - 1] underflow: [Panic]. *)
  Fixpoint lookup_internal (height : nat) (n : node) (path : list nat)
    : outcome merr (lookup_result E proof proof) :=
    match n with
    | Empty => Ok (LNotFound (repeat [] height))
    | Leaf _ _ e => Ok (LOk e [])
    | Forgotten _ => Ok LNotInMemory
    | Branch _ cs =>
        match height with
        | 0 => Panic
        | S h =>
            let* b := index path h in
            let* c := index cs b in
            let* r := lookup_internal h c path in
            match r with
            | LOk e p => Ok (LOk e (p ++ [siblings b cs]))
            | LNotInMemory => Ok LNotInMemory
            | LNotFound p => Ok (LNotFound (p ++ [siblings b cs]))
            end
        end
    end.

  (** internal.rs 452-529: [forget_internal]. *)
  Fixpoint forget_internal (height : nat) (n : node) (path : list nat)
    : outcome merr (node * lookup_result E proof proof) :=
    match n with
    | Empty => Ok (Empty, LNotFound [])
    | Leaf v _ e => Ok (Forgotten v, LOk e [])
    | Forgotten _ => Ok (n, LNotInMemory)
    | Branch v cs =>
        match height with
        | 0 => Panic
        | S h =>
            let* b := index path h in
            let* c := index cs b in
            let* r := forget_internal h c path in
            match r with
            | (new_child, LOk e p) =>
                let p' := p ++ [siblings b cs] in
                let cs' := set_nth cs b new_child in
                if forallb (fun c => is_empty c || is_forgotten c) cs'
                then Ok (Forgotten v, LOk e p')
                else Ok (Branch v cs', LOk e p')
            | (_, LNotInMemory) => Ok (n, LNotInMemory)
            | (_, LNotFound p) => Ok (n, LNotFound (p ++ [siblings b cs]))
            end
        end
    end.

  (** [Vec::insert(b, v)]: panics when [b > len]. *)
  Definition vec_insert (l : list T) (b : nat) (v : T) : outcome merr (list T) :=
    if b <=? length l then Ok (firstn b l ++ v :: skipn b l) else Panic.

  (** internal.rs 533-610: [remember_internal]. *)
  Fixpoint remember_internal (height : nat) (n : node) (path : list nat)
           (pos : nat) (element : option E) (pf : proof) : outcome merr node :=
    match n with
    | Empty => Ok Empty
    | Leaf _ _ _ =>
        match height with 0 => Ok n | S _ => Err InconsistentStructure end
    | Branch v cs =>
        match height with
        | 0 => Err InconsistentStructure
        | S h =>
            let* b := index path h in
            let* c := index cs b in
            let* c' := remember_internal h c path pos element pf in
            Ok (Branch v (set_nth cs b c'))
        end
    | Forgotten v =>
        match height with
        | 0 => match element with
               | Some e => Ok (Leaf (digest_leaf pos e) pos e)
               | None => Ok Empty
               end
        | S h =>
            let* b := index path h in
            let* sib := index pf h in
            let* values := vec_insert sib b v in
            let children := map (@Forgotten E T) values in
            let* c := index children b in
            let* c' := remember_internal h c path pos element pf in
            let children' := set_nth children b c' in
            Ok (Branch (digest (set_nth values b (value c'))) children')
        end
    end.

  (** internal.rs 685-706: one boundary-aware loop over the children [l..=r];
      [rec] is the recursive call on child [i]. *)
  Definition rres := lookup_result (list nat * list E) range_proof unit.
  Fixpoint range_loop (rec : nat -> outcome merr rres) (l r : nat) (lb rb : bool)
           (is : list nat) (acc_i : list nat) (acc_e : list E) (pf : range_proof)
    : outcome merr rres :=
    match is with
    | [] => Ok (LOk (acc_i, acc_e) pf)
    | i :: is' =>
        let* res := rec i in
        match res with
        | LOk (ids, es) p =>
            let pf1 := if lb && (i =? l) then mk_range_proof (lbound p) (rbound pf) else pf in
            let pf2 := if rb && (i =? r) then mk_range_proof (lbound pf1) (rbound p) else pf1 in
            range_loop rec l r lb rb is' (acc_i ++ ids) (acc_e ++ es) pf2
        | LNotInMemory => Ok LNotInMemory
        | LNotFound u => Ok (LNotFound u)
        end
    end.

  (** internal.rs 664-730: [range_lookup_internal]. *)
  Fixpoint range_lookup_internal (height : nat) (n : node) (lpath rpath : list nat)
           (lb rb : bool) : outcome merr rres :=
    match n with
    | Empty => Ok (LNotFound tt)
    | Leaf _ p e => Ok (LOk ([p], [e]) (mk_range_proof [] []))
    | Forgotten _ => Ok LNotInMemory
    | Branch _ cs =>
        match height with
        | 0 => Panic
        | S h =>
            let* l := (if lb then index lpath h else Ok 0) in
            let* r := (if rb then index rpath h
                       else match length cs with 0 => Panic | S k => Ok k end) in
            let* res :=
              range_loop
                (fun i => let* c := index cs i in
                          range_lookup_internal h c lpath rpath
                                                (lb && (i =? l)) (rb && (i =? r)))
                l r lb rb (seq l (S r - l)) [] [] (mk_range_proof [] []) in
            match res with
            | LOk ies pf =>
                let pf1 := if lb then mk_range_proof
                                        (lbound pf ++ [map value (firstn l cs)]) (rbound pf)
                           else pf in
                let pf2 := if rb then mk_range_proof (lbound pf1)
                                        (rbound pf1 ++ [map value (skipn (S r) cs)])
                           else pf1 in
                Ok (LOk ies pf2)
            | other => Ok other
            end
        end
    end.

  (** internal.rs 738-858: [update_with_internal]; the integer is the change of
      the number of leaves, modelled by the pair (added, removed). *)
  Fixpoint update_with_internal (height : nat) (n : node) (pos : nat) (path : list nat)
           (f : option E -> option E)
    : outcome merr (node * (nat * nat) * lookup_result E unit unit) :=
    match n with
    | Leaf _ p e =>
        let result := LOk e tt in
        match f (Some e) with
        | Some e' => Ok (Leaf (digest_leaf p e') p e', (0, 0), result)
        | None => Ok (Empty, (0, 1), result)
        end
    | Branch v cs =>
        match height with
        | 0 => Panic
        | S h =>
            let* b := index path h in
            let* c := index cs b in
            let* r := update_with_internal h c pos path f in
            let '(c', delta, result) := r in
            let cs' := set_nth cs b c' in
            if is_forgotten c' then Ok (Branch v cs', delta, result)
            else if forallb is_empty cs' then Ok (Empty, delta, result)
            else Ok (Branch (digest_branch cs') cs', delta, result)
        end
    | Empty =>
        match height with
        | 0 =>
            match f None with
            | Some e => Ok (Leaf (digest_leaf pos e) pos e, (1, 0), LNotFound tt)
            | None => Ok (Empty, (0, 0), LNotFound tt)
            end
        | S h =>
            let* b := index path h in
            let cs := repeat Empty arity in
            let* c := index cs b in
            let* r := update_with_internal h c pos path f in
            let '(c', delta, result) := r in
            let cs' := set_nth cs b c' in
            if is_empty c' then Ok (Empty, (0, 0), result)
            else Ok (Branch (digest_branch cs') cs', delta, result)
        end
    | Forgotten _ => Err ForgottenLeaf
    end.

  (** internal.rs 861-885: [collect_all_with_proofs]; [cur] is the mutable proof
      buffer, indexed by height, each level of length [arity - 1] (the
      [copy_from_slice] calls overwrite the whole level when the node has [arity]
      children). *)
  Fixpoint collect_all_with_proofs (height : nat) (n : node) (cur : proof)
    : outcome merr (list (nat * E * proof) * proof) :=
    match n with
    | Branch _ cs =>
        match height with
        | 0 => Panic
        | S h =>
            let vals := map value cs in
            (fix loop (i : nat) (rest : list node) (cur : proof)
                 (acc : list (nat * E * proof)) :=
               match rest with
               | [] => Ok (acc, cur)
               | c :: rest' =>
                   let cur' := set_nth cur h (firstn i vals ++ skipn (S i) vals) in
                   let* r := collect_all_with_proofs h c cur' in
                   let '(found, cur'') := r in
                   loop (S i) rest' cur'' (acc ++ found)
               end) 0 cs cur []
        end
    | Leaf _ p e => Ok ([(p, e, cur)], cur)
    | Empty | Forgotten _ => Ok ([], cur)
    end.

  (** internal.rs 919-931 and 956-969: the [while data.peek().is_some() &&
      frontier < cap] loop of [extend_internal]; [fuel] is [cap - frontier].
      [touch] models the preparation of the children before each step, which is
      the identity here and the forgetting at 1012-1017/1056-1061 in
      [extend_and_forget_internal]. *)
  Fixpoint extend_loop
           (rec : node -> nat -> bool -> list E -> outcome merr (node * nat * list E))
           (touch : list node -> nat -> list node)
           (at_frontier : bool) (tp : nat)
           (fuel frontier : nat) (cs : list node) (cur_pos cnt : nat) (data : list E)
    : outcome merr (list node * nat * list E) :=
    match data, fuel with
    | [], _ => Ok (cs, cnt, data)
    | _, 0 => Ok (cs, cnt, data)
    | _, S fuel' =>
        let cs1 := touch cs frontier in
        let* c := index cs1 frontier in
        let* r := rec c cur_pos (at_frontier && (frontier =? tp)) data in
        let '(c', inc, data') := r in
        extend_loop rec touch at_frontier tp fuel' (S frontier)
                    (set_nth cs1 frontier c') (cur_pos + inc) (cnt + inc) data'
    end.

  (** internal.rs 894-982 [extend_internal] and 986-1087
      [extend_and_forget_internal]; the two differ only in [touch]. Returns the
      new node, the number of inserted elements and the rest of the iterator. *)
  Fixpoint extend_gen (touch : list node -> nat -> list node)
           (height : nat) (n : node) (pos : nat) (path : list nat)
           (at_frontier : bool) (data : list E)
    : outcome merr (node * nat * list E) :=
    match data with
    | [] => Ok (n, 0, [])
    | e :: rest =>
        match n with
        | Leaf _ _ _ => Err ExistingLeaf
        | Forgotten _ => Err ForgottenLeaf
        | Branch _ _ | Empty =>
            match height with
            | 0 =>
                match n with
                | Empty => Ok (Leaf (digest_leaf pos e) pos e, 1, rest)
                | _ => Panic
                end
            | S h =>
                let cs := match n with Branch _ cs => cs | _ => repeat Empty arity end in
                let* tp := index path h in
                let frontier := if at_frontier then tp else 0 in
                let* r := extend_loop
                            (fun c p af d => extend_gen touch h c p path af d)
                            touch at_frontier tp (arity - frontier) frontier cs pos 0 data in
                let '(cs', cnt, data') := r in
                Ok (Branch (digest_branch cs') cs', cnt, data')
            end
        end
    end.

  Definition extend_internal := extend_gen (fun cs _ => cs).

  (** internal.rs 1012-1017: forget the child left of the frontier. *)
  Definition forget_left (cs : list node) (frontier : nat) : list node :=
    match frontier with
    | 0 => cs
    | S k => match nth_error cs k with
             | Some c => if is_forgotten c then cs else set_nth cs k (Forgotten (value c))
             | None => cs
             end
    end.
  Definition extend_and_forget_internal := extend_gen forget_left.

  (** internal.rs 260-268: the minimal height.  The Rust loop multiplies
      [capacity] by the arity until it reaches [num_leaves]; [fuel] bounds the
      number of rounds ([num_leaves] rounds suffice when [arity >= 2]; with
      [arity = 1] the Rust loop does not terminate for two or more leaves). *)
  Fixpoint min_height (fuel height capacity num_leaves : nat) : nat :=
    match fuel with
    | 0 => height
    | S fuel' => if capacity <? num_leaves
                 then min_height fuel' (S height) (capacity * arity) num_leaves
                 else height
    end.

  Definition pad_empty (cs : list node) : list node :=
    cs ++ repeat Empty (arity - length cs).

  (** internal.rs 315-321 (one chunk). *)
  Definition branch_of (chunk : list node) : node :=
    let cs := pad_empty chunk in Branch (digest_branch cs) cs.

  (** internal.rs 286-308 / 369-397: the first level; [mk] builds the leaf. *)
  Definition enumerate {A} (l : list A) : list (nat * A) := combine (seq 0 (length l)) l.
  Definition first_level (mk : nat -> E -> node) (elems : list E) : list node :=
    map (fun chunk => branch_of (map (fun pe => mk (fst pe) (snd pe)) chunk))
        (chunks arity (enumerate elems)).

  (** internal.rs 309-324 / 403-423: the [for _ in 1..height] loop; [post] is the
      per-level post-processing (identity, or forgetting the inner nodes). *)
  Fixpoint up_levels (post : list node -> list node) (rounds : nat) (cur : list node)
    : list node :=
    match rounds with
    | 0 => cur
    | S r => up_levels post r (post (map branch_of (chunks arity cur)))
    end.

  Definition mk_leaf (p : nat) (e : E) : node := Leaf (digest_leaf p e) p e.

  (** internal.rs 249-327 [build_tree_internal]. *)
  Definition build_gen (mk : nat -> E -> node) (post : list node -> list node)
             (height : option nat) (elems : list E)
    : outcome merr (node * nat * nat) :=
    let num_leaves := length elems in
    let height := match height with
                  | Some h => h
                  | None => min_height num_leaves 0 1 num_leaves
                  end in
    if arity ^ height <? num_leaves then Err ExceedCapacity
    else match elems with
         | [] => Ok (Empty, height, 0)
         | e :: _ =>
             match height with
             | 0 => Ok (mk_leaf 0 e, height, 1)
             | S rounds =>
                 let* root := index (up_levels post rounds (post (first_level mk elems))) 0 in
                 Ok (root, height, num_leaves)
             end
         end.

  Definition build_tree_internal := build_gen mk_leaf (fun l => l).

  (** internal.rs 398-402 / 418-422: nodes strictly between the first and the last
      of a level are forgotten ([1..len-1]; [len] is never 0 here). *)
  Definition forget_inner (l : list node) : list node :=
    map (fun ic => let '(i, c) := ic in
                   if (1 <=? i) && (i <? length l - 1) then Forgotten (value c) else c)
        (enumerate l).

  (** internal.rs 330-426 [build_light_weight_tree_internal].  The
      [checked_pow(..)] overflow error (ParametersError) is not modelled. *)
  Definition build_light_weight_tree_internal (height : option nat) (elems : list E) :=
    build_gen (fun p e => if p <? length elems - 1
                          then Forgotten (digest_leaf p e)
                          else mk_leaf p e)
              forget_inner height elems.

  (** internal.rs 1091-1137: [MerkleTreeIter].  [next] pops the stack until it
      meets a leaf; children are pushed in reverse order, so the first child is
      on top.  The head of the list is the top of the stack. *)
  Definition visible (n : node) : bool :=
    match n with Branch _ _ | Leaf _ _ _ => true | _ => false end.
  Fixpoint iter_next (fuel : nat) (stack : list node) : option (nat * E) * list node :=
    match fuel with
    | 0 => (None, stack)
    | S fuel' =>
        match stack with
        | [] => (None, [])
        | Branch _ cs :: rest => iter_next fuel' (filter visible cs ++ rest)
        | Leaf _ p e :: rest => (Some (p, e), rest)
        | _ :: rest => iter_next fuel' rest
        end
    end.
  (** Draining the iterator ([collect]); [fuel] bounds the number of items and
      [f] the work of each [next]. *)
  Fixpoint iter_collect (fuel f : nat) (stack : list node) : list (nat * E) :=
    match fuel with
    | 0 => []
    | S fuel' =>
        match iter_next f stack with
        | (Some x, stack') => x :: iter_collect fuel' f stack'
        | (None, _) => []
        end
    end.

  (** ** Tree structs: macros.rs 19-31. *)
  Record tree := mk_tree { root : node; height : nat; num_leaves : nat }.

  (** append_only.rs 36-43, light_weight.rs 37-44, universal_merkle_tree.rs 34-41. *)
  Definition tree_new (h : nat) : tree := mk_tree Empty h 0.

  (** macros.rs 62-64. *)
  Definition commitment (t : tree) : T := value (root t).

  (** macros.rs 54-56. *)
  Definition capacity (t : tree) : nat := arity ^ height t.

  (** macros.rs 66-79: [lookup]. *)
  Definition lookup (t : tree) (pos : nat) : outcome merr (lookup_result E proof unit) :=
    let* r := lookup_internal (height t) (root t) (to_traversal_path arity pos (height t)) in
    Ok match r with
       | LOk e p => LOk e p
       | LNotInMemory => LNotInMemory
       | LNotFound _ => LNotFound tt
       end.

  (** macros.rs 81-88: [verify]. *)
  Definition verify (c : T) (pos : nat) (e : E) (pf : proof) : outcome merr bool :=
    verify_merkle_proof c pos (Some e) pf.

  (** macros.rs 135-140: [collect_leaves_with_proofs]. *)
  Definition collect_leaves_with_proofs (t : tree) : outcome merr (list (nat * E * proof)) :=
    let* r := collect_all_with_proofs (height t) (root t)
                                      (repeat (repeat T0 (arity - 1)) (height t)) in
    Ok (fst r).

  (** macros.rs 159-177: [range_lookup]. *)
  Definition range_lookup (t : tree) (start stop : nat) : outcome merr rres :=
    range_lookup_internal (height t) (root t)
                          (to_traversal_path arity start (height t))
                          (to_traversal_path arity stop (height t)) true true.

  (** macros.rs 208-222: [from_commitment]. *)
  Definition from_commitment (c : T) (h n : nat) : tree := mk_tree (Forgotten c) h n.

  (** macros.rs 224-237: [forget]; universal_merkle_tree.rs 155-163:
      [universal_forget] (returns the non-membership proof as well). *)
  Definition universal_forget (t : tree) (pos : nat)
    : outcome merr (tree * lookup_result E proof proof) :=
    let* r := forget_internal (height t) (root t) (to_traversal_path arity pos (height t)) in
    Ok (mk_tree (fst r) (height t) (num_leaves t), snd r).
  Definition forget (t : tree) (pos : nat) : outcome merr (tree * lookup_result E proof unit) :=
    let* r := universal_forget t pos in
    Ok (fst r, match snd r with
               | LOk e p => LOk e p
               | LNotInMemory => LNotInMemory
               | LNotFound _ => LNotFound tt
               end).

  (** macros.rs 239-263: [remember].  On error the tree is unchanged (the result
      carries no tree). *)
  Definition remember (t : tree) (pos : nat) (e : E) (pf : proof) : outcome merr tree :=
    let* ok := verify (commitment t) pos e pf in
    if ok then
      let* r := remember_internal (height t) (root t)
                                  (to_traversal_path arity pos (height t)) pos (Some e) pf in
      Ok (mk_tree r (height t) (num_leaves t))
    else Err InconsistentStructure.

  (** append_only.rs 57-68 / light_weight.rs 58-70: [from_elems]. *)
  Definition of_build (r : outcome merr (node * nat * nat)) : outcome merr tree :=
    let* x := r in let '(n, h, c) := x in Ok (mk_tree n h c).
  Definition from_elems (h : option nat) (elems : list E) : outcome merr tree :=
    of_build (build_tree_internal h elems).
  Definition lw_from_elems (h : option nat) (elems : list E) : outcome merr tree :=
    of_build (build_light_weight_tree_internal h elems).

  (** append_only.rs 81-102 / light_weight.rs 84-105: [extend] mutates the tree
      and then reports [ExceedCapacity] if elements are left over: the result is
      the final tree together with the returned [Result]. *)
  Definition extend_with (ext : nat -> node -> nat -> list nat -> bool -> list E ->
                                outcome merr (node * nat * list E))
             (t : tree) (elems : list E) : tree * outcome merr unit :=
    match ext (height t) (root t) (num_leaves t)
              (to_traversal_path arity (num_leaves t) (height t)) true elems with
    | Ok (r, n, rest) =>
        (mk_tree r (height t) (num_leaves t + n),
         match rest with [] => Ok tt | _ => Err ExceedCapacity end)
    | Err x => (t, Err x)
    | Panic => (t, Panic)
    end.
  Definition extend := extend_with extend_internal.
  Definition lw_extend := extend_with extend_and_forget_internal.
  (** append_only.rs 77-79 / light_weight.rs 80-82. *)
  Definition push (t : tree) (e : E) := extend t [e].
  Definition lw_push (t : tree) (e : E) := lw_extend t [e].

  (** universal_merkle_tree.rs 74-90: [update_with]; 123-143:
      [persistent_update_with] (same computation, the old tree stays available). *)
  Definition update_with (t : tree) (pos : nat) (f : option E -> option E)
    : outcome merr (tree * lookup_result E unit unit) :=
    let* r := update_with_internal (height t) (root t) pos
                                   (to_traversal_path arity pos (height t)) f in
    let '(n, (add, del), res) := r in
    Ok (mk_tree n (height t) (num_leaves t + add - del), res).
  Definition persistent_update_with (t : tree) (pos : nat) (f : option E -> option E)
    : outcome merr tree :=
    let* r := update_with_internal (height t) (root t) pos
                                   (to_traversal_path arity pos (height t)) f in
    let '(n, (add, del), _) := r in
    Ok (mk_tree n (height t) (num_leaves t + add - del)).
  (** lib.rs 316-333: [update] and [remove]. *)
  Definition update (t : tree) (pos : nat) (e : E) := update_with t pos (fun _ => Some e).
  Definition remove (t : tree) (pos : nat) := update_with t pos (fun _ => None).

  (** universal_merkle_tree.rs 47-61: [from_kv_set]. *)
  Fixpoint from_kv_loop (t : tree) (kvs : list (nat * E)) : outcome merr tree :=
    match kvs with
    | [] => Ok t
    | (k, v) :: rest => let* r := update t k v in from_kv_loop (fst r) rest
    end.
  Definition from_kv_set (h : nat) (kvs : list (nat * E)) := from_kv_loop (tree_new h) kvs.

  (** universal_merkle_tree.rs 92-103 and 105-112. *)
  Definition non_membership_verify (c : T) (pos : nat) (pf : proof) : outcome merr bool :=
    verify_merkle_proof c pos None pf.
  Definition universal_lookup (t : tree) (pos : nat)
    : outcome merr (lookup_result E proof proof) :=
    lookup_internal (height t) (root t) (to_traversal_path arity pos (height t)).

  (** universal_merkle_tree.rs 165-187: [non_membership_remember]. *)
  Definition non_membership_remember (t : tree) (pos : nat) (pf : proof) : outcome merr tree :=
    let* ok := non_membership_verify (commitment t) pos pf in
    if ok then
      let* r := remember_internal (height t) (root t)
                                  (to_traversal_path arity pos (height t)) pos None pf in
      Ok (mk_tree r (height t) (num_leaves t))
    else Err InconsistentStructure.

End Merkle.
