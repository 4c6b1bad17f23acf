(** Model of the Merkle tree gadgets, /repo/merkle_tree/src/gadgets/mod.rs and
    /repo/merkle_tree/src/gadgets/universal_merkle_tree.rs, and of the Rescue digest
    of /repo/merkle_tree/src/prelude.rs. *)

From Coq Require Import List Arith NArith ZArith Bool.
From Verif Require Import Base Alg ConvModel RescueModel CircuitModel GadgetModel RescueGadgetModel MerkleModel.
Import ListNotations.
Local Open Scope fld_scope.
Local Open Scope circ_scope.

(** gadgets/mod.rs:229-241 [Merkle3AryNodeVar]; a proof variable is the list of its
    nodes (mod.rs:246-249). *)
Record mnode := MN { sib1 : nat; sib2 : nat; is_left : nat; is_right : nat }.

Section MerkleGadget.
  Context {K : fld}.
  Variable P : rescue_params K.
  Notation C := (circ K).

  (** prelude.rs:55-61 [RescueHash::digest].  The sponge does not fail on a padded
      input; [0] stands for the panic that does not happen. *)
  Definition rescue_node (data : list K) : K :=
    match sponge_with_zero_padding P (0 :: data) 1 with Ok (h :: _) => h | _ => 0 end.
  (** prelude.rs:62-65 [RescueHash::digest_leaf], on the position as a field element *)
  Definition rescue_leaf_at (x e : K) : K :=
    match sponge_with_zero_padding P [1; x; e] 1 with Ok (h :: _) => h | _ => 0 end.
  (** prelude.rs:62-65; [F::from(pos)] reduces the position modulo the characteristic. *)
  Definition rescue_leaf (pos : nat) (e : K) : K := rescue_leaf_at (fZ (Z.of_nat pos)) e.

  (** mod.rs:211-228 *)
  Definition constrain_sibling_order (node a b l r : nat) : C (list nat) :=
    x <- conditional_select l a node ;;
    z <- conditional_select r b node ;;
    s <- add x z ;;
    y <- lc node a b s 1 1 1 (- (1)) ;;
    ret [x; y; z].
  (** mod.rs:270-277; [resize] with the variable [zero()]. *)
  Definition digest_g (data : list nat) : C nat :=
    n <- next_len (length (0%nat :: data)) CRHF_RATE ;;
    r <- rescue_sponge_no_padding P ((0%nat :: data) ++ repeat 0%nat (n - length (0%nat :: data))) 1 ;; idx r 0.
  (** mod.rs:279-290 *)
  Definition digest_leaf_g (pos elem : nat) : C nat :=
    n <- next_len (length [1; pos; elem]%nat) CRHF_RATE ;;
    r <- rescue_sponge_no_padding P ([1; pos; elem]%nat ++ repeat 0%nat (n - length [1; pos; elem]%nat)) 1 ;; idx r 0.

  (** mod.rs:324-331 and universal_merkle_tree.rs:116-124: the two flags of a node
      are not both set. *)
  Definition check_flags (nodes : list mnode) : C unit :=
    iterM (fun n => s <- add (is_left n) (is_right n) ;; enforce_bool s) nodes.
  (** mod.rs:313-320: the variables of one node *)
  Definition create_node (bs : nat * list K) : C mnode :=
    let '(branch, sibs) := bs in
    x <- idx sibs 0 ;; a <- create_variable x ;;
    y <- idx sibs 1 ;; b <- create_variable y ;;
    l <- create_boolean_variable (branch =? 0)%nat ;;
    r <- create_boolean_variable (branch =? 2)%nat ;;
    ret (MN a b l r).
  (** mod.rs:303-334 *)
  Definition create_membership_proof_variable (pos : nat) (pf : list (list K)) : C (list mnode) :=
    nodes <- mapM create_node (combine (to_traversal_path 3 pos (length pf)) pf) ;;
    check_flags nodes >> ret nodes.
  (** mod.rs:336-341 *)
  Definition create_commitment_variable (commitment : K) : C nat := create_variable commitment.

  (** mod.rs:354-366, one level *)
  Definition member_step (label : nat) (n : mnode) : C nat :=
    ls <- constrain_sibling_order label (sib1 n) (sib2 n) (is_left n) (is_right n) ;;
    x <- idx ls 0 ;; non_zero_gate x >> digest_g ls.
  (** mod.rs:343-369 *)
  Definition is_member (pos elem : nat) (nodes : list mnode) (commitment : nat) : C nat :=
    l0 <- digest_leaf_g pos elem ;;
    l <- foldM member_step l0 nodes ;;
    is_equal commitment l.
  (** mod.rs:371-386 *)
  Definition enforce_membership_proof (pos elem : nat) (nodes : list mnode) (commitment : nat) : C unit :=
    b <- is_member pos elem nodes commitment ;; enforce_true b.

  (** universal_merkle_tree.rs:94-114 *)
  Definition create_node_opt (bs : nat * list K) : C mnode :=
    let '(branch, sibs) := bs in
    let get i := (if (length sibs =? 0)%nat then ret 0%nat else x <- idx sibs i ;; create_variable x) in
    a <- get 0%nat ;; b <- get 1%nat ;;
    l <- create_boolean_variable (branch =? 0)%nat ;;
    r <- create_boolean_variable (branch =? 2)%nat ;;
    ret (MN a b l r).
  (** universal_merkle_tree.rs:87-127 *)
  Definition create_non_membership_proof_variable (pos : nat) (pf : list (list K)) : C (list mnode) :=
    nodes <- mapM create_node_opt (combine (to_traversal_path 3 pos (length pf)) pf) ;;
    check_flags nodes >> ret nodes.

  (** universal_merkle_tree.rs:40-46: the index given by the flags, from [base] on *)
  Fixpoint flags_index (base : K) (acc : nat) (nodes : list mnode) : C nat :=
    match nodes with
    | [] => ret acc
    | n :: rest =>
        c1 <- sub 1 (is_left n) ;;
        c2 <- add c1 (is_right n) ;;
        t <- mul_constant c2 base ;;
        acc' <- add acc t ;;
        flags_index (base + base + base) acc' rest
    end.
  (** universal_merkle_tree.rs:52-69, one level *)
  Definition non_member_step (label : nat) (n : mnode) : C nat :=
    ls <- constrain_sibling_order label (sib1 n) (sib2 n) (is_left n) (is_right n) ;;
    x <- idx ls 0 ;; zx <- is_zero x ;;
    y <- idx ls 1 ;; zy <- is_zero y ;;
    z <- idx ls 2 ;; zz <- is_zero z ;;
    all <- logic_and_all [zx; zy; zz] ;;
    d <- digest_g ls ;;
    conditional_select all d 0.
  (** universal_merkle_tree.rs:31-75 *)
  Definition is_non_member (pos : nat) (nodes : list mnode) (commitment : nat) : C nat :=
    cum <- flags_index 1 0 nodes ;;
    ic <- is_equal cum pos ;;
    l <- foldM non_member_step 0%nat nodes ;;
    cc <- is_equal l commitment ;;
    logic_and ic cc.
  (** universal_merkle_tree.rs:77-85 *)
  Definition enforce_non_membership_proof (pos : nat) (nodes : list mnode) (commitment : nat) : C unit :=
    b <- is_non_member pos nodes commitment ;; enforce_true b.
End MerkleGadget.
