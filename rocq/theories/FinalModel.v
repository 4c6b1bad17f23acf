(** Model of circuit finalization, merging and the permutation and lookup
    arguments' vectors (/repo/relation/src/constraint_system.rs). *)

From Coq Require Import List Arith ZArith Bool Lia.
From Verif Require Import Base Alg Poly CircuitModel.
Import ListNotations.
Local Open Scope fld_scope.
Local Open Scope circ_scope.

(** [Vec::resize] *)
Definition vresize {A} (n : nat) (d : A) (l : list A) : list A := firstn n (l ++ repeat d (n - length l)).
(** [slice::swap]: panics out of bounds. *)
Definition vswap {X A} (l : list A) (i j : nat) : outcome X (list A) :=
  let* a := index l i in let* b := index l j in Ok (set_nth (set_nth l i b) j a).
(** [windows(2)] *)
Definition windows2 {A} (l : list A) : list (A * A) := combine l (tl l).

Section Final.
  Variable K : fld.
  (** [F::TWO_ADICITY] *)
  Variable two_adicity : nat.

  Notation circuit := (circuit K).
  Notation circ := (circ K).
  Notation padding_gate := (padding_gate K).
  Definition zero_row : row := mk_row 0 0 0 0 0.

  Definition set_domain (n : nat) (c : circuit) : circuit :=
    mk_circuit K (num_vars c) (gates c) (rows c) (range_col c) (pub_ids c) (witness c) (wire_perm c) n (ptype c)
      (num_table_elems c) (table_ids c).
  Definition set_gr (gs : list (gate K)) (rs : list row) (c : circuit) : circuit :=
    mk_circuit K (num_vars c) gs rs (range_col c) (pub_ids c) (witness c) (wire_perm c) (domain c) (ptype c)
      (num_table_elems c) (table_ids c).
  Definition set_range (l : list nat) (c : circuit) : circuit :=
    mk_circuit K (num_vars c) (gates c) (rows c) l (pub_ids c) (witness c) (wire_perm c) (domain c) (ptype c)
      (num_table_elems c) (table_ids c).
  Definition set_pub_ids (l : list nat) (c : circuit) : circuit :=
    mk_circuit K (num_vars c) (gates c) (rows c) (range_col c) l (witness c) (wire_perm c) (domain c) (ptype c)
      (num_table_elems c) (table_ids c).
  Definition set_perm (l : list (nat * nat)) (c : circuit) : circuit :=
    mk_circuit K (num_vars c) (gates c) (rows c) (range_col c) (pub_ids c) (witness c) l (domain c) (ptype c)
      (num_table_elems c) (table_ids c).

  (** ark_poly Radix2EvaluationDomain::new: the size is the next power of two;
      [None] when it exceeds the field's two-adicity. *)
  Definition radix2_size (k : nat) : option nat :=
    let l := Nat.log2_up k in if l <=? two_adicity then Some (2 ^ l)%nat else None.

  (** constraint_system.rs:874-884.  The five algebraic columns are the rows; the
      sixth column exists for UltraPlonk only. *)
  Definition pad_c (c : circuit) : circuit :=
    let n := domain c in
    let c1 := set_gr (gates c ++ repeat padding_gate (n - num_gates c)) (vresize n zero_row (rows c)) c in
    match ptype c with
    | Turbo => c1
    | Ultra _ => set_range (vresize n 0%nat (range_col c)) c1
    end.

  (** Swapping gates [i] and [j] with their five wires. *)
  Definition swap_gates (i j : nat) (c : circuit) : outcome cerr circuit :=
    let* gs := vswap (gates c) i j in
    let* rs := vswap (rows c) i j in
    Ok (set_gr gs rs c).

  (** constraint_system.rs:834-846: [i] is the enumerate counter. *)
  Fixpoint move_io (i : nat) (ids : list nat) (c : circuit) : outcome cerr (list nat * circuit) :=
    match ids with
    | [] => Ok ([], c)
    | id :: ids' =>
        let* r := (if i <? id then let* c' := swap_gates i id c in Ok (i, c') else Ok (id, c)) in
        let* r' := move_io (S i) ids' (snd r) in
        Ok (fst r :: fst r', snd r')
    end.
  (** constraint_system.rs:853-863: [ids] are the gate ids of the tables, last
      first; [cur] is [cur_gate_id]. *)
  Fixpoint move_tables (ids : list nat) (cur : nat) (c : circuit) : outcome cerr circuit :=
    match ids with
    | [] => Ok c
    | id :: ids' =>
        if id <? cur then let* c' := swap_gates id cur c in move_tables ids' (cur - 1) c'
        else move_tables ids' cur c
    end.
  Definition table_gate_list (c : circuit) : list nat :=
    concat (map (fun t => rev (seq (fst t) (snd t))) (rev (table_ids c))).
  (** constraint_system.rs:832-866 *)
  Definition rearrange_gates (c : circuit) : outcome cerr circuit :=
    let* r := move_io 0 (pub_ids c) c in
    let c1 := set_pub_ids (fst r) (snd r) in
    match ptype c with
    | Turbo => Ok c1
    | Ultra _ => move_tables (table_gate_list c) (domain c - 2) c1
    end.

  (** The columns [wire_variables[0..num_wire_types]]. *)
  Definition wire_cols (c : circuit) : list (list nat) :=
    map (fun i => map (wire_of i) (rows c)) (seq 0 5)
    ++ match ptype c with Turbo => [] | Ultra _ => [range_col c] end.
  (** All slots (wire, gate) with their variables, wire by wire. *)
  Definition slot_vars (cols : list (list nat)) : list ((nat * nat) * nat) :=
    concat (map (fun ic => map (fun jv => ((fst ic, fst jv), snd jv)) (combine (seq 0 (length (snd ic))) (snd ic)))
                (combine (seq 0 (length cols)) cols)).
  (** constraint_system.rs:949-963 *)
  Fixpoint wires_map (svs : list ((nat * nat) * nat)) (m : list (list (nat * nat))) :
      outcome cerr (list (list (nat * nat))) :=
    match svs with
    | [] => Ok m
    | (s, v) :: svs' => let* l := index m v in wires_map svs' (set_nth m v (l ++ [s]))
    end.
  (** constraint_system.rs:967-979 for one variable *)
  Definition link_cycle (n : nat) (perm : list (nat * nat)) (wires : list (nat * nat)) : list (nat * nat) :=
    match wires with
    | [] => perm
    | s0 :: _ =>
        fold_left (fun p ab => set_nth p (fst (fst ab) * n + snd (fst ab)) (snd ab))
          (windows2 (wires ++ [s0])) perm
    end.
  (** constraint_system.rs:943-981 *)
  Definition compute_wire_permutation (c : circuit) : outcome cerr (list (nat * nat)) :=
    let n := domain c in
    let* m := wires_map (slot_vars (wire_cols c)) (repeat [] (num_vars c)) in
    Ok (fold_left (link_cycle n) m (repeat (0%nat, 0%nat) (num_wire_types c * n))).

  (** constraint_system.rs:1170-1180 *)
  Definition slots_needed (c : circuit) : nat :=
    match ptype c with
    | Turbo => num_gates c
    | Ultra b => Nat.max (num_gates c) (Nat.max (2 ^ b) (length (range_col c)) + num_table_elems c + 1)
    end.

  (** constraint_system.rs:1167-1188.  The field-valued extended identity
      permutation is computed by [ext_id] below. *)
  Definition finalize_for_arithmetization : circ unit := fun c =>
    if is_finalized c then (Ok tt, c)
    else
      match radix2_size (slots_needed c) with
      | None => (Err InternalError, c)
      | Some n =>
          let c1 := set_domain n c in
          if negb (is_finalized c1) then (Err UnfinalizedCircuit, c1)
          else
            match rearrange_gates (pad_c c1) with
            | Ok c2 =>
                match compute_wire_permutation c2 with
                | Ok p => (Ok tt, set_perm p c2)
                | Err e => (Err e, c2)
                | Panic => (Panic, c2)
                end
            | Err e => (Err e, c1)
            | Panic => (Panic, c1)
            end
      end.

  (** constraint_system.rs:1192-1246 *)
  Inductive merge_type := TypeA | TypeB.
  Definition widen_perm (nw n : nat) (t : merge_type) (perm : list (nat * nat)) : outcome cerr (list (nat * nat)) :=
    let base := repeat (nw, 0%nat) (nw * 2 * n) in
    fold_left (fun acc ij =>
        let* p := acc in
        let* s := index perm (fst ij * n + snd ij) in
        match t with
        | TypeA => Ok (set_nth p (fst ij * 2 * n + snd ij) s)
        | TypeB => Ok (set_nth p (fst ij * 2 * n + 2 * n - 1 - snd ij) (fst s, (2 * n - 1 - snd s)%nat))
        end) (list_prod (seq 0 nw) (seq 0 n)) (Ok base).
  Definition finalize_for_mergeable_circuit (t : merge_type) : circ unit := fun c =>
    match ptype c with
    | Ultra _ => (Err WrongPlonkType, c)
    | Turbo =>
        match finalize_for_arithmetization c with
        | (Err e, c') => (Err e, c')
        | (Panic, c') => (Panic, c')
        | (Ok _, c1) =>
            if negb (is_finalized c1) then (Err UnfinalizedCircuit, c1)
            else
              let n := domain c1 in
              match radix2_size (2 * n) with
              | None => (Err InternalError, c1)
              | Some n2 =>
                  let gs := gates c1 ++ repeat padding_gate n in
                  let rs := vresize (2 * n) zero_row (rows c1) in
                  match widen_perm (num_wire_types c1) n t (wire_perm c1) with
                  | Ok p =>
                      match t with
                      | TypeA => (Ok tt, set_perm p (set_gr gs rs (set_domain n2 c1)))
                      | TypeB =>
                          (Ok tt, set_perm p (set_pub_ids (map (fun i => 2 * n - 1 - i)%nat (pub_ids c1))
                                     (set_gr (rev gs) (rev rs) (set_domain n2 c1))))
                      end
                  | Err e => (Err e, c1)
                  | Panic => (Panic, c1)
                  end
              end
        end
    end.

  Definition shift_row (k : nat) (r : row) : row := mk_row (r0 r + k) (r1 r + k) (r2 r + k) (r3 r + k) (r4 r + k).
  (** constraint_system.rs:1314-1330: the variables of gates [js] of a circuit,
      the zero variable beyond the end of a column. *)
  Definition row_at (c : circuit) (j : nat) : row := nth j (rows c) zero_row.
  (** constraint_system.rs:1333-1339 *)
  Definition merge_perm (nw n : nat) (pa pb : list (nat * nat)) : list (nat * nat) :=
    concat (map (fun i => map (fun j => nth (i * 2 * n + j) pa (0%nat, 0%nat)) (seq 0 n)
                          ++ map (fun j => nth (i * 2 * n + n + j) pb (0%nat, 0%nat)) (seq 0 n)) (seq 0 nw)).
  (** constraint_system.rs:1250-1345 *)
  Definition merge (a b : circuit) : outcome cerr circuit :=
    if negb (is_finalized a) then Err UnfinalizedCircuit
    else if negb (is_finalized b) then Err UnfinalizedCircuit
    else if negb (domain a =? domain b) then Err ParameterError
    else match ptype a, ptype b with
    | Turbo, Turbo =>
        if negb (num_inputs a =? num_inputs b) then Err ParameterError
        else
          let* ia := index (pub_ids a) 0 in
          if negb (ia =? 0) then Err ParameterError
          else
            let* ib := index (pub_ids b) 0 in
            if negb (ib =? domain b - 1) then Err ParameterError
            else
              let n := (domain a / 2)%nat in
              let ga := firstn n (gates a) in
              let gb := skipn n (gates b) in
              Ok (mk_circuit K (num_vars a + num_vars b) (ga ++ gb)
                    (map (row_at a) (seq 0 (length ga))
                     ++ map (fun j => shift_row (num_vars a) (row_at b (n + j))) (seq 0 (length gb)))
                    [] (pub_ids a ++ pub_ids b) (witness a ++ witness b)
                    (merge_perm (num_wire_types a) n (wire_perm a) (wire_perm b))
                    (domain a) Turbo 0 [])
    | _, _ => Err ParameterError
    end.

  (** constants.rs:29-81: the values drawn from the generator are the list [rnd];
      [None] when the search runs past them.  [is_valid_k] inverts [k^N], which
      panics for [k = 0]. *)
  Definition coset_valid (pk : K) (pows : list K) : bool :=
    negb (existsb (fun q => feqb (finv pk * q) 1) pows).
  Fixpoint coset_loop (N todo : nat) (rnd : list K) (ks pows : list K) : option (outcome cerr (list K)) :=
    match todo with
    | O => Some (Ok ks)
    | S t =>
        match rnd with
        | [] => None
        | x :: rnd' =>
            let px := fpow x N in
            if feqb px 0 then Some Panic
            else if coset_valid px pows then coset_loop N t rnd' (ks ++ [x]) (pows ++ [px])
            else coset_loop N (S t) rnd' ks pows
        end
    end.
  Definition compute_coset_representatives (nw N : nat) (rnd : list K) : option (outcome cerr (list K)) :=
    match nw with O => Some (Ok []) | S t => coset_loop N t rnd [1] [1] end.

  (** constraint_system.rs:1112-1127: [ks] the coset representatives, [om] the
      generator of the domain. *)
  Definition ext_id (ks : list K) (om : K) (n : nat) : list K :=
    concat (map (fun k => map (fun j => k * fpow om j) (seq 0 n)) ks).

  (** constraint_system.rs:1394-1422, the vector before the inverse FFT.
      [val i j] is [witness[wire_variable(i, j)]]. *)
  Definition perm_num (nw n : nat) (val : nat -> nat -> K) (ids : list K) (beta gamma : K) (j : nat) : K :=
    fprod (map (fun i => val i j + gamma + beta * nth (i * n + j) ids 0) (seq 0 nw)).
  Definition perm_den (nw n : nat) (val : nat -> nat -> K) (ids : list K) (perm : list (nat * nat)) (beta gamma : K)
      (j : nat) : K :=
    fprod (map (fun i => let s := nth (i * n + j) perm (0%nat, 0%nat) in
                         val i j + gamma + beta * nth (fst s * n + snd s) ids 0) (seq 0 nw)).
  Fixpoint prod_vec (z : K) (num den : nat -> K) (j k : nat) : list K :=
    match k with
    | O => []
    | S k' => z :: prod_vec (z * num j * finv (den j)) num den (S j) k'
    end.
  Definition compute_prod_permutation (c : circuit) (ids : list K) (beta gamma : K) : list K :=
    let n := domain c in
    let val := fun i j => nth (wire_variable c i j) (witness c) 0 in
    prod_vec 1 (perm_num (num_wire_types c) n val ids beta gamma)
               (perm_den (num_wire_types c) n val ids (wire_perm c) beta gamma) 0 n.

  (** constraint_system.rs:1450-1462, the vector before the inverse FFT *)
  Definition pub_input_vec (c : circuit) : list K :=
    fold_left (fun v id => set_nth v id (nth (r4 (row_at c id)) (witness c) 0)) (pub_ids c) (repeat 0 (domain c)).

  (** constraint_system.rs:1628-1643 *)
  Definition range_table (c : circuit) : outcome cerr (list K) :=
    match ptype c with
    | Turbo => Err WrongPlonkType
    | Ultra b =>
        if negb (is_finalized c) then Err UnfinalizedCircuit
        else if domain c <? 2 ^ b then Err ParameterError
        else Ok (vresize (domain c) 0 (map (fun i => fnat i) (seq 0 (2 ^ b))))
    end.
  Definition gate_at (c : circuit) (j : nat) : gate K := nth j (gates c) padding_gate.
  Definition wit (c : circuit) (v : nat) : K := nth v (witness c) 0.
  (** constraint_system.rs:1645-1667 *)
  Definition merged_table_value (c : circuit) (tau : K) (rt : list K) (i : nat) : K :=
    let g := gate_at c i in
    nth i rt 0 + q_lookup g * tau *
      (table_dom_sep g + tau * (table_key g + tau * (wit c (wire_variable c 3 i) + tau * wit c (wire_variable c 4 i)))).
  Definition merged_table (c : circuit) (tau : K) (rt : list K) : list K :=
    map (merged_table_value c tau rt) (seq 0 (domain c)).
  (** constraint_system.rs:1669-1688 *)
  Definition merged_lookup_value (c : circuit) (tau : K) (i : nat) : K :=
    let g := gate_at c i in
    wit c (wire_variable c 5 i) + q_lookup g * tau *
      (q_dom_sep g + tau * (wit c (wire_variable c 0 i)
         + tau * (wit c (wire_variable c 1 i) + tau * wit c (wire_variable c 2 i)))).
  Definition lookup_values (c : circuit) (tau : K) : list K :=
    map (merged_lookup_value c tau) (seq 0 (domain c - 1)).

  (** constraint_system.rs:1592-1618: [lookup_map] as the list of (value, count)
      entries not yet used. *)
  Fixpoint count (x : K) (l : list K) : nat :=
    match l with [] => 0 | y :: l' => if feqb x y then S (count x l') else count x l' end.
  Fixpoint sorted_vec (table seen lookups : list K) : list K :=
    match table with
    | [] => []
    | e :: t' =>
        if existsb (feqb e) seen then e :: sorted_vec t' seen lookups
        else repeat e (S (count e lookups)) ++ sorted_vec t' (e :: seen) lookups
    end.
  Definition lookup_sorted_vec (n : nat) (table lookups : list K) : outcome cerr (list K) :=
    let s := sorted_vec table [] lookups in
    if length s =? 2 * n - 1 then Ok s else Err ParameterError.

  (** constraint_system.rs:1538-1566 *)
  Definition lookup_num (table lookups : list K) (beta gamma : K) (j : nat) : K :=
    (1 + beta) * (gamma + nth j lookups 0) * (gamma * (1 + beta) + nth j table 0 + beta * nth (S j) table 0).
  Definition lookup_den (n : nat) (s : list K) (beta gamma : K) (j : nat) : K :=
    (gamma * (1 + beta) + nth j s 0 + beta * nth (S j) s 0)
    * (gamma * (1 + beta) + nth (n - 1 + j) s 0 + beta * nth (n + j) s 0).
  Definition lookup_prod_vec (n : nat) (table lookups s : list K) (beta gamma : K) : list K :=
    prod_vec 1 (lookup_num table lookups beta gamma) (lookup_den n s beta gamma) 0 (n - 1) ++ [1].
End Final.
