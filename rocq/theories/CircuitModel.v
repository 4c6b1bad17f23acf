(** Model of the PLONK constraint system builder.

    Models /repo/relation/src/constraint_system.rs and the gate definitions of
    /repo/relation/src/gates/*.rs.  The state of a [PlonkCircuit] is a record;
    a method taking [&mut self] is a function from the state to an outcome and
    the state it leaves behind, so that partial effects before an error stay
    visible.  Witness values are elements of an arbitrary field [K]; [zval] is
    the canonical integer representative of a field element ([into_bigint]). *)

From Coq Require Import List Arith ZArith Bool Lia.
From Verif Require Import Base Alg.
Import ListNotations.
Local Open Scope fld_scope.

(** relation/src/lib.rs CircuitError and the variants used by the builder;
    message strings are dropped. *)
Inductive cerr :=
| VarIndexOutOfBound (var num_vars : nat)
| PubInputLenMismatch (got want : nat)
| WrongPlonkType
| ModifyFinalizedCircuit
| UnfinalizedCircuit
| GateCheckFailure (id : nat)
| IndexError
| ParameterError
| LookupUnsupported
| FieldAlgebraError
| InternalError
| UnsupportedCurve.

Section Circuit.
  Variable K : fld.
  Variable zval : K -> Z.

  (** gates/mod.rs:31-74, the [Gate] trait: a gate is the tuple of its selector
      values.  [is_io] stands for the downcast to [IoGate]
      (constraint_system.rs:868-870). *)
  Record gate := mk_gate {
    q_lc0 : K; q_lc1 : K; q_lc2 : K; q_lc3 : K;
    q_mul0 : K; q_mul1 : K;
    q_hash0 : K; q_hash1 : K; q_hash2 : K; q_hash3 : K;
    q_o : K; q_c : K; q_ecc : K;
    q_lookup : K; q_dom_sep : K; table_key : K; table_dom_sep : K;
    is_io : bool }.

  (** An algebraic gate: no lookup selectors, not an io gate. *)
  Definition agate (lc0 lc1 lc2 lc3 m0 m1 h0 h1 h2 h3 o c ecc : K) : gate :=
    mk_gate lc0 lc1 lc2 lc3 m0 m1 h0 h1 h2 h3 o c ecc 0 0 0 0 false.

  (** gates/mod.rs:96-107 *)
  Definition padding_gate : gate := agate 0 0 0 0 0 0 0 0 0 0 0 0 0.
  (** gates/arithmetic.rs ConstantGate *)
  Definition constant_gate (v : K) : gate := agate 0 0 0 0 0 0 0 0 0 0 1 v 0.
  (** gates/arithmetic.rs AdditionGate *)
  Definition addition_gate : gate := agate 1 1 0 0 0 0 0 0 0 0 1 0 0.
  (** gates/arithmetic.rs ConstantAdditionGate *)
  Definition constant_addition_gate (v : K) : gate := agate 1 0 0 0 0 0 0 0 0 0 1 v 0.
  (** gates/arithmetic.rs SubtractionGate *)
  Definition subtraction_gate : gate := agate 1 (- (1)) 0 0 0 0 0 0 0 0 1 0 0.
  (** gates/arithmetic.rs MultiplicationGate *)
  Definition multiplication_gate : gate := agate 0 0 0 0 1 0 0 0 0 0 1 0 0.
  (** gates/arithmetic.rs ConstantMultiplicationGate *)
  Definition constant_multiplication_gate (v : K) : gate := agate v 0 0 0 0 0 0 0 0 0 1 0 0.
  (** gates/arithmetic.rs BoolGate *)
  Definition bool_gate : gate := agate 0 0 0 0 1 0 0 0 0 0 1 0 0.
  (** gates/arithmetic.rs EqualityGate *)
  Definition equality_gate : gate := agate 1 (- (1)) 0 0 0 0 0 0 0 0 1 0 0.
  (** gates/arithmetic.rs IoGate *)
  Definition io_gate : gate := mk_gate 0 0 0 0 0 0 0 0 0 0 1 0 0 0 0 0 0 true.
  (** gates/arithmetic.rs FifthRootGate *)
  Definition fifth_root_gate : gate := agate 0 0 0 0 0 0 1 0 0 0 1 0 0.
  (** gates/arithmetic.rs QuadPolyGate *)
  Definition quad_poly_g (l0 l1 l2 l3 m0 m1 o c : K) : gate := agate l0 l1 l2 l3 m0 m1 0 0 0 0 o c 0.
  (** gates/arithmetic.rs LinCombGate *)
  Definition lin_comb_gate (c0 c1 c2 c3 : K) : gate := agate c0 c1 c2 c3 0 0 0 0 0 0 1 0 0.
  (** gates/arithmetic.rs MulAddGate *)
  Definition mul_add_g (m0 m1 : K) : gate := agate 0 0 0 0 m0 m1 0 0 0 0 1 0 0.
  (** gates/arithmetic.rs CondSelectGate *)
  Definition cond_select_gate : gate := agate 0 1 0 0 (- (1)) 1 0 0 0 0 1 0 0.
  (** gates/logic.rs LogicOrGate *)
  Definition logic_or_g : gate := agate 1 1 0 0 (- (1)) 0 0 0 0 0 0 (- (1)) 0.
  (** gates/logic.rs LogicOrOutputGate *)
  Definition logic_or_output_gate : gate := agate 1 1 0 0 (- (1)) 0 0 0 0 0 1 0 0.
  (** gates/ecc.rs EdwardsCurveEquationGate, [a] and [d] the curve coefficients *)
  Definition edwards_eq_gate (a d : K) : gate := agate 0 0 0 0 (- a) (- (1)) 0 0 0 0 0 1 d.
  (** gates/ecc.rs CurvePointXAdditionGate *)
  Definition edwards_add_x_gate (a d : K) : gate := agate 0 0 0 0 1 1 0 0 0 0 1 0 (- d).
  (** gates/ecc.rs CurvePointYAdditionGate *)
  Definition edwards_add_y_gate (a d : K) : gate := agate 0 0 0 0 (- a) 1 0 0 0 0 1 0 d.
  (** gates/ecc.rs QuaternaryPointSelectXGate *)
  Definition quaternary_x_gate (x1 x2 x3 : K) : gate :=
    agate x1 x2 0 0 (x3 - x2 - x1) 0 0 0 0 0 1 0 0.
  (** gates/ecc.rs QuaternaryPointSelectYGate *)
  Definition quaternary_y_gate (y1 y2 y3 : K) : gate :=
    agate (y1 - 1) (y2 - 1) 0 0 (y3 - y2 - y1 + 1) 0 0 0 0 0 1 1 0.
  (** gates/lookup.rs LookupGate *)
  Definition lookup_gate (ds tds tk : K) : gate :=
    mk_gate 0 0 0 0 0 0 0 0 0 0 0 0 0 1 ds tk tds false.

  (** The five algebraic wires of one gate.  The code keeps five column vectors
      [wire_variables[0..4]]; [insert_gate], [pad], [rearrange_gates] and [merge]
      treat the five columns alike, so the model keeps rows. *)
  Record row := mk_row { r0 : nat; r1 : nat; r2 : nat; r3 : nat; r4 : nat }.

  (** constraint_system.rs:55-61; UltraPlonk carries [range_bit_len]. *)
  Inductive plonk_type := Turbo | Ultra (range_bit_len : nat).

  (** constraint_system.rs:346-397.  [domain] is the size of [eval_domain]; the
      group generator and the field-valued [extended_id_permutation] are derived
      data and are computed by separate functions. *)
  Record circuit := mk_circuit {
    num_vars : nat;
    gates : list gate;
    rows : list row;
    range_col : list nat;
    pub_ids : list nat;
    witness : list K;
    wire_perm : list (nat * nat);
    domain : nat;
    ptype : plonk_type;
    num_table_elems : nat;
    table_ids : list (nat * nat) }.

  (** [&mut self -> Result<A, CircuitError>]. *)
  Definition circ (A : Type) := circuit -> outcome cerr A * circuit.

  Definition ret {A} (a : A) : circ A := fun c => (Ok a, c).
  Definition fail {A} (e : cerr) : circ A := fun c => (Err e, c).
  Definition cpanic {A} : circ A := fun c => (Panic, c).
  Definition cbind {A B} (m : circ A) (k : A -> circ B) : circ B :=
    fun c => match m c with
             | (Ok a, c') => k a c'
             | (Err e, c') => (Err e, c')
             | (Panic, c') => (Panic, c')
             end.
  (** A [&self] computation. *)
  Definition lift {A} (f : circuit -> outcome cerr A) : circ A := fun c => (f c, c).
  Definition modify (f : circuit -> circuit) : circ unit := fun c => (Ok tt, f c).

  Notation "x <- m ;; k" := (cbind m (fun x => k)) (at level 61, m at next level, right associativity).
  Notation "m >> k" := (cbind m (fun _ => k)) (at level 61, right associativity).

  (** [iter().map(..).collect::<Result<Vec<_>,_>>()] with effects. *)
  Fixpoint mapM {A B} (f : A -> circ B) (l : list A) : circ (list B) :=
    match l with
    | [] => ret []
    | a :: l' => b <- f a ;; bs <- mapM f l' ;; ret (b :: bs)
    end.
  (** [for x in l { f(x)? }] *)
  Fixpoint iterM {A} (f : A -> circ unit) (l : list A) : circ unit :=
    match l with
    | [] => ret tt
    | a :: l' => f a >> iterM f l'
    end.
  (** [try_fold] *)
  Fixpoint foldM {A B} (f : B -> A -> circ B) (b : B) (l : list A) : circ B :=
    match l with
    | [] => ret b
    | a :: l' => b' <- f b a ;; foldM f b' l'
    end.
  (** [v[i]] *)
  Definition idx {A} (l : list A) (i : nat) : circ A := lift (fun _ => index l i).

  Definition num_gates (c : circuit) : nat := length (gates c).
  Definition num_inputs (c : circuit) : nat := length (pub_ids c).
  (** constraint_system.rs:413-418 *)
  Definition num_wire_types (c : circuit) : nat :=
    match ptype c with Turbo => 5 | Ultra _ => 6 end.
  (** constraint_system.rs:820-822 *)
  Definition is_finalized (c : circuit) : bool := negb (domain c =? 1).
  (** constraint_system.rs:986-994 *)
  Definition check_finalize_flag (expect : bool) : circ unit :=
    lift (fun c => if is_finalized c then (if expect then Ok tt else Err ModifyFinalizedCircuit)
                   else (if expect then Err UnfinalizedCircuit else Ok tt)).
  (** constraint_system.rs:490-495 *)
  Definition check_var_bound (v : nat) : circ unit :=
    lift (fun c => if num_vars c <=? v then Err (VarIndexOutOfBound v (num_vars c)) else Ok tt).
  (** constraint_system.rs:502-507 *)
  Definition check_vars_bound (vs : list nat) : circ unit := iterM check_var_bound vs.

  Definition push_row (r : row) (c : circuit) : circuit :=
    mk_circuit (num_vars c) (gates c) (rows c ++ [r]) (range_col c) (pub_ids c) (witness c)
      (wire_perm c) (domain c) (ptype c) (num_table_elems c) (table_ids c).
  Definition push_gate (g : gate) (c : circuit) : circuit :=
    mk_circuit (num_vars c) (gates c ++ [g]) (rows c) (range_col c) (pub_ids c) (witness c)
      (wire_perm c) (domain c) (ptype c) (num_table_elems c) (table_ids c).
  Definition push_range (v : nat) (c : circuit) : circuit :=
    mk_circuit (num_vars c) (gates c) (rows c) (range_col c ++ [v]) (pub_ids c) (witness c)
      (wire_perm c) (domain c) (ptype c) (num_table_elems c) (table_ids c).
  Definition push_pub (i : nat) (c : circuit) : circuit :=
    mk_circuit (num_vars c) (gates c) (rows c) (range_col c) (pub_ids c ++ [i]) (witness c)
      (wire_perm c) (domain c) (ptype c) (num_table_elems c) (table_ids c).
  Definition push_var (x : K) (c : circuit) : circuit :=
    mk_circuit (S (num_vars c)) (gates c) (rows c) (range_col c) (pub_ids c) (witness c ++ [x])
      (wire_perm c) (domain c) (ptype c) (num_table_elems c) (table_ids c).
  Definition push_table (s len : nat) (c : circuit) : circuit :=
    mk_circuit (num_vars c) (gates c) (rows c) (range_col c) (pub_ids c) (witness c)
      (wire_perm c) (domain c) (ptype c) (num_table_elems c) (table_ids c ++ [(s, len)]).
  Definition add_table_elems (len : nat) (c : circuit) : circuit :=
    mk_circuit (num_vars c) (gates c) (rows c) (range_col c) (pub_ids c) (witness c)
      (wire_perm c) (domain c) (ptype c) (num_table_elems c + len) (table_ids c).

  (** constraint_system.rs:454-470: no bound check on the wires. *)
  Definition insert_gate (r : row) (g : gate) : circ unit :=
    check_finalize_flag false >> modify (push_row r) >> modify (push_gate g).

  (** constraint_system.rs:665-671 *)
  Definition create_variable (x : K) : circ nat :=
    check_finalize_flag false >> modify (push_var x) >>
    lift (fun c => Ok (num_vars c - 1)%nat).

  (** constraint_system.rs:700-703 *)
  Definition get_witness (v : nat) : circ K :=
    check_var_bound v >> lift (fun c => index (witness c) v).

  (** constraint_system.rs:705-711 *)
  Definition enforce_constant (v : nat) (x : K) : circ unit :=
    check_var_bound v >> insert_gate (mk_row 0 0 0 0 v) (constant_gate x).

  (** constraint_system.rs:659-663 *)
  Definition create_constant_variable (x : K) : circ nat :=
    v <- create_variable x ;; enforce_constant v x >> ret v.

  (** constraint_system.rs:679-687: no bound check on [v]. *)
  Definition set_variable_public (v : nat) : circ unit :=
    check_finalize_flag false >>
    (n <- lift (fun c => Ok (num_gates c)) ;;
     modify (push_pub n) >> insert_gate (mk_row 0 0 0 0 v) io_gate).

  (** constraint_system.rs:673-677 *)
  Definition create_public_variable (x : K) : circ nat :=
    v <- create_variable x ;; set_variable_public v >> ret v.

  (** constraint_system.rs:713-721, 733-741, 753-761 *)
  Definition gate3 (g : gate) (a b o : nat) : circ unit :=
    check_var_bound a >> check_var_bound b >> check_var_bound o >>
    insert_gate (mk_row a b 0 0 o) g.
  Definition add_gate := gate3 addition_gate.
  Definition sub_gate := gate3 subtraction_gate.
  Definition mul_gate := gate3 multiplication_gate.

  (** constraint_system.rs:723-731 *)
  Definition add (a b : nat) : circ nat :=
    check_var_bound a >> check_var_bound b >>
    (x <- get_witness a ;; y <- get_witness b ;;
     o <- create_variable (x + y) ;; add_gate a b o >> ret o).
  (** constraint_system.rs:743-751 *)
  Definition sub (a b : nat) : circ nat :=
    check_var_bound a >> check_var_bound b >>
    (x <- get_witness a ;; y <- get_witness b ;;
     o <- create_variable (x - y) ;; sub_gate a b o >> ret o).
  (** constraint_system.rs:763-771 *)
  Definition mul (a b : nat) : circ nat :=
    check_var_bound a >> check_var_bound b >>
    (x <- get_witness a ;; y <- get_witness b ;;
     o <- create_variable (x * y) ;; mul_gate a b o >> ret o).
  (** constraint_system.rs:773-779 *)
  Definition enforce_bool (a : nat) : circ unit :=
    check_var_bound a >> insert_gate (mk_row a a 0 0 a) bool_gate.
  (** constraint_system.rs:781-788 *)
  Definition enforce_equal (a b : nat) : circ unit :=
    check_var_bound a >> check_var_bound b >> insert_gate (mk_row a b 0 0 0) equality_gate.
  (** constraint_system.rs:103-108 *)
  Definition create_boolean_variable (b : bool) : circ nat :=
    v <- create_variable (if b then 1 else 0) ;; enforce_bool v >> ret v.
  (** constraint_system.rs:115-119: no Boolean constraint. *)
  Definition create_public_boolean_variable (b : bool) : circ nat :=
    create_public_variable (if b then 1 else 0).
  (** constraint_system.rs:790-803; [unwrap] of an insertion error panics. *)
  Definition unwrap {A} (m : circ A) : circ A :=
    fun c => match m c with (Err _, c') => (Panic, c') | r => r end.
  Definition pad_gates (n : nat) : circ unit :=
    iterM (fun _ => unwrap (insert_gate (mk_row 0 0 0 0 0) equality_gate)) (seq 0 n).

  (** constraint_system.rs:806-809 *)
  Definition support_lookup (c : circuit) : bool :=
    match ptype c with Ultra _ => true | Turbo => false end.
  (** constraint_system.rs:532-540 *)
  Definition range_bit_len (c : circuit) : outcome cerr nat :=
    match ptype c with Ultra b => Ok b | Turbo => Err ParameterError end.
  (** constraint_system.rs:542-545 *)
  Definition range_size (c : circuit) : outcome cerr Z :=
    let* b := range_bit_len c in Ok (2 ^ Z.of_nat b)%Z.
  (** constraint_system.rs:475-481 *)
  Definition add_range_check_variable (v : nat) : circ unit :=
    lift (fun c => if support_lookup c then Ok tt else Err WrongPlonkType) >>
    check_finalize_flag false >> check_var_bound v >> modify (push_range v).

  (** constraint_system.rs:398-429.  The two [enforce_constant] calls cannot fail. *)
  Definition empty_circuit (t : plonk_type) : circuit :=
    mk_circuit 2 [] [] [] [] [0; 1] [] 1 t 0 [].
  Definition new_circuit (t : plonk_type) : circuit :=
    snd ((enforce_constant 0 0 >> enforce_constant 1 1) (empty_circuit t)).

  (** constraint_system.rs:894-917, the two sides of a gate equation under an
      assignment of wires. *)
  Definition pow5 (x : K) : K := x * x * x * x * x.
  Definition gate_expected (g : gate) (pi w0 w1 w2 w3 w4 : K) : K :=
    pi + q_lc0 g * w0 + q_lc1 g * w1 + q_lc2 g * w2 + q_lc3 g * w3
    + q_mul0 g * w0 * w1 + q_mul1 g * w2 * w3
    + q_ecc g * w0 * w1 * w2 * w3 * w4
    + q_hash0 g * pow5 w0 + q_hash1 g * pow5 w1 + q_hash2 g * pow5 w2 + q_hash3 g * pow5 w3
    + q_c g.
  Definition gate_output (g : gate) (w4 : K) : K := q_o g * w4.

  (** constraint_system.rs:894-938 *)
  Definition check_gate (c : circuit) (id : nat) (pi : K) : outcome cerr unit :=
    let* r := index (rows c) id in
    let* w0 := index (witness c) (r0 r) in
    let* w1 := index (witness c) (r1 r) in
    let* w2 := index (witness c) (r2 r) in
    let* w3 := index (witness c) (r3 r) in
    let* w4 := index (witness c) (r4 r) in
    let* g := index (gates c) id in
    if feqb (gate_expected g pi w0 w1 w2 w3 w4) (gate_output g w4) then Ok tt
    else Err (GateCheckFailure id).

  (** constraint_system.rs:803-818; [range_size as u32] truncates. *)
  Definition range_bound (c : circuit) : outcome cerr Z :=
    let* s := range_size c in Ok (zval (fZ (s mod 2 ^ 32)%Z)).
  Definition check_range_gate (c : circuit) (i : nat) : outcome cerr unit :=
    match ptype c with
    | Turbo => Err WrongPlonkType
    | Ultra _ =>
        if length (range_col c) <=? i then Err IndexError
        else
          let* s := range_bound c in
          let* v := index (range_col c) i in
          let* x := index (witness c) v in
          if (s <=? zval x)%Z then Err (GateCheckFailure i) else Ok tt
    end.

  (** constraint_system.rs:1010-1015: the variable on a wire, the zero variable
      beyond the end of a column. *)
  Definition wire_of (i : nat) (r : row) : nat :=
    match i with 0 => r0 r | 1 => r1 r | 2 => r2 r | 3 => r3 r | _ => r4 r end.
  Definition wire_variable (c : circuit) (i j : nat) : nat :=
    if i <? 5 then wire_of i (nth j (rows c) (mk_row 0 0 0 0 0))
    else nth j (range_col c) 0%nat.

  Definition wval (c : circuit) (v : nat) : outcome cerr K :=
    if num_vars c <=? v then Err (VarIndexOutOfBound v (num_vars c)) else index (witness c) v.

  Fixpoint each {A} (f : A -> outcome cerr unit) (l : list A) : outcome cerr unit :=
    match l with
    | [] => Ok tt
    | a :: l' => let* _ := f a in each f l'
    end.

  (** constraint_system.rs:609-629: the key-value table, a set kept as a list. *)
  Definition quad_eqb (x y : K * K * K * K) : bool :=
    match x, y with
    | (a, b, u, v), (a', b', u', v') => feqb a a' && feqb b b' && feqb u u' && feqb v v'
    end.
  Definition table_entries (c : circuit) : outcome cerr (list (K * K * K * K)) :=
    let* es := map_res (fun j =>
      let g := nth j (gates c) padding_gate in
      if feqb (q_lookup g) 0 then Ok [] else
        let* v0 := wval c (wire_variable c 3 j) in
        let* v1 := wval c (wire_variable c 4 j) in
        Ok [(table_dom_sep g, table_key g, v0, v1)]) (seq 0 (num_gates c)) in
    Ok ((0, 0, 0, 0) :: concat es).
  (** constraint_system.rs:631-648 *)
  Definition check_lookup_gate (c : circuit) (t : list (K * K * K * K)) (j : nat) : outcome cerr unit :=
    let g := nth j (gates c) padding_gate in
    if feqb (q_lookup g) 0 then Ok tt else
      let* k := wval c (wire_variable c 0 j) in
      let* v0 := wval c (wire_variable c 1 j) in
      let* v1 := wval c (wire_variable c 2 j) in
      if existsb (quad_eqb (q_dom_sep g, k, v0, v1)) t then Ok tt
      else Err (GateCheckFailure j).

  (** constraint_system.rs:585-650 *)
  Definition check_circuit_satisfiability (c : circuit) (pub : list K) : outcome cerr unit :=
    if negb (length pub =? num_inputs c) then Err (PubInputLenMismatch (length pub) (num_inputs c))
    else
      let* _ := each (fun ip => let* pi := index pub (fst ip) in check_gate c (snd ip) pi)
                     (combine (seq 0 (num_inputs c)) (pub_ids c)) in
      let* _ := each (fun j => if is_io (nth j (gates c) padding_gate) then Ok tt else check_gate c j 0)
                     (seq 0 (num_gates c)) in
      match ptype c with
      | Turbo => Ok tt
      | Ultra _ =>
          let* _ := each (check_range_gate c) (seq 0 (length (range_col c))) in
          let* t := table_entries c in
          each (check_lookup_gate c t) (seq 0 (num_gates c))
      end.

  (** constraint_system.rs:574-583 *)
  Definition public_input (c : circuit) : outcome cerr (list K) :=
    map_res (fun j => let* r := index (rows c) j in wval c (r4 r)) (pub_ids c).
End Circuit.

Arguments mk_row r0 r1 r2 r3 r4 : assert.
Arguments ret {K A} a _.
Arguments fail {K A} e _.
Arguments cpanic {K A} _.
Arguments cbind {K A B} m k _.
Arguments lift {K A} f _.
Arguments modify {K} f _.
Arguments mapM {K A B} f l.
Arguments iterM {K A} f l.
Arguments foldM {K A B} f b l.
Arguments idx {K A} l i.
Arguments unwrap {K A} m _.
Arguments each {A} f l.
Arguments num_vars {K}. Arguments gates {K}. Arguments rows {K}. Arguments range_col {K}.
Arguments pub_ids {K}. Arguments witness {K}. Arguments wire_perm {K}. Arguments domain {K}.
Arguments ptype {K}. Arguments num_table_elems {K}. Arguments table_ids {K}.
Arguments q_lc0 {K}. Arguments q_lc1 {K}. Arguments q_lc2 {K}. Arguments q_lc3 {K}.
Arguments q_mul0 {K}. Arguments q_mul1 {K}. Arguments q_hash0 {K}. Arguments q_hash1 {K}.
Arguments q_hash2 {K}. Arguments q_hash3 {K}. Arguments q_o {K}. Arguments q_c {K}.
Arguments q_ecc {K}. Arguments q_lookup {K}. Arguments q_dom_sep {K}. Arguments table_key {K}.
Arguments table_dom_sep {K}. Arguments is_io {K}.
Arguments num_gates {K}. Arguments num_inputs {K}. Arguments num_wire_types {K}.
Arguments is_finalized {K}. Arguments check_finalize_flag {K}. Arguments check_var_bound {K}.
Arguments check_vars_bound {K}. Arguments push_row {K}. Arguments push_gate {K}.
Arguments push_range {K}. Arguments push_pub {K}. Arguments push_var {K}. Arguments push_table {K}. Arguments add_table_elems {K}.
Arguments insert_gate {K}. Arguments create_variable {K}. Arguments get_witness {K}.
Arguments enforce_constant {K}. Arguments create_constant_variable {K}.
Arguments set_variable_public {K}. Arguments create_public_variable {K}. Arguments gate3 {K}.
Arguments add_gate {K}. Arguments sub_gate {K}. Arguments mul_gate {K}.
Arguments add {K}. Arguments sub {K}. Arguments mul {K}. Arguments enforce_bool {K}.
Arguments enforce_equal {K}. Arguments create_boolean_variable {K}.
Arguments create_public_boolean_variable {K}. Arguments pad_gates {K}. Arguments support_lookup {K}.
Arguments range_bit_len {K}. Arguments range_size {K}. Arguments add_range_check_variable {K}.
Arguments wire_variable {K}. Arguments wval {K}. Arguments public_input {K}.
Arguments gate_expected {K}. Arguments gate_output {K}. Arguments pow5 {K}. Arguments check_gate {K}.
Arguments table_entries {K}. Arguments check_lookup_gate {K}. Arguments quad_eqb {K}.
Arguments range_bound {K}. Arguments check_range_gate {K}. Arguments check_circuit_satisfiability {K}.

Declare Scope circ_scope.
Notation "x <- m ;; k" := (cbind m (fun x => k))
  (at level 61, m at next level, right associativity) : circ_scope.
Notation "m >> k" := (cbind m (fun _ => k)) (at level 61, right associativity) : circ_scope.
