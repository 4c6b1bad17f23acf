(** Model of the Poseidon2 crate: poseidon2/src/{lib,external,internal,crhf}.rs.

    A state [[F; T]] is a list whose length is [T].  The sponge itself
    ([spongefish::DuplexSponge]) is an external crate: in the hash functions it
    is a parameter. *)

From Coq Require Import List Arith NArith Lia Bool.
From Verif Require Import Base Alg ConvModel RescueModel.
Import ListNotations.
Local Open Scope fld_scope.

(** poseidon2/src/lib.rs:38-59 [Poseidon2Params]; [T] is a field here. *)
Record p2_params (K : fld) := mk_p2 {
  p2_t : nat;
  p2_d : N;
  p2_ext_rounds : nat;
  p2_int_rounds : nat;
  p2_ext_rc : list (list K);
  p2_int_rc : list K;
  p2_diag : list K
}.
Arguments mk_p2 {K}. Arguments p2_t {K}. Arguments p2_d {K}. Arguments p2_ext_rounds {K}.
Arguments p2_int_rounds {K}. Arguments p2_ext_rc {K}. Arguments p2_int_rc {K}. Arguments p2_diag {K}.

Section Poseidon2.
  Variable K : fld.

  Definition double (x : K) : K := x + x.

  (** poseidon2/src/external.rs:24-36, following the overwrites in order; the
      argument is a four-element array. *)
  Definition mds_mat4 (x : list K) : list K :=
    match x with
    | [x0; x1; x2; x3] =>
        let t01 := x0 + x1 in
        let t23 := x2 + x3 in
        let t0123 := t01 + t23 in
        let t01123 := t0123 + x1 in
        let t01233 := t0123 + x3 in
        [t01123 + t01; t01123 + double x2; t01233 + t23; t01233 + double x0]
    | _ => x
    end.

  (** poseidon2/src/external.rs:72-73: the four column sums. *)
  Definition col_sum (st : list K) (k : nat) : K :=
    fsum (map (fun j => nth (4 * j + k) st 0) (seq 0 (length st / 4))).
  (** poseidon2/src/external.rs:42-87 *)
  Definition matmul_external (st : list K) : outcome unit (list K) :=
    match st with
    | [a; b] => let sum := a + b in Ok [a + sum; b + sum]
    | [a; b; c] => let sum := a + b + c in Ok [a + sum; b + sum; c + sum]
    | _ =>
        if existsb (Nat.eqb (length st)) [4; 8; 12; 16; 20; 24]%nat then
          let st1 := concat (map mds_mat4 (chunks 4 st)) in
          Ok (map (fun ix => snd ix + col_sum st1 (fst ix mod 4)) (combine (seq 0 (length st1)) st1))
        else Panic
    end.

  (** poseidon2/src/internal.rs:12-47; the diagonal is ignored at sizes 2, 3. *)
  Definition matmul_internal (st diag : list K) : list K :=
    match st with
    | [a; b] => let sum := a + b in [a + sum; double b + sum]
    | [a; b; c] => let sum := a + b + c in [a + sum; b + sum; double c + sum]
    | _ => let sum := fsum st in map (fun xv => fst xv * snd xv + sum) (combine st diag)
    end.

  (** poseidon2/src/lib.rs:129-134 *)
  Definition add_rcs (st rc : list K) : list K := map (fun xc => fst xc + snd xc) (combine st rc).
  (** poseidon2/src/lib.rs:137-148 *)
  Definition s_box (x : K) (d : N) : K :=
    if (d =? 5)%N then let y := x * x in let z := y * y in z * x else fpow_N x d.

  (** poseidon2/src/external.rs:92-103 *)
  Definition ext_round (d : N) (rc st : list K) : outcome unit (list K) :=
    matmul_external (map (fun x => s_box x d) (add_rcs st rc)).
  (** poseidon2/src/internal.rs:52-61 *)
  Definition int_round (d : N) (diag : list K) (rc : K) (st : list K) : list K :=
    match st with
    | [] => []
    | x :: st' => matmul_internal (s_box (x + rc) d :: st') diag
    end.

  Fixpoint ext_rounds (d : N) (rcs : list (list K)) (st : list K) : outcome unit (list K) :=
    match rcs with
    | [] => Ok st
    | rc :: rcs' => let* st' := ext_round d rc st in ext_rounds d rcs' st'
    end.
  Definition int_rounds (d : N) (diag : list K) (rcs : list K) (st : list K) : list K :=
    fold_left (fun s rc => int_round d diag rc s) rcs st.

  (** poseidon2/src/lib.rs:67-80 *)
  Definition sanity_check (P : p2_params K) : bool :=
    existsb (Nat.eqb (p2_t P)) [2; 3; 4; 8; 12; 16; 20; 24]%nat &&
    existsb (N.eqb (p2_d P)) [3; 5; 7; 11]%N &&
    (length (p2_ext_rc P) =? p2_ext_rounds P)%nat &&
    (length (p2_int_rc P) =? p2_int_rounds P)%nat &&
    (p2_ext_rounds P mod 2 =? 0)%nat.

  (** poseidon2/src/lib.rs:98-123 *)
  Definition permute (P : p2_params K) (input : list K) : outcome unit (list K) :=
    if sanity_check P then
      let* s0 := matmul_external input in
      let half := (p2_ext_rounds P / 2)%nat in
      let* s1 := ext_rounds (p2_d P) (firstn half (p2_ext_rc P)) s0 in
      let s2 := int_rounds (p2_d P) (p2_diag P) (p2_int_rc P) s1 in
      ext_rounds (p2_d P) (skipn half (firstn (p2_ext_rounds P) (p2_ext_rc P))) s2
    else Panic.

  (** [usize::next_multiple_of]: panics on a zero multiple. *)
  Definition next_multiple_of (n m : nat) : outcome unit nat :=
    if (m =? 0)%nat then Panic
    else Ok (if (n mod m =? 0)%nat then n else (n + (m - n mod m))%nat).
  (** poseidon2/src/crhf.rs:92-94 *)
  Definition p2_zero_padding (data : list K) (multiple : nat) : outcome unit (list K) :=
    let* n := next_multiple_of (length data) multiple in
    Ok (firstn n data ++ repeat 0 (n - length data)).
  (** poseidon2/src/crhf.rs:99-102 *)
  Definition p2_bit_padding (data : list K) (multiple : nat) : outcome unit (list K) :=
    p2_zero_padding (data ++ [1]) multiple.

  (** The duplex sponge: what absorbing a list into a fresh sponge and then
      squeezing a number of elements returns. *)
  Variable duplex : list K -> nat -> list K.

  (** poseidon2/src/crhf.rs:40-54 *)
  Definition fixed_len_hash (in_size out_size : nat) (input : list K) : outcome unit (list K) :=
    if (in_size <? length input)%nat then Err tt
    else
      let* padded := p2_zero_padding input in_size in
      Ok (duplex padded out_size).
  (** poseidon2/src/crhf.rs:78-88; [rate] is the permutation's [R]. *)
  Definition variable_len_hash (rate out_size : nat) (input : list K) : outcome unit (list K) :=
    let* padded := p2_bit_padding input rate in
    Ok (duplex padded out_size).
End Poseidon2.

Arguments double {K}. Arguments mds_mat4 {K}. Arguments col_sum {K}. Arguments matmul_external {K}.
Arguments matmul_internal {K}. Arguments add_rcs {K}. Arguments s_box {K}. Arguments ext_round {K}.
Arguments int_round {K}. Arguments ext_rounds {K}. Arguments int_rounds {K}. Arguments sanity_check {K}.
Arguments permute {K}. Arguments p2_zero_padding {K}. Arguments p2_bit_padding {K}.
Arguments fixed_len_hash {K}. Arguments variable_len_hash {K}.
