(** Model of the Rescue hash family: rescue/src/{lib,sponge,crhf,prf,commitment}.rs.

    Everything is generic over the field and over the parameters a
    [RescueParameter] implementation supplies; the constants the crate ships are
    transcribed in RescueConst.v. *)

From Coq Require Import List Arith NArith Lia.
From Verif Require Import Base Alg ConvModel.
Import ListNotations.
Local Open Scope fld_scope.

(** [Field::pow] of ark_ff (called at rescue/src/lib.rs:160): exponent given as
    little-endian 64-bit limbs.  Simplification: the limbs are combined into one
    number and the power is computed by squaring over its binary form; the Rust
    loop walks the same bits. *)
Fixpoint fpow_pos {K : fld} (x : K) (e : positive) : K :=
  match e with
  | xH => x
  | xO e' => let y := fpow_pos x e' in y * y
  | xI e' => let y := fpow_pos x e' in y * y * x
  end.
Definition fpow_N {K : fld} (x : K) (e : N) : K :=
  match e with N0 => 1 | Npos e' => fpow_pos x e' end.
Definition limbs_N (l : list N) : N := fold_right (fun d acc => (d + 2 ^ 64 * acc)%N) 0%N l.

(** rescue/src/lib.rs:117-119 [RescueVector] ([STATE_SIZE] = 4, lib.rs:52). *)
Record vec4 (K : fld) := V4 { w0 : K; w1 : K; w2 : K; w3 : K }.
Arguments V4 {K}. Arguments w0 {K}. Arguments w1 {K}. Arguments w2 {K}. Arguments w3 {K}.

(** rescue/src/lib.rs:226-228 [RescueMatrix]: four row vectors. *)
Record mat4 (K : fld) := M4 { row0 : vec4 K; row1 : vec4 K; row2 : vec4 K; row3 : vec4 K }.
Arguments M4 {K}. Arguments row0 {K}. Arguments row1 {K}. Arguments row2 {K}. Arguments row3 {K}.

(** rescue/src/lib.rs:100-113 [RescueParameter], after
    [from_le_bytes_mod_order] of the byte constants (lib.rs:147-156). *)
Record rescue_params (K : fld) := mk_rescue {
  rp_a : N;
  rp_a_inv : list N;
  rp_mds : mat4 K;
  rp_init : vec4 K;
  rp_inject : list (vec4 K);
  rp_keys : list (vec4 K)
}.
Arguments mk_rescue {K}. Arguments rp_a {K}. Arguments rp_a_inv {K}. Arguments rp_mds {K}.
Arguments rp_init {K}. Arguments rp_inject {K}. Arguments rp_keys {K}.

Definition ROUNDS : nat := 12.
Definition CRHF_RATE : nat := 3.
Definition STATE_SIZE : nat := 4.

Section Rescue.
  Variable K : fld.
  Variable P : rescue_params K.

  (** rescue/src/lib.rs:124-128 *)
  Definition v4_zero : vec4 K := V4 0 0 0 0.
  (** rescue/src/lib.rs:132-134 *)
  Definition v4_elems (v : vec4 K) : list K := [w0 v; w1 v; w2 v; w3 v].
  (** rescue/src/lib.rs:158-162 *)
  Definition v4_pow (v : vec4 K) (e : N) : vec4 K :=
    V4 (fpow_N (w0 v) e) (fpow_N (w1 v) e) (fpow_N (w2 v) e) (fpow_N (w3 v) e).
  (** rescue/src/lib.rs:164-174 *)
  Definition v4_add (v w : vec4 K) : vec4 K :=
    V4 (w0 v + w0 w) (w1 v + w1 w) (w2 v + w2 w) (w3 v + w3 w).
  (** rescue/src/lib.rs:176-181: zips, so at most four elements are used and a
      missing one leaves the entry alone. *)
  Definition v4_add_elems (v : vec4 K) (es : list K) : vec4 K :=
    V4 (w0 v + nth 0 es 0) (w1 v + nth 1 es 0) (w2 v + nth 2 es 0) (w3 v + nth 3 es 0).
  (** rescue/src/lib.rs:183-189 *)
  Definition v4_dot (v w : vec4 K) : K :=
    0 + w0 v * w0 w + w1 v * w1 w + w2 v * w2 w + w3 v * w3 w.
  (** rescue/src/lib.rs:237-244 *)
  Definition mul_vec (m : mat4 K) (v : vec4 K) : vec4 K :=
    V4 (v4_dot (row0 m) v) (v4_dot (row1 m) v) (v4_dot (row2 m) v) (v4_dot (row3 m) v).
  (** rescue/src/lib.rs:138-142 *)
  Definition linear (v : vec4 K) (m : mat4 K) (c : vec4 K) : vec4 K := v4_add (mul_vec m v) c.
  (** rescue/src/lib.rs:195-201 *)
  Definition non_linear (v : vec4 K) (m : mat4 K) (c : vec4 K) : vec4 K :=
    v4_add (mul_vec m (v4_pow v (rp_a P))) c.

  (** The exponent of round [i]: rescue/src/lib.rs:346-350 and :362. *)
  Definition round_exp (i : nat) : N :=
    if (i mod 2 =? 0)%nat then limbs_N (rp_a_inv P) else rp_a P.
  (** rescue/src/lib.rs:345-352: the loop over [round_keys[1..]], starting at
      round [i]. *)
  Fixpoint prp_rounds (i : nat) (keys : list (vec4 K)) (s : vec4 K) : vec4 K :=
    match keys with
    | [] => s
    | k :: keys' => prp_rounds (S i) keys' (linear (v4_pow s (round_exp i)) (rp_mds P) k)
    end.
  (** rescue/src/lib.rs:338-354 *)
  Definition prp_with_round_keys (keys : list (vec4 K)) (input : vec4 K) : outcome unit (vec4 K) :=
    if (length keys =? 2 * ROUNDS + 1)%nat then
      match keys with
      | [] => Panic
      | k0 :: ks => Ok (prp_rounds 0 ks (v4_add input k0))
      end
    else Panic.
  (** rescue/src/lib.rs:361-366, from round [i] on, [n] rounds left. *)
  Fixpoint schedule_loop (i n : nat) (aux : vec4 K) : outcome unit (list (vec4 K)) :=
    match n with
    | O => Ok []
    | S n' =>
        let* inj := index (rp_inject P) i in
        let aux' := linear (v4_pow aux (round_exp i)) (rp_mds P) inj in
        let* rest := schedule_loop (S i) n' aux' in
        Ok (aux' :: rest)
    end.
  (** rescue/src/lib.rs:358-368 *)
  Definition key_schedule (key : vec4 K) : outcome unit (list (vec4 K)) :=
    let aux := v4_add key (rp_init P) in
    let* rest := schedule_loop 0 (2 * ROUNDS) aux in
    Ok (aux :: rest).
  (** rescue/src/lib.rs:331-334 *)
  Definition prp (key input : vec4 K) : outcome unit (vec4 K) :=
    let* keys := key_schedule key in prp_with_round_keys keys input.
  (** rescue/src/lib.rs:437-440, with the round keys of lib.rs:402-414. *)
  Definition perm_eval (input : vec4 K) : outcome unit (vec4 K) :=
    prp_with_round_keys (rp_keys P) input.

  (** rescue/src/sponge.rs:56-64 on field elements ([to_sponge_field_elements]
      of a slice of field elements is the slice itself); [chunks(0)] panics. *)
  Fixpoint absorb_chunks (cs : list (list K)) (s : vec4 K) : outcome unit (vec4 K) :=
    match cs with
    | [] => Ok s
    | c :: cs' => let* s' := perm_eval (v4_add_elems s c) in absorb_chunks cs' s'
    end.
  Definition absorb (rate : nat) (input : list K) (s : vec4 K) : outcome unit (vec4 K) :=
    if (rate =? 0)%nat then Panic else absorb_chunks (chunks rate input) s.
  (** rescue/src/sponge.rs:111-126.  Returns the elements and the state left
      behind.  [state.vec[0..extract]] panics when [extract > 4]; a rate of zero
      never terminates, which the fuel turns into [Panic]. *)
  Fixpoint squeeze_loop (fuel rate remaining : nat) (s : vec4 K) : outcome unit (list K * vec4 K) :=
    match fuel with
    | O => Panic
    | S fuel' =>
        let extract := Nat.min remaining rate in
        if (STATE_SIZE <? extract)%nat then Panic
        else
          let out := firstn extract (v4_elems s) in
          let remaining' := (remaining - extract)%nat in
          if (remaining' =? 0)%nat then Ok (out, s)
          else
            let* s' := perm_eval s in
            let* (more, s'') := squeeze_loop fuel' rate remaining' s' in
            Ok (out ++ more, s'')
    end.
  Definition squeeze (rate num : nat) (s : vec4 K) : outcome unit (list K * vec4 K) :=
    squeeze_loop (S num) rate num s.

  (** rescue/src/crhf.rs:58-75; [RescueError::ParameterError] is [Err tt]. *)
  Definition sponge_no_padding (input : list K) (num : nat) : outcome unit (list K) :=
    if negb (length input mod CRHF_RATE =? 0)%nat then Err tt
    else
      let* s := absorb CRHF_RATE input v4_zero in
      let* (out, _) := squeeze CRHF_RATE num s in
      Ok out.
  (** [expect]: an error becomes a panic. *)
  Definition expect {A} (r : outcome unit A) : outcome unit A :=
    match r with Ok a => Ok a | _ => Panic end.
  (** rescue/src/crhf.rs:35-41 *)
  Definition sponge_with_bit_padding (input : list K) (num : nat) : outcome unit (list K) :=
    let* padded := pad_with_zeros 0 (input ++ [1]) CRHF_RATE in
    expect (sponge_no_padding padded num).
  (** rescue/src/crhf.rs:48-53 *)
  Definition sponge_with_zero_padding (input : list K) (num : nat) : outcome unit (list K) :=
    let* padded := pad_with_zeros 0 input CRHF_RATE in
    expect (sponge_no_padding padded num).
  (** rescue/src/crhf.rs:96-110; the input array's length is [INPUT_LEN]. *)
  Definition fixed_crhf (out_len : nat) (input : list K) : outcome unit (list K) :=
    let* res := if (length input mod CRHF_RATE =? 0)%nat then sponge_no_padding input out_len
                else sponge_with_zero_padding input out_len in
    if negb (length res =? out_len)%nat then Err tt else Ok res.
  (** rescue/src/crhf.rs:128-138 *)
  Definition variable_crhf (out_len : nat) (input : list K) : outcome unit (list K) :=
    let* res := sponge_with_bit_padding input out_len in
    if negb (length res =? out_len)%nat then Err tt else Ok res.

  (** rescue/src/prf.rs:44-64 *)
  Definition prf_no_padding (key : K) (input : list K) (num : nat) : outcome unit (list K) :=
    if negb (length input mod STATE_SIZE =? 0)%nat then Err tt
    else
      let* s := absorb STATE_SIZE input (V4 0 0 0 key) in
      let* (out, _) := squeeze STATE_SIZE num s in
      Ok out.
  (** rescue/src/prf.rs:29-37 *)
  Definition prf_zero_padding (key : K) (input : list K) (num : nat) : outcome unit (list K) :=
    let* padded := pad_with_zeros 0 input STATE_SIZE in
    prf_no_padding key padded num.
  (** rescue/src/prf.rs:81-92; [clone_from_slice] panics on a length mismatch. *)
  Definition prf_evaluate (out_len : nat) (seed : K) (input : list K) : outcome unit (list K) :=
    let* res := prf_zero_padding seed input out_len in
    if (length res =? out_len)%nat then Ok res else Panic.

  (** rescue/src/commitment.rs:40-51.  [INPUT_LEN_PLUS_ONE] is assumed to be
      [INPUT_LEN + 1], as the type's documentation asks; any other value makes
      [copy_from_slice] panic. *)
  Definition commit (input : list K) (r : option K) : outcome unit K :=
    match r with
    | None => Err tt
    | Some b => let* h := fixed_crhf 1 (b :: input) in index h 0
    end.
  (** rescue/src/commitment.rs:53-63; the inner [Result<(), ()>] is a bool. *)
  Definition comm_verify (input : list K) (r : option K) (comm : K) : outcome unit bool :=
    let* c := commit input r in Ok (feqb c comm).
End Rescue.

Arguments v4_zero {K}. Arguments v4_elems {K}. Arguments v4_pow {K}. Arguments v4_add {K}.
Arguments v4_add_elems {K}. Arguments v4_dot {K}. Arguments mul_vec {K}. Arguments linear {K}.
Arguments non_linear {K}. Arguments round_exp {K}. Arguments prp_rounds {K}.
Arguments prp_with_round_keys {K}. Arguments schedule_loop {K}. Arguments key_schedule {K}.
Arguments prp {K}. Arguments perm_eval {K}. Arguments absorb_chunks {K}. Arguments absorb {K}.
Arguments squeeze_loop {K}. Arguments squeeze {K}. Arguments sponge_no_padding {K}.
Arguments sponge_with_bit_padding {K}. Arguments sponge_with_zero_padding {K}.
Arguments fixed_crhf {K}. Arguments variable_crhf {K}. Arguments prf_no_padding {K}.
Arguments prf_zero_padding {K}. Arguments prf_evaluate {K}. Arguments commit {K}.
Arguments comm_verify {K}.
