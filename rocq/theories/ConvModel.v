(** Model of utilities/src/conversion.rs and the padding helpers of
    utilities/src/lib.rs.

    Bytes are integers in [0, 256).  An element of a prime field is its canonical
    integer in [0, modulus); an element of an extension field is the list of its
    base prime field coordinates ([to_base_prime_field_elements]). *)
From Coq Require Import List Arith ZArith Lia Bool.
From Verif Require Import Base.
Import ListNotations.
Local Open Scope Z_scope.

(** The constants of an [ark_ff::PrimeField]: its modulus, [MODULUS_BIT_SIZE] and
    the number of 64-bit limbs of its [BigInt] (the least number that holds the
    modulus). *)
Record pfield := { modulus : Z }.
Definition bit_size (P : pfield) : Z := Z.log2 (modulus P) + 1.
Definition limbs (P : pfield) : Z := (bit_size P + 63) / 64.

(** [BigInteger::to_bytes_le]: [8 * limbs] little-endian bytes. *)
Fixpoint le_bytes (n : nat) (v : Z) : list Z :=
  match n with O => [] | S n' => v mod 256 :: le_bytes n' (v / 256) end.
Definition bigint_bytes (P : pfield) (v : Z) : list Z := le_bytes (Z.to_nat (8 * limbs P)) v.
Fixpoint le_val (bs : list Z) : Z :=
  match bs with [] => 0 | b :: bs' => b + 256 * le_val bs' end.
(** [PrimeField::from_le_bytes_mod_order]. *)
Definition from_le_bytes_mod_order (P : pfield) (bs : list Z) : Z := le_val bs mod modulus P.

(** conversion.rs:20-37 *)
Definition fr_to_fq (R Q : pfield) (scalar : Z) : Z :=
  from_le_bytes_mod_order Q (bigint_bytes R scalar).
(** conversion.rs:42-48 *)
Definition fq_to_fr (Q R : pfield) (base : Z) : Z :=
  from_le_bytes_mod_order R (bigint_bytes Q base).
(** conversion.rs:53-62; [Panic] is the failed assertion or the slice bound. *)
Definition fq_to_fr_with_mask (F T : pfield) (base : Z) : outcome unit Z :=
  if negb (bit_size T <? bit_size F) then Panic
  else
    let length := Z.to_nat (Z.shiftr (bit_size T) 3) in
    let bs := bigint_bytes F base in
    if (List.length bs <? length)%nat then Panic
    else Ok (from_le_bytes_mod_order T (firstn length bs)).
(** conversion.rs:68-82 *)
Definition field_switching (F T : pfield) (base : Z) : outcome unit Z :=
  let bytes := bigint_bytes F base in
  let t := from_le_bytes_mod_order T bytes in
  let bytes_rec := bigint_bytes T t in
  let length := Nat.min (List.length bytes) (List.length bytes_rec) in
  if list_eq_dec Z.eq_dec (firstn length bytes_rec) (firstn length bytes) then Ok t else Panic.

(** [usize::MAX + 1] on the 64-bit targets. *)
Definition usize_lim : Z := 2 ^ 64.

(** conversion.rs:277-296: [(primefield_bytes_len, extension_degree,
    field_bytes_len)]; the failing conversions to [usize] are [Panic]. *)
Definition compile_time_checks (P : pfield) (d : nat) : outcome unit (nat * nat * nat) :=
  if bit_size P <=? 64 then Panic
  else
    let pl := (bit_size P - 1) / 8 in
    if usize_lim <=? pl * Z.of_nat d then Panic
    else Ok (Z.to_nat pl, d, (Z.to_nat pl * d)%nat).

(** conversion.rs:151-162, one chunk of [field_bytes_len] bytes to an element. *)
Definition elem_of_bytes (P : pfield) (d pl : nat) (chunk : list Z) : list Z :=
  map (from_le_bytes_mod_order P) (chunks pl chunk)
  ++ repeat 0 (d - (length chunk - 1) / pl - 1)%nat.

(** conversion.rs:131-175.  [F::from(len as u64)] has its value in coordinate 0.
    The closing sanity check compares the two lengths. *)
Definition bytes_to_field_elements (P : pfield) (d : nat) (bytes : list Z)
  : outcome unit (list (list Z)) :=
  let* (pl, d, fl) := compile_time_checks P d in
  match bytes with
  | [] => Ok []
  | _ =>
      if usize_lim <=? Z.of_nat fl + Z.of_nat (length bytes) then Panic
      else
        let result_len := ((fl + length bytes - 1) / fl + 1)%nat in
        let result :=
          ((Z.of_nat (length bytes) mod 2 ^ 64) mod modulus P :: repeat 0 (d - 1))
          :: map (elem_of_bytes P d pl) (chunks fl bytes) in
        if (length result =? result_len)%nat then Ok result else Panic
  end.

(** conversion.rs:237-247, the bytes of one coordinate without the last one. *)
Definition coord_bytes (P : pfield) (pl : nat) (c : Z) : outcome unit (list Z) :=
  match bigint_bytes P c with
  | [] => Panic
  | bs => let bs := removelast bs in if (length bs =? pl)%nat then Ok bs else Panic
  end.
(** conversion.rs:186-258 *)
Definition bytes_from_field_elements (P : pfield) (d : nat) (elems : list (list Z))
  : outcome unit (list Z) :=
  let* (pl, _, fl) := compile_time_checks P d in
  match elems with
  | [] => Ok []
  | first_elem :: elems =>
      match first_elem with
      | [] => Panic
      | c0 :: _ =>
          let bs0 := bigint_bytes P c0 in
          if (length bs0 <? 8)%nat then Panic
          else
            let result_len := le_val (firstn 8 bs0) in
            if usize_lim <=? Z.of_nat fl * Z.of_nat (length elems) then Panic
            else
              let result_capacity := (fl * length elems)%nat in
              let result_len := Z.to_nat (Z.min result_len (Z.of_nat result_capacity)) in
              let* parts := map_res (coord_bytes P pl) (concat elems) in
              let result := concat parts in
              if (length result =? result_capacity)%nat then Ok (firstn result_len result)
              else Panic
      end
  end.

(** utilities/src/lib.rs:55-61; [len % 0] panics. *)
Definition compute_len_to_next_multiple (len multiple : nat) : outcome unit nat :=
  if (multiple =? 0)%nat then Panic
  else Ok (if (len mod multiple =? 0)%nat then len else (len + multiple - len mod multiple)%nat).
(** utilities/src/lib.rs:65-69 *)
Definition pad_with_zeros {A} (zero : A) (v : list A) (multiple : nat) : outcome unit (list A) :=
  let* n := compute_len_to_next_multiple (length v) multiple in
  Ok (firstn n v ++ repeat zero (n - length v)).
(** utilities/src/lib.rs:73-87 *)
Definition hadamard_product {A B} (mul : B -> A -> B) (a : list A) (b : list B)
  : outcome unit (list B) :=
  if (length a =? length b)%nat then Ok (map (fun ab => mul (snd ab) (fst ab)) (combine a b))
  else Err tt.
