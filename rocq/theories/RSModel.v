(** Model of utilities/src/reed_solomon_code.rs.

    Field elements are elements of an arbitrary field.  In-place vectors become
    lists updated with [set_nth]; every read [v[i]] below is in bounds by
    construction, so it is written [nth i v 0]. *)
From Coq Require Import List Arith Lia Bool Field.
From Verif Require Import Base Alg.
Import ListNotations.

Section RS.
  Variable K : fld.
  Local Open Scope fld_scope.

  (** [RSCodeError(String)] (reed_solomon_code.rs:18): the three messages. *)
  Inductive rs_error := Insufficient | Duplicate (i j : nat) | EmptyShares | IndexOutOfBounds.

  (** reed_solomon_code.rs:60-66, the closure computing one share: [value] and [x]
      are the two accumulators. *)
  Definition share_at (data : list K) (index : nat) : K :=
    fst (fold_left (fun '(value, x) coef => (value + x * coef, x * fnat index)) data (0, 1)).

  (** reed_solomon_code.rs:47-68 *)
  Definition rs_encode (data : list K) (parity_size : nat) : list K :=
    map (share_at data) (seq 1 (length data + parity_size)).

  (** reed_solomon_code.rs:109-115, one turn of the loop building
      [l(x) = prod (x - x_i)] in place; the inner loop runs [j] from [i-1] down to 1. *)
  Definition l_inner (xi : K) (l : list K) (j : nat) : list K :=
    set_nth l j (nth (j - 1) l 0 - xi * nth j l 0).
  Definition l_step (x : list K) (l : list K) (i : nat) : list K :=
    let xi := nth (i - 1) x 0 in
    let l := set_nth l i 1 in
    let l := fold_left (l_inner xi) (rev (seq 1 (i - 1))) l in
    set_nth l 0 (- xi * nth 0 l 0).
  (** reed_solomon_code.rs:107-115 *)
  Definition l_poly (x : list K) (n : nat) : list K :=
    fold_left (l_step x) (seq 1 n) (set_nth (repeat 0 (n + 1)) 0 1).

  (** reed_solomon_code.rs:118-133, the barycentric weight of point [i]. *)
  Fixpoint weight_loop (x : list K) (i : nat) (js : list nat) (ret : K) : outcome rs_error K :=
    match js with
    | [] => Ok ret
    | j :: js' =>
        if i =? j then weight_loop x i js' ret
        else
          let denom := nth i x 0 - nth j x 0 in
          if feqb denom 0 then Err (Duplicate i j)
          else weight_loop x i js' (ret / denom)
    end.
  Definition weights (x : list K) (n : nat) : outcome rs_error (list K) :=
    map_res (fun i => weight_loop x i (seq 0 n) 1) (seq 0 n).

  (** reed_solomon_code.rs:139-143, the coefficients of [l(x) / (x - x_i)]. *)
  Definition li_poly (l : list K) (xi : K) (n : nat) : list K :=
    fold_left (fun li j => set_nth li j (nth (j + 1) l 0 + xi * nth (j + 1) li 0))
      (rev (seq 0 (n - 1))) (set_nth (repeat 0 n) (n - 1) 1).

  (** reed_solomon_code.rs:138-148, the accumulation of one share into [f]. *)
  Definition f_step (x l w : list K) (n : nat) (f : list K) (is : nat * (K * K)) : list K :=
    let '(i, (_, y)) := is in
    let li := li_poly l (nth i x 0) n in
    let weight := nth i w 0 * y in
    map (fun j => nth j f 0 + weight * nth j li 0) (seq 0 n).

  (** reed_solomon_code.rs:75-151 *)
  Definition rs_decode (shares : list (K * K)) (n : nat) : outcome rs_error (list K) :=
    let shares := firstn n shares in
    if length shares <? n then Err Insufficient
    else
      let x := map fst shares in
      let l := l_poly x n in
      let* w := weights x n in
      Ok (fold_left (f_step x l w n) (combine (seq 0 n) shares) (repeat 0 n)).

  (** reed_solomon_code.rs:158-197.  [domain] is [domain.elements().collect()]. *)
  Definition rs_decode_rou (shares : list (nat * K)) (n : nat) (domain : list K)
    : outcome rs_error (list K) :=
    match shares with
    | [] => Err EmptyShares
    | _ =>
        let max_index := list_max (map fst shares) in
        if length domain <=? max_index then Err IndexOutOfBounds
        else rs_decode (map (fun '(index, eval) => (nth index domain 0, eval)) shares) n
    end.
End RS.
Arguments share_at {K}. Arguments rs_encode {K}. Arguments rs_decode {K}.
Arguments rs_decode_rou {K}. Arguments weights {K}. Arguments weight_loop {K}.
Arguments l_poly {K}. Arguments l_step {K}. Arguments l_inner {K}. Arguments li_poly {K}.
Arguments f_step {K}.
