(** Shared vocabulary of the models.

    [outcome X A] is the result of running a Rust function: [Ok], [Err] of the
    function's error enum, or [Panic] (index out of bounds, integer underflow,
    failed assertion, unwrap of [None]). *)

From Coq Require Import List Arith Lia.
Import ListNotations.

Inductive outcome (X A : Type) : Type :=
| Ok (a : A)
| Err (x : X)
| Panic.
Arguments Ok {X A} a.
Arguments Err {X A} x.
Arguments Panic {X A}.

(** The [?] operator. *)
Definition bind {X A B} (r : outcome X A) (k : A -> outcome X B) : outcome X B :=
  match r with
  | Ok a => k a
  | Err x => Err x
  | Panic => Panic
  end.

Notation "'let*' x ':=' r 'in' k" := (bind r (fun x => k))
  (at level 200, x pattern, r at level 100, k at level 200).

Definition is_ok {X A} (r : outcome X A) : bool :=
  match r with Ok _ => true | _ => false end.

(** [v[i]]: panics when out of bounds. *)
Definition index {X A} (l : list A) (i : nat) : outcome X A :=
  match nth_error l i with Some a => Ok a | None => Panic end.

(** [v[i] = a]; the caller has already checked the bound. *)
Fixpoint set_nth {A} (l : list A) (i : nat) (a : A) : list A :=
  match l, i with
  | [], _ => []
  | _ :: l', 0 => a :: l'
  | x :: l', S i' => x :: set_nth l' i' a
  end.

(** [collect::<Result<Vec<_>, _>>()] of a fallible map. *)
Fixpoint map_res {X A B} (f : A -> outcome X B) (l : list A) : outcome X (list B) :=
  match l with
  | [] => Ok []
  | a :: l' =>
      let* b := f a in
      let* bs := map_res f l' in
      Ok (b :: bs)
  end.

(** [slice.chunks(n)]: consecutive pieces of [n] elements, the last one possibly
    shorter.  [fuel] only makes the recursion structural; [length l] suffices. *)
Fixpoint chunks_aux {A} (fuel n : nat) (l : list A) : list (list A) :=
  match fuel with
  | 0 => []
  | S fuel' =>
      match l with
      | [] => []
      | _ => firstn n l :: chunks_aux fuel' n (skipn n l)
      end
  end.
Definition chunks {A} (n : nat) (l : list A) : list (list A) :=
  chunks_aux (length l) n l.
