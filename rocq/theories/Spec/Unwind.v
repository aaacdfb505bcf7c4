(** What a compound assignment over several elements leaves behind when it is interrupted
    by a panic of the element type. *)
From Coq Require Import List Arith.
From Verif Require Import Base.Outcome Base.Array.
Import ListNotations.

(** The elements [old] were being combined with [args], one after the other; element [k]
    panicked with [e]: the elements before [k] have their new values, element [k] is what
    its own operation left, the elements after [k] are as before. *)
Definition interrupted_at {A B} (op : A -> B -> mres A) (old : list A) (args : list B)
    (k : nat) (e : panic) (left : list A) : Prop :=
  length left = length old /\
  (forall i a b, i < k -> nth_error old i = Some a -> nth_error args i = Some b ->
     exists c, op a b = (c, Ok tt) /\ nth_error left i = Some c) /\
  (exists a b c, nth_error old k = Some a /\ nth_error args k = Some b /\
     op a b = (c, Panic e) /\ nth_error left k = Some c) /\
  (forall i, k < i -> nth_error left i = nth_error old i).

(** An element operation that leaves its operand alone when it panics (like the
    overflow-checked integers). *)
Definition all_or_nothing {A B} (op : A -> B -> mres A) : Prop :=
  forall a b c e, op a b = (c, Panic e) -> c = a.

(** Entry in row [i], column [j] of a matrix given by its rows. *)
Definition cell {A m n} (a : array (array A n) m) (i j : nat) : option A :=
  match nth_error (entries a) i with
  | Some row => nth_error (entries row) j
  | None => None
  end.

(** The same for a matrix, walked along its rows from the first to the last and within a
    row from left to right; the entry in row [r], column [c] panicked. *)
Definition interrupted_at_cell {A B m n} (op : A -> B -> mres A) (old : array (array A n) m)
    (args : array (array B n) m) (r c : nat) (e : panic) (left : array (array A n) m) : Prop :=
  (forall i j a b, i < r \/ (i = r /\ j < c) -> cell old i j = Some a -> cell args i j = Some b ->
     exists x, op a b = (x, Ok tt) /\ cell left i j = Some x) /\
  (exists a b x, cell old r c = Some a /\ cell args r c = Some b /\
     op a b = (x, Panic e) /\ cell left r c = Some x) /\
  (forall i j, r < i \/ (i = r /\ c < j) -> cell left i j = cell old i j).
