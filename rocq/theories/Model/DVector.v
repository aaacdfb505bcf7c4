(** Model of src/linalg/dvector.rs.

    Types implementing [VectorExpr] become records of their three methods, so the
    overriding of [eval] is kept.  Simplification: an [Fn] closure or an entry
    operation may panic but has no other side effect; moving, borrowing and cloning
    are the identity on values. *)
From Coq Require Import List Arith NArith Bool.
From Verif Require Import Base.Outcome Base.Usize.
Import ListNotations.

(** dvector.rs lines 433-434: [struct DVector<T>(Box<[T]>)]. *)
Definition dvector (T : Type) : Type := list T.

(** dvector.rs lines 8-32: trait VectorExpr. *)
Record vexpr (T : Type) : Type := MkV {
  v_len : N;
  v_entry : N -> outcome T;
  v_eval : outcome (dvector T)
}.
Arguments MkV {T} _ _ _.
Arguments v_len {T} _.
Arguments v_entry {T} _ _.
Arguments v_eval {T} _.

(** dvector.rs lines 24-26: default [eval]. *)
Definition vexpr_default_eval {T} (len : N) (entry : N -> outcome T) : outcome (dvector T) :=
  mapM entry (urange len).

(** dvector.rs lines 19-21. *)
Definition vexpr_is_empty {T} (e : vexpr T) : bool := (v_len e =? 0)%N.

(** dvector.rs lines 29-31 and 46-60: [wrap] and the delegating wrapper. *)
Definition vexpr_wrap {T} (e : vexpr T) : vexpr T := MkV (v_len e) (v_entry e) (v_eval e).

(** dvector.rs lines 73-97. *)
Definition make_vector_expr {T} (len : N) (f : N -> outcome T) : vexpr T :=
  vexpr_wrap (MkV len f (vexpr_default_eval len f)).

(** dvector.rs lines 126-131. *)
Definition vexpr_map {A B} (self : vexpr A) (f : A -> outcome B) : vexpr B :=
  make_vector_expr (v_len self) (fun index => x <- v_entry self index ;; f x).

(** [assert_eq!(a, b)] on usize. *)
Definition assert_eq_usize (a b : N) : outcome unit :=
  if (a =? b)%N then Ok tt else Panic AssertFailed.

(** dvector.rs lines 167-178. *)
Definition vexpr_zip {A B} (self : vexpr A) (rhs : vexpr B) : outcome (vexpr (A * B)) :=
  _ <- assert_eq_usize (v_len self) (v_len rhs) ;;
  Ok (make_vector_expr (v_len self) (fun index =>
        x <- v_entry self index ;; y <- v_entry rhs index ;; Ok (x, y))).

(** dvector.rs lines 200-203 and 215-232 ([AddExpr]); also lines 242-245 and
    257-274 ([SubExpr]) with the entry operator [op] being [-]. *)
Definition vexpr_binop {A B C} (op : A -> B -> outcome C) (self : vexpr A) (rhs : vexpr B)
  : outcome (vexpr C) :=
  _ <- assert_eq_usize (v_len self) (v_len rhs) ;;
  let entry := fun index => x <- v_entry self index ;; y <- v_entry rhs index ;; op x y in
  Ok (vexpr_wrap (MkV (v_len self) entry (vexpr_default_eval (v_len self) entry))).

(** dvector.rs lines 301-309 ([op] is [*]) and lines 345-353 ([op] is [/]). *)
Definition vexpr_op_elemwise {A B C} (op : A -> B -> outcome C) (self : vexpr A) (rhs : vexpr B)
  : outcome (vexpr C) :=
  z <- vexpr_zip self rhs ;; Ok (vexpr_map z (fun '(x, y) => op x y)).

(** dvector.rs lines 366-371. *)
Definition vexpr_conj {T} (conj : T -> outcome T) (self : vexpr T) : vexpr T :=
  vexpr_map self conj.

(** dvector.rs lines 436-450 (DVector) and lines 452-466 (&DVector): [eval] returns
    the vector itself resp. a clone. *)
Definition dvector_expr {T} (v : dvector T) : vexpr T := MkV (ulen v) (sget v) (Ok v).

(** dvector.rs lines 792-806: slices (and, by unsizing, arrays [[T; N]]). *)
Definition slice_expr {T} (s : list T) : vexpr T := MkV (ulen s) (sget s) (Ok s).

(** dvector.rs lines 495-497, 510-512, 525-527: zeros, ones, same. *)
Definition dvector_same {T} (len : N) (val : T) : vexpr T := make_vector_expr len (fun _ => Ok val).
Definition dvector_zeros {T} (zero : T) (len : N) : vexpr T := make_vector_expr len (fun _ => Ok zero).
Definition dvector_ones {T} (one : T) (len : N) : vexpr T := make_vector_expr len (fun _ => Ok one).

(** dvector.rs lines 541-543. *)
Definition dvector_index {T} (self : dvector T) (index : N) : outcome T := sget self index.
(** dvector.rs lines 557-559, used as [self[index] = x]. *)
Definition dvector_index_set {T} (self : dvector T) (index : N) (x : T) : outcome (dvector T) :=
  sset self index x.

(** dvector.rs lines 582-584 and 620-622: [&v + rhs], [&v - rhs]. *)
Definition dvector_binop {A B C} (op : A -> B -> outcome C) (self : dvector A) (rhs : vexpr B)
  : outcome (vexpr C) := vexpr_binop op (vexpr_wrap (dvector_expr self)) rhs.

(** dvector.rs lines 599-603 ([op] is the entry's [+=]) and lines 637-641 ([-=]).
    The state left behind when an entry of [rhs] or [op] panics is kept.
    Simplification: an [op] that panics leaves the entry unchanged, as the
    overflow-checked integer operators do. *)
Definition dvector_op_assign {A B} (op : A -> B -> outcome A) (self : dvector A) (rhs : vexpr B)
  : mres (dvector A) :=
  for_each_mut (fun index data =>
      match (x <- sget data index ;; y <- v_entry rhs index ;; z <- op x y ;; sset data index z) with
      | Ok data' => (data', Ok tt)
      | Panic p => (data, Panic p)
      | Diverge => (data, Diverge)
      end)
    (urange (ulen self)) self.

(** dvector.rs lines 676-682: [&self * &rhs]. *)
Definition dvector_dot_ref {T} (zero : T) (add mul : T -> T -> outcome T) (conj : T -> outcome T)
    (self rhs : dvector T) : outcome T :=
  for_each (fun '(l, r) acc => c <- conj l ;; p <- mul c r ;; add acc p) (combine self rhs) zero.
(** dvector.rs lines 657-659. *)
Definition dvector_dot {T} (zero : T) (add mul : T -> T -> outcome T) (conj : T -> outcome T)
    (self rhs : dvector T) : outcome T := dvector_dot_ref zero add mul conj self rhs.

(** dvector.rs lines 705-714 and 729-738. *)
Definition dvector_op_elemwise {A B C} (op : A -> B -> outcome C) (self : dvector A) (rhs : vexpr B)
  : outcome (vexpr C) := vexpr_op_elemwise op (vexpr_wrap (dvector_expr self)) rhs.

(** dvector.rs lines 747-749. *)
Definition dvector_conj {T} (conj : T -> outcome T) (self : dvector T) : vexpr T :=
  vexpr_conj conj (vexpr_wrap (dvector_expr self)).

(** dvector.rs line 433: derived PartialEq of the boxed slice. *)
Fixpoint list_eqb {A} (eqb : A -> A -> bool) (u v : list A) : bool :=
  match u, v with
  | [], [] => true
  | x :: u', y :: v' => eqb x y && list_eqb eqb u' v'
  | _, _ => false
  end.
Definition dvector_eqb {T} (eqb : T -> T -> bool) (u v : dvector T) : bool := list_eqb eqb u v.
