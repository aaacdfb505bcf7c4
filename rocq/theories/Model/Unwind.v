(** What the compound assignments leave behind when the element type panics.

    Model/Polynomial.v, Complex.v, SVector.v and SMatrix.v forget the value of [self] when
    an operation panics; here it is kept ([mres], Base/Outcome.v), as it can be seen after
    [std::panic::catch_unwind].  [add], [sub] are the element's own [+=], [-=]: they too say
    what they leave behind.  That the results agree with the other models is proved in
    Proofs/Unwind.v. *)
From Coq Require Import List Arith Bool Vector.
From Verif Require Import Base.Outcome Base.Array Model.Traits Model.Polynomial Model.Complex
  Model.SVector Model.SMatrix.
Import ListNotations.

(** [a[i] op= x]: bounds check, then the element's operation. *)
Definition vupd_mut {A} (l : list A) (i : nat) (f : A -> mres A) : mres (list A) :=
  match nth_error l i with
  | Some x => (list_upd l i (fst (f x)), snd (f x))
  | None => (l, Panic IndexOOB)
  end.

(** [*self = e]: assigns only when [e] could be computed. *)
Definition assign_mut {A} (self : A) (e : outcome A) : mres A :=
  match e with
  | Ok r => (r, Ok tt)
  | Panic p => (self, Panic p)
  | Diverge => (self, Diverge)
  end.

(** [for (s, o) in self.iter_mut().zip(other.iter())]. *)
Fixpoint array_zip_mres {A B n} (f : A -> B -> mres A) (u : Vector.t A n)
  : array B n -> mres (array A n) :=
  match u in Vector.t _ n return array B n -> mres (array A n) with
  | Vector.nil _ => fun _ => (anil, Ok tt)
  | Vector.cons _ x _ u' => fun v =>
      match f x (ahd v) with
      | (y, Ok _) => let r := array_zip_mres f u' (atl v) in (acons y (fst r), snd r)
      | (y, o) => (acons y u', o)
      end
  end.

Section Mut.
Context {T : Type} (O : RingOps T) (add sub : T -> T -> mres T).

(** polynomial.rs lines 143-152 ([op] is [add]) and 192-201 ([sub]). *)
Definition poly_op_assign_ref_mut (op : T -> T -> mres T) (self rhs : poly T) : mres (poly T) :=
  let a := if length self <? length rhs
           then resize_with self (length rhs) (r_zero O) else self in
  for_each_mut (fun i a =>
      match vget rhs i with
      | Ok x => vupd_mut a i (fun s => op s x)
      | Panic p => (a, Panic p)
      | Diverge => (a, Diverge)
      end) (seq 0 (length rhs)) a.

(** polynomial.rs lines 119-133. *)
Definition poly_add_assign_mut (self rhs : poly T) : mres (poly T) :=
  let my_len := length self in
  for_each_mut (fun '(i, x) a =>
      if i <? my_len then vupd_mut a i (fun s => add s x) else (a ++ [x], Ok tt))
    (enumerate rhs) self.

(** polynomial.rs lines 178-182: [-rhs] is computed before [self] is touched. *)
Definition poly_sub_assign_mut (self rhs : poly T) : mres (poly T) :=
  match poly_neg O rhs with
  | Ok n => poly_add_assign_mut self n
  | Panic p => (self, Panic p)
  | Diverge => (self, Diverge)
  end.

(** polynomial.rs lines 229-233. *)
Definition poly_mul_assign_mut (self rhs : poly T) : mres (poly T) :=
  assign_mut self (poly_mul_ref O self rhs).

(** complex.rs lines 191-194 ([op] is [add]) and 240-243 ([sub]): first the real part. *)
Definition complex_op_assign_ref_mut (op : T -> T -> mres T) (self other : complex T) : mres (complex T) :=
  match op (re self) (re other) with
  | (r, Ok _) => (Cx r (fst (op (im self) (im other))), snd (op (im self) (im other)))
  | (r, o) => (Cx r (im self), o)
  end.

(** complex.rs lines 284-288. *)
Definition complex_mul_assign_mut (self rhs : complex T) : mres (complex T) :=
  assign_mut self (complex_mul_ref O self rhs).

(** svector.rs lines 113-117 ([op] is [add]) and 197-201 ([sub]). *)
Definition svector_op_assign_ref_mut {n} (op : T -> T -> mres T) (self other : svector T n)
  : mres (svector T n) := array_zip_mres op self other.

(** svector.rs lines 324-329: the product is computed before the element is overwritten
    (written as a walk along a vector of copies of [other]). *)
Definition svector_scale_assign_ref_mut {n} (self : svector T n) (other : T) : mres (svector T n) :=
  array_zip_mres (fun x c => assign_mut x (r_mul O x c)) self (tab n (fun _ => other)).

(** smatrix.rs lines 158-164 ([op] is [add]) and 246-252 ([sub]). *)
Definition smatrix_op_assign_ref_mut {m n} (op : T -> T -> mres T) (self other : smatrix T m n)
  : mres (smatrix T m n) :=
  array_zip_mres (fun lo ro => array_zip_mres op lo ro) self other.

(** smatrix.rs lines 326-330. *)
Definition smatrix_mul_assign_ref_mut {m n} (self : smatrix T m n) (other : smatrix T n n)
  : mres (smatrix T m n) := assign_mut self (smatrix_mul_refs O self other).
End Mut.
