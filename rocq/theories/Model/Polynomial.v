(** Model of src/algebra/polynomial.rs. *)
From Coq Require Import List Arith Bool.
From Verif Require Import Base.Outcome Model.Traits.
Import ListNotations.

(** polynomial.rs lines 15-18: [struct Polynomial<T: Ring> { a: Vec<T> }], lowest
    power first.  Simplification: Vec capacity is not modelled; lengths are
    unbounded naturals (a real Vec of a non-zero-sized type has at most
    isize::MAX bytes, so [len + len - 1] cannot overflow usize). *)
Definition poly (T : Type) : Type := list T.

Section Polynomial.
Context {T : Type} (O : RingOps T).

(** polynomial.rs lines 35-37. *)
Definition poly_from_coefficients (coefficients : list T) : poly T := coefficients.

(** polynomial.rs lines 49-56: [y = zero; for a in self.a.iter().rev() { y = y.mul_refs(x); y += a; }]. *)
Definition poly_eval_ref (self : poly T) (x : T) : outcome T :=
  for_each (fun a y => y <- r_mul O y x ;; r_add O y a) (rev self) (r_zero O).

(** polynomial.rs lines 67-69. *)
Definition poly_eval (self : poly T) (x : T) : outcome T := poly_eval_ref self x.

(** polynomial.rs lines 72-76. *)
Definition poly_zero : poly T := [].

(** polynomial.rs lines 84-88. *)
Definition poly_one : poly T := [r_one O].

(** polynomial.rs lines 99-108: [Add::add].  The recursive call
    [rhs.add(self)] is real recursion in the source; [fuel] bounds its depth
    and [Diverge] marks a call chain deeper than [fuel]. *)
Fixpoint poly_add_rec (fuel : nat) (self rhs : poly T) : outcome (poly T) :=
  match fuel with
  | 0 => Diverge
  | S fuel' =>
      if length self <? length rhs then poly_add_rec fuel' rhs self
      else for_each (fun '(i, x) a => vupd a i (fun s => r_add O s x)) (enumerate rhs) self
  end.
Definition poly_add (self rhs : poly T) : outcome (poly T) := poly_add_rec 2 self rhs.

(** polynomial.rs lines 119-133: [AddAssign::add_assign] (by value).
    [reserve] (line 123) only affects capacity and is omitted. *)
Definition poly_add_assign (self rhs : poly T) : outcome (poly T) :=
  let my_len := length self in
  for_each (fun '(i, x) a =>
              if i <? my_len then vupd a i (fun s => r_add O s x)
              else Ok (a ++ [x]))
           (enumerate rhs) self.

(** Vec::resize_with(n, || v) for n >= len. *)
Definition resize_with (a : list T) (n : nat) (v : T) : list T :=
  a ++ repeat v (n - length a).

(** polynomial.rs lines 143-152: [AddAssign<&Polynomial<T>>::add_assign]. *)
Definition poly_add_assign_ref (self rhs : poly T) : outcome (poly T) :=
  let a := if length self <? length rhs
           then resize_with self (length rhs) (r_zero O) else self in
  for_range 0 (length rhs)
    (fun i a => x <- vget rhs i ;; vupd a i (fun s => r_add O s x)) a.

(** polynomial.rs lines 273-281: [Neg::neg]. *)
Definition poly_neg (self : poly T) : outcome (poly T) := mapM (r_neg O) self.

(** polynomial.rs lines 162-168: [Sub::sub] is [self + -rhs]. *)
Definition poly_sub (self rhs : poly T) : outcome (poly T) :=
  n <- poly_neg rhs ;; poly_add self n.

(** polynomial.rs lines 178-182: [SubAssign::sub_assign] is [*self += -rhs]. *)
Definition poly_sub_assign (self rhs : poly T) : outcome (poly T) :=
  n <- poly_neg rhs ;; poly_add_assign self n.

(** polynomial.rs lines 192-201: [SubAssign<&Polynomial<T>>::sub_assign]. *)
Definition poly_sub_assign_ref (self rhs : poly T) : outcome (poly T) :=
  let a := if length self <? length rhs
           then resize_with self (length rhs) (r_zero O) else self in
  for_range 0 (length rhs)
    (fun i a => x <- vget rhs i ;; vupd a i (fun s => r_sub O s x)) a.

(** polynomial.rs lines 245-261: [Mul for &Polynomial<T>]. *)
Definition poly_mul_ref (self rhs : poly T) : outcome (poly T) :=
  if (length self =? 0) || (length rhs =? 0) then Ok poly_zero
  else
    a <- for_range 0 (length self)
           (fun i a =>
              for_range 0 (length rhs)
                (fun j a =>
                   x <- vget self i ;;
                   y <- vget rhs j ;;
                   prod <- r_mul O x y ;;
                   vupd a (i + j) (fun s => r_add O s prod)) a)
           (repeat (r_zero O) (length self + length rhs - 1)) ;;
    Ok (poly_from_coefficients a).

(** polynomial.rs lines 211-217: [Mul::mul] is [self.mul_refs(&rhs)], and
    [mul_refs] is [&self * &rhs] by ops_with_ref.rs lines 15-22. *)
Definition poly_mul (self rhs : poly T) : outcome (poly T) := poly_mul_ref self rhs.

(** polynomial.rs lines 229-233: [MulAssign]. *)
Definition poly_mul_assign (self rhs : poly T) : outcome (poly T) := poly_mul_ref self rhs.

(** polynomial.rs line 15: derived [PartialEq], i.e. Vec equality. *)
Fixpoint poly_eqb (self rhs : poly T) : bool :=
  match self, rhs with
  | [], [] => true
  | x :: p, y :: q => r_eqb O x y && poly_eqb p q
  | _, _ => false
  end.

(** polynomial.rs line 290: [impl<T: Ring> Ring for Polynomial<T>]. *)
Definition poly_ops : RingOps (poly T) := {|
  r_zero := poly_zero;
  r_one := poly_one;
  r_add := poly_add_assign_ref;
  r_sub := poly_sub_assign_ref;
  r_mul := poly_mul_ref;
  r_neg := poly_neg;
  r_eqb := poly_eqb
|}.

End Polynomial.
