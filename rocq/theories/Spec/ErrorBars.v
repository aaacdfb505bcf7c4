(** Numbers with error bars, ring expressions, and the base values inside a nested value. *)
From Coq Require Import List Arith Bool ZArith Reals.
From Flocq Require Import Core.Core IEEE754.BinarySingleNaN.
From Verif Require Import Base.Outcome Base.Array Model.Traits Model.Polynomial Model.Complex
  Model.SVector Model.SMatrix Spec.FloatErr Spec.Nest.
Import ListNotations.

(** ** Ring expressions *)
Inductive rexpr : Set :=
| EVar (i : nat) | EZero | EOne
| EAdd (a b : rexpr) | ESub (a b : rexpr) | EMul (a b : rexpr) | ENeg (a : rexpr).

(** What the expression computes when the variables have the values [v 0, v 1, ...]. *)
Fixpoint run {T} (O : RingOps T) (v : nat -> T) (e : rexpr) : outcome T :=
  match e with
  | EVar i => Ok (v i)
  | EZero => Ok (r_zero O)
  | EOne => Ok (r_one O)
  | EAdd a b => x <- run O v a ;; y <- run O v b ;; r_add O x y
  | ESub a b => x <- run O v a ;; y <- run O v b ;; r_sub O x y
  | EMul a b => x <- run O v a ;; y <- run O v b ;; r_mul O x y
  | ENeg a => x <- run O v a ;; r_neg O x
  end.

(** ** The base value at a given place of a nested value *)
(** A place is a list of indices: one for a coefficient, one for a part of a complex number
    (0: re, otherwise im), two for an entry of a matrix.  Where there is nothing: [none]. *)
Fixpoint base_at {B} (none : B) (t : nest) : list nat -> nval B t -> B :=
  match t with
  | NBase => fun _ x => x
  | NPoly t => fun place p =>
      match place with
      | i :: place' => match nth_error p i with Some c => base_at none t place' c | None => none end
      | [] => none
      end
  | NComplex t => fun place z =>
      match place with
      | i :: place' => base_at none t place' (if i =? 0 then re z else im z)
      | [] => none
      end
  | NMat n t => fun place a =>
      match place with
      | i :: j :: place' =>
          match nth_error (entries a) i with
          | Some row => match nth_error (entries row) j with Some x => base_at none t place' x | None => none end
          | None => none
          end
      | _ => none
      end
  end.

Local Open Scope R_scope.

(** ** Numbers with error bars *)
(** [exact]: the exact value.  [size]: the same computation on absolute values, with every minus
    replaced by plus.  [padded]: as [size], but every product is increased by the underflow unit.
    [depth]: the number of roundings on the longest path (a product adds up those of its
    factors).  [blank]: a zero with which sums and products are exact.  [peak]: the largest
    intermediate magnitude. *)
Record bars : Type := MkBars {
  exact : R; size : R; padded : R; depth : nat; blank : bool; peak : R }.

(** The error bar: (1 + u)^depth * padded - size, i.e. ((1 + u)^depth - 1) * size without underflow. *)
Definition error_bar (prec : Z) (b : bars) : R := (1 + unit_roundoff prec) ^ depth b * padded b - size b.

Section Ops.
Context (prec emax : Z).
Notation u := (unit_roundoff prec).

Definition bars_zero : bars := MkBars 0 0 0 0 true 0.
Definition bars_one : bars := MkBars 1 1 1 0 false 1.
Definition bars_add (a b : bars) : bars :=
  let p := padded a + padded b in
  let d := if blank a then depth b else if blank b then depth a else S (max (depth a) (depth b)) in
  MkBars (exact a + exact b) (size a + size b) p d (blank a && blank b)
         (Rmax (Rmax (peak a) (peak b)) ((1 + u) ^ d * p)).
Definition bars_neg (a : bars) : bars := MkBars (- exact a) (size a) (padded a) (depth a) (blank a) (peak a).
Definition bars_mul (a b : bars) : bars :=
  let z := blank a || blank b in
  let p := if z then 0 else padded a * padded b + underflow_unit prec emax in
  let d := if z then 0%nat else S (depth a + depth b) in
  MkBars (exact a * exact b) (size a * size b) p d z
         (Rmax (Rmax (peak a) (peak b)) ((1 + u) ^ d * p)).
Definition bars_ops : RingOps bars := {|
  r_zero := bars_zero; r_one := bars_one;
  r_add := fun a b => Ok (bars_add a b);
  r_sub := fun a b => Ok (bars_add a (bars_neg b));
  r_mul := fun a b => Ok (bars_mul a b);
  r_neg := fun a => Ok (bars_neg a);
  r_eqb := fun _ _ => false
|}.
(** An input. *)
Definition bars_of (x : binary_float prec emax) : bars :=
  MkBars (B2R x) (Rabs (B2R x)) (Rabs (B2R x)) 0 false (Rabs (B2R x)).

(** A finite [x] is within the error bars. *)
Definition within_bars (x : binary_float prec emax) (b : bars) : Prop :=
  is_finite x = true -> Rabs (B2R x - exact b) <= error_bar prec b.

(** What is maintained from operation to operation; [F]: all inputs are finite. *)
Definition sane (b : bars) : Prop :=
  Rabs (exact b) <= size b /\ size b <= padded b /\ (blank b = true -> padded b = 0)
  /\ (1 + u) ^ depth b * padded b <= peak b.
Definition inside (F : Prop) (x : binary_float prec emax) (b : bars) : Prop :=
  sane b /\ within_bars x b /\ (F -> peak b < bpow radix2 emax -> is_finite x = true).
End Ops.
