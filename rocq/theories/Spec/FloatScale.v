(** Multiplication of floats by powers of two. *)
From Coq Require Import ZArith Reals.
From Flocq Require Import Core.Core IEEE754.BinarySingleNaN.
Local Open Scope R_scope.

(** [y] is 2^k [x], exactly. *)
Definition scaled {prec emax} (k : Z) (x y : binary_float prec emax) : Prop :=
  B2R y = bpow radix2 k * B2R x.
(** The smallest positive number with full precision: for binary64, 2^-1022. *)
Definition smallest_normal (emax : Z) : R := bpow radix2 (2 - emax).
(** The exact result [v] of an operation is zero or large enough for full precision. *)
Definition no_underflow (emax : Z) (v : R) : Prop := v = 0 \/ smallest_normal emax <= Rabs v.
