(** Roots and degrees of polynomials. *)
From Coq Require Import List Arith.
From Verif Require Import Spec.Ring Spec.Sums Spec.Polynomial.
Import ListNotations.

Section Roots.
Context {T : Type} (R : ring_sig T).

(** Without zero divisors: a product is 0 only if a factor is. *)
Definition no_zero_divisors : Prop :=
  forall x y, same R (smul R x y) (sz R) -> same R x (sz R) \/ same R y (sz R).

(** The elements of a list are pairwise different. *)
Definition pairwise_different (l : list T) : Prop :=
  forall i j x y, nth_error l i = Some x -> nth_error l j = Some y -> same R x y -> i = j.

(** The highest power with a coefficient other than 0 is x^m. *)
Definition degree_is (p : list T) (m : nat) : Prop :=
  ~ same R (coeff R p m) (sz R) /\ forall k, m < k -> same R (coeff R p k) (sz R).
End Roots.
