(** What polynomials over a ring mean, independently of the code. *)
From Coq Require Import List Arith.
From Verif Require Import Spec.Ring Spec.Sums.
Import ListNotations.

Section PolySpec.
Context {T : Type} (R : ring_sig T).

(** The coefficient of x^i of the polynomial given by a coefficient list,
    lowest power first; all coefficients past the end are 0. *)
Definition coeff (p : list T) (i : nat) : T := nth i p (sz R).

(** Two coefficient lists describe the same polynomial. *)
Definition same_poly (p q : list T) : Prop :=
  forall i, same R (coeff p i) (coeff q i).

(** The value a_0 + a_1 x + ... + a_n x^n. *)
Definition poly_value (p : list T) (x : T) : T :=
  sum_n R (length p) (fun i => smul R (coeff p i) (pow R x i)).

(** Coefficient [k] of the product: sum over i of p_i q_(k-i). *)
Definition convolution (p q : list T) (k : nat) : T :=
  sum_n R (S k) (fun i => smul R (coeff p i) (coeff q (k - i))).

(** [x] commutes with every coefficient of [p]. *)
Definition commutes_with (x : T) (p : list T) : Prop :=
  forall a, In a p -> same R (smul R x a) (smul R a x).
End PolySpec.
