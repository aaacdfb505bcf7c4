(** Substituting polynomials into polynomials, eigenvectors, and complex numbers as real
    2x2 matrices (used in the statements of C86). *)
From Coq Require Import List.
From Verif Require Import Base.Outcome Base.Array Model.Traits Model.Polynomial Model.Complex
  Model.SVector Model.SMatrix Spec.Ring Spec.Agree Spec.Matrix.
Import ListNotations.

(** Every coefficient [a] turned into the constant polynomial [a]: the same polynomial, as a
    [Polynomial<Polynomial<T>>] with constant coefficients. *)
Definition constants {T} (p : poly T) : poly (poly T) := map (fun a => [a]) p.

(** "p of q": the polynomial that the code computes when [p] is evaluated at the polynomial [q]. *)
Definition compose {T} (O : RingOps T) (p q : poly T) : outcome (poly T) :=
  poly_eval (poly_ops O) (constants p) q.

(** [v] is an eigenvector of [a] with eigenvalue [c], as computed: [a * v] and [v * c] both
    return, and are the same vector. *)
Definition eigen {T} (O : RingOps T) (R : ring_sig T) {n} (v : svector T n) (a : smatrix T n n) (c : T) : Prop :=
  agree (same_vec R) (smatrix_mul_vec O a v) (svector_scale O v c).

(** The 2x2 matrix with rows (a, b) and (c, d). *)
Definition mat22 {T} (a b c d : T) : smatrix T 2 2 :=
  acons (acons a (acons b anil)) (acons (acons c (acons d anil)) anil).

(** x + iy as the matrix ((x, -y), (y, x)). *)
Definition complex_matrix {T} (R : ring_sig T) (z : complex T) : smatrix T 2 2 :=
  mat22 (re z) (sneg R (im z)) (im z) (re z).

(** x + iy as the vector (x, y). *)
Definition complex_vector {T} (z : complex T) : svector T 2 := acons (re z) (acons (im z) anil).
