(** Complex sine, cosine and tangent, and the grid of the samples (for C103). *)
From Coq Require Import Reals ZArith.
From Verif Require Import Spec.ComplexErr.
Local Open Scope R_scope.

(** sin(a+ib) = sin a cosh b + i cos a sinh b, cos(a+ib) = cos a cosh b - i sin a sinh b. *)
Definition csn (z : cplx) : cplx := (sin (fst z) * cosh (snd z), cos (fst z) * sinh (snd z)).
Definition ccs (z : cplx) : cplx := (cos (fst z) * cosh (snd z), - (sin (fst z) * sinh (snd z))).
(** [t] is the tangent of [z]: t cos z = sin z, and z is not a pole. *)
Definition is_tan (t z : cplx) : Prop := cmul t (ccs z) = csn z /\ ccs z <> c0.
(** A multiple of 2^-20. *)
Definition on_grid (x : R) : Prop := exists m : Z, x = IZR m / 1048576.
