(** Vocabulary for normwise error bounds of complex computations: complex numbers as pairs of
    reals with the usual operations and absolute value. *)
From Coq Require Import List ZArith NArith Reals.
From Flocq Require Import Core.Core IEEE754.BinarySingleNaN.
From Verif Require Import Base.Array Model.Complex Model.SMatrix Model.DMatrix Spec.FloatErr.
Import ListNotations.
Local Open Scope R_scope.

(** A complex number: (real part, imaginary part). *)
Definition cplx : Type := (R * R)%type.
Definition c0 : cplx := (0, 0).
Definition c1 : cplx := (1, 0).
Definition cadd (z w : cplx) : cplx := (fst z + fst w, snd z + snd w).
Definition csub (z w : cplx) : cplx := (fst z - fst w, snd z - snd w).
Definition cmul (z w : cplx) : cplx := (fst z * fst w - snd z * snd w, fst z * snd w + snd z * fst w).
Definition cconj (z : cplx) : cplx := (fst z, - snd z).
(** |z|. *)
Definition cnorm (z : cplx) : R := sqrt (fst z * fst z + snd z * snd z).

(** f 0 + ... + f (n-1) and z^n. *)
Fixpoint csum (n : nat) (f : nat -> cplx) : cplx :=
  match n with O => c0 | S m => cadd (csum m f) (f m) end.
Fixpoint cpow (z : cplx) (n : nat) : cplx :=
  match n with O => c1 | S m => cmul z (cpow z m) end.

(** The complex number denoted by a pair of floats; both parts finite. *)
Definition cval {prec emax} (z : complex (binary_float prec emax)) : cplx := (B2R (re z), B2R (im z)).
Definition cfinite {prec emax} (z : complex (binary_float prec emax)) : Prop :=
  is_finite (re z) = true /\ is_finite (im z) = true.

(** The number denoted by entry [i] of a list (0 beyond the last), entries of matrices. *)
Definition centry {prec emax} (p : list (complex (binary_float prec emax))) (i : nat) : cplx := nth i (map cval p) c0.
Definition csmat {prec emax m n} (a : smatrix (complex (binary_float prec emax)) m n) (i j : nat) : cplx :=
  centry (nth i (map entries (entries a)) []) j.
Definition cdmat {prec emax} (a : dmatrix (complex (binary_float prec emax))) (r c : N) : cplx :=
  centry (dm_data a) (N.to_nat (r * dm_cols a + c)).

(** Relative error and underflow error of one complex product: about 2.31 u and 2.83 eta. *)
Definition mul_roundoff (prec : Z) : R := sqrt (4 / 3) * (2 * (unit_roundoff prec + unit_roundoff prec ^ 2)).
Definition mul_underflow (prec emax : Z) : R := sqrt 2 * (2 * (1 + unit_roundoff prec) * underflow_unit prec emax).

(** Error bound for a sum of [n] products the sum of whose absolute values is [mag]. *)
Definition cdot_bound (prec emax : Z) (n : nat) (mag : R) : R :=
  ((1 + mul_roundoff prec) * (1 + unit_roundoff prec) ^ (n - 1) - 1) * mag
  + INR n * (1 + unit_roundoff prec) ^ (n - 1) * mul_underflow prec emax.
