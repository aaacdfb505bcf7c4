(** Vocabulary for rounding-error bounds: ordinary real sums and powers, the unit roundoff and
    the underflow unit of a binary format.  binary64 is prec = 53, emax = 1024. *)
From Coq Require Import List ZArith Reals.
From Flocq Require Import Core.Core IEEE754.BinarySingleNaN.
From Verif Require Import Base.Array Model.SMatrix Model.DMatrix.
Import ListNotations.

Local Open Scope R_scope.

(** f 0 + ... + f (n-1). *)
Fixpoint rsum (n : nat) (f : nat -> R) : R :=
  match n with O => 0 | S m => rsum m f + f m end.

(** u = 2^-prec: for binary64, 2^-53. *)
Definition unit_roundoff (prec : Z) : R := bpow radix2 (- prec).
(** Half the smallest positive number of the format: for binary64, 2^-1075. *)
Definition underflow_unit (prec emax : Z) : R := bpow radix2 (2 - emax - prec).
(** The overflow threshold's exponent bound: every finite number is below 2^emax. *)
Definition too_big (emax : Z) : R := bpow radix2 emax.

(** gamma_k = k u / (1 - k u), Higham's notation. *)
Definition gamma (prec : Z) (k : nat) : R :=
  INR k * unit_roundoff prec / (1 - INR k * unit_roundoff prec).

(** The number denoted by entry [i] of a list of floats (0 beyond the last). *)
Definition entry_R {prec emax} (p : list (binary_float prec emax)) (i : nat) : R :=
  nth i (map (fun a => B2R a) p) 0.

(** sum of a_i x^i and of |a_i| |x|^i. *)
Definition exact_eval {prec emax} (p : list (binary_float prec emax)) (x : R) : R :=
  rsum (length p) (fun i => entry_R p i * x ^ i).
Definition abs_eval {prec emax} (p : list (binary_float prec emax)) (x : R) : R :=
  rsum (length p) (fun i => Rabs (entry_R p i) * Rabs x ^ i).

(** Entries of matrices of floats as numbers. *)
Definition smat_R {prec emax m n} (a : smatrix (binary_float prec emax) m n) (i j : nat) : R :=
  entry_R (nth i (map entries (entries a)) []) j.
Definition dmat_R {prec emax} (a : dmatrix (binary_float prec emax)) (r c : N) : R :=
  entry_R (dm_data a) (N.to_nat (r * dm_cols a + c)).

(** Error bound for a sum of [n] products the sum of whose absolute values is [mag]. *)
Definition dot_bound (prec emax : Z) (n : nat) (mag : R) : R :=
  ((1 + unit_roundoff prec) ^ n - 1) * mag
  + INR n * (1 + unit_roundoff prec) ^ (n - 1) * underflow_unit prec emax.

(** Equal, except that a zero may have the other sign. *)
Definition same_up_to_zero {prec emax} (x y : binary_float prec emax) : Prop :=
  x = y \/ exists s t, x = B754_zero s /\ y = B754_zero t.
