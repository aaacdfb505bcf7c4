(** Dynamic matrices over a ring. *)
From Coq Require Import List Arith NArith.
From Verif Require Import Base.Outcome Base.Usize Model.DMatrix Spec.Ring Spec.Sums Spec.DExpr.
Import ListNotations.

(** Entry in row [r] and column [c] (0 outside the storage). *)
Definition dm_at {T} (R : ring_sig T) (m : dmatrix T) (r c : N) : T :=
  nth (N.to_nat (r * dm_cols m + c)) (dm_data m) (sz R).

(** Same shape and the same ring element in every position. *)
Definition same_dmat {T} (R : ring_sig T) (a b : dmatrix T) : Prop :=
  dm_rows a = dm_rows b /\ dm_cols a = dm_cols b
  /\ forall r c, (r < dm_rows a)%N -> (c < dm_cols a)%N -> same R (dm_at R a r c) (dm_at R b r c).

(** The sum over m of a[r,m] * b[m,c]. *)
Definition row_times_col {T} (R : ring_sig T) (a b : dmatrix T) (r c : N) : T :=
  sum_n R (N.to_nat (dm_cols a)) (fun m => smul R (dm_at R a r (N.of_nat m)) (dm_at R b (N.of_nat m) c)).

(** A matrix of this shape fits into the address space of the target. *)
Definition fits (md : target) (rows cols : N) : Prop := (rows * cols < usize_bound md)%N.
