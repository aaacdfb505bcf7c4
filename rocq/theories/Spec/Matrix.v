(** Vectors and matrices of fixed size over a ring: what the entries are and
    when two of them are the same. *)
From Coq Require Import List Arith.
From Verif Require Import Base.Array Model.SVector Model.SMatrix Spec.Ring Spec.Sums.
Import ListNotations.

Section MatrixSpec.
Context {T : Type} (R : ring_sig T).

(** Entry number [i] (from 0) of a vector. *)
Definition vec_at {n} (v : svector T n) (i : nat) : T := nth i (entries v) (sz R).

(** Entry in row [i] and column [j] of a matrix (both from 0). *)
Definition mat_at {m n} (a : smatrix T m n) (i j : nat) : T :=
  nth j (nth i (map entries (entries a)) []) (sz R).

Definition same_vec {n} (u v : svector T n) : Prop :=
  forall i, i < n -> same R (vec_at u i) (vec_at v i).

Definition same_mat {m n} (a b : smatrix T m n) : Prop :=
  forall i j, i < m -> j < n -> same R (mat_at a i j) (mat_at b i j).

(** Kronecker's delta. *)
Definition delta (i j : nat) : T := if i =? j then so R else sz R.
End MatrixSpec.
