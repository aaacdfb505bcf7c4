(** Finite sums and powers in a ring, as used in the property statements. *)
From Coq Require Import List Arith.
From Verif Require Import Spec.Ring.

Section Sums.
Context {T : Type} (R : ring_sig T).

(** [sum_n R n f] = f 0 + f 1 + ... + f (n-1). *)
Fixpoint sum_n (n : nat) (f : nat -> T) : T :=
  match n with
  | 0 => sz R
  | S n' => sadd R (sum_n n' f) (f n')
  end.

(** [pow R x n] = x * x * ... * x. *)
Fixpoint pow (x : T) (n : nat) : T :=
  match n with
  | 0 => so R
  | S n' => smul R (pow x n') x
  end.
End Sums.
