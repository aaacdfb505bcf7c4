(** How results on machine integers compare with exact integer arithmetic. *)
From Coq Require Import List ZArith.
From Verif Require Import Base.Outcome Base.Array Model.Int Model.Complex Model.SVector Model.SMatrix.
Import ListNotations.
Local Open Scope Z_scope.

(** The computation returns a value satisfying [Q], or reports an overflow; it neither
    returns anything else nor panics for another reason nor hangs. *)
Definition exact_or_overflow {A} (m : outcome A) (Q : A -> Prop) : Prop :=
  match m with
  | Ok a => Q a
  | Panic ArithOverflow => True
  | _ => False
  end.

(** Exact integer meaning of the data. *)
Definition zcoeff {t} (p : list (int t)) (i : nat) : Z := nth i (map ival p) 0.
Definition zvec {t n} (v : svector (int t) n) (i : nat) : Z := nth i (map ival (entries v)) 0.
Definition zmat {t m n} (a : smatrix (int t) m n) (i j : nat) : Z :=
  nth j (nth i (map (fun r => map ival (entries r)) (entries a)) []) 0.

(** f 0 + ... + f (n-1). *)
Fixpoint zsum (n : nat) (f : nat -> Z) : Z :=
  match n with
  | O => 0
  | S n' => zsum n' f + f n'
  end.
