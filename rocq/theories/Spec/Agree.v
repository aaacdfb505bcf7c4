(** Two computations both return (no panic, no divergence) and their results are related. *)
From Verif Require Import Base.Outcome.

Definition agree {A} (E : A -> A -> Prop) (m1 m2 : outcome A) : Prop :=
  exists a b, m1 = Ok a /\ m2 = Ok b /\ E a b.

(** The computation returns a result with property [P]. *)
Definition returns {A} (m : outcome A) (P : A -> Prop) : Prop :=
  exists a, m = Ok a /\ P a.
