(** What [==] on containers should mean, and the laws one expects of [==]. *)
From Coq Require Import List.
Import ListNotations.

(** Both have an element [i] and the elements are ==, or both have none. *)
Definition equal_at {A} (eqb : A -> A -> bool) (x y : option A) : Prop :=
  match x, y with
  | Some a, Some b => eqb a b = true
  | None, None => True
  | _, _ => False
  end.

Definition eq_reflexive {A} (eqb : A -> A -> bool) : Prop := forall x, eqb x x = true.
Definition eq_symmetric {A} (eqb : A -> A -> bool) : Prop := forall x y, eqb x y = eqb y x.
Definition eq_transitive {A} (eqb : A -> A -> bool) : Prop :=
  forall x y z, eqb x y = true -> eqb y z = true -> eqb x z = true.
(** [==] is true for identical values only. *)
Definition eq_decides {A} (eqb : A -> A -> bool) : Prop := forall x y, eqb x y = true <-> x = y.

Definition eq_laws_inherited {A B} (elem : A -> A -> bool) (whole : B -> B -> bool) : Prop :=
  (eq_reflexive elem -> eq_reflexive whole) /\ (eq_symmetric elem -> eq_symmetric whole)
  /\ (eq_transitive elem -> eq_transitive whole) /\ (eq_decides elem -> eq_decides whole).
