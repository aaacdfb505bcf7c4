(** Two ways to run a ring expression on booleans instead of numbers. *)
From Coq Require Import List Bool.
From Verif Require Import Base.Outcome Model.Traits Spec.ErrorBars.

(** "All inputs used are good": every operation is a conjunction, constants are good. *)
Definition all_ops : RingOps bool := {|
  r_zero := true; r_one := true;
  r_add := fun a b => Ok (a && b); r_sub := fun a b => Ok (a && b); r_mul := fun a b => Ok (a && b);
  r_neg := fun a => Ok a; r_eqb := Bool.eqb
|}.

(** "Some input used is bad": every operation is a disjunction, constants are not bad. *)
Definition some_ops : RingOps bool := {|
  r_zero := false; r_one := false;
  r_add := fun a b => Ok (a || b); r_sub := fun a b => Ok (a || b); r_mul := fun a b => Ok (a || b);
  r_neg := fun a => Ok a; r_eqb := Bool.eqb
|}.

(** Variable [i] occurs in the expression. *)
Fixpoint occurs (i : nat) (e : rexpr) : Prop :=
  match e with
  | EVar j => i = j
  | EZero | EOne => False
  | EAdd a b | ESub a b | EMul a b => occurs i a \/ occurs i b
  | ENeg a => occurs i a
  end.
