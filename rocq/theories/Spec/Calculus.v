(** Limits and derivatives of functions of a complex variable, for C88.  [f] is a computation
    that may fail; having a derivative includes being defined in a neighbourhood. *)
From Coq Require Import List Reals.
From Verif Require Import Base.Outcome Model.Traits Model.Complex Model.Polynomial Model.RealInstance
  Spec.Ring Spec.Complex.
Import ListNotations.
Open Scope R_scope.

Definition cplus (z w : complex R) : complex R := Cx (re z + re w) (im z + im w).
Definition cminus (z w : complex R) : complex R := Cx (re z - re w) (im z - im w).
Definition cmult (z w : complex R) : complex R :=
  Cx (re z * re w - im z * im w) (re z * im w + im z * re w).
Definition modulus (z : complex R) : R := sqrt (re z * re z + im z * im z).

(** f(z + h) = f(z) + d h + o(h) as h tends to 0. *)
Definition has_derivative (f : complex R -> outcome (complex R)) (z d : complex R) : Prop :=
  exists fz, f z = Ok fz /\
  forall eps, 0 < eps -> exists delta, 0 < delta /\
  forall h, modulus h < delta ->
  exists fw, f (cplus z h) = Ok fw
    /\ modulus (cminus (cminus fw fz) (cmult d h)) <= eps * modulus h.

Definition continuous_at (f : complex R -> outcome (complex R)) (z : complex R) : Prop :=
  exists fz, f z = Ok fz /\
  forall eps, 0 < eps -> exists delta, 0 < delta /\
  forall h, modulus h < delta -> exists fw, f (cplus z h) = Ok fw /\ modulus (cminus fw fz) < eps.

(** a_1 + 2 a_2 x + 3 a_3 x^2 + ... *)
Definition derived (p : poly (complex R)) : poly (complex R) :=
  match p with
  | [] => []
  | _ :: q => map (fun '(k, a) => Cx (INR (S k) * re a) (INR (S k) * im a)) (combine (seq 0 (length q)) q)
  end.

(** Neither zero nor a negative real number. *)
Definition off_the_cut (z : complex R) : Prop := 0 < re z \/ im z <> 0.
