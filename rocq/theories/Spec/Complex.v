(** Complex numbers over a ring, and fields. *)
From Coq Require Import List.
From Verif Require Import Base.Outcome Model.Traits Model.Complex Spec.Ring.

(** Same complex number: same real and imaginary parts. *)
Definition same_complex {T} (R : ring_sig T) (z w : complex T) : Prop :=
  same R (re z) (re w) /\ same R (im z) (im w).

(** Textbook complex arithmetic over [R]. *)
Definition complex_sig {T} (R : ring_sig T) : ring_sig (complex T) := {|
  sz := Cx (sz R) (sz R);
  so := Cx (so R) (sz R);
  sadd := fun z w => Cx (sadd R (re z) (re w)) (sadd R (im z) (im w));
  ssub := fun z w => Cx (ssub R (re z) (re w)) (ssub R (im z) (im w));
  smul := fun z w => Cx (ssub R (smul R (re z) (re w)) (smul R (im z) (im w)))
                        (sadd R (smul R (re z) (im w)) (smul R (im z) (re w)));
  sneg := fun z => Cx (sneg R (re z)) (sneg R (im z));
  same := same_complex R
|}.

(** [F] implements a field: a commutative ring with 0 <> 1 in which every
    division by a non-zero element succeeds and inverts multiplication. *)
Record is_field {T} (F : FieldOps T) (R : ring_sig T) : Prop := MkField {
  fld_impl : implements (f_ring F) R;
  fld_laws : ring_laws R;
  fld_comm : commutative R;
  fld_1_0 : ~ same R (so R) (sz R);
  fld_div : forall x y, ~ same R y (sz R) ->
     exists q, f_div F x y = Ok q /\ same R (smul R q y) x
}.
