(** What it means to be a ring: the law list of
    https://en.wikipedia.org/wiki/Ring_(mathematics), the reference given in the
    documentation of the [Ring] trait (src/algebra/ring.rs lines 46-61).

    Laws are stated up to an equivalence [same], since e.g. two [Polynomial]s with
    different numbers of trailing zeros denote the same ring element. *)
From Coq Require Import List.
From Verif Require Import Base.Outcome Model.Traits.

(** Total ring operations on a type. *)
Record ring_sig (T : Type) : Type := MkRingSig {
  sz : T;                  (* 0 *)
  so : T;                  (* 1 *)
  sadd : T -> T -> T;
  ssub : T -> T -> T;
  smul : T -> T -> T;
  sneg : T -> T;
  same : T -> T -> Prop     (* "are the same element" *)
}.
Arguments sz {T} _.
Arguments so {T} _.
Arguments sadd {T} _ _ _.
Arguments ssub {T} _ _ _.
Arguments smul {T} _ _ _.
Arguments sneg {T} _ _.
Arguments same {T} _ _ _.

Record ring_laws {T} (R : ring_sig T) : Prop := MkRingLaws {
  law_refl : forall x, same R x x;
  law_sym : forall x y, same R x y -> same R y x;
  law_trans : forall x y z, same R x y -> same R y z -> same R x z;
  law_add_cong : forall x x' y y', same R x x' -> same R y y' -> same R (sadd R x y) (sadd R x' y');
  law_sub_cong : forall x x' y y', same R x x' -> same R y y' -> same R (ssub R x y) (ssub R x' y');
  law_mul_cong : forall x x' y y', same R x x' -> same R y y' -> same R (smul R x y) (smul R x' y');
  law_neg_cong : forall x x', same R x x' -> same R (sneg R x) (sneg R x');
  law_add_assoc : forall x y z, same R (sadd R (sadd R x y) z) (sadd R x (sadd R y z));
  law_add_comm : forall x y, same R (sadd R x y) (sadd R y x);
  law_add_0 : forall x, same R (sadd R x (sz R)) x;
  law_add_neg : forall x, same R (sadd R x (sneg R x)) (sz R);
  law_sub_def : forall x y, same R (ssub R x y) (sadd R x (sneg R y));
  law_mul_assoc : forall x y z, same R (smul R (smul R x y) z) (smul R x (smul R y z));
  law_mul_1_l : forall x, same R (smul R (so R) x) x;
  law_mul_1_r : forall x, same R (smul R x (so R)) x;
  law_distr_l : forall x y z, same R (smul R x (sadd R y z)) (sadd R (smul R x y) (smul R x z));
  law_distr_r : forall x y z, same R (smul R (sadd R x y) z) (sadd R (smul R x z) (smul R y z))
}.

Definition commutative {T} (R : ring_sig T) : Prop :=
  forall x y, same R (smul R x y) (smul R y x).

(** The (possibly panicking) operations [O] of a trait implementation never
    panic and compute the total operations of [R]; [==] only identifies
    elements that are the same. *)
Record implements {T} (O : RingOps T) (R : ring_sig T) : Prop := MkImplements {
  impl_zero : r_zero O = sz R;
  impl_one : r_one O = so R;
  impl_add : forall x y, r_add O x y = Ok (sadd R x y);
  impl_sub : forall x y, r_sub O x y = Ok (ssub R x y);
  impl_mul : forall x y, r_mul O x y = Ok (smul R x y);
  impl_neg : forall x, r_neg O x = Ok (sneg R x);
  impl_eqb : forall x y, r_eqb O x y = true -> same R x y
}.

(** "The type with trait implementation [O] is a ring, where [E] says when two
    values are the same ring element": the operations never panic and satisfy
    the ring laws. *)
Definition is_ring {T} (O : RingOps T) (E : T -> T -> Prop) : Prop :=
  exists R, implements O R /\ ring_laws R /\ (forall x y, same R x y <-> E x y).

Definition is_comm_ring {T} (O : RingOps T) (E : T -> T -> Prop) : Prop :=
  exists R, implements O R /\ ring_laws R /\ commutative R /\ (forall x y, same R x y <-> E x y).
