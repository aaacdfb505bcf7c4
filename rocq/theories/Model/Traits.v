(** Traits of src/algebra and src/functions as records of operations.

    Every operation may panic (user types, checked integers), so it returns an
    [outcome].  A mutating method [fn op(&mut self, rhs: &Self)] becomes a
    function returning the new value. *)
From Coq Require Import List ZArith.
From Verif Require Import Base.Outcome.

(** src/algebra/ring.rs lines 109-120 (trait Ring with its supertraits
    Zero lines 10-12, One lines 29-32, AddAssign<&Self>, SubAssign<&Self>,
    MulRefs (src/algebra/ops_with_ref.rs lines 10-13), Neg, PartialEq).
    [Clone] is the identity on immutable values. *)
Record RingOps (T : Type) : Type := MkRingOps {
  r_zero : T;                        (** Zero::zero *)
  r_one  : T;                        (** One::one *)
  r_add  : T -> T -> outcome T;      (** AddAssign<&Self>::add_assign *)
  r_sub  : T -> T -> outcome T;      (** SubAssign<&Self>::sub_assign *)
  r_mul  : T -> T -> outcome T;      (** MulRefs::mul_refs *)
  r_neg  : T -> outcome T;           (** Neg::neg *)
  r_eqb  : T -> T -> bool            (** PartialEq::eq *)
}.
Arguments r_zero {T} _.
Arguments r_one {T} _.
Arguments r_add {T} _ _ _.
Arguments r_sub {T} _ _ _.
Arguments r_mul {T} _ _ _.
Arguments r_neg {T} _ _.
Arguments r_eqb {T} _ _ _.

(** src/algebra/field.rs line 16 (trait Field: Ring + DivRefs),
    DivRefs::div_refs of src/algebra/ops_with_ref.rs lines 39-42. *)
Record FieldOps (T : Type) : Type := MkFieldOps {
  f_ring : RingOps T;
  f_div  : T -> T -> outcome T       (** DivRefs::div_refs *)
}.
Arguments f_ring {T} _.
Arguments f_div {T} _ _ _.

(** src/functions/*.rs: one field per trait (Exp, Sin, Cos, Sinh, Cosh, Ln,
    Atan2, Sqrt, Abs), plus PartialOrd's [<=], [<], [>=] as used by
    src/algebra/complex.rs lines 633-652. *)
Record FunOps (T : Type) : Type := MkFunOps {
  fn_exp   : T -> outcome T;         (** src/functions/exp.rs lines 2-6 *)
  fn_sin   : T -> outcome T;         (** src/functions/sin.rs lines 2-6 *)
  fn_cos   : T -> outcome T;         (** src/functions/cos.rs lines 2-6 *)
  fn_sinh  : T -> outcome T;         (** src/functions/sinh.rs lines 2-6 *)
  fn_cosh  : T -> outcome T;         (** src/functions/cosh.rs lines 2-6 *)
  fn_ln    : T -> outcome T;         (** src/functions/log.rs lines 2-6 *)
  fn_atan2 : T -> T -> outcome T;    (** src/functions/atan2.rs lines 3-9 *)
  fn_sqrt  : T -> outcome T;         (** src/functions/sqrt.rs lines 2-7 *)
  fn_abs   : T -> outcome T;         (** src/functions/abs.rs lines 2-8, on &T *)
  fn_leb   : T -> T -> bool;         (** PartialOrd [<=] *)
  fn_ltb   : T -> T -> bool          (** PartialOrd [<] *)
}.
Arguments fn_exp {T} _ _.
Arguments fn_sin {T} _ _.
Arguments fn_cos {T} _ _.
Arguments fn_sinh {T} _ _.
Arguments fn_cosh {T} _ _.
Arguments fn_ln {T} _ _.
Arguments fn_atan2 {T} _ _ _.
Arguments fn_sqrt {T} _ _.
Arguments fn_abs {T} _ _.
Arguments fn_leb {T} _ _ _.
Arguments fn_ltb {T} _ _ _.

(** src/algebra/conj.rs lines 10-21: [Conj] for the primitive numeric types. *)
Definition prim_conj {T : Type} (self : T) : outcome T := Ok self.
