(** All element types a user can build by nesting the crate's ring constructors over a base
    type, e.g. Polynomial<SMatrix<Complex<i32>, 3, 3>> = [NPoly (NMat 3 (NComplex NBase))]. *)
From Coq Require Import List Arith.
From Verif Require Import Base.Outcome Base.Array Model.Traits Model.Polynomial Model.Complex
  Model.SVector Model.SMatrix.
Import ListNotations.

Inductive nest : Set :=
| NBase
| NPoly (t : nest)             (* Polynomial<t> *)
| NComplex (t : nest)          (* Complex<t> *)
| NMat (n : nat) (t : nest).   (* SMatrix<t, n, n> *)

(** The values of the type, over base type [B]. *)
Fixpoint nval (B : Type) (t : nest) : Type :=
  match t with
  | NBase => B
  | NPoly t => poly (nval B t)
  | NComplex t => complex (nval B t)
  | NMat n t => smatrix (nval B t) n n
  end.

(** Its [Ring] implementation, as resolved by the trait system. *)
Fixpoint nest_ops {B} (O : RingOps B) (t : nest) : RingOps (nval B t) :=
  match t with
  | NBase => O
  | NPoly t => poly_ops (nest_ops O t)
  | NComplex t => complex_ops (nest_ops O t)
  | NMat n t => smatrix_ops (nest_ops O t) n
  end.

(** When two values are the same mathematical object, given when two base values are. *)
Fixpoint nest_same {B} (O : RingOps B) (E : B -> B -> Prop) (t : nest) : nval B t -> nval B t -> Prop :=
  match t with
  | NBase => E
  | NPoly t => fun p q => forall i, nest_same O E t (nth i p (r_zero (nest_ops O t))) (nth i q (r_zero (nest_ops O t)))
  | NComplex t => fun z w => nest_same O E t (re z) (re w) /\ nest_same O E t (im z) (im w)
  | NMat n t => fun a b => forall i j x y, i < n -> j < n ->
      nth_error (nth i (map entries (entries a)) []) j = Some x ->
      nth_error (nth i (map entries (entries b)) []) j = Some y -> nest_same O E t x y
  end.

(** Applying a function to every base value inside. *)
Fixpoint array_image {A B} (f : A -> B) {n} (v : Vector.t A n) : array B n :=
  match v in Vector.t _ n return array B n with
  | Vector.nil _ => anil
  | Vector.cons _ x _ v' => acons (f x) (array_image f v')
  end.
Fixpoint nest_image {A B} (f : A -> B) (t : nest) : nval A t -> nval B t :=
  match t with
  | NBase => f
  | NPoly t => map (nest_image f t)
  | NComplex t => fun z => Cx (nest_image f t (re z)) (nest_image f t (im z))
  | NMat n t => array_image (array_image (nest_image f t))
  end.

(** No matrices larger than 1x1 inside. *)
Fixpoint no_big_matrix (t : nest) : Prop :=
  match t with
  | NBase => True
  | NPoly t => no_big_matrix t
  | NComplex t => no_big_matrix t
  | NMat n t => n <= 1 /\ no_big_matrix t
  end.

(** [f] maps the operations of [OA] to those of [OB]: same outcomes (also: panics for the same
    reason), results mapped by [f]. *)
Definition omap {A B} (f : A -> B) (m : outcome A) : outcome B :=
  match m with Ok a => Ok (f a) | Panic p => Panic p | Diverge => Diverge end.

Record is_hom {A B} (f : A -> B) (OA : RingOps A) (OB : RingOps B) : Prop := MkHom {
  hom_zero : f (r_zero OA) = r_zero OB;
  hom_one : f (r_one OA) = r_one OB;
  hom_add : forall x y, r_add OB (f x) (f y) = omap f (r_add OA x y);
  hom_sub : forall x y, r_sub OB (f x) (f y) = omap f (r_sub OA x y);
  hom_mul : forall x y, r_mul OB (f x) (f y) = omap f (r_mul OA x y);
  hom_neg : forall x, r_neg OB (f x) = omap f (r_neg OA x)
}.
