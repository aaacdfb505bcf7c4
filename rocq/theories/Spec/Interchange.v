(** Nested number types written the other way round (used in the statements of C87). *)
From Coq Require Import List Arith.
From Verif Require Import Base.Outcome Base.Array Model.Traits Model.Polynomial Model.Complex
  Model.SVector Model.SMatrix Spec.Agree Spec.Nest.
Import ListNotations.

(** [f] is an isomorphism between the rings as implemented: it is one-to-one and onto up to
    sameness, and doing an operation before or after [f] returns the same result (in
    particular no operation panics). *)
Record ring_iso {A B} (f : A -> B) (OA : RingOps A) (EA : A -> A -> Prop)
    (OB : RingOps B) (EB : B -> B -> Prop) : Prop := MkIso {
  iso_same : forall x y, EA x y <-> EB (f x) (f y);
  iso_onto : forall b, exists a, EB (f a) b;
  iso_zero : EB (f (r_zero OA)) (r_zero OB);
  iso_one : EB (f (r_one OA)) (r_one OB);
  iso_add : forall x y, agree EB (omap f (r_add OA x y)) (r_add OB (f x) (f y));
  iso_sub : forall x y, agree EB (omap f (r_sub OA x y)) (r_sub OB (f x) (f y));
  iso_mul : forall x y, agree EB (omap f (r_mul OA x y)) (r_mul OB (f x) (f y));
  iso_neg : forall x, agree EB (omap f (r_neg OA x)) (r_neg OB (f x))
}.

Section Exchange.
Context {T : Type} (zero : T).

(** Entry in row [i] and column [j]; [zero] outside. *)
Definition entry {m n} (a : smatrix T m n) (i j : nat) : T :=
  nth j (nth i (map entries (entries a)) []) zero.

(** Polynomial<Complex<T>> to Complex<Polynomial<T>>. *)
Definition complex_of_polys (p : poly (complex T)) : complex (poly T) := Cx (map re p) (map im p).

(** SMatrix<Complex<T>, n, n> to Complex<SMatrix<T, n, n>>. *)
Definition complex_of_mats {n} (a : smatrix (complex T) n n) : complex (smatrix T n n) :=
  Cx (array_image (array_image re) a) (array_image (array_image im) a).

(** Polynomial<SMatrix<T, n, n>> to SMatrix<Polynomial<T>, n, n>: the polynomial in row [i] and
    column [j] has the coefficients' entries in row [i] and column [j] as its coefficients. *)
Definition mat_of_polys {n} (p : poly (smatrix T n n)) : smatrix (poly T) n n :=
  tab n (fun i => tab n (fun j => map (fun a => entry a i j) p)).

(** Polynomial<Polynomial<T>>: exchange the two variables.  The coefficient of x^i y^j becomes the
    coefficient of x^j y^i. *)
Definition swap_variables (p : poly (poly T)) : poly (poly T) :=
  map (fun j => map (fun q => nth j q zero) p) (seq 0 (fold_right max 0 (map (@length T) p))).

(** SMatrix<SMatrix<T, k, k>, m, m> to SMatrix<T, mk, mk>: the blocks written out. *)
Definition of_blocks {m k} (a : smatrix (smatrix T k k) m m) : smatrix T (m * k) (m * k) :=
  let block i j := nth j (nth i (map entries (entries a)) []) (tab k (fun _ => tab k (fun _ => zero))) in
  tab (m * k) (fun i => tab (m * k) (fun j => entry (block (i / k) (j / k)) (i mod k) (j mod k))).
End Exchange.
