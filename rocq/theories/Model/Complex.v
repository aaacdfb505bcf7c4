(** Model of src/algebra/complex.rs. *)
From Coq Require Import List Bool.
From Verif Require Import Base.Outcome Model.Traits.

(** complex.rs lines 6-12: [struct Complex<T> { re: T, im: T }]. *)
Record complex (T : Type) : Type := Cx { re : T; im : T }.
Arguments Cx {T} re im.
Arguments re {T} _.
Arguments im {T} _.

(** complex.rs lines 23-25. *)
Definition complex_new {T} (re im : T) : complex T := Cx re im.

(** ** By-value operators, generic in the operator of the components *)

(** complex.rs lines 156-162: [Add<Complex<U>> for Complex<T>]; [add] is [T: Add<U>]. *)
Definition complex_add {T U V} (add : T -> U -> outcome V) (self : complex T) (other : complex U)
  : outcome (complex V) :=
  r <- add (re self) (re other) ;;
  i <- add (im self) (im other) ;;
  Ok (complex_new r i).

(** complex.rs lines 172-177: [AddAssign<Complex<U>>]; [add_assign] is [T: AddAssign<U>]. *)
Definition complex_add_assign {T U} (add_assign : T -> U -> outcome T)
  (self : complex T) (other : complex U) : outcome (complex T) :=
  r <- add_assign (re self) (re other) ;;
  i <- add_assign (im self) (im other) ;;
  Ok (Cx r i).

(** complex.rs lines 205-211: [Sub<Complex<U>> for Complex<T>]. *)
Definition complex_sub {T U V} (sub : T -> U -> outcome V) (self : complex T) (other : complex U)
  : outcome (complex V) :=
  r <- sub (re self) (re other) ;;
  i <- sub (im self) (im other) ;;
  Ok (complex_new r i).

(** complex.rs lines 221-226: [SubAssign<Complex<U>>]. *)
Definition complex_sub_assign {T U} (sub_assign : T -> U -> outcome T)
  (self : complex T) (other : complex U) : outcome (complex T) :=
  r <- sub_assign (re self) (re other) ;;
  i <- sub_assign (im self) (im other) ;;
  Ok (Cx r i).

(** complex.rs lines 421-427: [Neg]. *)
Definition complex_neg {T} (neg : T -> outcome T) (self : complex T) : outcome (complex T) :=
  r <- neg (re self) ;; i <- neg (im self) ;; Ok (complex_new r i).

(** complex.rs lines 41-43: [Conj]. *)
Definition complex_conj {T} (neg : T -> outcome T) (self : complex T) : outcome (complex T) :=
  i <- neg (im self) ;; Ok (complex_new (re self) i).

(** complex.rs lines 370-379, 390-399 and 410-419: [&z / &t], [z / &t], [z / t];
    [div] is the component's division in the respective form. *)
Definition complex_div_scalar {T} (div : T -> T -> outcome T) (self : complex T) (other : T)
  : outcome (complex T) :=
  r <- div (re self) other ;; i <- div (im self) other ;; Ok (complex_new r i).

Section ComplexRing.
Context {T : Type} (O : RingOps T).

(** complex.rs lines 59-64. *)
Definition complex_sqr_norm (self : complex T) : outcome T :=
  p1 <- r_mul O (re self) (re self) ;;
  p2 <- r_mul O (im self) (im self) ;;
  r_add O p1 p2.

(** complex.rs lines 130-134. *)
Definition complex_zero : complex T := complex_new (r_zero O) (r_zero O).

(** complex.rs lines 143-147. *)
Definition complex_one : complex T := complex_new (r_one O) (r_zero O).

(** complex.rs lines 187-195: [AddAssign<&Complex<T>>]. *)
Definition complex_add_assign_ref (self other : complex T) : outcome (complex T) :=
  r <- r_add O (re self) (re other) ;;
  i <- r_add O (im self) (im other) ;;
  Ok (Cx r i).

(** complex.rs lines 236-244: [SubAssign<&Self>]. *)
Definition complex_sub_assign_ref (self other : complex T) : outcome (complex T) :=
  r <- r_sub O (re self) (re other) ;;
  i <- r_sub O (im self) (im other) ;;
  Ok (Cx r i).

(** complex.rs lines 298-313: [&z * &w]. *)
Definition complex_mul_ref (self other : complex T) : outcome (complex T) :=
  p1 <- r_mul O (re self) (re other) ;;
  p2 <- r_mul O (re self) (im other) ;;
  p3 <- r_mul O (im self) (re other) ;;
  p4 <- r_mul O (im self) (im other) ;;
  p1 <- r_sub O p1 p4 ;;
  p2 <- r_add O p2 p3 ;;
  Ok (complex_new p1 p2).

(** complex.rs lines 254-263. *)
Definition complex_mul (self other : complex T) : outcome (complex T) := complex_mul_ref self other.

(** complex.rs lines 283-289. *)
Definition complex_mul_assign (self rhs : complex T) : outcome (complex T) := complex_mul_ref self rhs.

(** complex.rs lines 272-281: [Complex<T> * T]. *)
Definition complex_mul_scalar (self : complex T) (other : T) : outcome (complex T) :=
  r <- r_mul O (re self) other ;;
  i <- r_mul O (im self) other ;;
  Ok (complex_new r i).

(** complex.rs line 6: derived [PartialEq]. *)
Definition complex_eqb (self other : complex T) : bool :=
  r_eqb O (re self) (re other) && r_eqb O (im self) (im other).

(** complex.rs line 436: [impl<T: Ring> Ring for Complex<T>]. *)
Definition complex_ops : RingOps (complex T) := {|
  r_zero := complex_zero;
  r_one := complex_one;
  r_add := complex_add_assign_ref;
  r_sub := complex_sub_assign_ref;
  r_mul := complex_mul_ref;
  r_neg := complex_neg (r_neg O);
  r_eqb := complex_eqb
|}.
End ComplexRing.

Section ComplexField.
Context {T : Type} (F : FieldOps T).
Notation O := (f_ring F).

(** complex.rs lines 323-339: [&z / &w]. *)
Definition complex_div_ref (self other : complex T) : outcome (complex T) :=
  n <- complex_sqr_norm O other ;;
  rcp_sqr_norm <- f_div F (r_one O) n ;;
  p1 <- r_mul O (re self) (re other) ;;
  p2 <- r_mul O (im self) (re other) ;;
  p3 <- r_mul O (re self) (im other) ;;
  p4 <- r_mul O (im self) (im other) ;;
  p1 <- r_add O p1 p4 ;;
  p2 <- r_sub O p2 p3 ;;
  r <- r_mul O p1 rcp_sqr_norm ;;
  i <- r_mul O p2 rcp_sqr_norm ;;
  Ok (complex_new r i).

(** complex.rs lines 351-360. *)
Definition complex_div (self other : complex T) : outcome (complex T) := complex_div_ref self other.

(** complex.rs line 442: [impl<T: Field> Field for Complex<T>]. *)
Definition complex_field : FieldOps (complex T) := {|
  f_ring := complex_ops O;
  f_div := complex_div_ref
|}.
End ComplexField.

(** ** Elementary functions.
    Simplification: the by-value, by-reference and mixed forms of one arithmetic
    operator of the component type are identified (true for f32/f64, the only
    types in the crate that implement these function traits). *)
Section ComplexFun.
Context {T : Type} (F : FieldOps T) (E : FunOps T).
Notation O := (f_ring F).

(** complex.rs lines 67-76 and 88-97: [Abs] by value and by reference. *)
Definition complex_abs (self : complex T) : outcome T :=
  n <- complex_sqr_norm O self ;; fn_sqrt E n.
Definition complex_abs_ref (self : complex T) : outcome T :=
  n <- complex_sqr_norm O self ;; fn_sqrt E n.

(** complex.rs lines 125-127. *)
Definition complex_arg (self : complex T) : outcome T := fn_atan2 E (im self) (re self).

(** complex.rs lines 444-454. *)
Definition complex_exp (self : complex T) : outcome (complex T) :=
  e <- fn_exp E (re self) ;;
  c <- fn_cos E (im self) ;;
  s <- fn_sin E (im self) ;;
  r <- r_mul O e c ;;
  i <- r_mul O e s ;;
  Ok (complex_new r i).

(** complex.rs lines 464-473. *)
Definition complex_sin (self : complex T) : outcome (complex T) :=
  s <- fn_sin E (re self) ;;
  ch <- fn_cosh E (im self) ;;
  r <- r_mul O s ch ;;
  c <- fn_cos E (re self) ;;
  sh <- fn_sinh E (im self) ;;
  i <- r_mul O c sh ;;
  Ok (complex_new r i).

(** complex.rs lines 484-493; unary minus binds weaker than the method calls,
    so the product is negated. *)
Definition complex_cos (self : complex T) : outcome (complex T) :=
  c <- fn_cos E (re self) ;;
  ch <- fn_cosh E (im self) ;;
  r <- r_mul O c ch ;;
  s <- fn_sin E (re self) ;;
  sh <- fn_sinh E (im self) ;;
  m <- r_mul O s sh ;;
  i <- r_neg O m ;;
  Ok (complex_new r i).

(** complex.rs lines 504-513. *)
Definition complex_sinh (self : complex T) : outcome (complex T) :=
  sh <- fn_sinh E (re self) ;;
  c <- fn_cos E (im self) ;;
  r <- r_mul O sh c ;;
  ch <- fn_cosh E (re self) ;;
  s <- fn_sin E (im self) ;;
  i <- r_mul O ch s ;;
  Ok (complex_new r i).

(** complex.rs lines 523-532. *)
Definition complex_cosh (self : complex T) : outcome (complex T) :=
  ch <- fn_cosh E (re self) ;;
  c <- fn_cos E (im self) ;;
  r <- r_mul O ch c ;;
  sh <- fn_sinh E (re self) ;;
  s <- fn_sin E (im self) ;;
  i <- r_mul O sh s ;;
  Ok (complex_new r i).

(** complex.rs lines 542-549. *)
Definition complex_tan (self : complex T) : outcome (complex T) :=
  s <- complex_sin self ;;
  c <- complex_cos self ;;
  complex_div F s c.

(** complex.rs lines 571-583. *)
Definition complex_ln (self : complex T) : outcome (complex T) :=
  two <- r_add O (r_one O) (r_one O) ;;
  n <- complex_sqr_norm O self ;;
  l <- fn_ln E n ;;
  r <- f_div F l two ;;
  i <- fn_atan2 E (im self) (re self) ;;
  Ok (complex_new r i).

(** complex.rs lines 613-654.  [self.re >= T::zero()] is [zero <= re]. *)
Definition complex_sqrt (self : complex T) : outcome (complex T) :=
  two <- r_add O (r_one O) (r_one O) ;;
  one_half <- f_div F (r_one O) two ;;
  abs <- complex_abs_ref self ;;
  abs_re <- fn_abs E (re self) ;;
  abs_im0 <- fn_abs E (im self) ;;
  twice <- r_mul O abs_im0 two ;;
  ' (r, abs_im) <-
    (if fn_leb E abs_re twice then
       s <- r_add O abs (re self) ;;
       h <- r_mul O s one_half ;;
       r <- fn_sqrt E h ;;
       d <- r_sub O abs (re self) ;;
       h' <- r_mul O d one_half ;;
       abs_im <- fn_sqrt E h' ;;
       Ok (r, abs_im)
     else
       are <- fn_abs E (re self) ;;
       s <- r_add O abs are ;;
       s2 <- r_mul O s two ;;
       denominator <- fn_sqrt E s2 ;;
       aim <- fn_abs E (im self) ;;
       alpha <- f_div F aim denominator ;;
       are' <- fn_abs E (re self) ;;
       s' <- r_add O abs are' ;;
       h <- r_mul O s' one_half ;;
       beta <- fn_sqrt E h ;;
       if fn_leb E (r_zero O) (re self) then Ok (beta, alpha) else Ok (alpha, beta)) ;;
  i <- (if fn_ltb E (im self) (r_zero O) then r_neg O abs_im else Ok abs_im) ;;
  Ok (complex_new r i).
End ComplexFun.
