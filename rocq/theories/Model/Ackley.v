(** Model of src/optimize/test_functions.rs. *)
From Coq Require Import Reals ZArith.
From Flocq Require Import IEEE754.BinarySingleNaN.
From Verif Require Import Base.Outcome Model.Float.

(** The f32 operations, methods and constants used (std; lines 1, 8-9).  The literal
    [-20.0] is the constant 20.0 negated, likewise [-0.2]. *)
Record ackley_ops (T : Type) : Type := MkAckleyOps {
  a_add : T -> T -> T;
  a_sub : T -> T -> T;
  a_mul : T -> T -> T;
  a_neg : T -> T;
  a_sqrt : T -> outcome T;
  a_exp : T -> outcome T;
  a_exp_m1 : T -> outcome T;
  a_cos : T -> outcome T;
  a_20 : T; a_0_2 : T; a_0_5 : T; a_2 : T;
  a_pi : T; a_e : T
}.

Section Ackley.
Context {T : Type} (O : ackley_ops T).
Let add := a_add _ O. Let sub := a_sub _ O. Let mul := a_mul _ O. Let neg := a_neg _ O.

(** test_functions.rs lines 7-10. *)
Definition ackley (x y : T) : outcome T :=
  s <- a_sqrt _ O (mul (a_0_5 _ O) (add (mul x x) (mul y y))) ;;
  m <- a_exp_m1 _ O (mul (neg (a_0_2 _ O)) s) ;;
  cx <- a_cos _ O (mul (mul (a_2 _ O) (a_pi _ O)) x) ;;
  cy <- a_cos _ O (mul (mul (a_2 _ O) (a_pi _ O)) y) ;;
  e <- a_exp _ O (mul (a_0_5 _ O) (add cx cy)) ;;
  Ok (sub (mul (neg (a_20 _ O)) m) (sub e (a_e _ O))).
End Ackley.

(** Idealised: exact real arithmetic and the real constants e and pi. *)
Definition real_ackley_ops : ackley_ops R := {|
  a_add := Rplus; a_sub := Rminus; a_mul := Rmult; a_neg := Ropp;
  a_sqrt := fun x => if Rle_dec 0 x then Ok (sqrt x) else Panic DomainError;
  a_exp := fun x => Ok (exp x);
  a_exp_m1 := fun x => Ok (exp x - 1)%R;
  a_cos := fun x => Ok (cos x);
  a_20 := 20; a_0_2 := 2 / 10; a_0_5 := 5 / 10; a_2 := 2;
  a_pi := PI; a_e := exp 1
|}%R.

(** The f32 nearest to [m * 2^e]. *)
Definition f32_lit (m e : Z) : f32 := binary_normalize 24 128 f32_prec f32_emax mode_NE m e false.

(** test_functions.rs lines 1 and 8-9: the literals 0.2 and 0.5 and [std::f32::consts::{E, PI}]
    (0x3e4ccccd, 0x3f000000, 0x402df854, 0x40490fdb).  That they are the f32 nearest to 1/5, 1/2,
    e and pi is proved in Props/AckleyFloatProps.v. *)
Definition f32_0_2 : f32 := f32_lit 13421773 (-26).
Definition f32_0_5 : f32 := f32_lit 1 (-1).
Definition f32_E : f32 := f32_lit 11401300 (-22).
Definition f32_PI : f32 := f32_lit 13176795 (-22).

(** f32 as it is, for an arbitrary libm (exp, exp_m1, cos). *)
Definition f32_ackley_ops (libm_exp libm_exp_m1 libm_cos : f32 -> f32)
  : ackley_ops f32 := {|
  a_add := fl_add 24 128; a_sub := fl_sub 24 128; a_mul := fl_mul 24 128; a_neg := @Bopp 24 128;
  a_sqrt := fun x => Ok (Bsqrt mode_NE x);
  a_exp := fun x => Ok (libm_exp x);
  a_exp_m1 := fun x => Ok (libm_exp_m1 x);
  a_cos := fun x => Ok (libm_cos x);
  a_20 := f32_of_Z 20; a_0_2 := f32_0_2; a_0_5 := f32_0_5; a_2 := f32_of_Z 2;
  a_pi := f32_PI; a_e := f32_E
|}.
