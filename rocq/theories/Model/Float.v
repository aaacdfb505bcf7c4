(** The element types f32 and f64: IEEE 754 binary32/binary64 with round-to-nearest-even
    (Flocq's [BinarySingleNaN]).  Simplification: there is only one NaN, since Rust does not
    specify NaN payloads and the code never looks at them. *)
From Coq Require Import ZArith Bool Lia.
From Flocq Require Import Core.Core IEEE754.BinarySingleNaN.
From Verif Require Import Base.Outcome Model.Traits Model.DiffEvo.

Section Fmt.
Context (prec emax : Z) {Hp : Prec_gt_0 prec} {He : Prec_lt_emax prec emax}.
Notation fl := (binary_float prec emax).

Definition fl_add (x y : fl) : fl := Bplus mode_NE x y.
Definition fl_sub (x y : fl) : fl := Bminus mode_NE x y.
Definition fl_mul (x y : fl) : fl := Bmult mode_NE x y.
Definition fl_div (x y : fl) : fl := Bdiv mode_NE x y.
(** An integer literal of small size, as in [0.into()], [2.into()], [1.0]. *)
Definition fl_int (z : Z) : fl := binary_normalize prec emax Hp He mode_NE z 0 false.

(** src/algebra/ring.rs lines 15-19 and 34-38 (zero, one), 128-129
    ([impl Ring for f32/f64]), src/algebra/ops_with_ref.rs lines 15-22 (mul_refs). *)
Definition float_ring : RingOps fl := {|
  r_zero := fl_int 0; r_one := fl_int 1;
  r_add := fun x y => Ok (fl_add x y);
  r_sub := fun x y => Ok (fl_sub x y);
  r_mul := fun x y => Ok (fl_mul x y);
  r_neg := fun x => Ok (Bopp x);
  r_eqb := Beqb
|}.

(** src/algebra/field.rs lines 18-19, src/algebra/ops_with_ref.rs lines 44-51 (div_refs). *)
Definition float_field : FieldOps fl := {|
  f_ring := float_ring;
  f_div := fun x y => Ok (fl_div x y)
|}.

(** src/functions/*.rs for f32/f64.  sqrt, abs and the comparisons are the IEEE 754
    operations; the other functions are libm's, of which nothing is known: they are taken
    from the parameter [libm]. *)
Definition float_fun (libm : FunOps fl) : FunOps fl := {|
  fn_exp := fn_exp libm;
  fn_sin := fn_sin libm;
  fn_cos := fn_cos libm;
  fn_sinh := fn_sinh libm;
  fn_cosh := fn_cosh libm;
  fn_ln := fn_ln libm;
  fn_atan2 := fn_atan2 libm;
  fn_sqrt := fun x => Ok (Bsqrt mode_NE x);
  fn_abs := fun x => Ok (Babs x);
  fn_leb := Bleb;
  fn_ltb := Bltb
|}.
End Fmt.

#[global] Instance f32_prec : Prec_gt_0 24 := eq_refl.
#[global] Instance f32_emax : Prec_lt_emax 24 128 := eq_refl.
#[global] Instance f64_prec : Prec_gt_0 53 := eq_refl.
#[global] Instance f64_emax : Prec_lt_emax 53 1024 := eq_refl.
Notation f32 := (binary_float 24 128).
Notation f64 := (binary_float 53 1024).
Notation f32_ring := (float_ring 24 128).
Notation f64_ring := (float_ring 53 1024).
Notation f64_field := (float_field 53 1024).
Notation f32_of_Z := (fl_int 24 128).
Notation f64_of_Z := (fl_int 53 1024).

(** differential_evolution.rs with T = f64 or f32; the crossover probability is an f32. *)
Definition float_de_num (prec emax : Z) {Hp : Prec_gt_0 prec} {He : Prec_lt_emax prec emax}
  : de_num (binary_float prec emax) f32 := {|
  t_add := fun x y => Ok (fl_add prec emax x y);
  t_sub := fun x y => Ok (fl_sub prec emax x y);
  t_mul := fun x y => Ok (fl_mul prec emax x y);
  t_leb := Bleb;
  t_0 := fl_int prec emax 0;
  t_2 := fl_int prec emax 2;
  p_leb := Bleb;
  p_ltb := Bltb;
  p_0 := f32_of_Z 0;
  p_1 := f32_of_Z 1
|}.
