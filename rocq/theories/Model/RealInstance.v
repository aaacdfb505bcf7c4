(** The element type "real numbers": f32/f64 with rounding, overflow and NaN
    idealised away.  src/functions/*.rs delegates to the std functions
    f32::exp, f64::exp, ...; here they are the exact mathematical functions.
    Operations outside their domain return [Panic DomainError], so a proof that
    a computation is [Ok] shows that it never leaves the domain. *)
From Coq Require Import Reals.
From Verif Require Import Base.Outcome Model.Traits.
Open Scope R_scope.

Definition Reqb (x y : R) : bool := if Req_EM_T x y then true else false.
Definition Rleb (x y : R) : bool := if Rle_dec x y then true else false.
Definition Rltb (x y : R) : bool := if Rlt_dec x y then true else false.

(** src/algebra/ring.rs lines 128-129 ([impl Ring for f32/f64]), idealised. *)
Definition real_ring : RingOps R := {|
  r_zero := 0; r_one := 1;
  r_add := fun x y => Ok (x + y);
  r_sub := fun x y => Ok (x - y);
  r_mul := fun x y => Ok (x * y);
  r_neg := fun x => Ok (- x);
  r_eqb := Reqb
|}.

(** src/algebra/field.rs lines 18-19, idealised. *)
Definition real_div (x y : R) : outcome R :=
  if Req_EM_T y 0 then Panic DomainError else Ok (x / y).
Definition real_field : FieldOps R := {| f_ring := real_ring; f_div := real_div |}.

(** f64::atan2(y, x) for reals (no signed zeros). *)
Definition atan2 (y x : R) : R :=
  if Rlt_dec 0 x then atan (y / x)
  else if Rlt_dec x 0 then
    (if Rle_dec 0 y then atan (y / x) + PI else atan (y / x) - PI)
  else if Rlt_dec 0 y then PI / 2
  else if Rlt_dec y 0 then - (PI / 2)
  else 0.

(** src/functions/{exp,sin,cos,sinh,cosh,log,atan2,sqrt,abs}.rs for f32/f64, idealised. *)
Definition real_fun : FunOps R := {|
  fn_exp := fun x => Ok (exp x);
  fn_sin := fun x => Ok (sin x);
  fn_cos := fun x => Ok (cos x);
  fn_sinh := fun x => Ok (sinh x);
  fn_cosh := fun x => Ok (cosh x);
  fn_ln := fun x => if Rlt_dec 0 x then Ok (ln x) else Panic DomainError;
  fn_atan2 := fun y x => Ok (atan2 y x);
  fn_sqrt := fun x => if Rle_dec 0 x then Ok (sqrt x) else Panic DomainError;
  fn_abs := fun x => Ok (Rabs x);
  fn_leb := Rleb;
  fn_ltb := Rltb
|}.
