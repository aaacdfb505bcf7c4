(** The element types i8, i16, i32, i64, i128 and isize (as on a 64-bit target; on a 32-bit target isize is [I32]), with overflow
    checks ([Debug]) and without ([Release]: two's complement wrapping). *)
From Coq Require Import ZArith Bool Lia.
From Verif Require Import Base.Outcome Base.Usize Model.Traits.
Local Open Scope Z_scope.

(** src/algebra/ring.rs lines 122-127. *)
Inductive int_type : Set := I8 | I16 | I32 | I64 | I128 | Isize.

Definition width (t : int_type) : Z :=
  match t with I8 => 8 | I16 => 16 | I32 => 32 | I64 => 64 | I128 => 128 | Isize => 64 end.

(** [MIN] and [MAX] of the type. *)
Definition int_min (t : int_type) : Z := - 2 ^ (width t - 1).
Definition int_max (t : int_type) : Z := 2 ^ (width t - 1) - 1.

Definition in_range (t : int_type) (z : Z) : bool := (int_min t <=? z) && (z <=? int_max t).

(** The values of the type. *)
Record int (t : int_type) : Type := MkInt { ival : Z; ival_ok : in_range t ival = true }.
Arguments MkInt {t} _ _.
Arguments ival {t} _.

(** The representative of [z] modulo 2^width in [MIN, MAX]. *)
Definition wrap (t : int_type) (z : Z) : Z :=
  (z - int_min t) mod 2 ^ width t + int_min t.

Lemma width_pos t : 8 <= width t.
Proof. destruct t; simpl; lia. Qed.

Lemma pow_width t : 2 ^ width t = 2 * 2 ^ (width t - 1).
Proof.
  pose proof (width_pos t). replace (width t) with (Z.succ (width t - 1)) at 1 by lia.
  apply Z.pow_succ_r. lia.
Qed.

Lemma pow_width_pos t : 128 <= 2 ^ (width t - 1).
Proof. change 128 with (2 ^ 7). apply Z.pow_le_mono_r; pose proof (width_pos t); lia. Qed.

Lemma in_range_iff t z : in_range t z = true <-> int_min t <= z <= int_max t.
Proof. unfold in_range. rewrite andb_true_iff, !Z.leb_le. tauto. Qed.

Lemma wrap_in_range t z : in_range t (wrap t z) = true.
Proof.
  apply in_range_iff. unfold wrap, int_max. pose proof (pow_width t) as H.
  pose proof (pow_width_pos t). unfold int_min.
  pose proof (Z.mod_pos_bound (z - - 2 ^ (width t - 1)) (2 ^ width t)). lia.
Qed.

Definition int_wrapped (t : int_type) (z : Z) : int t := MkInt (wrap t z) (wrap_in_range t z).

(** The result of an arithmetic operator whose exact result is [z]: panic or wrap if
    it is out of range. *)
Definition int_result (md : build_mode) (t : int_type) (z : Z) : outcome (int t) :=
  match bool_dec (in_range t z) true with
  | left H => Ok (MkInt z H)
  | right _ =>
      match md with
      | Debug => Panic ArithOverflow
      | Release => Ok (int_wrapped t z)
      end
  end.

Lemma small_in_range t (z : Z) : -128 <= z <= 127 -> in_range t z = true.
Proof.
  intros H. apply in_range_iff. unfold int_min, int_max. pose proof (pow_width_pos t). lia.
Qed.

(** [Self::from(z)] for an i8 literal [z]; here 0 and 1. *)
Definition int_lit (t : int_type) (z : Z) (H : -128 <= z <= 127) : int t := MkInt z (small_in_range t z H).

Lemma lit0 : -128 <= 0 <= 127. Proof. lia. Qed.
Lemma lit1 : -128 <= 1 <= 127. Proof. lia. Qed.

(** src/algebra/ring.rs lines 15-19 (zero), 34-38 (one), 122-127 ([impl Ring]); [+=], [-=],
    [*] (through src/algebra/ops_with_ref.rs lines 15-22), unary [-] and [==] are the
    primitive operators. *)
Definition int_ops (md : build_mode) (t : int_type) : RingOps (int t) := {|
  r_zero := int_lit t 0 lit0;
  r_one := int_lit t 1 lit1;
  r_add := fun x y => int_result md t (ival x + ival y);
  r_sub := fun x y => int_result md t (ival x - ival y);
  r_mul := fun x y => int_result md t (ival x * ival y);
  r_neg := fun x => int_result md t (- ival x);
  r_eqb := fun x y => (ival x =? ival y)
|}.
