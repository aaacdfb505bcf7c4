(** Integers that fit the significand are exact floats. *)
From Coq Require Import List ZArith Reals Bool Lia Lra.
From Flocq Require Import Core.Core IEEE754.BinarySingleNaN.
From Verif Require Import Base.Outcome Model.Traits Model.Float.
Local Open Scope R_scope.

Section Fmt.
Context (prec emax : Z) {Hp : Prec_gt_0 prec} {He : Prec_lt_emax prec emax}.
Notation fl := (binary_float prec emax).

Lemma int_format z : (Z.abs z <= 2 ^ prec)%Z -> generic_format radix2 (SpecFloat.fexp prec emax) (IZR z).
Proof.
  intros H. pose proof Hp as P; pose proof He as Q; unfold Prec_gt_0, Prec_lt_emax in *.
  destruct (Z.eq_dec (Z.abs z) (2 ^ prec)) as [E|NE].
  - assert (G : generic_format radix2 (SpecFloat.fexp prec emax) (bpow radix2 prec)).
    { apply generic_format_bpow. unfold SpecFloat.fexp, SpecFloat.emin. lia. }
    assert (V : bpow radix2 prec = IZR (2 ^ prec)) by (rewrite <- IZR_Zpower by lia; reflexivity).
    rewrite V, <- E in G. destruct (Z.abs_eq_or_opp z) as [A|A]; rewrite A in G; [exact G|].
    rewrite opp_IZR in G. apply generic_format_opp in G. rewrite Ropp_involutive in G. exact G.
  - change (SpecFloat.fexp prec emax) with (FLT_exp (SpecFloat.emin prec emax) prec).
    apply generic_format_FLT. exists {| Fnum := z; Fexp := 0 |}; simpl.
    + unfold F2R; simpl; lra.
    + lia.
    + unfold SpecFloat.emin. lia.
Qed.

Lemma int_small z : (Z.abs z <= 2 ^ prec)%Z -> Rabs (IZR z) < bpow radix2 emax.
Proof.
  intros H. pose proof Hp as P; pose proof He as Q; unfold Prec_gt_0, Prec_lt_emax in *.
  rewrite <- abs_IZR. apply Rle_lt_trans with (IZR (2 ^ prec)); [apply IZR_le, H|].
  replace (IZR (2 ^ prec)) with (bpow radix2 prec) by (rewrite <- IZR_Zpower by lia; reflexivity).
  apply bpow_lt. lia.
Qed.

Lemma fl_int_exact z : (Z.abs z <= 2 ^ prec)%Z ->
  is_finite (fl_int prec emax z) = true /\ B2R (fl_int prec emax z) = IZR z.
Proof.
  intros H. pose proof (binary_normalize_correct prec emax Hp He mode_NE z 0 false) as C. cbv zeta in C.
  replace (F2R {| Fnum := z; Fexp := 0 |} : R) with (IZR z) in C by (unfold F2R; simpl; lra).
  rewrite round_generic in C by (apply valid_rnd_round_mode || apply int_format, H).
  rewrite Rlt_bool_true in C by apply int_small, H. destruct C as (E & F & _). split; assumption.
Qed.

(** [x] is the float of the integer [z]. *)
Definition holds (x : fl) (z : Z) : Prop := is_finite x = true /\ B2R x = IZR z.

Lemma add_exact x y a b : holds x a -> holds y b -> (Z.abs (a + b) <= 2 ^ prec)%Z -> holds (fl_add prec emax x y) (a + b).
Proof.
  intros [Fx Ex] [Fy Ey] H. pose proof (Bplus_correct prec emax Hp He mode_NE x y Fx Fy) as C.
  rewrite Ex, Ey, <- plus_IZR in C. rewrite round_generic in C by (apply valid_rnd_round_mode || apply int_format, H).
  rewrite Rlt_bool_true in C by apply int_small, H. destruct C as (E & F & _). split; assumption.
Qed.

Lemma opp_exact x a : holds x a -> holds (Bopp x) (- a).
Proof. intros [Fx Ex]. split; [destruct x; auto|]. rewrite B2R_Bopp, Ex, opp_IZR. reflexivity. Qed.

Lemma sub_exact x y a b : holds x a -> holds y b -> (Z.abs (a - b) <= 2 ^ prec)%Z -> holds (fl_sub prec emax x y) (a - b).
Proof.
  intros Hx Hy H. replace (fl_sub prec emax x y) with (fl_add prec emax x (Bopp y)) by (destruct x, y; reflexivity).
  apply add_exact; [exact Hx|apply opp_exact, Hy|exact H].
Qed.

Lemma mul_exact x y a b : holds x a -> holds y b -> (Z.abs (a * b) <= 2 ^ prec)%Z -> holds (fl_mul prec emax x y) (a * b).
Proof.
  intros [Fx Ex] [Fy Ey] H. pose proof (Bmult_correct prec emax Hp He mode_NE x y) as C.
  rewrite Ex, Ey, <- mult_IZR in C. rewrite round_generic in C by (apply valid_rnd_round_mode || apply int_format, H).
  rewrite Rlt_bool_true in C by apply int_small, H. destruct C as (E & F & _). rewrite Fx, Fy in F. split; assumption.
Qed.
End Fmt.
