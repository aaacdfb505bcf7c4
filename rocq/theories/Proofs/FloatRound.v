(** The float operations as correctly rounded real operations, below half the overflow threshold. *)
From Coq Require Import List ZArith Reals Lra Lia.
From Flocq Require Import Core.Core IEEE754.BinarySingleNaN.
From Verif Require Import Base.Outcome Model.Float Spec.FloatErr Proofs.FloatErr.
Local Open Scope R_scope.

Section Fmt.
Context (prec emax : Z) {Hp : Prec_gt_0 prec} {He : Prec_lt_emax prec emax}.
Notation fl := (binary_float prec emax).
Notation u := (unit_roundoff prec).
Notation eta := (underflow_unit prec emax).
Notation rnd := (round radix2 (SpecFloat.fexp prec emax) (round_mode mode_NE)).
Definition half_big : R := bpow radix2 (emax - 1).

Lemma half_big_format : generic_format radix2 (SpecFloat.fexp prec emax) half_big.
Proof.
  apply generic_format_bpow. unfold SpecFloat.fexp, SpecFloat.emin.
  pose proof Hp as P. pose proof He as Q. unfold Prec_gt_0, Prec_lt_emax in *. lia.
Qed.

#[local] Instance fexp_valid : Valid_exp (SpecFloat.fexp prec emax) := fexp_correct prec emax Hp.

Lemma rnd_le x y : x <= y -> rnd x <= rnd y.
Proof. apply round_le; [exact fexp_valid|apply valid_rnd_round_mode]. Qed.
Lemma rnd_0 : rnd 0 = 0. Proof. apply round_0. apply valid_rnd_round_mode. Qed.
Lemma rnd_nonneg x : 0 <= x -> 0 <= rnd x.
Proof. intros H. rewrite <- rnd_0. apply rnd_le, H. Qed.
Lemma rnd_nonpos x : x <= 0 -> rnd x <= 0.
Proof. intros H. rewrite <- rnd_0. apply rnd_le, H. Qed.
Lemma rnd_B2R (x : fl) : rnd (B2R x) = B2R x.
Proof. apply round_generic; [apply valid_rnd_round_mode|apply generic_format_B2R]. Qed.
Lemma rnd_le_B2R x (y : fl) : x <= B2R y -> rnd x <= B2R y.
Proof. intros H. rewrite <- (rnd_B2R y). apply rnd_le, H. Qed.
Lemma rnd_ge_B2R x (y : fl) : B2R y <= x -> B2R y <= rnd x.
Proof. intros H. rewrite <- (rnd_B2R y). apply rnd_le, H. Qed.
Lemma rnd_abs_le x y : generic_format radix2 (SpecFloat.fexp prec emax) y -> Rabs x <= y -> Rabs (rnd x) <= y.
Proof. intros F H. apply abs_round_le_generic; try assumption; [exact fexp_valid|apply valid_rnd_round_mode]. Qed.

Lemma small_enough v : Rabs v <= half_big -> Rlt_bool (Rabs (rnd v)) (bpow radix2 emax) = true.
Proof.
  intros H. apply Rlt_bool_true. eapply Rle_lt_trans; [apply rnd_abs_le; [apply half_big_format|exact H]|].
  unfold half_big. apply bpow_lt. lia.
Qed.

Lemma add_round (x y : fl) : is_finite x = true -> is_finite y = true -> Rabs (B2R x + B2R y) <= half_big ->
  is_finite (fl_add prec emax x y) = true /\ B2R (fl_add prec emax x y) = rnd (B2R x + B2R y).
Proof.
  intros Fx Fy H. pose proof (Bplus_correct prec emax Hp He mode_NE x y Fx Fy) as C.
  rewrite small_enough in C by exact H. destruct C as (E & F & _). split; assumption.
Qed.

Lemma sub_round (x y : fl) : is_finite x = true -> is_finite y = true -> Rabs (B2R x - B2R y) <= half_big ->
  is_finite (fl_sub prec emax x y) = true /\ B2R (fl_sub prec emax x y) = rnd (B2R x - B2R y).
Proof.
  intros Fx Fy H. pose proof (Bminus_correct prec emax Hp He mode_NE x y Fx Fy) as C.
  rewrite small_enough in C by exact H. destruct C as (E & F & _). split; assumption.
Qed.

Lemma mul_round (x y : fl) : is_finite x = true -> is_finite y = true -> Rabs (B2R x * B2R y) <= half_big ->
  is_finite (fl_mul prec emax x y) = true /\ B2R (fl_mul prec emax x y) = rnd (B2R x * B2R y).
Proof.
  intros Fx Fy H. pose proof (Bmult_correct prec emax Hp He mode_NE x y) as C.
  rewrite small_enough in C by exact H. destruct C as (E & F & _). rewrite Fx, Fy in F. split; assumption.
Qed.

Lemma div_round (x y : fl) : is_finite x = true -> B2R y <> 0 -> Rabs (B2R x / B2R y) <= half_big ->
  is_finite (fl_div prec emax x y) = true /\ B2R (fl_div prec emax x y) = rnd (B2R x / B2R y).
Proof.
  intros Fx Ny H. pose proof (Bdiv_correct prec emax Hp He mode_NE x y Ny) as C.
  rewrite small_enough in C by exact H. destruct C as (E & F & _). rewrite Fx in F. split; assumption.
Qed.

Lemma sqrt_round (x : fl) : is_finite x = true -> 0 <= B2R x ->
  is_finite (Bsqrt mode_NE x) = true /\ B2R (Bsqrt mode_NE x) = rnd (sqrt (B2R x)).
Proof.
  intros F H0. destruct (Bsqrt_correct prec emax Hp He mode_NE x) as (E & Fs & _). split; [|exact E].
  rewrite Fs. destruct x as [s|s| |s m e B]; try discriminate; [reflexivity|]. destruct s; [|reflexivity].
  exfalso. simpl in H0. pose proof (F2R_lt_0 radix2 {| Fnum := Z.neg m; Fexp := e |} eq_refl). lra.
Qed.

Lemma opp_value (x : fl) : B2R (Bopp x) = - B2R x. Proof. apply B2R_Bopp. Qed.
End Fmt.
