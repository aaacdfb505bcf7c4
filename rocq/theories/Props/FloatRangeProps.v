(** C54: abs, division and sqrt of complex floats near the ends of the range. *)
From Coq Require Import List ZArith Reals Bool Lia Lra Psatz.
From Flocq Require Import Core.Core IEEE754.BinarySingleNaN.
From Verif Require Import Base.Outcome Model.Traits Model.Float Model.Complex Spec.FloatErr
  Proofs.FloatErr Proofs.FloatComm Proofs.FloatRange.
Local Open Scope R_scope.

Section Fmt.
Context (prec emax : Z) {Hp : Prec_gt_0 prec} {He : Prec_lt_emax prec emax} (libm : FunOps (binary_float prec emax)).
Notation fl := (binary_float prec emax).
Notation FF := (float_field prec emax).
Notation FE := (float_fun prec emax libm).
Notation u := (unit_roundoff prec).
Notation norm2 z := (B2R (re z) * B2R (re z) + B2R (im z) * B2R (im z)).
Notation finite z := (is_finite (re z) = true /\ is_finite (im z) = true).

Lemma abs_def z : complex_abs FF FE z = Ok (Bsqrt mode_NE (fl_norm2 prec emax (re z) (im z))).
Proof. reflexivity. Qed.

(** Away from the ends of the range, [abs] is accurate to about 4 units. *)
Theorem C54_abs_accurate :
  forall z : complex fl, finite z ->
  bpow radix2 (3 - emax) <= norm2 z -> (1 + u) ^ 3 * norm2 z < bpow radix2 emax ->
  exists r, complex_abs FF FE z = Ok r /\ complex_abs_ref FF FE z = Ok r
  /\ is_finite r = true /\ Rabs (B2R r - sqrt (norm2 z)) <= ((1 + u) ^ 4 - 1) * sqrt (norm2 z).
Proof.
  intros z [Fa Fb] HN HB. eexists. split; [apply abs_def|]. split; [apply abs_def|].
  assert (H : 2 * underflow_unit prec emax <= u * norm2 z).
  { unfold underflow_unit, unit_roundoff.
    replace (2 * bpow radix2 (2 - emax - prec)) with (bpow radix2 (- prec) * bpow radix2 (3 - emax)).
    - apply Rmult_le_compat_l; [apply bpow_ge_0|exact HN].
    - rewrite <- bpow_plus. replace (- prec + (3 - emax))%Z with (1 + (2 - emax - prec))%Z by ring.
      rewrite bpow_plus. reflexivity. }
  apply (abs_accurate prec emax); [apply norm2_finite; assumption|exact H].
Qed.

(** With a component whose square exceeds the range, [abs] is infinite, although the exact
    value is below 2^(emax+1) and in general representable. *)
Theorem C54_abs_overflow_refuted :
  forall z : complex fl, finite z ->
  bpow radix2 emax <= B2R (re z) ^ 2 \/ bpow radix2 emax <= B2R (im z) ^ 2 ->
  complex_abs FF FE z = Ok (B754_infinity false).
Proof.
  intros z [Fa Fb] H. rewrite abs_def. replace (fl_norm2 prec emax (re z) (im z)) with (@B754_infinity prec emax false); [reflexivity|].
  symmetry. unfold fl_norm2. replace (B2R (re z) ^ 2) with (B2R (re z) * B2R (re z)) in H by ring.
  replace (B2R (im z) ^ 2) with (B2R (im z) * B2R (im z)) in H by ring. destruct H as [H|H].
  - rewrite (square_overflow prec emax _ Fa H).
    destruct (mul_square_sign prec emax (im z) Fb) as [(s & ->)|[(m & e & B & ->)| ->]]; reflexivity.
  - rewrite (square_overflow prec emax _ Fb H).
    destruct (mul_square_sign prec emax (re z) Fa) as [(s & ->)|[(m & e & B & ->)| ->]]; reflexivity.
Qed.

(** With both squares below half the smallest positive number, [abs] is zero. *)
Lemma norm2_underflow (z : complex fl) : finite z ->
  B2R (re z) ^ 2 <= underflow_unit prec emax -> B2R (im z) ^ 2 <= underflow_unit prec emax ->
  exists s, fl_norm2 prec emax (re z) (im z) = B754_zero s.
Proof.
  intros [Fa Fb] H1 H2. unfold fl_norm2.
  destruct (square_underflow prec emax (re z) Fa) as (s & ->); [replace (B2R (re z) * B2R (re z)) with (B2R (re z) ^ 2) by ring; exact H1|].
  destruct (square_underflow prec emax (im z) Fb) as (t & ->); [replace (B2R (im z) * B2R (im z)) with (B2R (im z) ^ 2) by ring; exact H2|].
  unfold fl_add, Bplus. destruct (Bool.eqb s t); eexists; reflexivity.
Qed.

Theorem C54_abs_underflow_refuted :
  forall z : complex fl, finite z ->
  B2R (re z) ^ 2 <= underflow_unit prec emax -> B2R (im z) ^ 2 <= underflow_unit prec emax ->
  exists r, complex_abs FF FE z = Ok r /\ is_finite r = true /\ B2R r = 0.
Proof.
  intros z F H1 H2. rewrite abs_def. destruct (norm2_underflow z F H1 H2) as (s & ->). eexists. split; [reflexivity|]. split; reflexivity.
Qed.

(** Division by a number with a component whose square exceeds the range: both components of
    the quotient are 0 or NaN. *)
Theorem C54_div_overflow_refuted :
  forall z w : complex fl, finite w ->
  bpow radix2 emax <= B2R (re w) ^ 2 \/ bpow radix2 emax <= B2R (im w) ^ 2 ->
  exists q, complex_div FF z w = Ok q
  /\ (is_nan (re q) = true \/ (is_finite (re q) = true /\ B2R (re q) = 0))
  /\ (is_nan (im q) = true \/ (is_finite (im q) = true /\ B2R (im q) = 0)).
Proof.
  intros z w F H. eexists. split; [reflexivity|]. cbn [re im complex_new].
  pose proof (C54_abs_overflow_refuted w F H) as A. rewrite abs_def in A. injection A as A.
  assert (N : fl_norm2 prec emax (re w) (im w) = B754_infinity false).
  { destruct (fl_norm2 prec emax (re w) (im w)) as [s|s| |s m e B] eqn:E; try discriminate A.
    - destruct s; [discriminate|reflexivity].
    - exfalso. pose proof (Bsqrt_correct prec emax Hp He mode_NE (B754_finite s m e B)) as (_ & Q & _).
      rewrite A in Q. destruct s; [|discriminate]. cbn in A. discriminate. }
  fold (fl_norm2 prec emax (re w) (im w)). rewrite N.
  assert (Z : forall x : fl, let y := fl_mul prec emax x (fl_div prec emax (fl_int prec emax 1) (B754_infinity false)) in
    is_nan y = true \/ (is_finite y = true /\ B2R y = 0)).
  { intros x y. unfold y.
    assert (O : exists s, fl_div prec emax (fl_int prec emax 1) (B754_infinity false) = B754_zero s).
    { assert (F1 : is_nan (fl_int prec emax 1) = false /\ is_finite (fl_int prec emax 1) = true).
      { assert (F1 : is_finite (fl_int prec emax 1) = true).
        { pose proof (binary_normalize_correct prec emax Hp He mode_NE 1 0 false) as C.
          cbv zeta in C. replace (F2R {| Fnum := 1; Fexp := 0 |} : R) with (bpow radix2 0) in C by (unfold F2R; simpl; lra).
          rewrite round_generic in C.
          - rewrite Rlt_bool_true in C; [apply C|]. rewrite Rabs_pos_eq by apply bpow_ge_0. apply bpow_lt.
            pose proof Hp as P; pose proof He as Q; unfold Prec_gt_0, Prec_lt_emax in *; lia.
          - apply valid_rnd_round_mode.
          - apply generic_format_bpow. unfold SpecFloat.fexp, SpecFloat.emin.
            pose proof Hp as P; pose proof He as Q; unfold Prec_gt_0, Prec_lt_emax in *; lia. }
        split; [destruct (fl_int prec emax 1); try discriminate; reflexivity|exact F1]. }
      destruct F1 as [_ F1]. destruct (fl_int prec emax 1) as [s|s| |s m e B]; try discriminate; eexists; reflexivity. }
    destruct O as (s & ->). destruct x; cbn; auto. }
  split; apply Z.
Qed.

(** Division by a non-zero number whose squares underflow: the quotient is never finite. *)
Theorem C54_div_underflow_refuted :
  forall z w : complex fl, finite w ->
  B2R (re w) ^ 2 <= underflow_unit prec emax -> B2R (im w) ^ 2 <= underflow_unit prec emax ->
  exists q, complex_div FF z w = Ok q /\ is_finite (re q) = false /\ is_finite (im q) = false.
Proof.
  intros z w F H1 H2. eexists. split; [reflexivity|]. cbn [re im complex_new].
  destruct (norm2_underflow w F H1 H2) as (s & N).
  fold (fl_norm2 prec emax (re w) (im w)). rewrite N.
  assert (Z : forall x : fl, is_finite (fl_mul prec emax x (fl_div prec emax (fl_int prec emax 1) (B754_zero s))) = false).
  { intros x.
    assert (O : is_finite (fl_div prec emax (fl_int prec emax 1) (B754_zero s)) = false)
      by (destruct (fl_int prec emax 1); reflexivity).
    destruct (fl_div prec emax (fl_int prec emax 1) (B754_zero s)); try discriminate O; destruct x; reflexivity. }
  split; apply Z.
Qed.
End Fmt.

(** Concrete doubles: exact results 2^600, 2^-600, 1, 1, 2^-500 and 2^300 are all representable,
    the computed ones are infinity, 0, NaN, NaN, 0 and infinity; sqrt(2^-600) = 2^-300 is
    returned too small by a factor of sqrt 2, sqrt(2^-600 i) is returned as 0. *)
Definition pow2 (e : Z) : f64 := binary_normalize 53 1024 f64_prec f64_emax mode_NE 1 e false.
Definition on_ok {A} (m : outcome A) (f : A -> bool) : bool := match m with Ok a => f a | _ => false end.

Theorem C54_doubles_refuted :
  forall libm : FunOps f64,
  let E := float_fun 53 1024 libm in
  let r x := Cx x (f64_of_Z 0) in
  on_ok (complex_abs f64_field E (r (pow2 600))) (fun a => Beqb a (B754_infinity false)) = true
  /\ on_ok (complex_abs f64_field E (r (pow2 (-600)))) (fun a => Beqb a (f64_of_Z 0)) = true
  /\ on_ok (complex_div f64_field (r (pow2 600)) (r (pow2 600))) (fun q => is_nan (re q)) = true
  /\ on_ok (complex_div f64_field (r (pow2 (-600))) (r (pow2 (-600)))) (fun q => is_nan (re q)) = true
  /\ on_ok (complex_div f64_field (r (pow2 100)) (r (pow2 600))) (fun q => Beqb (re q) (f64_of_Z 0)) = true
  /\ on_ok (complex_sqrt f64_field E (r (pow2 600))) (fun s => Beqb (re s) (B754_infinity false)) = true
  /\ on_ok (complex_sqrt f64_field E (r (pow2 (-600))))
       (fun s => Bltb (fl_mul 53 1024 (f64_of_Z 14) (re s)) (fl_mul 53 1024 (f64_of_Z 10) (pow2 (-300)))
              && Beqb (im s) (f64_of_Z 0)) = true
  /\ on_ok (complex_sqrt f64_field E (Cx (f64_of_Z 0) (pow2 (-600))))
       (fun s => Beqb (re s) (f64_of_Z 0) && Beqb (im s) (f64_of_Z 0)) = true.
Proof. intros. repeat split; vm_compute; reflexivity. Qed.

(** 2^600 and 2^-600 meet the hypotheses of the general theorems, 3 + 4i those of the accurate range. *)
Example C54_case :
  (is_finite (pow2 600) = true /\ bpow radix2 1024 <= B2R (pow2 600) ^ 2)
  /\ (is_finite (pow2 (-600)) = true /\ 0 < B2R (pow2 (-600)) ^ 2 <= underflow_unit 53 1024)
  /\ (bpow radix2 (3 - 1024) <= 25 /\ (1 + unit_roundoff 53) ^ 3 * 25 < bpow radix2 1024).
Proof.
  assert (P : forall e, (-1000 <= e <= 1000)%Z -> is_finite (pow2 e) = true /\ B2R (pow2 e) = bpow radix2 e).
  { intros e H. pose proof (binary_normalize_correct 53 1024 f64_prec f64_emax mode_NE 1 e false) as C. cbv zeta in C.
    replace (F2R {| Fnum := 1; Fexp := e |} : R) with (bpow radix2 e) in C by (unfold F2R; simpl; lra).
    rewrite round_generic in C.
    - rewrite Rlt_bool_true in C; [split; apply C|]. rewrite Rabs_pos_eq by apply bpow_ge_0. apply bpow_lt. lia.
    - apply valid_rnd_round_mode.
    - apply generic_format_bpow. unfold SpecFloat.fexp, SpecFloat.emin. lia. }
  destruct (P 600%Z) as [F1 V1]; [lia|]. destruct (P (-600)%Z) as [F2 V2]; [lia|].
  assert (Q : forall e, bpow radix2 e ^ 2 = bpow radix2 (e + e)) by (intros e; rewrite bpow_plus; ring).
  rewrite V1, V2, !Q.
  split; [split; [exact F1|apply bpow_le; lia]|]. split; [split; [exact F2|]; split; [apply bpow_gt_0|apply bpow_le; lia]|].
  split.
  - apply Rle_trans with (bpow radix2 0); [apply bpow_le; lia|simpl; lra].
  - assert (U : unit_roundoff 53 <= 1) by (change 1 with (bpow radix2 0); apply bpow_le; lia).
    assert (B : 256 <= bpow radix2 1024) by (change 256 with (bpow radix2 8); apply bpow_le; lia).
    pose proof (u_pos 53). set (u := unit_roundoff 53) in *.
    assert ((1 + u) ^ 3 <= 2 ^ 3) by (apply pow_incr; lra). lra.
Qed.

Print Assumptions C54_abs_accurate.
Print Assumptions C54_abs_overflow_refuted.
Print Assumptions C54_abs_underflow_refuted.
Print Assumptions C54_div_overflow_refuted.
Print Assumptions C54_div_underflow_refuted.
Print Assumptions C54_doubles_refuted.
