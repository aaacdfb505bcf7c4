(** Property C94: ln(ab) = ln a + ln b up to rounding and multiples of 2 pi i for Complex<f32>: the
    crate's randomized test of ln passes for every pair of non-zero samples; it fails for a zero
    sample, and it hardly looks at the imaginary part. *)
From Coq Require Import List ZArith Reals Bool Lia Lra Psatz.
From Flocq Require Import Core.Core IEEE754.BinarySingleNaN.
From Verif Require Import Base.Outcome Model.Traits Model.Float Model.Complex Model.RealInstance Spec.FloatErr Spec.ComplexErr
  Proofs.FloatErr Proofs.FloatRound Proofs.FloatRange Proofs.FloatSqrt Proofs.PiE Proofs.ComplexReal Proofs.ComplexErr
  Props.FloatRangeProps Props.FloatSqrtProps Props.FloatFunProps Props.ComplexErrProps Props.SqrtTestProps Proofs.LnTest Props.TrigTestProps.
Local Open Scope R_scope.

Notation fl := f32.
Notation FF := (float_field 24 128).
Notation FR := (float_ring 24 128).
Notation u := (unit_roundoff 24).
Notation eta := (underflow_unit 24 128).
Notation rnd := (round radix2 (SpecFloat.fexp 24 128) (round_mode mode_NE)).
Notation add := (fl_add 24 128). Notation sub := (fl_sub 24 128).
Notation mul := (fl_mul 24 128). Notation div := (fl_div 24 128).
Notation hi := (half_big 128).
Notation int := (fl_int 24 128).

(** ** The test *)

(** f32::max: a NaN argument is ignored. *)
Definition fl_max (x y : fl) : fl := if is_nan x then y else if Bltb x y then y else x.

Section Test.
Context (libm : FunOps fl).
Notation FE := (float_fun 24 128 libm).

(** complex.rs line 600: [a.abs().max(1f32 / a.abs())]. *)
Definition spread (a : complex fl) : outcome fl :=
  m <- complex_abs FF FE a ;;
  m' <- complex_abs FF FE a ;;
  q <- f_div FF (int 1) m' ;;
  Ok (fl_max m q).

(** complex.rs lines 603-609: the three assertions on the imaginary part of [diff]. *)
Definition check_im (v : fl) : bool :=
  if Bltb (int 1) v then Bleb (Babs (sub v two_pi)) (mul (int 8) (fl_epsilon 24 128))
  else if Bltb v (int (-1)) then Bleb (Babs (add v two_pi)) (mul (int 8) (fl_epsilon 24 128))
  else Bleb (Babs v) (mul (int 8) pi32).

(** complex.rs lines 590-610: the body of the loop of [test_ln_complex_f32]; the result says whether all
    assertions hold. *)
Definition ln_test (a b : complex fl) : outcome bool :=
  c <- complex_mul FR a b ;;
  ln_a <- complex_ln FF FE a ;;
  ln_b <- complex_ln FF FE b ;;
  ln_c <- complex_ln FF FE c ;;
  sa <- spread a ;;
  sb <- spread b ;;
  s <- r_add FR sa sb ;;
  tolerance <- r_mul FR s (fl_epsilon 24 128) ;;
  d <- complex_sub (r_sub FR) ln_c ln_a ;;
  diff <- complex_sub (r_sub FR) d ln_b ;;
  t10 <- r_mul FR (int 10) tolerance ;;
  Ok (Bleb (Babs (re diff)) t10 && check_im (im diff)).

(** ** What is assumed of libm *)

(** The real logarithm, and the angle: relative error at most d. *)
Definition ln_accurate (d : R) : Prop := forall x : fl, is_finite x = true -> 0 < B2R x ->
  returns 24 128 d (fn_ln libm x) (ln (B2R x)).
Definition atan2_accurate (d : R) : Prop := forall y x : fl, is_finite y = true -> is_finite x = true ->
  ~ (B2R x = 0 /\ B2R y = 0) -> exists t, is_argument t (B2R x) (B2R y) /\ returns 24 128 d (fn_atan2 libm y x) t.
(** Weaker: atan2 returns something. *)
Definition atan2_total : Prop := forall y x : fl, exists t, fn_atan2 libm y x = Ok t.

(** A sample: both parts zero or of magnitude between 2^-27 and 2^27, not both zero. *)
Definition sample (z : complex fl) : Prop := within 27 (re z) /\ within 27 (im z) /\ ~ (B2R (re z) = 0 /\ B2R (im z) = 0).

(** ** Sizes *)
Definition nrm (z : complex fl) : R := B2R (re z) * B2R (re z) + B2R (im z) * B2R (im z).

Lemma sample_size z : sample z -> cfinite z /\ bpow radix2 (-54) <= nrm z <= bpow radix2 55
  /\ Rabs (B2R (re z)) <= bpow radix2 27 /\ Rabs (B2R (im z)) <= bpow radix2 27.
Proof.
  intros ([Fx Hx] & [Fy Hy] & NZ). unfold nrm. set (x := B2R (re z)) in *. set (y := B2R (im z)) in *.
  change (bpow radix2 (- (27))) with (bpow radix2 (-27)) in Hx, Hy.
  pose proof (bpow_gt_0 radix2 27) as P. pose proof (bpow_gt_0 radix2 (-27)) as P'.
  assert (Up : forall v, v = 0 \/ bpow radix2 (-27) <= Rabs v <= bpow radix2 27 -> Rabs v <= bpow radix2 27 /\ v * v <= bpow radix2 54).
  { intros v H. assert (Rabs v <= bpow radix2 27) by (destruct H as [->|H]; [rewrite Rabs_R0; lra|lra]). split; [assumption|].
    rewrite <- abs_sq. change (bpow radix2 54) with (bpow radix2 (27 + 27)). rewrite bpow_plus. pose proof (Rabs_pos v). apply Rmult_le_compat; lra. }
  assert (Lo : forall v, v = 0 \/ bpow radix2 (-27) <= Rabs v <= bpow radix2 27 -> v <> 0 -> bpow radix2 (-54) <= v * v).
  { intros v [H|H] N; [contradiction|]. rewrite <- abs_sq. change (bpow radix2 (-54)) with (bpow radix2 (-27 + -27)). rewrite bpow_plus. apply Rmult_le_compat; lra. }
  destruct (Up x Hx) as [X1 X2]. destruct (Up y Hy) as [Y1 Y2]. split; [split; assumption|]. split; [|split; assumption]. split.
  - pose proof (Rle_0_sqr x) as Qx. pose proof (Rle_0_sqr y) as Qy. unfold Rsqr in *.
    destruct (Req_dec x 0) as [Ex|Ex].
    + assert (y <> 0) by (intros Ey; apply NZ; split; assumption). pose proof (Lo y Hy ltac:(assumption)). lra.
    + pose proof (Lo x Hx Ex). lra.
  - change (bpow radix2 55) with (bpow radix2 (1 + 54)). rewrite bpow_plus. change (bpow radix2 1) with 2. lra.
Qed.

(** The computed product. *)
Lemma product_size a b : sample a -> sample b -> exists c, complex_mul FR a b = Ok c /\ cfinite c
  /\ (let x := B2R (re a) * B2R (re b) - B2R (im a) * B2R (im b) in let y := B2R (re a) * B2R (im b) + B2R (im a) * B2R (re b) in
      (B2R (re c) - x) * (B2R (re c) - x) + (B2R (im c) - y) * (B2R (im c) - y) <= (283 / 100 * u) * (283 / 100 * u) * (x * x + y * y)
      /\ x * x + y * y = nrm a * nrm b).
Proof.
  intros Ha Hb. destruct (sample_size a Ha) as ([Fa1 Fa2] & Na & A1 & A2). destruct (sample_size b Hb) as ([Fb1 Fb2] & Nb & B1 & B2).
  destruct (C83_mul_accurate 24 128 a b) as (c & Ec & Hc). exists c. split; [exact Ec|].
  assert (Pr : forall x y : fl, is_finite x = true -> is_finite y = true -> Rabs (B2R x) <= bpow radix2 27 -> Rabs (B2R y) <= bpow radix2 27 ->
     is_finite (mul x y) = true /\ Rabs (B2R (mul x y)) <= bpow radix2 54).
  { intros x y Fx Fy Hx Hy. assert (Q : Rabs (B2R x * B2R y) <= bpow radix2 54).
    { rewrite Rabs_mult. change (bpow radix2 54) with (bpow radix2 (27 + 27)). rewrite bpow_plus. apply Rmult_le_compat; try apply Rabs_pos; assumption. }
    destruct (mul_round 24 128 x y Fx Fy) as [F E]. { eapply Rle_trans; [exact Q|]. apply bpow_le. lia. }
    split; [exact F|]. rewrite E. apply rnd_abs_le; [exact _| |exact Q]. apply generic_format_bpow. vm_compute. discriminate. }
  destruct (Pr _ _ Fa1 Fb1 A1 B1) as [F1 V1]. destruct (Pr _ _ Fa1 Fb2 A1 B2) as [F2 V2].
  destruct (Pr _ _ Fa2 Fb1 A2 B1) as [F3 V3]. destruct (Pr _ _ Fa2 Fb2 A2 B2) as [F4 V4].
  assert (H55 : 2 * bpow radix2 54 <= hi). { change 2 with (bpow radix2 1). rewrite <- bpow_plus. apply bpow_le. lia. }
  assert (Fc : cfinite c).
  { assert (E : Ok c = Ok (Cx (sub (mul (re a) (re b)) (mul (im a) (im b))) (add (mul (re a) (im b)) (mul (im a) (re b))))) by (rewrite <- Ec; reflexivity).
    injection E as ->. split; cbn [re im].
    - apply (sub_round 24 128 _ _ F1 F4). unfold Rminus. eapply Rle_trans; [apply Rabs_triang|]. rewrite Rabs_Ropp. lra.
    - apply (add_round 24 128 _ _ F2 F3). eapply Rle_trans; [apply Rabs_triang|]. lra. }
  split; [exact Fc|]. intros x y. specialize (Hc Fc).
  assert (XY : x * x + y * y = nrm a * nrm b) by (unfold x, y, nrm; ring). split; [|exact XY].
  unfold cnorm, csub, cmul, cval in Hc. cbn [fst snd] in Hc. fold x y in Hc.
  change (sqrt (B2R (re a) * B2R (re a) + B2R (im a) * B2R (im a))) with (sqrt (nrm a)) in Hc.
  change (sqrt (B2R (re b) * B2R (re b) + B2R (im b) * B2R (im b))) with (sqrt (nrm b)) in Hc.
  pose proof (bpow_gt_0 radix2 (-54)) as P54. rewrite <- sqrt_mult in Hc by lra.
  set (r := sqrt (nrm a * nrm b)) in *. set (E := (B2R (re c) - x) * (B2R (re c) - x) + (B2R (im c) - y) * (B2R (im c) - y)) in *.
  assert (Rl : bpow radix2 (-54) <= r).
  { rewrite <- (sqrt_square (bpow radix2 (-54))) by lra. apply sqrt_le_1_alt. apply Rmult_le_compat; lra. }
  assert (S2 : 0 <= sqrt 2 <= 14143 / 10000). { split; [apply sqrt_pos|]. apply SqrtTestFloat2.sq_le; [apply sqrt_pos|lra|]. rewrite sqrt_sqrt; lra. }
  pose proof u32 as U. assert (T : eta <= u * / 1000000 * bpow radix2 (-54)).
  { rewrite eta32. apply Rle_trans with (bpow radix2 (-60) * bpow radix2 (-54)); [rewrite <- bpow_plus; apply bpow_le; lia|]. apply Rmult_le_compat_r; [lra|]. rewrite U. simpl. lra. }
  pose proof eta_tiny as T0.
  assert (B : sqrt E <= 283 / 100 * u * r).
  { eapply Rle_trans; [exact Hc|]. unfold mul_roundoff, mul_underflow.
    assert (S3 : 0 <= sqrt (4 / 3) <= 11548 / 10000). { split; [apply sqrt_pos|]. apply SqrtTestFloat2.sq_le; [apply sqrt_pos|lra|]. rewrite sqrt_sqrt; lra. }
    assert (K1 : sqrt (4 / 3) * (2 * (u + u ^ 2)) <= 28288 / 10000 * u).
    { apply Rle_trans with (11548 / 10000 * (2 * (u + u ^ 2))); [apply Rmult_le_compat_r; [|lra]|]; rewrite U; simpl; lra. }
    assert (K2 : sqrt 2 * (2 * (1 + u) * eta) <= 4 * eta).
    { apply Rle_trans with (14143 / 10000 * (2 * (1 + u) * eta)); [apply Rmult_le_compat_r; [|lra]|]; rewrite U; lra. }
    assert (K3 : sqrt (4 / 3) * (2 * (u + u ^ 2)) * r <= 28288 / 10000 * u * r) by (apply Rmult_le_compat_r; lra).
    assert (K4 : u * / 1000000 * bpow radix2 (-54) <= u * / 1000000 * r) by (apply Rmult_le_compat_l; [rewrite U; lra|exact Rl]).
    rewrite U in *. lra. }
  assert (E0 : 0 <= E). { unfold E. pose proof (Rle_0_sqr (B2R (re c) - x)). pose proof (Rle_0_sqr (B2R (im c) - y)). unfold Rsqr in *. lra. }
  rewrite XY. assert (RR : r * r = nrm a * nrm b). { apply sqrt_sqrt. apply Rmult_le_pos; lra. }
  rewrite <- RR, <- (sqrt_sqrt E E0). replace (283 / 100 * u * (283 / 100 * u) * (r * r)) with (283 / 100 * u * r * (283 / 100 * u * r)) by ring.
  pose proof (sqrt_pos E). apply Rmult_le_compat; lra.
Qed.

(** ** The pieces *)
Lemma rnd_err v : Rabs (rnd v - v) <= u * Rabs v + eta.
Proof.
  destruct (rnd_any 24 128 v) as (e & h & E & H & ->). replace (v * (1 + e) + h - v) with (v * e + h) by ring.
  eapply Rle_trans; [apply Rabs_triang|]. rewrite Rabs_mult, (Rmult_comm u). apply Rplus_le_compat; [apply Rmult_le_compat_l; [apply Rabs_pos|exact E]|exact H].
Qed.

Lemma ln_size N : bpow radix2 (-110) <= N <= bpow radix2 120 -> Rabs (ln N / 2) <= 60.
Proof.
  intros [L H]. pose proof (bpow_gt_0 radix2 (-110)) as P. assert (L2 : ln 2 <= 1).
  { rewrite <- (ln_exp 1). apply ln_le_compat; [lra|]. pose proof (exp_ineq1 1 R1_neq_R0). lra. }
  pose proof (ln_le_compat _ _ P L) as E1. pose proof (ln_le_compat _ _ (Rlt_le_trans _ _ _ P L) H) as E2. rewrite ln_bpow in E1, E2.
  assert (0 <= ln 2). { rewrite <- ln_1. apply ln_le_compat; lra. }
  apply Rabs_le. lra.
Qed.

Context (dl : R) (Hdl : 0 <= dl <= 4 * u) (HL : ln_accurate dl).

(** ln |z|. *)
Definition lnabs (z : complex fl) : R := ln (nrm z) / 2.

Lemma computed_ln z : cfinite z -> bpow radix2 (-110) <= nrm z <= bpow radix2 120 ->
  exists r, (forall i, fn_atan2 libm (im z) (re z) = Ok i -> complex_ln FF FE z = Ok (Cx r i)) /\ is_finite r = true
    /\ Rabs (B2R r - lnabs z) <= 5001 / 1000 * u * Rabs (lnabs z) + 11 / 10 * u.
Proof.
  intros [F1 F2] HN. destruct (norm_f32 (re z) (im z) F1 F2 (proj1 HN) (proj2 HN)) as [Fn En]. fold (nrm z) in En.
  set (n := fl_norm2 24 128 (re z) (im z)) in *. pose proof (bpow_gt_0 radix2 (-110)) as P. pose proof u32 as U. pose proof eta_tiny as T.
  destruct (ln_ratio (B2R n) (nrm z) (21 / 10 * u)) as [Pn Rn]; [lra|rewrite U; lra|exact En|].
  destruct (HL n Fn Pn) as (l & El & Fl & Hl).
  assert (V2 : is_finite (add (int 1) (int 1)) = true /\ B2R (add (int 1) (int 1)) = 2).
  { destruct (small_int 24 128 ltac:(lia) 1 ltac:(lia)) as [O1 O2]. destruct (small_int 24 128 ltac:(lia) 2 ltac:(lia)) as [W1 W2].
    destruct (add_value 24 128 (int 1) (int 1) (int 2) O1 O1) as [Q1 Q2]; [rewrite O2, W2; simpl; lra|]. split; [exact Q1|]. rewrite Q2, W2. reflexivity. }
  destruct V2 as [F2' V2]. pose proof (ln_size _ HN) as S. fold (lnabs z) in S.
  assert (L2 : ln (nrm z) = 2 * lnabs z) by (unfold lnabs; lra). rewrite L2 in Rn. set (L := lnabs z) in *.
  assert (A2 : Rabs (ln (B2R n)) <= 2 * Rabs L + 3 * u).
  { replace (ln (B2R n)) with ((ln (B2R n) - 2 * L) + 2 * L) by ring. eapply Rle_trans; [apply Rabs_triang|]. rewrite (Rabs_mult 2), (Rabs_pos_eq 2) by lra. rewrite U in *; lra. }
  assert (E2 : Rabs (B2R l / 2 - L) <= 4 * u * Rabs L + 1072 / 1000 * u).
  { replace (B2R l / 2 - L) with (/ 2 * ((B2R l - ln (B2R n)) + (ln (B2R n) - 2 * L))) by field. rewrite Rabs_mult, (Rabs_pos_eq (/ 2)) by lra.
    assert (Rabs ((B2R l - ln (B2R n)) + (ln (B2R n) - 2 * L)) <= 4 * u * (2 * Rabs L + 3 * u) + eta + 2143 / 1000 * u).
    { eapply Rle_trans; [apply Rabs_triang|]. assert (dl * Rabs (ln (B2R n)) <= 4 * u * (2 * Rabs L + 3 * u)).
      { apply Rmult_le_compat; try apply Rabs_pos; lra. } lra. }
    rewrite U in *. pose proof (Rabs_pos L). lra. }
  assert (B2 : Rabs (B2R l / 2) <= 10001 / 10000 * Rabs L + 2 * u).
  { replace (B2R l / 2) with ((B2R l / 2 - L) + L) by ring. eapply Rle_trans; [apply Rabs_triang|]. rewrite U in *. pose proof (Rabs_pos L). lra. }
  destruct (div_round 24 128 l (add (int 1) (int 1)) Fl) as [Fd Ed].
  { rewrite V2. lra. } { rewrite V2, hi32. eapply Rle_trans; [exact B2|]. rewrite U. simpl. lra. }
  exists (div l (add (int 1) (int 1))). split.
  { intros i Ei. unfold complex_ln, complex_sqr_norm. cbn [bind r_add r_one r_mul f_ring float_field float_ring]. fold (fl_norm2 24 128 (re z) (im z)). fold n.
    change (fn_ln FE n) with (fn_ln libm n). rewrite El. cbn [bind f_div float_field]. change (fn_atan2 FE (im z) (re z)) with (fn_atan2 libm (im z) (re z)).
    rewrite Ei. reflexivity. }
  split; [exact Fd|].
  rewrite Ed, V2. pose proof (rnd_err (B2R l / 2)) as K. replace (rnd (B2R l / 2) - L) with ((rnd (B2R l / 2) - B2R l / 2) + (B2R l / 2 - L)) by ring.
  eapply Rle_trans; [apply Rabs_triang|]. assert (u * Rabs (B2R l / 2) <= u * (10001 / 10000 * Rabs L + 2 * u)) by (apply Rmult_le_compat_l; [rewrite U; lra|exact B2]).
  rewrite U in *. pose proof (Rabs_pos L). lra.
Qed.

(** The modulus of the computed product. *)
Lemma product_lnabs a b c : sample a -> sample b -> cfinite c ->
  (let x := B2R (re a) * B2R (re b) - B2R (im a) * B2R (im b) in let y := B2R (re a) * B2R (im b) + B2R (im a) * B2R (re b) in
      (B2R (re c) - x) * (B2R (re c) - x) + (B2R (im c) - y) * (B2R (im c) - y) <= (283 / 100 * u) * (283 / 100 * u) * (x * x + y * y)
      /\ x * x + y * y = nrm a * nrm b) ->
  bpow radix2 (-110) <= nrm c <= bpow radix2 120 /\ Rabs (lnabs c - lnabs a - lnabs b) <= 289 / 100 * u.
Proof.
  intros Ha Hb Fc [Hc Hp]. destruct (sample_size a Ha) as (_ & Na & _). destruct (sample_size b Hb) as (_ & Nb & _).
  set (x := B2R (re a) * B2R (re b) - B2R (im a) * B2R (im b)) in *. set (y := B2R (re a) * B2R (im b) + B2R (im a) * B2R (re b)) in *.
  set (e := B2R (re c) - x) in *. set (f := B2R (im c) - y) in *. pose proof u32 as U. pose proof (bpow_gt_0 radix2 (-54)) as P54.
  set (M := nrm a * nrm b) in *. rewrite Hp in Hc.
  assert (M0 : bpow radix2 (-108) <= M <= bpow radix2 110).
  { unfold M. change (bpow radix2 (-108)) with (bpow radix2 (-54 + -54)). change (bpow radix2 110) with (bpow radix2 (55 + 55)). rewrite !bpow_plus.
    split; apply Rmult_le_compat; lra. }
  pose proof (bpow_gt_0 radix2 (-108)) as P108.
  assert (D : Rabs (x * e + y * f) <= 283 / 100 * u * M).
  { rewrite <- (Rabs_pos_eq (283 / 100 * u * M)) by (apply Rmult_le_pos; [rewrite U; lra|lra]).
    apply Rsqr_le_abs_0. unfold Rsqr.
    assert (CS : (x * e + y * f) * (x * e + y * f) <= (x * x + y * y) * (e * e + f * f)).
    { assert ((x * x + y * y) * (e * e + f * f) - (x * e + y * f) * (x * e + y * f) = (x * f - y * e) * (x * f - y * e)) by ring.
      pose proof (Rle_0_sqr (x * f - y * e)). unfold Rsqr in *. lra. }
    rewrite Hp in CS. eapply Rle_trans; [exact CS|]. replace (283 / 100 * u * M * (283 / 100 * u * M)) with (M * (283 / 100 * u * (283 / 100 * u) * M)) by ring.
    apply Rmult_le_compat_l; [lra|exact Hc]. }
  assert (Nc : nrm c - M = 2 * (x * e + y * f) + (e * e + f * f)).
  { rewrite <- Hp. unfold nrm. replace (B2R (re c)) with (x + e) by (unfold e; ring). replace (B2R (im c)) with (y + f) by (unfold f; ring). ring. }
  assert (E : Rabs (nrm c - M) <= 5661 / 1000 * u * M).
  { rewrite Nc. eapply Rle_trans; [apply Rabs_triang|]. rewrite Rabs_mult, (Rabs_pos_eq 2) by lra.
    rewrite (Rabs_pos_eq (e * e + f * f)) by (pose proof (Rle_0_sqr e); pose proof (Rle_0_sqr f); unfold Rsqr in *; lra).
    rewrite U in *. lra. }
  destruct (ln_ratio (nrm c) M (5661 / 1000 * u)) as [Pc Rc]; [lra|rewrite U; lra|exact E|]. split.
  - apply Rabs_le_inv in E. assert (Z : 5661 / 1000 * u * M <= / 2 * M) by (apply Rmult_le_compat_r; [lra|rewrite U; lra]).
    change (bpow radix2 (-108)) with (bpow radix2 (2 + -110)) in M0. rewrite bpow_plus in M0. change (bpow radix2 2) with 4 in M0.
    change (bpow radix2 120) with (bpow radix2 (10 + 110)). rewrite bpow_plus. change (bpow radix2 10) with 1024. pose proof (bpow_gt_0 radix2 (-110)). lra.
  - unfold M in Rc. rewrite ln_mult in Rc by lra. unfold lnabs.
    replace (ln (nrm c) / 2 - ln (nrm a) / 2 - ln (nrm b) / 2) with (/ 2 * (ln (nrm c) - (ln (nrm a) + ln (nrm b)))) by field.
    rewrite Rabs_mult, (Rabs_pos_eq (/ 2)) by lra. rewrite U in *. lra.
Qed.

(** The tolerance. *)
Lemma larger (x y : fl) : is_finite x = true -> is_finite y = true ->
  is_finite (fl_max x y) = true /\ B2R x <= B2R (fl_max x y) /\ B2R y <= B2R (fl_max x y) /\ (B2R (fl_max x y) = B2R x \/ B2R (fl_max x y) = B2R y).
Proof.
  intros Fx Fy. unfold fl_max. replace (is_nan x) with false by (destruct x; try discriminate; reflexivity).
  rewrite (Bltb_correct 24 128 x y Fx Fy). destruct (Rlt_bool_spec (B2R x) (B2R y)) as [H|H]; repeat split; try assumption; lra.
Qed.

Lemma spread_ok a : sample a -> exists s, spread a = Ok s /\ is_finite s = true
  /\ 999 / 1000 * (1 + Rabs (lnabs a)) <= B2R s /\ B2R s <= bpow radix2 29.
Proof.
  intros Ha. destruct (sample_size a Ha) as ([F1 F2] & Na & _). pose proof u32 as U. pose proof eta_tiny as T.
  assert (NN : bpow radix2 (-110) <= nrm a <= bpow radix2 120).
  { split; [apply Rle_trans with (bpow radix2 (-54)); [apply bpow_le; lia|lra]|apply Rle_trans with (bpow radix2 55); [lra|apply bpow_le; lia]]. }
  destruct (norm_f32 (re a) (im a) F1 F2 (proj1 NN) (proj2 NN)) as [Fn En]. fold (nrm a) in En. set (n := fl_norm2 24 128 (re a) (im a)) in *.
  pose proof (bpow_gt_0 radix2 (-54)) as P54. set (r := sqrt (nrm a)).
  assert (RR : r * r = nrm a) by (apply sqrt_sqrt; lra). assert (R0 : 0 <= r) by apply sqrt_pos.
  assert (RL : bpow radix2 (-27) <= r).
  { unfold r. rewrite <- (sqrt_square (bpow radix2 (-27))) by (apply bpow_ge_0). apply sqrt_le_1_alt. rewrite <- bpow_plus. exact (proj1 Na). }
  assert (RH : r <= bpow radix2 28).
  { unfold r. rewrite <- (sqrt_square (bpow radix2 28)) by (apply bpow_ge_0). apply sqrt_le_1_alt. rewrite <- bpow_plus. apply Rle_trans with (bpow radix2 55); [lra|apply bpow_le; lia]. }
  pose proof (bpow_gt_0 radix2 (-27)) as P27. assert (UN : 21 / 10 * u * nrm a <= / 10000 * nrm a) by (apply Rmult_le_compat_r; [lra|rewrite U; lra]).
  apply Rabs_le_inv in En.
  assert (S1 : 9999 / 10000 * r <= sqrt (B2R n)).
  { apply SqrtTestFloat2.sq_le; [lra|apply sqrt_pos|]. rewrite sqrt_sqrt by lra. replace (9999 / 10000 * r * (9999 / 10000 * r)) with (99980001 / 100000000 * (r * r)) by field. rewrite RR. lra. }
  assert (S2 : sqrt (B2R n) <= 10001 / 10000 * r).
  { apply SqrtTestFloat2.sq_le; [apply sqrt_pos|lra|]. rewrite sqrt_sqrt by lra. replace (10001 / 10000 * r * (10001 / 10000 * r)) with (100020001 / 100000000 * (r * r)) by field. rewrite RR. lra. }
  assert (n0 : 0 <= B2R n) by lra. destruct (sqrt_round 24 128 n Fn n0) as [Fm Em]. set (m := Bsqrt mode_NE n) in *.
  assert (Te : eta <= / 1000000 * bpow radix2 (-30)).
  { rewrite eta32. apply Rle_trans with (bpow radix2 (-60) * bpow radix2 (-30)); [rewrite <- bpow_plus; apply bpow_le; lia|]. apply Rmult_le_compat_r; [apply bpow_ge_0|simpl; lra]. }
  assert (B30 : bpow radix2 (-30) = / 8 * bpow radix2 (-27)). { change (-30)%Z with (-3 + -27)%Z. rewrite bpow_plus. reflexivity. }
  pose proof (rnd_err (sqrt (B2R n))) as K. rewrite <- Em in K. rewrite (Rabs_pos_eq (sqrt _)) in K by apply sqrt_pos.
  apply Rabs_le_inv in K. assert (UK : u * sqrt (B2R n) <= / 10000 * sqrt (B2R n)) by (apply Rmult_le_compat_r; [apply sqrt_pos|rewrite U; lra]).
  assert (M1 : 9997 / 10000 * r <= B2R m <= 10003 / 10000 * r) by lra.
  destruct (small_int 24 128 ltac:(lia) 1 ltac:(lia)) as [O1 O2]. assert (mp : 0 < B2R m) by lra.
  assert (Q1 : 9996 / 10000 * / r <= B2R (int 1) / B2R m <= 10004 / 10000 * / r).
  { rewrite O2. replace (1 / B2R m) with (/ B2R m) by (field; apply Rgt_not_eq; lra). split.
    - apply Rmult_le_reg_r with (B2R m * r); [apply Rmult_lt_0_compat; lra|]. replace (9996 / 10000 * / r * (B2R m * r)) with (9996 / 10000 * B2R m) by (field; apply Rgt_not_eq; lra).
      replace (/ B2R m * (B2R m * r)) with r by (field; apply Rgt_not_eq; lra). lra.
    - apply Rmult_le_reg_r with (B2R m * r); [apply Rmult_lt_0_compat; lra|]. replace (10004 / 10000 * / r * (B2R m * r)) with (10004 / 10000 * B2R m) by (field; apply Rgt_not_eq; lra).
      replace (/ B2R m * (B2R m * r)) with r by (field; apply Rgt_not_eq; lra). lra. }
  assert (IR : bpow radix2 (-28) <= / r <= bpow radix2 27).
  { split.
    - change (bpow radix2 (-28)) with (bpow radix2 (- (28))). rewrite bpow_opp. apply Rinv_le_contravar; lra.
    - change (bpow radix2 27) with (bpow radix2 (- (-27))). rewrite bpow_opp. apply Rinv_le_contravar; lra. }
  pose proof (bpow_gt_0 radix2 (-28)) as P28.
  destruct (div_round 24 128 (int 1) m O1 (Rgt_not_eq _ _ mp)) as [Fq Eq].
  { rewrite Rabs_pos_eq by lra. apply Rle_trans with (2 * bpow radix2 27); [lra|]. change 2 with (bpow radix2 1). rewrite <- bpow_plus, hi32. apply bpow_le. lia. }
  set (q := div (int 1) m) in *. pose proof (rnd_err (B2R (int 1) / B2R m)) as K2. rewrite <- Eq in K2. rewrite (Rabs_pos_eq (B2R (int 1) / B2R m)) in K2 by lra.
  apply Rabs_le_inv in K2. assert (UK2 : u * (B2R (int 1) / B2R m) <= / 10000 * (B2R (int 1) / B2R m)) by (apply Rmult_le_compat_r; [lra|rewrite U; lra]).
  assert (B28 : bpow radix2 (-28) = / 2 * bpow radix2 (-27)). { change (-28)%Z with (-1 + -27)%Z. rewrite bpow_plus. reflexivity. }
  assert (Q2 : 9994 / 10000 * / r <= B2R q <= 10006 / 10000 * / r) by lra.
  destruct (larger m q Fm Fq) as (Fs & L1 & L2 & L3). exists (fl_max m q). split.
  { unfold spread, complex_abs, complex_sqr_norm. cbn [bind r_add r_mul f_ring float_field float_ring f_div]. fold (fl_norm2 24 128 (re a) (im a)). fold n.
    change (fn_sqrt FE n) with (Ok m). reflexivity. }
  split; [exact Fs|]. split.
  - assert (X : forall t, 1 + ln t <= t \/ t <= 0).
    { intros t. destruct (Rle_or_lt t 0) as [H|H]; [right; exact H|left]. pose proof (exp_ineq1_le (ln t)) as X. rewrite exp_ln in X by exact H. exact X. }
    assert (LR : lnabs a = ln r). { unfold lnabs. rewrite <- RR, ln_mult by lra. field. }
    destruct (X r) as [X1|X1]; [|lra]. destruct (X (/ r)) as [X2|X2]; [|lra]. rewrite ln_Rinv in X2 by lra. rewrite LR.
    destruct (Rle_or_lt 0 (ln r)) as [H|H]; [rewrite Rabs_pos_eq by exact H|rewrite Rabs_left by exact H]; lra.
  - assert (B29 : bpow radix2 29 = 2 * bpow radix2 28) by (change 29%Z with (1 + 28)%Z; rewrite bpow_plus; reflexivity).
    assert (B28' : bpow radix2 28 = 2 * bpow radix2 27) by (change 28%Z with (1 + 27)%Z; rewrite bpow_plus; reflexivity).
    pose proof (bpow_gt_0 radix2 27). destruct L3 as [-> | ->]; lra.
Qed.

(** The real part of the difference. *)
Lemma real_part (lc la lb : fl) Lc La Lb : is_finite lc = true -> is_finite la = true -> is_finite lb = true ->
  Rabs La <= 60 -> Rabs Lb <= 60 -> Rabs Lc <= 60 -> Rabs (Lc - La - Lb) <= 289 / 100 * u ->
  Rabs (B2R lc - Lc) <= 5001 / 1000 * u * Rabs Lc + 11 / 10 * u ->
  Rabs (B2R la - La) <= 5001 / 1000 * u * Rabs La + 11 / 10 * u ->
  Rabs (B2R lb - Lb) <= 5001 / 1000 * u * Rabs Lb + 11 / 10 * u ->
  is_finite (sub (sub lc la) lb) = true /\ Rabs (B2R (sub (sub lc la) lb)) <= 12 * u * (Rabs La + Rabs Lb) + 7 * u.
Proof.
  intros Fc Fa Fb Ba Bb Bc D Ec Ea Eb. pose proof u32 as U. pose proof eta_tiny as T.
  assert (C : Rabs Lc <= Rabs La + Rabs Lb + 3 * u).
  { replace Lc with ((Lc - La - Lb) + (La + Lb)) by ring. eapply Rle_trans; [apply Rabs_triang|]. pose proof (Rabs_triang La Lb). rewrite U in *. lra. }
  pose proof (Rabs_pos La) as Pa. pose proof (Rabs_pos Lb) as Pb. pose proof (Rabs_pos Lc) as Pc.
  set (A := Rabs La) in *. set (B := Rabs Lb) in *.
  assert (X1 : Rabs ((B2R lc - B2R la) - Lb) <= 10002 / 1000 * u * A + 5001 / 1000 * u * B + 51 / 10 * u).
  { replace (B2R lc - B2R la - Lb) with ((B2R lc - Lc) + - (B2R la - La) + (Lc - La - Lb)) by ring.
    eapply Rle_trans; [apply Rabs_triang|]. pose proof (Rabs_triang (B2R lc - Lc) (- (B2R la - La))) as Q. rewrite Rabs_Ropp in Q. rewrite U in *. lra. }
  assert (X2 : Rabs (B2R lc - B2R la) <= B + 1 / 1000).
  { replace (B2R lc - B2R la) with ((B2R lc - B2R la - Lb) + Lb) by ring. eapply Rle_trans; [apply Rabs_triang|]. fold B. rewrite U in *. lra. }
  destruct (sub_round 24 128 lc la Fc Fa) as [F1 V1]. { rewrite hi32. eapply Rle_trans; [exact X2|]. simpl. lra. }
  pose proof (rnd_err (B2R lc - B2R la)) as R1. rewrite <- V1 in R1.
  assert (R1' : Rabs (B2R (sub lc la) - (B2R lc - B2R la)) <= u * B + / 100 * u).
  { eapply Rle_trans; [exact R1|]. assert (u * Rabs (B2R lc - B2R la) <= u * (B + 1 / 1000)) by (apply Rmult_le_compat_l; [rewrite U; lra|exact X2]). rewrite U in *. lra. }
  assert (X3 : Rabs (B2R (sub lc la) - B2R lb) <= 10002 / 1000 * u * A + 11003 / 1000 * u * B + 625 / 100 * u).
  { replace (B2R (sub lc la) - B2R lb) with ((B2R (sub lc la) - (B2R lc - B2R la)) + (B2R lc - B2R la - Lb) + - (B2R lb - Lb)) by ring.
    eapply Rle_trans; [apply Rabs_triang|]. rewrite Rabs_Ropp. pose proof (Rabs_triang (B2R (sub lc la) - (B2R lc - B2R la)) (B2R lc - B2R la - Lb)) as Q. rewrite U in *. lra. }
  destruct (sub_round 24 128 (sub lc la) lb F1 Fb) as [F2 V2]. { rewrite hi32. eapply Rle_trans; [exact X3|]. rewrite U. simpl. lra. }
  split; [exact F2|]. rewrite V2. pose proof (rnd_err (B2R (sub lc la) - B2R lb)) as R2.
  replace (rnd (B2R (sub lc la) - B2R lb)) with ((rnd (B2R (sub lc la) - B2R lb) - (B2R (sub lc la) - B2R lb)) + (B2R (sub lc la) - B2R lb)) by ring.
  eapply Rle_trans; [apply Rabs_triang|]. assert (u * Rabs (B2R (sub lc la) - B2R lb) <= / 1000 * Rabs (B2R (sub lc la) - B2R lb)) by (apply Rmult_le_compat_r; [apply Rabs_pos|rewrite U; lra]).
  rewrite U in *. lra.
Qed.

(** The imaginary part. *)
Lemma check_im_ok (v : fl) (k : Z) : is_finite v = true -> (k = -1 \/ k = 0 \/ k = 1)%Z ->
  Rabs (B2R v - 2 * PI * IZR k) <= 209 / 10 * u -> check_im v = true.
Proof.
  intros Fv Hk Hv. pose proof u32 as U. pose proof PI_close as HP.
  assert (P3 : 3 <= PI) by lra.
  destruct (small_int 24 128 ltac:(lia) 1 ltac:(lia)) as [O1 O2]. destruct (small_int 24 128 ltac:(lia) (-1) ltac:(lia)) as [M1 M2].
  destruct (epsilon_value 24 128 ltac:(lia)) as [Fe Ve].
  assert (E8 : is_finite (int 8) = true /\ B2R (int 8) = 8). { split; [reflexivity|]. vm_compute. lra. }
  assert (T8 : is_finite (mul (int 8) (fl_epsilon 24 128)) = true /\ B2R (mul (int 8) (fl_epsilon 24 128)) = 16 * u).
  { destruct (mul_round 24 128 (int 8) (fl_epsilon 24 128) (proj1 E8) Fe) as [F V].
    { rewrite (proj2 E8), Ve, U, hi32. rewrite Rabs_pos_eq by lra. simpl. lra. }
    split; [exact F|]. rewrite V, (proj2 E8), Ve. replace (8 * (2 * u)) with (bpow radix2 (-20)) by (rewrite U; simpl; lra).
    rewrite round_generic; [rewrite U; simpl; lra|apply valid_rnd_N|]. apply generic_format_bpow. vm_compute. discriminate. }
  unfold check_im. rewrite (Bltb_correct 24 128 _ _ O1 Fv), (Bltb_correct 24 128 _ _ Fv M1), O2, M2. apply Rabs_le_inv in Hv.
  destruct Hk as [-> | [-> | ->]].
  - rewrite Rlt_bool_false by (rewrite U in *; lra). rewrite Rlt_bool_true by (rewrite U in *; lra).
    destruct (near_two_pi (Bopp v)) as [F W]. { rewrite is_finite_Bopp. exact Fv. } { rewrite B2R_Bopp. apply Rabs_le. lra. }
    destruct two_pi_value as [Ft Vt]. assert (Tn : Rabs (B2R v + B2R two_pi) <= hi).
    { rewrite Vt, hi32. apply Rabs_le. rewrite U in *. pose proof PI_4. simpl. lra. }
    destruct (add_round 24 128 v two_pi Fv Ft Tn) as [Fs Vs].
    destruct (sub_round 24 128 (Bopp v) two_pi) as [_ Vs']; [rewrite is_finite_Bopp; exact Fv|exact Ft|rewrite B2R_Bopp; rewrite <- Rabs_Ropp; replace (- (- B2R v - B2R two_pi)) with (B2R v + B2R two_pi) by ring; exact Tn|].
    rewrite Vs', B2R_Bopp in W. replace (- B2R v - B2R two_pi) with (- (B2R v + B2R two_pi)) in W by ring.
    change (round_mode mode_NE) with ZnearestE in W, Vs. rewrite round_NE_opp, Rabs_Ropp, <- Vs in W.
    rewrite (Bleb_correct 24 128); [|rewrite is_finite_Babs; exact Fs|exact (proj1 T8)]. rewrite B2R_Babs, (proj2 T8), Rle_bool_true by exact W. reflexivity.
  - rewrite Rlt_bool_false by (rewrite U in *; lra). rewrite Rlt_bool_false by (rewrite U in *; lra).
    assert (FP : is_finite (mul (int 8) pi32) = true /\ 8 <= B2R (mul (int 8) pi32)).
    { split; [reflexivity|]. vm_compute. lra. }
    rewrite (Bleb_correct 24 128); [|rewrite is_finite_Babs; exact Fv|exact (proj1 FP)]. rewrite B2R_Babs, Rle_bool_true; [reflexivity|].
    apply Rle_trans with 8; [|exact (proj2 FP)]. apply Rabs_le. rewrite U in *. lra.
  - rewrite Rlt_bool_true by (rewrite U in *; lra).
    destruct (near_two_pi v Fv) as [F W]. { apply Rabs_le. lra. }
    rewrite (Bleb_correct 24 128); [|rewrite is_finite_Babs; exact F|exact (proj1 T8)]. rewrite B2R_Babs, (proj2 T8), Rle_bool_true by exact W. reflexivity.
Qed.

(** The verdict depends on the angles only through the assertions on the imaginary part. *)
Lemma verdict_ln a b ia ib : sample a -> sample b -> fn_atan2 libm (im a) (re a) = Ok ia -> fn_atan2 libm (im b) (re b) = Ok ib ->
  exists c, complex_mul FR a b = Ok c /\ cfinite c /\ bpow radix2 (-110) <= nrm c
  /\ (let x := B2R (re a) * B2R (re b) - B2R (im a) * B2R (im b) in let y := B2R (re a) * B2R (im b) + B2R (im a) * B2R (re b) in
      (B2R (re c) - x) * (B2R (re c) - x) + (B2R (im c) - y) * (B2R (im c) - y) <= (283 / 100 * u) * (283 / 100 * u) * (x * x + y * y))
  /\ forall ic, fn_atan2 libm (im c) (re c) = Ok ic -> ln_test a b = Ok (check_im (sub (sub ic ia) ib)).
Proof.
  intros Ha Hb Eia Eib. destruct (product_size a b Ha Hb) as (c & Ec & Fc & Hc).
  destruct (product_lnabs a b c Ha Hb Fc Hc) as [Nc Dc].
  destruct (sample_size a Ha) as (Fa & Na & _). destruct (sample_size b Hb) as (Fb & Nb & _).
  assert (Ext : forall x, bpow radix2 (-54) <= x <= bpow radix2 55 -> bpow radix2 (-110) <= x <= bpow radix2 120).
  { intros x [X1 X2]. split; [apply Rle_trans with (bpow radix2 (-54)); [apply bpow_le; lia|lra]|apply Rle_trans with (bpow radix2 55); [lra|apply bpow_le; lia]]. }
  pose proof (bpow_gt_0 radix2 (-54)) as P54.
  destruct (computed_ln a Fa (Ext _ Na)) as (wa & Ea & Fra & Hra).
  destruct (computed_ln b Fb (Ext _ Nb)) as (wb & Eb & Frb & Hrb).
  destruct (computed_ln c Fc Nc) as (wc & Ec' & Frc & Hrc).
  destruct (spread_ok a Ha) as (sa & Esa & Fsa & Lsa & Usa). destruct (spread_ok b Hb) as (sb & Esb & Fsb & Lsb & Usb).
  pose proof u32 as U. pose proof eta_tiny as T.
  destruct (real_part _ _ _ (lnabs c) (lnabs a) (lnabs b) Frc Fra Frb (ln_size _ (Ext _ Na)) (ln_size _ (Ext _ Nb)) (ln_size _ Nc) Dc Hrc Hra Hrb) as [FR' VR].
  pose proof (Rabs_pos (lnabs a)) as Pa. pose proof (Rabs_pos (lnabs b)) as Pb.
  (* tolerance *)
  assert (B30 : bpow radix2 30 = 2 * bpow radix2 29) by (change 30%Z with (1 + 29)%Z; rewrite bpow_plus; reflexivity).
  assert (SS : 0 <= B2R sa + B2R sb <= bpow radix2 30) by lra.
  destruct (add_round 24 128 sa sb Fsa Fsb) as [F1 V1]. { rewrite Rabs_pos_eq, hi32 by lra. apply Rle_trans with (bpow radix2 30); [lra|apply bpow_le; lia]. }
  pose proof (rnd_err (B2R sa + B2R sb)) as R1. rewrite <- V1 in R1. rewrite (Rabs_pos_eq (B2R sa + B2R sb)) in R1 by lra. apply Rabs_le_inv in R1.
  assert (K1 : u * (B2R sa + B2R sb) <= / 1000 * (B2R sa + B2R sb)) by (apply Rmult_le_compat_r; [lra|rewrite U; lra]).
  set (s := add sa sb) in *. assert (S1 : 997 / 1000 * (2 + Rabs (lnabs a) + Rabs (lnabs b)) <= B2R s <= 2 * bpow radix2 30) by (rewrite U in *; lra).
  destruct (epsilon_value 24 128 ltac:(lia)) as [Fe Ve].
  assert (H31 : bpow radix2 31 = 2 * bpow radix2 30) by (change 31%Z with (1 + 30)%Z; rewrite bpow_plus; reflexivity).
  assert (M1 : 0 <= B2R s * (2 * u) <= bpow radix2 31). { rewrite U in *. lra. }
  destruct (mul_round 24 128 s (fl_epsilon 24 128) F1 Fe) as [F2 V2]. { rewrite Ve, Rabs_pos_eq, hi32 by lra. apply Rle_trans with (bpow radix2 31); [lra|apply bpow_le; lia]. }
  rewrite Ve in V2. set (tol := mul s (fl_epsilon 24 128)) in *. pose proof (rnd_err (B2R s * (2 * u))) as R2. rewrite <- V2 in R2. rewrite (Rabs_pos_eq (B2R s * (2 * u))) in R2 by lra. apply Rabs_le_inv in R2.
  assert (K2 : u * (B2R s * (2 * u)) <= / 1000 * (B2R s * (2 * u))) by (apply Rmult_le_compat_r; [lra|rewrite U; lra]).
  assert (T1 : 995 / 1000 * (2 * u) * (2 + Rabs (lnabs a) + Rabs (lnabs b)) <= B2R tol <= 2 * bpow radix2 31) by (rewrite U in *; lra).
  assert (E10 : is_finite (int 10) = true /\ B2R (int 10) = 10). { split; [reflexivity|]. vm_compute. lra. }
  assert (H36 : bpow radix2 36 = 32 * bpow radix2 31) by (change 36%Z with (5 + 31)%Z; rewrite bpow_plus; reflexivity).
  assert (M2 : 0 <= 10 * B2R tol <= bpow radix2 36). { rewrite U in *. lra. }
  destruct (mul_round 24 128 (int 10) tol (proj1 E10) F2) as [F3 V3]. { rewrite (proj2 E10), Rabs_pos_eq, hi32 by lra. apply Rle_trans with (bpow radix2 36); [lra|apply bpow_le; lia]. }
  rewrite (proj2 E10) in V3. pose proof (rnd_err (10 * B2R tol)) as R3. rewrite <- V3 in R3. rewrite (Rabs_pos_eq (10 * B2R tol)) in R3 by lra. apply Rabs_le_inv in R3.
  assert (K3 : u * (10 * B2R tol) <= / 1000 * (10 * B2R tol)) by (apply Rmult_le_compat_r; [lra|rewrite U; lra]).
  exists c. split; [exact Ec|]. split; [exact Fc|]. split; [exact (proj1 Nc)|]. split; [exact (proj1 Hc)|]. intros ic Eic.
  unfold ln_test. rewrite Ec. cbn [bind]. rewrite (Ea _ Eia). cbn [bind]. rewrite (Eb _ Eib). cbn [bind]. rewrite (Ec' _ Eic). cbn [bind]. rewrite Esa. cbn [bind]. rewrite Esb.
  cbn [bind r_add r_mul r_sub float_ring complex_sub]. fold s. fold tol. unfold complex_new. cbn [re im].
  rewrite (Bleb_correct 24 128); [|rewrite is_finite_Babs; exact FR'|exact F3]. rewrite B2R_Babs, Rle_bool_true; [reflexivity|].
  eapply Rle_trans; [exact VR|]. rewrite U in *. lra.
Qed.

Context (da : R) (Hda : 0 <= da <= 105 / 100 * u) (HA : atan2_accurate da).

Lemma imaginary_part (vc va vb : fl) tc ta tb k : is_finite vc = true -> is_finite va = true -> is_finite vb = true ->
  - PI <= tc <= PI -> - PI <= ta <= PI -> - PI <= tb <= PI -> (k = -1 \/ k = 0 \/ k = 1)%Z ->
  Rabs (tc - ta - tb - 2 * PI * IZR k) <= 102 / 100 * (283 / 100 * u) ->
  Rabs (B2R vc - tc) <= da * Rabs tc + eta -> Rabs (B2R va - ta) <= da * Rabs ta + eta -> Rabs (B2R vb - tb) <= da * Rabs tb + eta ->
  is_finite (sub (sub vc va) vb) = true /\ Rabs (B2R (sub (sub vc va) vb) - 2 * PI * IZR k) <= 209 / 10 * u.
Proof.
  intros Fc Fa Fb Bc Ba Bb Hk D Ec Ea Eb. pose proof u32 as U. pose proof eta_tiny as T. pose proof PI_close as HP.
  assert (Er : forall v t, - PI <= t <= PI -> Rabs (v - t) <= da * Rabs t + eta -> Rabs (v - t) <= 33 / 10 * u).
  { intros v t Ht H. eapply Rle_trans; [exact H|]. assert (da * Rabs t <= 105 / 100 * u * PI). { apply Rmult_le_compat; [lra|apply Rabs_pos|lra|apply Rabs_le; lra]. }
    rewrite U in *. lra. }
  apply Er in Ec; [|exact Bc]. apply Er in Ea; [|exact Ba]. apply Er in Eb; [|exact Bb]. clear Er.
  apply Rabs_le_inv in Ec. apply Rabs_le_inv in Ea. apply Rabs_le_inv in Eb. apply Rabs_le_inv in D.
  assert (X1 : Rabs (B2R vc - B2R va) < 8) by (apply Rabs_lt; rewrite U in *; lra).
  destruct (sub_round 24 128 vc va Fc Fa) as [F1 V1]. { rewrite hi32. left. eapply Rlt_le_trans; [exact X1|]. simpl. lra. }
  pose proof (round_below_8 _ X1) as R1. rewrite <- V1 in R1. apply Rabs_le_inv in R1.
  assert (K : Rabs (2 * PI * IZR k) <= 7). { apply Rabs_le. destruct Hk as [-> | [-> | ->]]; lra. } apply Rabs_le_inv in K.
  assert (X2 : Rabs (B2R (sub vc va) - B2R vb) < 8) by (apply Rabs_lt; rewrite U in *; lra).
  destruct (sub_round 24 128 (sub vc va) vb F1 Fb) as [F2 V2]. { rewrite hi32. left. eapply Rlt_le_trans; [exact X2|]. simpl. lra. }
  split; [exact F2|]. pose proof (round_below_8 _ X2) as R2. rewrite <- V2 in R2. apply Rabs_le_inv in R2.
  apply Rabs_le. rewrite U in *. lra.
Qed.

(** ** The test passes *)
Theorem C94_ln_test_passes : forall a b : complex fl, sample a -> sample b -> ln_test a b = Ok true.
Proof.
  intros a b Ha Hb. destruct (sample_size a Ha) as ([Fa1 Fa2] & Na & _). destruct (sample_size b Hb) as ([Fb1 Fb2] & Nb & _).
  pose proof (bpow_gt_0 radix2 (-54)) as P54. pose proof (bpow_gt_0 radix2 (-110)) as P110. pose proof u32 as U.
  assert (NZ : forall z, 0 < nrm z -> ~ (B2R (re z) = 0 /\ B2R (im z) = 0)). { intros z Hz [E1 E2]. unfold nrm in Hz. rewrite E1, E2 in Hz. lra. }
  destruct (HA (im a) (re a) Fa2 Fa1 (NZ a ltac:(lra))) as (ta & Aa & (ia & Ea & Fia & Hia)).
  destruct (HA (im b) (re b) Fb2 Fb1 (NZ b ltac:(lra))) as (tb & Ab & (ib & Eb & Fib & Hib)).
  destruct (verdict_ln a b ia ib Ha Hb Ea Eb) as (c & Ec & [Fc1 Fc2] & Nc & Hc & V).
  destruct (HA (im c) (re c) Fc2 Fc1 (NZ c ltac:(lra))) as (tc & Ac & (ic & Eic & Fic & Hic)).
  rewrite (V ic Eic). f_equal.
  destruct (product_argument _ _ _ _ _ _ ta tb tc (283 / 100 * u) Aa Ab Ac) as (k & Hk & Dk);
    [fold (nrm a); lra|fold (nrm b); lra|rewrite U; lra|exact Hc|].
  destruct (imaginary_part _ _ _ tc ta tb k Fic Fia Fib (proj1 Ac) (proj1 Aa) (proj1 Ab) Hk Dk Hic Hia Hib) as [FI VI].
  exact (check_im_ok _ k FI Hk VI).
Qed.
End Test.

(** test_ln_complex_f32: [rng.gen_range(-5f32..5f32)] yields numbers of magnitude at most 5 that are zero or not
    smaller than 2^-27 (the generator itself is not modelled). *)
Corollary C94_repo_test : forall libm : FunOps f32, ln_accurate libm (4 * u) -> atan2_accurate libm (105 / 100 * u) ->
  forall a b : complex f32, sample a -> sample b -> ln_test libm a b = Ok true.
Proof.
  intros libm HL HA. pose proof u32 as U. apply (C94_ln_test_passes libm (4 * u)) with (da := 105 / 100 * u); try assumption; rewrite U; lra.
Qed.

(** ** The test hardly looks at the imaginary part: its last assertion allows 8 pi where 8 EPSILON
    was meant, so that it also passes for every pair of samples when the angle is always 0. *)
Theorem C94_angle_unchecked_refuted : forall libm : FunOps f32, ln_accurate libm (4 * u) ->
  (forall y x, fn_atan2 libm y x = Ok (int 0)) -> forall a b : complex f32, sample a -> sample b -> ln_test libm a b = Ok true.
Proof.
  intros libm HL H0 a b Ha Hb. pose proof u32 as U.
  destruct (verdict_ln libm (4 * u) ltac:(rewrite U; lra) HL a b (int 0) (int 0) Ha Hb (H0 _ _) (H0 _ _)) as (c & _ & _ & _ & _ & V).
  rewrite (V (int 0) (H0 _ _)). f_equal.
Qed.

(** ** A zero sample makes it fail: ln 0 - ln 0 is not a number. *)
Lemma zero_times (x y : f32) : is_finite x = true -> B2R x = 0 -> is_finite y = true -> exists s, mul x y = B754_zero s.
Proof.
  intros Fx Hx Fy. destruct (mul_zero 24 128 x y Fx Fy Hx) as [F V]. destruct (mul x y) as [s|s| |s m e B]; try discriminate; [exists s; reflexivity|].
  exfalso. simpl in V. unfold F2R in V. simpl in V. apply Rmult_integral in V as [V|V]; [|pose proof (bpow_gt_0 radix2 e); lra].
  apply eq_IZR in V. destruct s; discriminate.
Qed.

Theorem C94_zero_sample_refuted : forall libm : FunOps f32, ln_accurate libm (4 * u) -> atan2_total libm ->
  fn_ln libm (int 0) = Ok (B754_infinity true) -> forall b : complex f32, sample b -> ln_test libm (Cx (int 0) (int 0)) b = Ok false.
Proof.
  intros libm HL HA HI b Hb. pose proof u32 as U. destruct (sample_size b Hb) as ([F1 F2] & Nb & _).
  assert (Ext : bpow radix2 (-110) <= nrm b <= bpow radix2 120).
  { destruct Nb as [X1 X2]. split; [apply Rle_trans with (bpow radix2 (-54)); [apply bpow_le; lia|lra]|apply Rle_trans with (bpow radix2 55); [lra|apply bpow_le; lia]]. }
  destruct (computed_ln libm (4 * u) ltac:(rewrite U; lra) HL b (conj F1 F2) Ext) as (rb & Eb & Fb & _). destruct (HA (im b) (re b)) as [ib Eib].
  destruct (spread_ok libm b Hb) as (sb & Esb & _).
  assert (Z0 : is_finite (int 0) = true /\ B2R (int 0) = 0) by (split; reflexivity). destruct Z0 as [Z1 Z2].
  destruct (zero_times (int 0) (re b) Z1 Z2 F1) as [s1 E1]. destruct (zero_times (int 0) (im b) Z1 Z2 F2) as [s2 E2].
  assert (Lz : forall s t, exists i, complex_ln FF (float_fun 24 128 libm) (Cx (B754_zero s) (B754_zero t)) = Ok (Cx (B754_infinity true) i)).
  { intros s t. unfold complex_ln, complex_sqr_norm. cbn [bind r_add r_one r_mul f_ring float_field float_ring re im].
    replace (add (mul (B754_zero s) (B754_zero s)) (mul (B754_zero t) (B754_zero t))) with (int 0) by (destruct s, t; reflexivity).
    change (fn_ln (float_fun 24 128 libm) (int 0)) with (fn_ln libm (int 0)). rewrite HI. cbn [bind f_div float_field].
    change (fn_atan2 (float_fun 24 128 libm)) with (fn_atan2 libm). destruct (HA (B754_zero t) (B754_zero s)) as [i ->]. exists i. reflexivity. }
  unfold ln_test, complex_mul, complex_mul_ref. cbn [re im bind r_mul r_add r_sub float_ring]. rewrite E1, E2. unfold complex_new.
  destruct (Lz false false) as [i0 L0]. change (complex_ln FF (float_fun 24 128 libm) (Cx (int 0) (int 0))) with (complex_ln FF (float_fun 24 128 libm) (Cx (B754_zero false) (B754_zero false))).
  rewrite L0. cbn [bind]. rewrite (Eb ib Eib). cbn [bind].
  assert (Lc : exists i, complex_ln FF (float_fun 24 128 libm) (Cx (sub (B754_zero s1) (B754_zero s2)) (add (B754_zero s2) (B754_zero s1))) = Ok (Cx (B754_infinity true) i)).
  { assert (A : exists s, sub (B754_zero s1) (B754_zero s2) = B754_zero s) by (destruct s1, s2; eexists; reflexivity).
    assert (B : exists s, add (B754_zero s2) (B754_zero s1) = B754_zero s) by (destruct s1, s2; eexists; reflexivity).
    destruct A as [s ->]. destruct B as [t ->]. apply Lz. }
  destruct Lc as [ic Lc]. rewrite Lc. cbn [bind]. change (spread libm (Cx (int 0) (int 0))) with (Ok (B754_infinity false : f32)). cbn [bind]. rewrite Esb. reflexivity.
Qed.

(** ** Concrete cases *)

(** A correctly rounded libm whose ln(0) is minus infinity, as IEEE 754 asks; and one whose angles are all 0. *)
Definition ieee_libm : FunOps f32 := {|
  fn_exp := fn_exp (rounded_libm 24 128); fn_sin := fn_sin (rounded_libm 24 128); fn_cos := fn_cos (rounded_libm 24 128);
  fn_sinh := fn_sinh (rounded_libm 24 128); fn_cosh := fn_cosh (rounded_libm 24 128);
  fn_ln := fun x => if Beqb x (int 0) then Ok (B754_infinity true) else fn_ln (rounded_libm 24 128) x;
  fn_atan2 := fn_atan2 (rounded_libm 24 128); fn_sqrt := fn_sqrt (rounded_libm 24 128); fn_abs := fn_abs (rounded_libm 24 128);
  fn_leb := Bleb; fn_ltb := Bltb |}.
Definition flat_libm : FunOps f32 := {|
  fn_exp := fn_exp ieee_libm; fn_sin := fn_sin ieee_libm; fn_cos := fn_cos ieee_libm; fn_sinh := fn_sinh ieee_libm; fn_cosh := fn_cosh ieee_libm;
  fn_ln := fn_ln ieee_libm; fn_atan2 := fun _ _ => Ok (int 0); fn_sqrt := fn_sqrt ieee_libm; fn_abs := fn_abs ieee_libm; fn_leb := Bleb; fn_ltb := Bltb |}.

Lemma ieee_ln : ln_accurate ieee_libm (4 * u).
Proof.
  intros x Fx Px. cbn [fn_ln ieee_libm]. rewrite (Beqb_correct 24 128 x (int 0) Fx eq_refl). change (B2R (int 0)) with 0.
  rewrite Req_bool_false by lra. cbn [fn_ln rounded_libm]. pose proof u32 as U. apply nearest_returns; [rewrite U; lra|].
  pose proof (abs_B2R_lt_emax 24 128 x) as H. rewrite Rabs_pos_eq in H by lra.
  assert (L2 : 0 <= ln 2 <= 1).
  { split; [rewrite <- ln_1; apply ln_le_compat; lra|]. rewrite <- (ln_exp 1). apply ln_le_compat; [lra|]. pose proof (exp_ineq1 1 R1_neq_R0). lra. }
  assert (Lo : bpow radix2 (-149) <= B2R x).
  { pose proof (abs_B2R_ge_emin 24 128 x) as G. rewrite is_finite_strict_B2R in G by lra. rewrite Rabs_pos_eq in G by lra. apply G. reflexivity. }
  pose proof (ln_le_compat _ _ Px (Rlt_le _ _ H)) as A1. pose proof (ln_le_compat _ _ (bpow_gt_0 radix2 (-149)) Lo) as A2. rewrite ln_bpow in A1, A2.
  rewrite hi32. apply Rle_trans with 1024; [|simpl; lra]. apply Rabs_le. lra.
Qed.

Lemma ieee_atan2 : atan2_accurate ieee_libm (105 / 100 * u).
Proof.
  intros y x Fy Fx NZ. exists (atan2 (B2R y) (B2R x)). pose proof (atan2_range (B2R y) (B2R x)) as R. pose proof u32 as U. split.
  - split; [lra|]. destruct (polar (B2R y) (B2R x)) as [E1 E2]. split; symmetry; assumption.
  - apply nearest_returns; [rewrite U; lra|]. pose proof PI_4. rewrite hi32. apply Rle_trans with 4; [apply Rabs_le; lra|simpl; lra].
Qed.

(** 3 - i/3 and -3 + i/3: the angles of the pair add up to an angle of the product, those of the second number taken
    twice exceed pi, and [diff.im] is near -2 pi. *)
Definition third32 : f32 := div (int 1) (int 3).
Lemma sample_case : sample (Cx (int 3) (Bopp third32)) /\ sample (Cx (int (-3)) third32).
Proof.
  assert (T3 : is_finite third32 = true /\ 3 / 10 <= B2R third32 <= 4 / 10). { split; [reflexivity|]. vm_compute. lra. }
  assert (I3 : B2R (int 3) = 3) by (vm_compute; lra). assert (J3 : B2R (int (-3)) = -3) by (vm_compute; lra).
  split; repeat split; cbn [re im]; rewrite ?B2R_Bopp, ?Rabs_Ropp; try reflexivity; try (right; change (- (27))%Z with (-27)%Z; simpl bpow).
  all: try (intros [A B]; rewrite ?I3, ?J3 in A; lra).
  all: rewrite ?I3, ?J3; try (rewrite (Rabs_pos_eq (B2R third32)) by lra); try (rewrite (Rabs_pos_eq 3) by lra); try (rewrite (Rabs_left (-3)) by lra); lra.
Qed.

Example C94_case :
  ln_test ieee_libm (Cx (int 3) (Bopp third32)) (Cx (int (-3)) third32) = Ok true
  /\ ln_test ieee_libm (Cx (int (-3)) third32) (Cx (int (-3)) third32) = Ok true
  /\ ln_test flat_libm (Cx (int (-3)) third32) (Cx (int (-3)) third32) = Ok true
  /\ ln_test ieee_libm (Cx (int 0) (int 0)) (Cx (int (-3)) third32) = Ok false.
Proof.
  destruct sample_case as [S1 S2]. pose proof u32 as U.
  assert (D1 : 0 <= 4 * u <= 4 * u) by (rewrite U; lra). assert (D2 : 0 <= 105 / 100 * u <= 105 / 100 * u) by (rewrite U; lra).
  split; [|split; [|split]].
  - exact (C94_ln_test_passes ieee_libm _ D1 ieee_ln _ D2 ieee_atan2 _ _ S1 S2).
  - exact (C94_ln_test_passes ieee_libm _ D1 ieee_ln _ D2 ieee_atan2 _ _ S2 S2).
  - apply C94_angle_unchecked_refuted; [exact ieee_ln|reflexivity|assumption..].
  - apply C94_zero_sample_refuted; [exact ieee_ln|intros y x; eexists; reflexivity|reflexivity|assumption].
Qed.

Print Assumptions C94_ln_test_passes.
Print Assumptions C94_angle_unchecked_refuted.
Print Assumptions C94_zero_sample_refuted.
