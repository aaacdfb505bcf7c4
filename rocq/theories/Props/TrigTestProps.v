(** Property C93: sin, cos, sinh and cosh of Complex<f32> and Complex<f64> agree with their
    exponential formulas up to rounding, and the crate's own tests of these formulas pass: those
    of sin and sinh at every argument up to overflow, those of cos and cosh at every argument whose
    hyperbolic part is not close to 1/2 e^|z| from above (in particular for |z| >= 3/2 and at the
    argument written in the tests). *)
From Coq Require Import List ZArith Reals Bool Lia Lra Psatz.
From Flocq Require Import Core.Core IEEE754.BinarySingleNaN Mult_error.
From Verif Require Import Base.Outcome Model.Traits Model.Float Model.Complex Spec.FloatErr
  Proofs.FloatErr Proofs.FloatRound Proofs.FloatRange Proofs.FloatSqrt Proofs.FloatComm
  Props.FloatRangeProps Props.FloatFunProps Props.SqrtTestProps Proofs.TrigTest Proofs.SqrtTestFloat2.
Local Open Scope R_scope.

Lemma ln_le_compat x y : 0 < x -> x <= y -> ln x <= ln y.
Proof. intros H [L|<-]; [apply Rlt_le, ln_increasing; assumption|lra]. Qed.

Section Fmt.
Context (prec emax : Z) {Hp : Prec_gt_0 prec} {He : Prec_lt_emax prec emax} (libm : FunOps (binary_float prec emax)).
Notation fl := (binary_float prec emax).
Notation FF := (float_field prec emax).
Notation FR := (float_ring prec emax).
Notation FE := (float_fun prec emax libm).
Notation u := (unit_roundoff prec).
Notation eta := (underflow_unit prec emax).
Notation rnd := (round radix2 (SpecFloat.fexp prec emax) (round_mode mode_NE)).
Notation add := (fl_add prec emax). Notation sub := (fl_sub prec emax).
Notation mul := (fl_mul prec emax). Notation div := (fl_div prec emax).
Notation hi := (half_big emax).
Notation quarter := (bpow radix2 (emax - 2)).
Notation zero := (fl_int prec emax 0). Notation one := (fl_int prec emax 1). Notation two := (fl_int prec emax 2).

(** ** What is assumed of libm *)

(** A libm call returned a finite number with error at most [d] times the value plus [eta], half the
    smallest positive number. *)
Definition returns (d : R) (got : outcome fl) (v : R) : Prop :=
  exists y, got = Ok y /\ is_finite y = true /\ Rabs (B2R y - v) <= d * Rabs v + eta.

(** exp, sin, cos, sinh, cosh are accurate wherever they do not come close to overflow. *)
Definition faithful (d : R) : Prop := forall x : fl, is_finite x = true ->
  (exp (B2R x) <= quarter -> returns d (fn_exp libm x) (exp (B2R x)))
  /\ returns d (fn_sin libm x) (sin (B2R x)) /\ returns d (fn_cos libm x) (cos (B2R x))
  /\ (cosh (B2R x) <= quarter -> returns d (fn_sinh libm x) (sinh (B2R x)) /\ returns d (fn_cosh libm x) (cosh (B2R x))).

(** ** The tests *)

(** The last line of each test, complex.rs lines 481, 501, 520 and 539:
    [(a - b).abs() <= z.abs().exp() * 2 * EPSILON]. *)
Definition within_tolerance (z a b : complex fl) : outcome bool :=
  d <- complex_sub (r_sub FR) a b ;;
  error <- complex_abs FF FE d ;;
  m <- complex_abs FF FE z ;;
  e <- fn_exp FE m ;;
  e2 <- r_mul FR e two ;;
  tolerance <- r_mul FR e2 (fl_epsilon prec emax) ;;
  Ok (Bleb error tolerance).

(** complex.rs lines 515-521: [test_sinh_complex_f32] (on f64 numbers), for an arbitrary argument. *)
Definition sinh_test (z : complex fl) : outcome bool :=
  a <- complex_sinh FF FE z ;;
  e1 <- complex_exp FF FE z ;;
  n <- complex_neg (r_neg FR) z ;;
  e2 <- complex_exp FF FE n ;;
  s <- complex_sub (r_sub FR) e1 e2 ;;
  b <- complex_div FF s (Cx two zero) ;;
  within_tolerance z a b.

(** complex.rs lines 534-540: [test_cosh_complex_f32]. *)
Definition cosh_test (z : complex fl) : outcome bool :=
  a <- complex_cosh FF FE z ;;
  e1 <- complex_exp FF FE z ;;
  n <- complex_neg (r_neg FR) z ;;
  e2 <- complex_exp FF FE n ;;
  s <- complex_add (r_add FR) e1 e2 ;;
  b <- complex_div FF s (Cx two zero) ;;
  within_tolerance z a b.

(** complex.rs lines 475-482: [test_sin_complex_f32]. *)
Definition sin_test (z : complex fl) : outcome bool :=
  let i := Cx zero one in
  a <- complex_sin FF FE z ;;
  iz <- complex_mul FR i z ;;
  e1 <- complex_exp FF FE iz ;;
  ni <- complex_neg (r_neg FR) i ;;
  niz <- complex_mul FR ni z ;;
  e2 <- complex_exp FF FE niz ;;
  s <- complex_sub (r_sub FR) e1 e2 ;;
  i2 <- complex_mul_scalar FR i two ;;
  b <- complex_div FF s i2 ;;
  within_tolerance z a b.

(** complex.rs lines 495-502: [test_cos_complex_f64]. *)
Definition cos_test (z : complex fl) : outcome bool :=
  let i := Cx zero one in
  a <- complex_cos FF FE z ;;
  iz <- complex_mul FR i z ;;
  e1 <- complex_exp FF FE iz ;;
  ni <- complex_neg (r_neg FR) i ;;
  niz <- complex_mul FR ni z ;;
  e2 <- complex_exp FF FE niz ;;
  s <- complex_add (r_add FR) e1 e2 ;;
  b <- complex_div FF s (Cx two zero) ;;
  within_tolerance z a b.

(** ** Exact operations *)
Lemma value_round (w : fl) : rnd (B2R w) = B2R w.
Proof. apply round_generic; [apply valid_rnd_round_mode|apply generic_format_B2R]. Qed.

Lemma mul_value (x y w : fl) : is_finite x = true -> is_finite y = true -> B2R x * B2R y = B2R w ->
  is_finite (mul x y) = true /\ B2R (mul x y) = B2R w.
Proof.
  intros Fx Fy E. pose proof (Bmult_correct prec emax Hp He mode_NE x y) as C.
  rewrite E, value_round, Rlt_bool_true in C by apply abs_B2R_lt_emax.
  destruct C as (V & F & _). rewrite Fx, Fy in F. split; [exact F|exact V].
Qed.
Lemma add_value (x y w : fl) : is_finite x = true -> is_finite y = true -> B2R x + B2R y = B2R w ->
  is_finite (add x y) = true /\ B2R (add x y) = B2R w.
Proof.
  intros Fx Fy E. pose proof (Bplus_correct prec emax Hp He mode_NE x y Fx Fy) as C.
  rewrite E, value_round, Rlt_bool_true in C by apply abs_B2R_lt_emax.
  destruct C as (V & F & _). split; [exact F|exact V].
Qed.
Lemma sub_value (x y w : fl) : is_finite x = true -> is_finite y = true -> B2R x - B2R y = B2R w ->
  is_finite (sub x y) = true /\ B2R (sub x y) = B2R w.
Proof.
  intros Fx Fy E. pose proof (Bminus_correct prec emax Hp He mode_NE x y Fx Fy) as C.
  rewrite E, value_round, Rlt_bool_true in C by apply abs_B2R_lt_emax.
  destruct C as (V & F & _). split; [exact F|exact V].
Qed.
Lemma opp_fin (x : fl) : is_finite (Bopp x) = is_finite x. Proof. apply is_finite_Bopp. Qed.
Lemma zero_value : is_finite zero = true /\ B2R zero = 0. Proof. split; reflexivity. Qed.

Context (Hprec : (24 <= prec)%Z) (Hemax : (prec + 30 <= emax)%Z).

Lemma small_int n : (Z.abs n <= 4)%Z -> is_finite (fl_int prec emax n) = true /\ B2R (fl_int prec emax n) = IZR n.
Proof.
  intros H. apply (FloatInt.fl_int_exact prec emax n). apply Z.le_trans with (2 ^ 2)%Z; [exact H|]. apply Z.pow_le_mono_r; lia.
Qed.

(** *** Multiplying by i and by -i *)
Lemma times_i (z : complex fl) : is_finite (re z) = true -> is_finite (im z) = true ->
  exists w, complex_mul FR (Cx zero one) z = Ok w /\ is_finite (re w) = true /\ is_finite (im w) = true
    /\ B2R (re w) = - B2R (im z) /\ B2R (im w) = B2R (re z).
Proof.
  destruct z as [a b]. cbn [re im]. intros Fa Fb. destruct zero_value as [F0 V0]. destruct (small_int 1 ltac:(lia)) as [F1 V1].
  eexists. split; [reflexivity|]. cbn [re im complex_new r_mul r_add r_sub float_ring].
  destruct (mul_value zero a zero F0 Fa ltac:(rewrite ?V0; ring)) as [G1 W1].
  destruct (mul_value zero b zero F0 Fb ltac:(rewrite ?V0; ring)) as [G2 W2].
  destruct (mul_value one a a F1 Fa ltac:(rewrite ?V1; ring)) as [G3 W3].
  destruct (mul_value one b b F1 Fb ltac:(rewrite ?V1; ring)) as [G4 W4].
  destruct (sub_value (mul zero a) (mul one b) (Bopp b) G1 G4 ltac:(rewrite W1, W4, B2R_Bopp, ?V0; ring)) as [G5 W5].
  destruct (add_value (mul zero b) (mul one a) a G2 G3 ltac:(rewrite W2, W3, ?V0; ring)) as [G6 W6].
  rewrite B2R_Bopp in W5. repeat split; assumption.
Qed.
Lemma times_minus_i (z : complex fl) : is_finite (re z) = true -> is_finite (im z) = true ->
  exists w, complex_mul FR (Cx (Bopp zero) (Bopp one)) z = Ok w /\ is_finite (re w) = true /\ is_finite (im w) = true
    /\ B2R (re w) = B2R (im z) /\ B2R (im w) = - B2R (re z).
Proof.
  destruct z as [a b]. cbn [re im]. intros Fa Fb. destruct zero_value as [F0 V0]. destruct (small_int 1 ltac:(lia)) as [F1 V1].
  assert (F0' : is_finite (Bopp zero) = true) by (rewrite opp_fin; exact F0). assert (F1' : is_finite (Bopp one) = true) by (rewrite opp_fin; exact F1).
  assert (V0' : B2R (Bopp zero) = 0) by (rewrite B2R_Bopp, V0; ring). assert (V1' : B2R (Bopp one) = -1) by (rewrite B2R_Bopp, V1; ring).
  eexists. split; [reflexivity|]. cbn [re im complex_new r_mul r_add r_sub float_ring].
  destruct (mul_value (Bopp zero) a zero F0' Fa ltac:(rewrite ?V0', ?V0; ring)) as [G1 W1].
  destruct (mul_value (Bopp zero) b zero F0' Fb ltac:(rewrite ?V0', ?V0; ring)) as [G2 W2].
  destruct (mul_value (Bopp one) a (Bopp a) F1' Fa ltac:(rewrite ?V1', B2R_Bopp; ring)) as [G3 W3].
  destruct (mul_value (Bopp one) b (Bopp b) F1' Fb ltac:(rewrite ?V1', B2R_Bopp; ring)) as [G4 W4].
  rewrite B2R_Bopp in W3, W4.
  destruct (sub_value (mul (Bopp zero) a) (mul (Bopp one) b) b G1 G4 ltac:(rewrite W1, W4, ?V0; ring)) as [G5 W5].
  destruct (add_value (mul (Bopp zero) b) (mul (Bopp one) a) (Bopp a) G2 G3 ltac:(rewrite W2, W3, ?V0, B2R_Bopp; ring)) as [G6 W6].
  rewrite B2R_Bopp in W6. repeat split; assumption.
Qed.

(** *** Dividing by 2 and by 2i *)
Lemma reciprocal (n : fl) : is_finite n = true -> B2R n = 4 -> is_finite (div one n) = true /\ B2R (div one n) = / 4.
Proof.
  intros Fn Vn. destruct (small_int 1 ltac:(lia)) as [F1 V1].
  assert (Hh : 1 <= hi) by (unfold half_big; change 1 with (bpow radix2 0); apply bpow_le; lia).
  destruct (div_round prec emax one n F1) as [F E]. { rewrite Vn. lra. } { rewrite V1, Vn. rewrite Rabs_pos_eq by lra. lra. }
  split; [exact F|]. rewrite E, V1, Vn. replace (1 / 4) with (bpow radix2 (-2)) by (simpl; lra).
  rewrite round_generic; [simpl; lra|apply valid_rnd_round_mode|]. apply generic_format_bpow. unfold SpecFloat.fexp, SpecFloat.emin. lia.
Qed.

Lemma halved (s c : complex fl) : is_finite (re s) = true -> is_finite (im s) = true -> 2 * Rabs (B2R (re s)) <= hi -> 2 * Rabs (B2R (im s)) <= hi ->
  is_finite (re c) = true -> is_finite (im c) = true -> B2R (re c) = 2 -> B2R (im c) = 0 ->
  exists b, complex_div FF s c = Ok b
    /\ is_finite (re b) = true /\ Rabs (B2R (re b) - B2R (re s) / 2) <= eta
    /\ is_finite (im b) = true /\ Rabs (B2R (im b) - B2R (im s) / 2) <= eta.
Proof.
  destruct s as [x y], c as [c d]. cbn [re im]. intros Fx Fy Bx By Fc Fd Vc Vd.
  destruct zero_value as [F0 V0]. destruct (small_int 4 ltac:(lia)) as [F4 V4].
  destruct (mul_value c c (fl_int prec emax 4) Fc Fc ltac:(rewrite Vc, ?V4; ring)) as [G1 W1].
  destruct (mul_value d d zero Fd Fd ltac:(rewrite Vd, ?V0; ring)) as [G2 W2].
  destruct (add_value (mul c c) (mul d d) (fl_int prec emax 4) G1 G2 ltac:(rewrite W1, W2, ?V0; ring)) as [G3 W3]. rewrite ?V4 in W3.
  destruct (reciprocal _ G3 W3) as [Gr Wr].
  destruct (times_two prec emax x c Fx Fc Vc Bx) as [G5 W5]. destruct (times_two prec emax y c Fy Fc Vc By) as [G6 W6].
  destruct (mul_value x d zero Fx Fd ltac:(rewrite Vd, ?V0; ring)) as [G7 W7].
  destruct (mul_value y d zero Fy Fd ltac:(rewrite Vd, ?V0; ring)) as [G8 W8].
  destruct (add_value (mul x c) (mul y d) (mul x c) G5 G8 ltac:(rewrite W8, ?V0; ring)) as [G9 W9].
  destruct (sub_value (mul y c) (mul x d) (mul y c) G6 G7 ltac:(rewrite W7, ?V0; ring)) as [G10 W10].
  rewrite W5 in W9. rewrite W6 in W10.
  destruct (times_quarter prec emax _ (div one (add (mul c c) (mul d d))) G9 Gr Wr) as [G11 W11].
  { rewrite W9, Rabs_mult, (Rabs_pos_eq 2) by lra. exact Bx. }
  destruct (times_quarter prec emax _ (div one (add (mul c c) (mul d d))) G10 Gr Wr) as [G12 W12].
  { rewrite W10, Rabs_mult, (Rabs_pos_eq 2) by lra. exact By. }
  eexists. split; [reflexivity|]. cbn [re im complex_new].
  rewrite W9 in W11. rewrite W10 in W12.
  split; [exact G11|]. split; [replace (B2R x / 2) with (2 * B2R x / 4) by lra; exact W11|].
  split; [exact G12|]. replace (B2R y / 2) with (2 * B2R y / 4) by lra. exact W12.
Qed.
Lemma halved_i (s c : complex fl) : is_finite (re s) = true -> is_finite (im s) = true -> 2 * Rabs (B2R (re s)) <= hi -> 2 * Rabs (B2R (im s)) <= hi ->
  is_finite (re c) = true -> is_finite (im c) = true -> B2R (re c) = 0 -> B2R (im c) = 2 ->
  exists b, complex_div FF s c = Ok b
    /\ is_finite (re b) = true /\ Rabs (B2R (re b) - B2R (im s) / 2) <= eta
    /\ is_finite (im b) = true /\ Rabs (B2R (im b) - - B2R (re s) / 2) <= eta.
Proof.
  destruct s as [x y], c as [c d]. cbn [re im]. intros Fx Fy Bx By Fc Fd Vc Vd.
  destruct zero_value as [F0 V0]. destruct (small_int 4 ltac:(lia)) as [F4 V4].
  destruct (mul_value d d (fl_int prec emax 4) Fd Fd ltac:(rewrite Vd, ?V4; ring)) as [G1 W1].
  destruct (mul_value c c zero Fc Fc ltac:(rewrite Vc, ?V0; ring)) as [G2 W2].
  destruct (add_value (mul c c) (mul d d) (fl_int prec emax 4) G2 G1 ltac:(rewrite W1, W2, ?V0; ring)) as [G3 W3]. rewrite ?V4 in W3.
  destruct (reciprocal _ G3 W3) as [Gr Wr].
  destruct (times_two prec emax x d Fx Fd Vd Bx) as [G5 W5]. destruct (times_two prec emax y d Fy Fd Vd By) as [G6 W6].
  destruct (mul_value x c zero Fx Fc ltac:(rewrite Vc, ?V0; ring)) as [G7 W7].
  destruct (mul_value y c zero Fy Fc ltac:(rewrite Vc, ?V0; ring)) as [G8 W8].
  destruct (add_value (mul x c) (mul y d) (mul y d) G7 G6 ltac:(rewrite W7, ?V0; ring)) as [G9 W9].
  destruct (sub_value (mul y c) (mul x d) (Bopp (mul x d)) G8 G5 ltac:(rewrite W8, ?V0, B2R_Bopp; ring)) as [G10 W10].
  rewrite W6 in W9. rewrite B2R_Bopp, W5 in W10.
  destruct (times_quarter prec emax _ (div one (add (mul c c) (mul d d))) G9 Gr Wr) as [G11 W11].
  { rewrite W9, Rabs_mult, (Rabs_pos_eq 2) by lra. exact By. }
  destruct (times_quarter prec emax _ (div one (add (mul c c) (mul d d))) G10 Gr Wr) as [G12 W12].
  { rewrite W10, Rabs_Ropp, Rabs_mult, (Rabs_pos_eq 2) by lra. exact Bx. }
  eexists. split; [reflexivity|]. cbn [re im complex_new].
  rewrite W9 in W11. rewrite W10 in W12.
  split; [exact G11|]. split; [replace (B2R y / 2) with (2 * B2R y / 4) by lra; exact W11|].
  split; [exact G12|]. replace (- B2R x / 2) with (- (2 * B2R x) / 4) by lra. exact W12.
Qed.

(** ** Sums as differences *)
Lemma sub_swap (x y : fl) : is_finite x = true -> is_finite y = true -> Rabs (B2R x - B2R y) <= hi -> B2R (sub y x) = - B2R (sub x y).
Proof.
  intros Fx Fy H. destruct (sub_round prec emax x y Fx Fy H) as [_ ->].
  destruct (sub_round prec emax y x Fy Fx) as [_ ->]. { rewrite Rabs_minus_sym. exact H. }
  replace (B2R y - B2R x) with (- (B2R x - B2R y)) by ring. apply round_NE_opp.
Qed.
Lemma add_as_sub (x y : fl) : is_finite x = true -> is_finite y = true -> Rabs (B2R x + B2R y) <= hi ->
  is_finite (add x y) = true /\ B2R (add x y) = B2R (sub x (Bopp y)).
Proof.
  intros Fx Fy H. destruct (add_round prec emax x y Fx Fy H) as [F ->]. split; [exact F|].
  destruct (sub_round prec emax x (Bopp y) Fx) as [_ ->]. { rewrite opp_fin. exact Fy. } { rewrite B2R_Bopp. replace (B2R x - - B2R y) with (B2R x + B2R y) by ring. exact H. }
  rewrite B2R_Bopp. f_equal. ring.
Qed.

(** ** The pieces *)
Context (Hratio : (emax <= 2 ^ (prec - 14))%Z) (d : R) (Hd : 0 <= d <= 11 / 10 * u) (HL : faithful d).

Notation kappa := (32001 / 10000 * u).
(** [x] approximates the product [v] of two libm results. *)
Definition product_of (G : R) (x : fl) (v : R) : Prop :=
  is_finite x = true /\ Rabs (B2R x - v) <= kappa * Rabs v + 5 * eta * G /\ Rabs v <= G.

Lemma product_opp G x v : product_of G x v -> product_of G (Bopp x) (- v).
Proof.
  intros (F & H & B). split; [rewrite opp_fin; exact F|]. rewrite B2R_Bopp, Rabs_Ropp. split; [|exact B].
  replace (- B2R x - - v) with (- (B2R x - v)) by ring. rewrite Rabs_Ropp. exact H.
Qed.

Lemma product_ok G (x y : fl) v w : 1 <= G -> 64 * G <= hi -> is_finite x = true -> is_finite y = true ->
  Rabs (B2R x - v) <= d * Rabs v + eta -> Rabs (B2R y - w) <= d * Rabs w + eta ->
  Rabs v <= G -> Rabs w <= 1 -> product_of G (mul x y) (v * w).
Proof.
  intros HG HB Fx Fy Hx Hy Bv Bw.
  assert (Bvw : Rabs (v * w) <= G). { rewrite Rabs_mult. pose proof (Rabs_pos v). pose proof (Rabs_pos w). nra. }
  destruct (close_product prec emax Hprec Hemax d x y v w G Hd (conj Fx Hx) (conj Fy Hy) HG Bv ltac:(lra) ltac:(lra)) as [F E].
  repeat split; assumption.
Qed.

Lemma exp_parts G (z : complex fl) a b : 1 <= G -> 64 * G <= hi -> is_finite (re z) = true -> is_finite (im z) = true ->
  B2R (re z) = a -> B2R (im z) = b -> exp a <= G ->
  exists w, complex_exp FF FE z = Ok w /\ product_of G (re w) (exp a * cos b) /\ product_of G (im w) (exp a * sin b).
Proof.
  intros HG HB Fa Fb <- <- Ha. set (a := B2R (re z)) in *. set (b := B2R (im z)) in *.
  pose proof (quarter_hi emax) as Q. pose proof (exp_pos a) as P.
  destruct (HL _ Fa) as (He' & _). destruct (He' ltac:(fold a; lra)) as (e & Ee & Fe & Hce).
  destruct (HL _ Fb) as (_ & (s & Es & Fs & Hs) & (c & Ec & Fc & Hc) & _). fold a b in Hce, Hs, Hc.
  unfold complex_exp. cbn [fn_exp fn_cos fn_sin float_fun]. rewrite Ee. cbn [bind]. rewrite Ec. cbn [bind]. rewrite Es. cbn [bind].
  eexists. split; [reflexivity|]. cbn [re im complex_new].
  assert (Ba : Rabs (exp a) <= G) by (rewrite Rabs_pos_eq; lra).
  split; apply product_ok; auto; [apply cos_le_1|apply sin_le_1].
Qed.

Lemma hyperbolic_parts G (x : fl) : 1 <= G -> 64 * G <= hi -> is_finite x = true -> cosh (B2R x) <= G ->
  exists sh ch, fn_sinh libm x = Ok sh /\ fn_cosh libm x = Ok ch /\ is_finite sh = true /\ is_finite ch = true
    /\ Rabs (B2R sh - sinh (B2R x)) <= d * Rabs (sinh (B2R x)) + eta /\ Rabs (B2R ch - cosh (B2R x)) <= d * Rabs (cosh (B2R x)) + eta
    /\ Rabs (sinh (B2R x)) <= G /\ Rabs (cosh (B2R x)) <= G.
Proof.
  intros HG HB Fx H. pose proof (quarter_hi emax) as Q.
  destruct (HL _ Fx) as (_ & _ & _ & Hh). destruct (Hh ltac:(lra)) as [(sh & Es & Fs & Hs) (ch & Ec & Fc & Hc)].
  exists sh, ch. repeat (split; [assumption|]). pose proof (sinh_le_cosh (B2R x)). pose proof (cosh_pos (B2R x)).
  split; [lra|]. rewrite Rabs_pos_eq; lra.
Qed.

(** A part of the difference between the function and the formula. *)
Definition part (G W S : R) (t : fl) : Prop := is_finite t = true
  /\ Rabs (B2R t) <= 42002 / 10000 * u * Rabs W + 32002 / 10000 * u * S + 12 * eta * G
  /\ Rabs (B2R t) <= 8 * (u * G).

Lemma part_of G (x1 x2 y h : fl) v1 v2 W S : 1 <= G -> 64 * G <= hi ->
  product_of G x1 v1 -> product_of G x2 v2 -> product_of G y W -> W = (v1 - v2) / 2 -> S = (Rabs v1 + Rabs v2) / 2 ->
  is_finite h = true -> Rabs (B2R h - B2R (sub x1 x2) / 2) <= eta -> part G W S (sub y h).
Proof.
  intros HG HB (F1 & H1 & B1) (F2 & H2 & B2) (Fy & Hy & By) -> -> Fh Hh.
  destruct (half_difference prec emax Hprec Hemax x1 x2 y h v1 v2 G F1 F2 Fy H1 H2 Hy HG B1 B2 HB) as (_ & _ & K).
  destruct (K Fh Hh) as (K1 & K2 & K3). repeat split; assumption.
Qed.
(** The computed difference is finite and not large. *)
Lemma difference_ok G (x1 x2 : fl) v1 v2 : 1 <= G -> 64 * G <= hi -> product_of G x1 v1 -> product_of G x2 v2 ->
  is_finite (sub x1 x2) = true /\ Rabs (B2R (sub x1 x2)) <= 4 * G /\ Rabs (B2R x1 - B2R x2) <= hi /\ Rabs (B2R x1) <= 2 * G /\ Rabs (B2R x2) <= 2 * G.
Proof.
  intros HG HB (F1 & H1 & B1) (F2 & H2 & B2). destruct (fmt_facts prec emax Hprec Hemax) as (U & T0 & T1 & _ & _).
  assert (EG : 0 <= eta * G) by nra. assert (EG2 : eta * G <= u * G * (1 / 1000000000)) by nra. assert (UG : u * G <= 1 / 16000000 * G) by nra.
  assert (B : forall (x : fl) v, Rabs (B2R x - v) <= kappa * Rabs v + 5 * eta * G -> Rabs v <= G -> Rabs (B2R x) <= 11 / 10 * G).
  { intros x v H Hv. pose proof (Rabs_triang (B2R x - v) v) as T. replace (B2R x - v + v) with (B2R x) in T by ring.
    assert (u * Rabs v <= u * G) by (apply Rmult_le_compat_l; lra). lra. }
  pose proof (B _ _ H1 B1) as X1. pose proof (B _ _ H2 B2) as X2.
  assert (D : Rabs (B2R x1 - B2R x2) <= 22 / 10 * G). { unfold Rminus. eapply Rle_trans; [apply Rabs_triang|]. rewrite Rabs_Ropp. lra. }
  destruct (sub_rel prec emax x1 x2 F1 F2 ltac:(lra)) as (F & e & Hee & E).
  split; [exact F|]. split; [|repeat split; lra].
  rewrite E, Rabs_mult. apply Rle_trans with (22 / 10 * G * (11 / 10)); [|lra].
  apply Rmult_le_compat; [apply Rabs_pos|apply Rabs_pos|exact D|].
  eapply Rle_trans; [apply Rabs_triang|]. rewrite Rabs_R1. lra.
Qed.

Lemma sum_ok G (x1 x2 : fl) v1 v2 : 1 <= G -> 64 * G <= hi -> product_of G x1 v1 -> product_of G x2 v2 ->
  is_finite (add x1 x2) = true /\ Rabs (B2R (add x1 x2)) <= 4 * G /\ B2R (add x1 x2) = B2R (sub x1 (Bopp x2)).
Proof.
  intros HG HB P1 P2. destruct (difference_ok G x1 (Bopp x2) v1 (- v2) HG HB P1 (product_opp G x2 v2 P2)) as (_ & D & E & _).
  destruct (add_as_sub x1 x2 (proj1 P1) (proj1 P2)) as [F V].
  { rewrite B2R_Bopp in E. replace (B2R x1 + B2R x2) with (B2R x1 - - B2R x2) by ring. exact E. }
  split; [exact F|]. rewrite V. split; [exact D|reflexivity].
Qed.
Lemma product_ok' G (x y : fl) v w : 1 <= G -> 64 * G <= hi -> is_finite x = true -> is_finite y = true ->
  Rabs (B2R x - v) <= d * Rabs v + eta -> Rabs (B2R y - w) <= d * Rabs w + eta ->
  Rabs v <= 1 -> Rabs w <= G -> product_of G (mul x y) (v * w).
Proof.
  intros HG HB Fx Fy Hx Hy Bv Bw.
  assert (Bvw : Rabs (v * w) <= G). { rewrite Rabs_mult. pose proof (Rabs_pos v). pose proof (Rabs_pos w). nra. }
  destruct (close_product prec emax Hprec Hemax d x y v w G Hd (conj Fx Hx) (conj Fy Hy) HG ltac:(lra) Bw ltac:(lra)) as [F E].
  repeat split; assumption.
Qed.

(** ** The tolerance *)
Lemma radius_facts r : 0 <= r -> exp r <= bpow radix2 (emax / 2) ->
  1 <= exp r /\ 64 * exp r <= hi /\ 4 * (r * r) + 4 <= hi /\ u * r <= 1 / 20000 /\ exp r * exp r <= 2 * hi.
Proof.
  intros Hr HG. set (G := exp r) in *.
  assert (G1 : 1 <= G). { unfold G. rewrite <- exp_0. destruct (Req_dec r 0) as [->|N]; [lra|]. apply Rlt_le, exp_increasing. lra. }
  assert (Hb : 64 * bpow radix2 (emax / 2) <= hi).
  { change 64 with (bpow radix2 6). rewrite <- bpow_plus. apply bpow_le. assert (2 * (emax / 2) <= emax)%Z by (apply Z.mul_div_le; lia). lia. }
  split; [exact G1|]. split; [lra|]. split; [|split].
  - assert (r / 2 <= exp (r / 2)). { destruct (Req_dec r 0) as [->|N]; [pose proof (exp_pos (0 / 2)); lra|]. pose proof (exp_ineq1 (r / 2) ltac:(lra)). lra. }
    assert (E : exp (r / 2) * exp (r / 2) = G). { unfold G. rewrite <- exp_plus. f_equal. lra. }
    assert (r / 2 * (r / 2) <= G). { rewrite <- E. apply Rmult_le_compat; lra. } lra.
  - assert (r <= IZR emax / 2).
    { assert (Hl : r <= IZR (emax / 2)).
      { rewrite <- (ln_exp r). fold G. eapply Rle_trans; [apply ln_le_compat; [lra|exact HG]|]. rewrite ln_bpow.
        assert (0 <= IZR (emax / 2)). { apply (IZR_le 0). apply Z.div_pos; lia. }
        assert (ln 2 <= 1). { rewrite <- (ln_exp 1). apply ln_le_compat; [lra|]. pose proof (exp_ineq1 1 ltac:(lra)). lra. }
        assert (0 < ln 2) by (rewrite <- ln_1; apply ln_increasing; lra). nra. }
      assert (2 * IZR (emax / 2) <= IZR emax). { change 2 with (IZR 2). rewrite <- mult_IZR. apply IZR_le. apply Z.mul_div_le. lia. }
      lra. }
    assert (IZR emax <= bpow radix2 (prec - 14)). { rewrite <- IZR_Zpower by lia. apply IZR_le. exact Hratio. }
    assert (u * bpow radix2 (prec - 14) = bpow radix2 (-14)). { unfold unit_roundoff. rewrite <- bpow_plus. f_equal. lia. }
    destruct (fmt_facts prec emax Hprec Hemax) as (U & _).
    assert (u * r <= u * (bpow radix2 (prec - 14) / 2)) by (apply Rmult_le_compat_l; lra).
    assert (bpow radix2 (-14) <= 1 / 10000) by (simpl; lra). lra.
  - assert (bpow radix2 (emax / 2) * bpow radix2 (emax / 2) <= 2 * hi).
    { unfold half_big. change 2 with (bpow radix2 1). rewrite <- !bpow_plus. apply bpow_le. assert (2 * (emax / 2) <= emax)%Z by (apply Z.mul_div_le; lia). lia. }
    pose proof (bpow_ge_0 radix2 (emax / 2)). nra.
Qed.

Lemma tolerance_ok (z : complex fl) r : is_finite (re z) = true -> is_finite (im z) = true -> 0 <= r ->
  r * r = B2R (re z) * B2R (re z) + B2R (im z) * B2R (im z) -> exp r <= bpow radix2 (emax / 2) ->
  exists e, fn_exp libm (Bsqrt mode_NE (fl_norm2 prec emax (re z) (im z))) = Ok e
    /\ is_finite (mul (mul e two) (fl_epsilon prec emax)) = true
    /\ 399 / 100 * (u * exp r) <= B2R (mul (mul e two) (fl_epsilon prec emax)).
Proof.
  intros Fa Fb Hr Er HG. destruct (radius_facts r Hr HG) as (G1 & G2 & G3 & G4 & _).
  destruct (fmt_facts prec emax Hprec Hemax) as (U & T0 & T1 & T2 & _).
  destruct (modulus prec emax Hprec Hemax (re z) (im z) Fa Fb) as (Fm & M0 & M). { rewrite <- Er. lra. } rewrite <- Er in M.
  set (m := Bsqrt mode_NE (fl_norm2 prec emax (re z) (im z))) in *. set (t := eta) in *.
  apply Rabs_le_inv in M.
  assert (UR : u * (r * r) <= 1 / 20000 * r) by (replace (u * (r * r)) with (u * r * r) by ring; apply Rmult_le_compat_r; lra).
  assert (U0 : 0 <= u * (r * r)) by nra.
  assert (M1 : B2R m <= r + 1 / 1000).
  { destruct (Rle_or_lt (B2R m) (r + 1 / 1000)) as [H|H]; [exact H|exfalso].
    assert ((r + 1 / 1000) * (r + 1 / 1000) <= B2R m * B2R m) by (apply Rmult_le_compat; lra). lra. }
  assert (M2 : r - 1 / 1000 <= B2R m).
  { destruct (Rle_or_lt (r - 1 / 1000) (B2R m)) as [H|H]; [exact H|exfalso].
    assert (B2R m * B2R m <= (r - 1 / 1000) * (r - 1 / 1000)) by (apply Rmult_le_compat; lra). lra. }
  assert (EX : forall q, 0 <= q <= 1 / 1000 -> exp q <= 1002 / 1000).
  { intros q Hq. assert (P : exp (- q) >= 1 - q). { destruct (Req_dec q 0) as [->|N]; [rewrite Ropp_0, exp_0; lra|]. pose proof (exp_ineq1 (- q) ltac:(lra)). lra. }
    assert (exp q * exp (- q) = 1) by (rewrite <- exp_plus, Rplus_opp_r, exp_0; reflexivity). pose proof (exp_pos q). nra. }
  assert (MONO : forall p q, p <= q -> exp p <= exp q). { intros p q H. destruct (Req_dec p q) as [->|N]; [lra|]. apply Rlt_le, exp_increasing. lra. }
  assert (E1 : exp (B2R m) <= 1002 / 1000 * exp r).
  { eapply Rle_trans; [apply MONO, M1|]. rewrite exp_plus. pose proof (EX (1 / 1000) ltac:(lra)). pose proof (exp_pos r). nra. }
  assert (E2 : exp r <= 1002 / 1000 * exp (B2R m)).
  { eapply Rle_trans; [apply (MONO r (B2R m + 1 / 1000)); lra|]. rewrite exp_plus. pose proof (EX (1 / 1000) ltac:(lra)). pose proof (exp_pos (B2R m)). nra. }
  pose proof (quarter_hi emax) as Q.
  destruct (HL m Fm) as (He' & _). destruct (He' ltac:(lra)) as (e & Ee & Fe & Hce). fold t in Hce.
  exists e. split; [exact Ee|]. set (X := exp (B2R m)) in *. assert (X0 : 0 < X) by apply exp_pos.
  rewrite (Rabs_pos_eq X) in Hce by lra. apply Rabs_le_inv in Hce.
  assert (DX : d * X <= 1 / 1000000 * X) by (apply Rmult_le_compat_r; lra). assert (DX0 : 0 <= d * X) by (apply Rmult_le_pos; lra).
  assert (e1 : 9979 / 10000 * exp r <= B2R e <= 11 / 10 * exp r) by (split; lra).
  destruct (small_int 2 ltac:(lia)) as [F2 V2]. destruct (epsilon_value prec emax ltac:(lia)) as [Fq Vq].
  destruct (times_two prec emax e two Fe F2 V2) as [F3 V3]. { rewrite Rabs_pos_eq; lra. }
  destruct (mul_round prec emax (mul e two) (fl_epsilon prec emax) F3 Fq) as [F4 V4].
  { rewrite V3, Vq. assert (K : 0 <= 2 * B2R e * (2 * u) <= 2 * B2R e * 1) by (split; [apply Rmult_le_pos|apply Rmult_le_compat_l]; lra). rewrite Rabs_pos_eq by lra. lra. }
  split; [exact F4|]. rewrite V4, V3, Vq. destruct (rnd_any prec emax (2 * B2R e * (2 * u))) as (e5 & h5 & H5 & H6 & ->).
  apply Rabs_le_inv in H5, H6. fold t in H6. set (Y := u * B2R e). replace (2 * B2R e * (2 * u)) with (4 * Y) by (unfold Y; ring).
  assert (Y1 : 9979 / 10000 * (u * exp r) <= Y) by (unfold Y; nra).
  assert (u <= u * exp r) by (rewrite <- (Rmult_1_r u) at 1; apply Rmult_le_compat_l; lra). assert (4 * Y * (1 - 1 / 16000000) <= 4 * Y * (1 + e5)) by (apply Rmult_le_compat_l; lra). lra.
Qed.

(** ** The verdict *)
Lemma verdict (z a b : complex fl) r W1 W2 F C c s : is_finite (re z) = true -> is_finite (im z) = true -> 0 <= r ->
  r * r = B2R (re z) * B2R (re z) + B2R (im z) * B2R (im z) -> exp r <= bpow radix2 (emax / 2) ->
  part (exp r) W1 (C * Rabs c) (sub (re a) (re b)) -> part (exp r) W2 (C * Rabs s) (sub (im a) (im b)) ->
  c * c + s * s <= 1 -> 0 <= F -> 0 <= C -> W1 * W1 + W2 * W2 <= F * F ->
  42003 / 10000 * F + 32003 / 10000 * C <= 398 / 100 * exp r ->
  within_tolerance z a b = Ok true.
Proof.
  intros Fa Fb Hr Er HG (Fx & Hx & Bx) (Fy & Hy & By) Hcs HF HC HW Hfin.
  destruct (radius_facts r Hr HG) as (G1 & G2 & G3 & G4 & G5). destruct (fmt_facts prec emax Hprec Hemax) as (U & T0 & T1 & T2 & T3).
  destruct (tolerance_ok z r Fa Fb Hr Er HG) as (e & Ee & Ft & Vt).
  set (G := exp r) in *. set (x := sub (re a) (re b)) in *. set (y := sub (im a) (im b)) in *.
  assert (UG0 : 0 <= u * G) by nra. assert (UG : u * G <= 1 / 16000000 * G) by (apply Rmult_le_compat_r; lra).
  assert (SQ : forall v, Rabs v <= 8 * (u * G) -> v * v <= 1 / 1000 * (G * G)).
  { intros v Hv. replace (v * v) with (Rabs v * Rabs v) by (apply abs_sq). pose proof (Rabs_pos v).
    apply Rle_trans with (8 * (u * G) * (8 * (u * G))); [apply Rmult_le_compat; lra|].
    assert (u * G * (u * G) <= 1 / 16000000 * G * (1 / 16000000 * G)) by (apply Rmult_le_compat; lra). nra. }
  pose proof (SQ _ Bx) as Qx. pose proof (SQ _ By) as Qy.
  destruct (modulus prec emax Hprec Hemax x y Fx Fy) as (Fe & e0 & He'). { lra. }
  set (er := Bsqrt mode_NE (fl_norm2 prec emax x y)) in *. set (N := B2R x * B2R x + B2R y * B2R y) in *.
  assert (H3 : sqrt N <= 42002 / 10000 * u * F + 32002 / 10000 * u * C + 2 * (12 * eta * G)).
  { apply (norm_three (42002 / 10000 * u) (32002 / 10000 * u) (12 * eta * G) W1 W2 F C c s); try assumption; try lra.
    apply Rmult_le_pos; [apply Rmult_le_pos; lra|lra]. }
  assert (EG : eta * G <= u * G * (1 / 1000000000)) by nra.
  assert (H4 : sqrt N <= 3981 / 1000 * (u * G)).
  { assert (u * (42003 / 10000 * F + 32003 / 10000 * C) <= u * (398 / 100 * G)) by (apply Rmult_le_compat_l; lra).
    assert (0 <= u * F) by (apply Rmult_le_pos; lra). assert (0 <= u * C) by (apply Rmult_le_pos; lra). lra. }
  assert (N0 : 0 <= N) by (unfold N; nra). pose proof (sqrt_sqrt N N0) as SN. pose proof (sqrt_pos N) as SP.
  assert (N1 : N <= 3981 / 1000 * (u * G) * (3981 / 1000 * (u * G))) by (rewrite <- SN; apply Rmult_le_compat; assumption).
  assert (U1 : u * u <= u * G * (u * G)) by (assert (u <= u * G) by (rewrite <- (Rmult_1_r u) at 1; apply Rmult_le_compat_l; lra); apply Rmult_le_compat; lra).
  apply Rabs_le_inv in He'.
  assert (LE : B2R er <= 399 / 100 * (u * G)).
  { apply SqrtTestFloat2.sq_le; [exact e0|lra|]. assert (u * N <= 1 / 16000000 * N) by (apply Rmult_le_compat_r; lra).
    set (P := u * G * (u * G)) in *. replace (3981 / 1000 * (u * G) * (3981 / 1000 * (u * G))) with (15848361 / 1000000 * P) in N1 by (unfold P; field).
    replace (399 / 100 * (u * G) * (399 / 100 * (u * G))) with (159201 / 10000 * P) by (unfold P; field).
    assert (0 <= P) by (unfold P; apply Rmult_le_pos; lra). lra. }
  unfold within_tolerance, complex_sub, complex_abs, complex_sqr_norm.
  cbn [r_add r_sub r_mul f_ring float_field float_ring fn_sqrt fn_exp float_fun bind re im complex_new].
  fold x y. change (add (mul x x) (mul y y)) with (fl_norm2 prec emax x y). fold er.
  change (add (mul (re z) (re z)) (mul (im z) (im z))) with (fl_norm2 prec emax (re z) (im z)). rewrite Ee. cbn [bind].
  rewrite (Bleb_correct prec emax _ _ Fe Ft), Rle_bool_true by lra. reflexivity.
Qed.

Lemma radius (z : complex fl) : let r := sqrt (B2R (re z) * B2R (re z) + B2R (im z) * B2R (im z)) in
  0 <= r /\ r * r = B2R (re z) * B2R (re z) + B2R (im z) * B2R (im z).
Proof. cbv zeta. split; [apply sqrt_pos|]. apply sqrt_sqrt. nra. Qed.

Lemma cos_sin_1 x : cos x * cos x + sin x * sin x <= 1.
Proof. pose proof (sin2_cos2 x) as H. unfold Rsqr in H. lra. Qed.
Lemma sin_sq_le x : sin x * sin x <= x * x.
Proof.
  assert (P : forall y, 0 <= y -> sin y * sin y <= y * y).
  { intros y Hy. destruct (Req_dec y 0) as [->|N]; [rewrite sin_0; lra|]. pose proof (sin_lt_x y ltac:(lra)) as L.
    destruct (Rle_or_lt y 1) as [H|H].
    - assert (0 <= sin y). { apply sin_ge_0; [lra|]. pose proof PI2_1. lra. } apply Rmult_le_compat; lra.
    - pose proof (cos_sin_1 y). assert (0 <= cos y * cos y) by nra. assert (1 * 1 <= y * y) by (apply Rmult_le_compat; lra). lra. }
  destruct (Rle_or_lt 0 x) as [H|H]; [apply P, H|]. pose proof (P (- x) ltac:(lra)) as Q. rewrite sin_neg in Q. lra.
Qed.

(** Products with an exponential, and hyperbolic functions, as differences of exponentials. *)
Lemma abs_exp_mul x v : Rabs (exp x * v) = exp x * Rabs v.
Proof. rewrite Rabs_mult, (Rabs_pos_eq (exp x)); [reflexivity|apply Rlt_le, exp_pos]. Qed.

Definition modulus_of (z : complex fl) : R := sqrt (B2R (re z) * B2R (re z) + B2R (im z) * B2R (im z)).

(** ** The tests pass *)
Theorem C93_sinh_test_passes : forall z : complex fl, is_finite (re z) = true -> is_finite (im z) = true ->
  exp (modulus_of z) <= bpow radix2 (emax / 2) -> sinh_test z = Ok true.
Proof.
  intros z Fa Fb HG. destruct (radius z) as [R0 RR]. fold (modulus_of z) in R0, RR. set (r := modulus_of z) in *.
  destruct (radius_facts r R0 HG) as (G1 & G2 & _). set (G := exp r) in *.
  set (a := B2R (re z)) in *. set (b := B2R (im z)) in *.
  assert (RR' : r * r = - a * - a + b * b) by lra.
  pose proof (exp_le_radius a b r R0 RR) as Ea. pose proof (exp_le_radius (- a) b r R0 RR') as Ea'. fold G in Ea, Ea'.
  pose proof (cosh_le_radius a b r R0 RR) as Ca. pose proof (sinh_le_radius a b r R0 RR) as Sa.
  assert (CG : cosh r <= G). { unfold G. pose proof (exp_split r). assert (0 <= sinh r) by (pose proof (sinh_ge r R0); lra). lra. }
  destruct (exp_parts G z a b G1 G2 Fa Fb eq_refl eq_refl Ea) as (e1 & E1 & P1r & P1i).
  set (n := Cx (Bopp (re z)) (Bopp (im z))).
  destruct (exp_parts G n (- a) (- b) G1 G2) as (e2 & E2 & P2r & P2i).
  { cbn [n re]. rewrite opp_fin. exact Fa. } { cbn [n im]. rewrite opp_fin. exact Fb. }
  { cbn [n re]. apply B2R_Bopp. } { cbn [n im]. apply B2R_Bopp. } { exact Ea'. }
  destruct (hyperbolic_parts G (re z) G1 G2 Fa ltac:(fold a; lra)) as (sh & ch & Esh & Ech & Fsh & Fch & Hsh & Hch & Bsh & Bch). fold a in Hsh, Hch, Bsh, Bch.
  destruct (HL _ Fb) as (_ & (s & Es & Fs & Hs) & (c & Ec & Fc & Hc) & _). fold b in Hs, Hc.
  pose proof (product_ok G sh c _ _ G1 G2 Fsh Fc Hsh Hc Bsh (cos_le_1 b)) as Py1.
  pose proof (product_ok G ch s _ _ G1 G2 Fch Fs Hch Hs Bch (sin_le_1 b)) as Py2.
  destruct (difference_ok G _ _ _ _ G1 G2 P1r P2r) as (D1 & D2 & _).
  destruct (difference_ok G _ _ _ _ G1 G2 P1i P2i) as (D3 & D4 & _).
  destruct (small_int 2 ltac:(lia)) as [F2 V2].
  destruct (halved (Cx (sub (re e1) (re e2)) (sub (im e1) (im e2))) (Cx two zero)) as (q & Eq & Fq1 & Hq1 & Fq2 & Hq2);
    cbn [re im] in *; try assumption; try reflexivity; try lra.
  assert (X1 : part G (sinh a * cos b) (cosh a * Rabs (cos b)) (sub (mul sh c) (re q))).
  { refine (part_of G _ _ _ _ _ _ _ _ G1 G2 P1r P2r Py1 _ _ Fq1 Hq1); rewrite ?cos_neg, ?abs_exp_mul; unfold sinh, cosh; lra. }
  assert (X2 : part G (cosh a * sin b) (cosh a * Rabs (sin b)) (sub (mul ch s) (im q))).
  { refine (part_of G _ _ _ _ _ _ _ _ G1 G2 P1i P2i Py2 _ _ Fq2 Hq2); rewrite ?sin_neg, ?abs_exp_mul, ?Rabs_Ropp; unfold sinh, cosh; lra. }
  unfold sinh_test, complex_sinh, complex_neg, complex_sub, complex_new.
  cbn [r_add r_sub r_mul r_neg f_ring float_field float_ring fn_sinh fn_cosh fn_sin fn_cos float_fun bind re im complex_new].
  rewrite Esh. cbn [bind]. rewrite Ec. cbn [bind]. rewrite Ech. cbn [bind]. rewrite Es. cbn [bind]. rewrite E1. cbn [bind].
  fold n. rewrite E2. cbn [bind]. rewrite Eq. cbn [bind].
  assert (S0 : 0 <= sinh r) by (pose proof (sinh_ge r R0); lra). pose proof (cosh_pos a) as C0.
  apply (verdict z (Cx (mul sh c) (mul ch s)) q r (sinh a * cos b) (cosh a * sin b) (sinh r) (cosh a) (cos b) (sin b)); try assumption; try lra.
  - apply cos_sin_1.
  - pose proof (sq_hyp a) as HH. pose proof (sin2_cos2 b) as TC. unfold Rsqr in TC. pose proof (sin_sq_le b) as SB.
    assert (E : sinh a * cos b * (sinh a * cos b) + cosh a * sin b * (cosh a * sin b) = sinh a * sinh a + sin b * sin b).
    { replace (cosh a * sin b * (cosh a * sin b)) with (cosh a * cosh a * (sin b * sin b)) by ring.
      replace (cosh a * cosh a) with (1 + sinh a * sinh a) by lra.
      replace (sinh a * cos b * (sinh a * cos b)) with (sinh a * sinh a * (cos b * cos b)) by ring.
      replace (cos b * cos b) with (1 - sin b * sin b) by lra. ring. }
    rewrite E. lra.
  - unfold G. rewrite (exp_split r). pose proof (exp_neg_split r). pose proof (exp_pos (- r)). lra.
Qed.

(** Common to sin and cos: the exponentials of iz and -iz, the functions of both parts. *)
Lemma turned_parts (z : complex fl) : is_finite (re z) = true -> is_finite (im z) = true ->
  exp (modulus_of z) <= bpow radix2 (emax / 2) ->
  let a := B2R (re z) in let b := B2R (im z) in let G := exp (modulus_of z) in
  exists iz e1 niz e2 s c sh ch,
    complex_mul FR (Cx zero one) z = Ok iz /\ complex_exp FF FE iz = Ok e1
    /\ complex_mul FR (Cx (Bopp zero) (Bopp one)) z = Ok niz /\ complex_exp FF FE niz = Ok e2
    /\ product_of G (re e1) (exp (- b) * cos a) /\ product_of G (im e1) (exp (- b) * sin a)
    /\ product_of G (re e2) (exp b * cos a) /\ product_of G (im e2) (- (exp b * sin a))
    /\ fn_sin libm (re z) = Ok s /\ fn_cos libm (re z) = Ok c /\ fn_sinh libm (im z) = Ok sh /\ fn_cosh libm (im z) = Ok ch
    /\ product_of G (mul s ch) (sin a * cosh b) /\ product_of G (mul c sh) (cos a * sinh b)
    /\ product_of G (mul c ch) (cos a * cosh b) /\ product_of G (mul s sh) (sin a * sinh b).
Proof.
  intros Fa Fb HG a b G. destruct (radius z) as [R0 RR]. fold (modulus_of z) in R0, RR. set (r := modulus_of z) in *.
  destruct (radius_facts r R0 HG) as (G1 & G2 & _). fold G in G1, G2. fold a b in RR.
  assert (RR1 : r * r = b * b + a * a) by lra. assert (RR2 : r * r = - b * - b + a * a) by lra.
  pose proof (exp_le_radius b a r R0 RR1) as Eb. pose proof (exp_le_radius (- b) a r R0 RR2) as Eb'. fold G in Eb, Eb'.
  pose proof (cosh_le_radius b a r R0 RR1) as Cb.
  assert (CG : cosh r <= G). { unfold G. pose proof (exp_split r). assert (0 <= sinh r) by (pose proof (sinh_ge r R0); lra). lra. }
  destruct (times_i z Fa Fb) as (iz & Eiz & F1 & F2 & V1 & V2). destruct (times_minus_i z Fa Fb) as (niz & Eniz & F3 & F4 & V3 & V4).
  destruct (exp_parts G iz (- b) a G1 G2 F1 F2 V1 V2 Eb') as (e1 & E1 & P1r & P1i).
  destruct (exp_parts G niz b (- a) G1 G2 F3 F4 V3 V4 Eb) as (e2 & E2 & P2r & P2i). rewrite cos_neg in P2r. rewrite sin_neg in P2i.
  replace (exp b * - sin a) with (- (exp b * sin a)) in P2i by ring.
  destruct (hyperbolic_parts G (im z) G1 G2 Fb ltac:(fold b; lra)) as (sh & ch & Esh & Ech & Fsh & Fch & Hsh & Hch & Bsh & Bch). fold b in Hsh, Hch, Bsh, Bch.
  destruct (HL _ Fa) as (_ & (s & Es & Fs & Hs) & (c & Ec & Fc & Hc) & _). fold a in Hs, Hc.
  exists iz, e1, niz, e2, s, c, sh, ch. repeat (split; [assumption|]).
  pose proof (sin_le_1 a). pose proof (cos_le_1 a). split; [|split; [|split]]; apply product_ok'; assumption.
Qed.

Theorem C93_sin_test_passes : forall z : complex fl, is_finite (re z) = true -> is_finite (im z) = true ->
  exp (modulus_of z) <= bpow radix2 (emax / 2) -> sin_test z = Ok true.
Proof.
  intros z Fa Fb HG. destruct (turned_parts z Fa Fb HG) as (iz & e1 & niz & e2 & s & c & sh & ch & Eiz & E1 & Eniz & E2 & P1r & P1i & P2r & P2i & Es & Ec & Esh & Ech & Py1 & Py2 & _ & _).
  destruct (radius z) as [R0 RR]. fold (modulus_of z) in R0, RR. set (r := modulus_of z) in *.
  destruct (radius_facts r R0 HG) as (G1 & G2 & _). set (G := exp r) in *.
  set (a := B2R (re z)) in *. set (b := B2R (im z)) in *.
  assert (RR1 : r * r = b * b + a * a) by lra.
  pose proof (cosh_le_radius b a r R0 RR1) as Cb. pose proof (sinh_le_radius b a r R0 RR1) as Sb.
  destruct (difference_ok G _ _ _ _ G1 G2 P1r P2r) as (D1 & D2 & D5 & _).
  destruct (difference_ok G _ _ _ _ G1 G2 P1i P2i) as (D3 & D4 & _).
  destruct (small_int 2 ltac:(lia)) as [F2 V2]. destruct (small_int 1 ltac:(lia)) as [F1 V1].
  destruct (mul_value zero two zero eq_refl F2 ltac:(rewrite ?V2; change (B2R zero) with 0; ring)) as [F3 V3].
  destruct (mul_value one two two F1 F2 ltac:(rewrite ?V1; ring)) as [F4 V4]. rewrite V2 in V4. change (B2R zero) with 0 in V3.
  destruct (halved_i (Cx (sub (re e1) (re e2)) (sub (im e1) (im e2))) (Cx (mul zero two) (mul one two))) as (q & Eq & Fq1 & Hq1 & Fq2 & Hq2);
    cbn [re im] in *; try assumption; try lra.
  rewrite <- (sub_swap (re e1) (re e2) (proj1 P1r) (proj1 P2r) D5) in Hq2.
  assert (X1 : part G (sin a * cosh b) (cosh b * Rabs (sin a)) (sub (mul s ch) (re q))).
  { refine (part_of G _ _ _ _ _ _ _ _ G1 G2 P1i P2i Py1 _ _ Fq1 Hq1); rewrite ?Rabs_Ropp, ?abs_exp_mul; unfold sinh, cosh; lra. }
  assert (X2 : part G (cos a * sinh b) (cosh b * Rabs (cos a)) (sub (mul c sh) (im q))).
  { refine (part_of G _ _ _ _ _ _ _ _ G1 G2 P2r P1r Py2 _ _ Fq2 Hq2); rewrite ?abs_exp_mul; unfold sinh, cosh; lra. }
  unfold sin_test, complex_sin, complex_neg, complex_sub, complex_mul_scalar, complex_new.
  cbn [r_add r_sub r_mul r_neg f_ring float_field float_ring fn_sinh fn_cosh fn_sin fn_cos float_fun bind re im].
  rewrite Es. cbn [bind]. rewrite Ech. cbn [bind]. rewrite Ec. cbn [bind]. rewrite Esh. cbn [bind]. rewrite Eiz. cbn [bind]. rewrite E1. cbn [bind].
  rewrite Eniz. cbn [bind]. rewrite E2. cbn [bind]. rewrite Eq. cbn [bind].
  assert (S0 : 0 <= sinh r) by (pose proof (sinh_ge r R0); lra). pose proof (cosh_pos b) as C0.
  apply (verdict z (Cx (mul s ch) (mul c sh)) q r (sin a * cosh b) (cos a * sinh b) (sinh r) (cosh b) (sin a) (cos a)); try assumption; try lra.
  - pose proof (cos_sin_1 a). lra.
  - pose proof (sq_hyp b) as HH. pose proof (sin2_cos2 a) as TC. unfold Rsqr in TC. pose proof (sin_sq_le a) as SB.
    assert (E : sin a * cosh b * (sin a * cosh b) + cos a * sinh b * (cos a * sinh b) = sinh b * sinh b + sin a * sin a).
    { replace (sin a * cosh b * (sin a * cosh b)) with (cosh b * cosh b * (sin a * sin a)) by ring.
      replace (cosh b * cosh b) with (1 + sinh b * sinh b) by lra.
      replace (cos a * sinh b * (cos a * sinh b)) with (sinh b * sinh b * (cos a * cos a)) by ring.
      replace (cos a * cos a) with (1 - sin a * sin a) by lra. ring. }
    rewrite E. lra.
  - unfold G. rewrite (exp_split r). pose proof (exp_neg_split r). pose proof (exp_pos (- r)). lra.
Qed.

(** For cos and cosh the tolerance only covers the error when cosh of the relevant part is at most
    0.53 e^|z|. *)
Theorem C93_cos_test_passes : forall z : complex fl, is_finite (re z) = true -> is_finite (im z) = true ->
  exp (modulus_of z) <= bpow radix2 (emax / 2) -> cosh (B2R (im z)) <= 53 / 100 * exp (modulus_of z) -> cos_test z = Ok true.
Proof.
  intros z Fa Fb HG HC. destruct (turned_parts z Fa Fb HG) as (iz & e1 & niz & e2 & s & c & sh & ch & Eiz & E1 & Eniz & E2 & P1r & P1i & P2r & P2i & Es & Ec & Esh & Ech & _ & _ & Py1 & Py2).
  destruct (radius z) as [R0 RR]. fold (modulus_of z) in R0, RR. set (r := modulus_of z) in *.
  destruct (radius_facts r R0 HG) as (G1 & G2 & _). set (G := exp r) in *.
  set (a := B2R (re z)) in *. set (b := B2R (im z)) in *. apply product_opp in Py2.
  destruct (sum_ok G _ _ _ _ G1 G2 P1r P2r) as (D1 & D2 & D5).
  destruct (sum_ok G _ _ _ _ G1 G2 P1i P2i) as (D3 & D4 & D6).
  destruct (small_int 2 ltac:(lia)) as [F2 V2].
  destruct (halved (Cx (add (re e1) (re e2)) (add (im e1) (im e2))) (Cx two zero)) as (q & Eq & Fq1 & Hq1 & Fq2 & Hq2);
    cbn [re im] in *; try assumption; try reflexivity; try lra.
  rewrite D5 in Hq1. rewrite D6 in Hq2.
  assert (X1 : part G (cos a * cosh b) (cosh b * Rabs (cos a)) (sub (mul c ch) (re q))).
  { refine (part_of G _ _ _ _ _ _ _ _ G1 G2 P1r (product_opp _ _ _ P2r) Py1 _ _ Fq1 Hq1); rewrite ?Rabs_Ropp, ?abs_exp_mul; unfold sinh, cosh; lra. }
  assert (X2 : part G (- (sin a * sinh b)) (cosh b * Rabs (sin a)) (sub (Bopp (mul s sh)) (im q))).
  { refine (part_of G _ _ _ _ _ _ _ _ G1 G2 P1i (product_opp _ _ _ P2i) Py2 _ _ Fq2 Hq2); rewrite ?Rabs_Ropp, ?abs_exp_mul; unfold sinh, cosh; lra. }
  unfold cos_test, complex_cos, complex_neg, complex_add, complex_new.
  cbn [r_add r_sub r_mul r_neg f_ring float_field float_ring fn_sinh fn_cosh fn_sin fn_cos float_fun bind re im].
  rewrite Ec. cbn [bind]. rewrite Ech. cbn [bind]. rewrite Es. cbn [bind]. rewrite Esh. cbn [bind]. rewrite Eiz. cbn [bind]. rewrite E1. cbn [bind].
  rewrite Eniz. cbn [bind]. rewrite E2. cbn [bind]. rewrite Eq. cbn [bind]. pose proof (cosh_pos b) as C0.
  apply (verdict z (Cx (mul c ch) (Bopp (mul s sh))) q r (cos a * cosh b) (- (sin a * sinh b)) (cosh b) (cosh b) (cos a) (sin a)); try assumption; try lra.
  - apply cos_sin_1.
  - pose proof (sq_hyp b) as HH. pose proof (sin2_cos2 a) as TC. unfold Rsqr in TC.
    replace (cos a * cosh b * (cos a * cosh b)) with ((1 - sin a * sin a) * (cosh b * cosh b)) by (replace (1 - sin a * sin a) with (cos a * cos a) by lra; ring).
    replace (- (sin a * sinh b) * - (sin a * sinh b)) with (sin a * sin a * (cosh b * cosh b - 1)) by (replace (cosh b * cosh b - 1) with (sinh b * sinh b) by lra; ring).
    assert (0 <= sin a * sin a) by nra. lra.
  - fold G. lra.
Qed.

Theorem C93_cosh_test_passes : forall z : complex fl, is_finite (re z) = true -> is_finite (im z) = true ->
  exp (modulus_of z) <= bpow radix2 (emax / 2) -> cosh (B2R (re z)) <= 53 / 100 * exp (modulus_of z) -> cosh_test z = Ok true.
Proof.
  intros z Fa Fb HG HC. destruct (radius z) as [R0 RR]. fold (modulus_of z) in R0, RR. set (r := modulus_of z) in *.
  destruct (radius_facts r R0 HG) as (G1 & G2 & _). set (G := exp r) in *.
  set (a := B2R (re z)) in *. set (b := B2R (im z)) in *.
  assert (RR' : r * r = - a * - a + b * b) by lra.
  pose proof (exp_le_radius a b r R0 RR) as Ea. pose proof (exp_le_radius (- a) b r R0 RR') as Ea'. fold G in Ea, Ea'.
  destruct (exp_parts G z a b G1 G2 Fa Fb eq_refl eq_refl Ea) as (e1 & E1 & P1r & P1i).
  set (n := Cx (Bopp (re z)) (Bopp (im z))).
  destruct (exp_parts G n (- a) (- b) G1 G2) as (e2 & E2 & P2r & P2i).
  { cbn [n re]. rewrite opp_fin. exact Fa. } { cbn [n im]. rewrite opp_fin. exact Fb. }
  { cbn [n re]. apply B2R_Bopp. } { cbn [n im]. apply B2R_Bopp. } { exact Ea'. }
  destruct (hyperbolic_parts G (re z) G1 G2 Fa ltac:(fold a; lra)) as (sh & ch & Esh & Ech & Fsh & Fch & Hsh & Hch & Bsh & Bch). fold a in Hsh, Hch, Bsh, Bch.
  destruct (HL _ Fb) as (_ & (s & Es & Fs & Hs) & (c & Ec & Fc & Hc) & _). fold b in Hs, Hc.
  pose proof (product_ok G ch c _ _ G1 G2 Fch Fc Hch Hc Bch (cos_le_1 b)) as Py1.
  pose proof (product_ok G sh s _ _ G1 G2 Fsh Fs Hsh Hs Bsh (sin_le_1 b)) as Py2.
  destruct (sum_ok G _ _ _ _ G1 G2 P1r P2r) as (D1 & D2 & D5).
  destruct (sum_ok G _ _ _ _ G1 G2 P1i P2i) as (D3 & D4 & D6).
  destruct (small_int 2 ltac:(lia)) as [F2 V2].
  destruct (halved (Cx (add (re e1) (re e2)) (add (im e1) (im e2))) (Cx two zero)) as (q & Eq & Fq1 & Hq1 & Fq2 & Hq2);
    cbn [re im] in *; try assumption; try reflexivity; try lra.
  rewrite D5 in Hq1. rewrite D6 in Hq2.
  assert (X1 : part G (cosh a * cos b) (cosh a * Rabs (cos b)) (sub (mul ch c) (re q))).
  { refine (part_of G _ _ _ _ _ _ _ _ G1 G2 P1r (product_opp _ _ _ P2r) Py1 _ _ Fq1 Hq1); rewrite ?cos_neg, ?Rabs_Ropp, ?abs_exp_mul; unfold sinh, cosh; lra. }
  assert (X2 : part G (sinh a * sin b) (cosh a * Rabs (sin b)) (sub (mul sh s) (im q))).
  { refine (part_of G _ _ _ _ _ _ _ _ G1 G2 P1i (product_opp _ _ _ P2i) Py2 _ _ Fq2 Hq2); rewrite ?sin_neg, ?Rabs_Ropp, ?abs_exp_mul, ?Rabs_Ropp; unfold sinh, cosh; lra. }
  unfold cosh_test, complex_cosh, complex_neg, complex_add, complex_new.
  cbn [r_add r_sub r_mul r_neg f_ring float_field float_ring fn_sinh fn_cosh fn_sin fn_cos float_fun bind re im].
  rewrite Ech. cbn [bind]. rewrite Ec. cbn [bind]. rewrite Esh. cbn [bind]. rewrite Es. cbn [bind]. rewrite E1. cbn [bind].
  fold n. rewrite E2. cbn [bind]. rewrite Eq. cbn [bind]. pose proof (cosh_pos a) as C0.
  apply (verdict z (Cx (mul ch c) (mul sh s)) q r (cosh a * cos b) (sinh a * sin b) (cosh a) (cosh a) (cos b) (sin b)); try assumption; try lra.
  - apply cos_sin_1.
  - pose proof (sq_hyp a) as HH. pose proof (sin2_cos2 b) as TC. unfold Rsqr in TC.
    replace (cosh a * cos b * (cosh a * cos b)) with ((1 - sin b * sin b) * (cosh a * cosh a)) by (replace (1 - sin b * sin b) with (cos b * cos b) by lra; ring).
    replace (sinh a * sin b * (sinh a * sin b)) with (sin b * sin b * (cosh a * cosh a - 1)) by (replace (cosh a * cosh a - 1) with (sinh a * sinh a) by lra; ring).
    assert (0 <= sin b * sin b) by nra. lra.
  - fold G. lra.
Qed.
End Fmt.

(** ** The formats of the repository *)

Definition f32_libm_accurate (libm : FunOps f32) : Prop := faithful 24 128 libm (11 / 10 * unit_roundoff 24).
Definition f64_libm_accurate (libm : FunOps f64) : Prop := faithful 53 1024 libm (11 / 10 * unit_roundoff 53).

Lemma exp_pow n x : exp (INR n * x) = exp x ^ n.
Proof.
  induction n as [|n IH]; [simpl; rewrite Rmult_0_l; apply exp_0|].
  rewrite S_INR, Rmult_plus_distr_r, Rmult_1_l, exp_plus, IH. simpl. ring.
Qed.
Lemma exp_mono p q : p <= q -> exp p <= exp q.
Proof. intros H. destruct (Req_dec p q) as [->|N]; [lra|]. apply Rlt_le, exp_increasing. lra. Qed.

Lemma exp_ln2 n r : (0 <= n)%Z -> r <= IZR n * (11 / 16) -> exp r <= bpow radix2 n.
Proof.
  intros Hn H. assert (L : 11 / 16 <= ln 2).
  { rewrite <- (ln_exp (11 / 16)). apply ln_le_compat; [apply exp_pos|].
    (* exp (11/16) = exp (11/1024)^64, and exp x <= 1/(1-x) *)
    set (x := 11 / 1024). assert (P : exp x <= / (1 - x)).
    { assert (Q : exp x * exp (- x) = 1) by (rewrite <- exp_plus, Rplus_opp_r, exp_0; reflexivity).
      pose proof (exp_ineq1 (- x) ltac:(unfold x; lra)). pose proof (exp_pos x).
      apply Rmult_le_reg_r with (1 - x); [unfold x; lra|]. rewrite Rinv_l by (unfold x; lra). nra. }
    replace (11 / 16) with (INR 64 * x) by (rewrite INR_IZR_INZ; unfold x; simpl Z.of_nat; lra).
    rewrite exp_pow. eapply Rle_trans; [apply pow_incr; split; [apply Rlt_le, exp_pos|exact P]|]. unfold x. rewrite pow_inv. apply (Rmult_le_reg_l ((1 - 11 / 1024) ^ 64)); [apply pow_lt; lra|].
    rewrite Rinv_r by (apply pow_nonzero; lra). lra. }
  rewrite <- (exp_ln (bpow radix2 n)) by apply bpow_gt_0. apply exp_mono.
  rewrite ln_bpow. assert (0 <= IZR n) by (apply (IZR_le 0); exact Hn). assert (IZR n * (11 / 16) <= IZR n * ln 2) by (apply Rmult_le_compat_l; assumption). lra.
Qed.

(** exp (-x) <= p when (1 + x/64)^64 >= 1/p. *)
Lemma exp_neg_bound x p : 0 < x -> 0 < p -> / p <= (1 + x / 64) ^ 64 -> exp (- x) <= p.
Proof.
  intros Hx Hp H. rewrite exp_Ropp. apply Rinv_le_contravar in H; [|apply Rinv_0_lt_compat, Hp]. rewrite Rinv_inv in H.
  eapply Rle_trans; [|exact H]. apply Rinv_le_contravar; [apply pow_lt; lra|].
  replace x with (INR 64 * (x / 64)) at 2 by (rewrite INR_IZR_INZ; simpl Z.of_nat; field). rewrite exp_pow. apply pow_incr. split; [lra|].
  pose proof (exp_ineq1 (x / 64) ltac:(lra)). lra.
Qed.

Lemma u_le prec : 0 <= 11 / 10 * unit_roundoff prec <= 11 / 10 * unit_roundoff prec.
Proof. pose proof (bpow_ge_0 radix2 (- prec)). unfold unit_roundoff. lra. Qed.

(** test_sin_complex_f32, with any f32 argument of modulus up to 44 in place of 0.3 - 1.2i. *)
Corollary C93_repo_sin : forall (libm : FunOps f32) (z : complex f32), f32_libm_accurate libm ->
  is_finite (re z) = true -> is_finite (im z) = true -> modulus_of 24 128 z <= 44 -> sin_test 24 128 libm z = Ok true.
Proof.
  intros libm z HL Fa Fb H. apply (C93_sin_test_passes 24 128 libm ltac:(lia) ltac:(lia) ltac:(lia) _ (u_le 24) HL z Fa Fb).
  apply exp_ln2; [vm_compute; discriminate|]. change (128 / 2)%Z with 64%Z. lra.
Qed.
(** test_sinh_complex_f32 (which uses f64 numbers). *)
Corollary C93_repo_sinh : forall (libm : FunOps f64) (z : complex f64), f64_libm_accurate libm ->
  is_finite (re z) = true -> is_finite (im z) = true -> modulus_of 53 1024 z <= 352 -> sinh_test 53 1024 libm z = Ok true.
Proof.
  intros libm z HL Fa Fb H. apply (C93_sinh_test_passes 53 1024 libm ltac:(lia) ltac:(lia) ltac:(lia) _ (u_le 53) HL z Fa Fb).
  apply exp_ln2; [vm_compute; discriminate|]. change (1024 / 2)%Z with 512%Z. lra.
Qed.

Lemma far_out r x y : 3 / 2 <= r -> r * r = x * x + y * y -> cosh x <= 53 / 100 * exp r.
Proof.
  intros H E. pose proof (cosh_le_radius x y r ltac:(lra) E) as C. unfold cosh at 2 in C.
  assert (K : exp (- r) = exp (- (2 * r)) * exp r) by (rewrite <- exp_plus; f_equal; ring).
  assert (exp (- (2 * r)) <= 6 / 100).
  { eapply Rle_trans; [apply (exp_mono _ (- (3))); lra|]. apply exp_neg_bound; lra. }
  pose proof (exp_pos r). assert (exp (- (2 * r)) * exp r <= 6 / 100 * exp r) by (apply Rmult_le_compat_r; lra). lra.
Qed.

(** test_cos_complex_f64 and test_cosh_complex_f32 (both on f64 numbers), for 3/2 <= |z| <= 352. *)
Corollary C93_repo_cos : forall (libm : FunOps f64) (z : complex f64), f64_libm_accurate libm ->
  is_finite (re z) = true -> is_finite (im z) = true -> 3 / 2 <= modulus_of 53 1024 z <= 352 -> cos_test 53 1024 libm z = Ok true.
Proof.
  intros libm z HL Fa Fb H. destruct (radius 53 1024 z) as [R0 RR]. fold (modulus_of 53 1024 z) in R0, RR.
  apply (C93_cos_test_passes 53 1024 libm ltac:(lia) ltac:(lia) ltac:(lia) _ (u_le 53) HL z Fa Fb).
  - apply exp_ln2; [vm_compute; discriminate|]. change (1024 / 2)%Z with 512%Z. lra.
  - apply (far_out _ _ (B2R (re z))); lra.
Qed.
Corollary C93_repo_cosh : forall (libm : FunOps f64) (z : complex f64), f64_libm_accurate libm ->
  is_finite (re z) = true -> is_finite (im z) = true -> 3 / 2 <= modulus_of 53 1024 z <= 352 -> cosh_test 53 1024 libm z = Ok true.
Proof.
  intros libm z HL Fa Fb H. destruct (radius 53 1024 z) as [R0 RR]. fold (modulus_of 53 1024 z) in R0, RR.
  apply (C93_cosh_test_passes 53 1024 libm ltac:(lia) ltac:(lia) ltac:(lia) _ (u_le 53) HL z Fa Fb).
  - apply exp_ln2; [vm_compute; discriminate|]. change (1024 / 2)%Z with 512%Z. lra.
  - apply (far_out _ _ (B2R (im z))); lra.
Qed.

(** The four tests exactly as written, at z = 0.3 - 1.2i. *)
Definition repo_z (prec emax : Z) {Hp : Prec_gt_0 prec} {He : Prec_lt_emax prec emax} : complex (binary_float prec emax) :=
  Cx (fl_div prec emax (fl_int prec emax 3) (fl_int prec emax 10)) (Bopp (fl_div prec emax (fl_int prec emax 12) (fl_int prec emax 10))).

Lemma repo_z_value (prec emax : Z) {Hp : Prec_gt_0 prec} {He : Prec_lt_emax prec emax} : (24 <= prec)%Z -> (prec + 30 <= emax)%Z ->
  let z := repo_z prec emax in is_finite (re z) = true /\ is_finite (im z) = true
  /\ Rabs (B2R (re z) - 3 / 10) <= 1 / 1000000 /\ Rabs (B2R (im z) - - (12 / 10)) <= 1 / 1000000.
Proof.
  intros Hprec Hemax z. destruct (fmt_facts prec emax Hprec Hemax) as (U & T0 & T1 & _ & T3).
  assert (I : forall n, (Z.abs n <= 16)%Z -> is_finite (fl_int prec emax n) = true /\ B2R (fl_int prec emax n) = IZR n).
  { intros n H. apply (FloatInt.fl_int_exact prec emax n). apply Z.le_trans with (2 ^ 4)%Z; [exact H|]. apply Z.pow_le_mono_r; lia. }
  destruct (I 3%Z ltac:(lia)) as [F3 V3]. destruct (I 10%Z ltac:(lia)) as [F10 V10]. destruct (I 12%Z ltac:(lia)) as [F12 V12].
  assert (D : forall x : binary_float prec emax, is_finite x = true -> 0 <= B2R x <= 12 -> is_finite (fl_div prec emax x (fl_int prec emax 10)) = true
    /\ Rabs (B2R (fl_div prec emax x (fl_int prec emax 10)) - B2R x / 10) <= 1 / 1000000).
  { intros x Fx Bx. destruct (div_round prec emax x (fl_int prec emax 10) Fx) as [F E]. { rewrite V10. lra. } { rewrite V10, Rabs_pos_eq by lra. lra. }
    split; [exact F|]. rewrite E, V10. destruct (rnd_any prec emax (B2R x / 10)) as (e & h & H1 & H2 & ->).
    replace (B2R x / 10 * (1 + e) + h - B2R x / 10) with (B2R x / 10 * e + h) by ring. eapply Rle_trans; [apply Rabs_triang|].
    rewrite Rabs_mult, (Rabs_pos_eq (B2R x / 10)) by lra. pose proof (Rabs_pos e).
    assert (B2R x / 10 * Rabs e <= 2 * unit_roundoff prec) by (apply Rmult_le_compat; lra). lra. }
  destruct (D _ F3 ltac:(lra)) as [G1 W1]. destruct (D _ F12 ltac:(lra)) as [G2 W2]. rewrite V3 in W1. rewrite V12 in W2.
  unfold z, repo_z. cbn [re im]. rewrite is_finite_Bopp, B2R_Bopp. repeat split; try assumption.
  replace (- B2R (fl_div prec emax (fl_int prec emax 12) (fl_int prec emax 10)) - - (12 / 10)) with (- (B2R (fl_div prec emax (fl_int prec emax 12) (fl_int prec emax 10)) - 12 / 10)) by ring.
  rewrite Rabs_Ropp. exact W2.
Qed.

Lemma repo_z_radius (prec emax : Z) {Hp : Prec_gt_0 prec} {He : Prec_lt_emax prec emax} : (24 <= prec)%Z -> (prec + 30 <= emax)%Z ->
  12369 / 10000 <= modulus_of prec emax (repo_z prec emax) <= 2.
Proof.
  intros H1 H2. destruct (repo_z_value prec emax H1 H2) as (_ & _ & A & B). destruct (radius prec emax (repo_z prec emax)) as [R0 RR].
  fold (modulus_of prec emax (repo_z prec emax)) in R0, RR. set (r := modulus_of prec emax (repo_z prec emax)) in *.
  apply Rabs_le_inv in A, B. set (a := B2R (re (repo_z prec emax))) in *. set (b := B2R (im (repo_z prec emax))) in *.
  assert (299999 / 1000000 * (299999 / 1000000) <= a * a <= 1 / 2 * (1 / 2)) by (split; apply Rmult_le_compat; lra).
  assert (1199999 / 1000000 * (1199999 / 1000000) <= - b * - b <= 13 / 10 * (13 / 10)) by (split; apply Rmult_le_compat; lra).
  split; [apply SqrtTestFloat2.sq_le; lra|]. apply SqrtTestFloat2.sq_le; lra.
Qed.

Lemma cosh_below x r p q : 0 <= x -> exp (x - r) <= p -> exp (- (x + r)) <= q -> p + q <= 106 / 100 -> cosh x <= 53 / 100 * exp r.
Proof.
  intros Hx H1 H2 H. unfold cosh. pose proof (exp_pos r) as E.
  replace (exp x) with (exp (x - r) * exp r) by (rewrite <- exp_plus; f_equal; ring).
  replace (exp (- x)) with (exp (- (x + r)) * exp r) by (rewrite <- exp_plus; f_equal; ring).
  assert (exp (x - r) * exp r <= p * exp r) by (apply Rmult_le_compat_r; lra).
  assert (exp (- (x + r)) * exp r <= q * exp r) by (apply Rmult_le_compat_r; lra).
  assert ((p + q) * exp r <= 106 / 100 * exp r) by (apply Rmult_le_compat_r; lra). lra.
Qed.

Theorem C93_repo_tests : forall (libm32 : FunOps f32) (libm64 : FunOps f64), f32_libm_accurate libm32 -> f64_libm_accurate libm64 ->
  sin_test 24 128 libm32 (repo_z 24 128) = Ok true /\ cos_test 53 1024 libm64 (repo_z 53 1024) = Ok true
  /\ sinh_test 53 1024 libm64 (repo_z 53 1024) = Ok true /\ cosh_test 53 1024 libm64 (repo_z 53 1024) = Ok true.
Proof.
  intros libm32 libm64 L32 L64.
  pose proof (repo_z_value 24 128 ltac:(lia) ltac:(lia)) as V32. pose proof (repo_z_radius 24 128 ltac:(lia) ltac:(lia)) as R32.
  pose proof (repo_z_value 53 1024 ltac:(lia) ltac:(lia)) as V64. pose proof (repo_z_radius 53 1024 ltac:(lia) ltac:(lia)) as R64.
  destruct V32 as (F1 & F2 & _ & _). destruct V64 as (F3 & F4 & A & B). apply Rabs_le_inv in A, B.
  split; [apply C93_repo_sin; [exact L32|exact F1|exact F2|lra]|].
  assert (E : exp (modulus_of 53 1024 (repo_z 53 1024)) <= bpow radix2 (1024 / 2)).
  { apply exp_ln2; [vm_compute; discriminate|]. change (1024 / 2)%Z with 512%Z. lra. }
  split; [|split].
  - apply (C93_cos_test_passes 53 1024 libm64 ltac:(lia) ltac:(lia) ltac:(lia) _ (u_le 53) L64 _ F3 F4 E).
    rewrite <- cosh_even. set (r := modulus_of 53 1024 (repo_z 53 1024)) in *. set (b := B2R (im (repo_z 53 1024))) in *.
    apply (cosh_below _ _ (965 / 1000) (95 / 1000)); [lra| | |lra].
    + eapply Rle_trans; [apply (exp_mono _ (- (368 / 10000))); lra|]. apply exp_neg_bound; lra.
    + eapply Rle_trans; [apply (exp_mono _ (- (243 / 100))); lra|]. apply exp_neg_bound; lra.
  - apply C93_repo_sinh; [exact L64|exact F3|exact F4|lra].
  - apply (C93_cosh_test_passes 53 1024 libm64 ltac:(lia) ltac:(lia) ltac:(lia) _ (u_le 53) L64 _ F3 F4 E).
    set (r := modulus_of 53 1024 (repo_z 53 1024)) in *. set (a := B2R (re (repo_z 53 1024))) in *.
    apply (cosh_below _ _ (1 / 2) (1 / 2)); [lra| | |lra].
    + eapply Rle_trans; [apply (exp_mono _ (- (9 / 10))); lra|]. apply exp_neg_bound; lra.
    + eapply Rle_trans; [apply (exp_mono _ (- (15 / 10))); lra|]. apply exp_neg_bound; lra.
Qed.

(** ** The hypotheses are met by a correctly rounded libm, in both formats *)
Lemma nearest_returns (prec emax : Z) {Hp : Prec_gt_0 prec} {He : Prec_lt_emax prec emax} d v : unit_roundoff prec <= d ->
  Rabs v <= half_big emax -> returns prec emax d (Ok (nearest prec emax v)) v.
Proof.
  intros Hd Hv. destruct (nearest_is_rounding prec emax v Hv) as [F E]. exists (nearest prec emax v). split; [reflexivity|]. split; [exact F|].
  rewrite E. destruct (rnd_any prec emax v) as (e & h & H1 & H2 & ->). replace (v * (1 + e) + h - v) with (e * v + h) by ring.
  eapply Rle_trans; [apply Rabs_triang|]. rewrite Rabs_mult. apply Rplus_le_compat; [|exact H2]. apply Rmult_le_compat_r; [apply Rabs_pos|lra].
Qed.
Lemma rounded_faithful (prec emax : Z) {Hp : Prec_gt_0 prec} {He : Prec_lt_emax prec emax} : (2 <= emax)%Z ->
  faithful prec emax (rounded_libm prec emax) (11 / 10 * unit_roundoff prec).
Proof.
  intros Hx x Fx. assert (U : unit_roundoff prec <= 11 / 10 * unit_roundoff prec) by (pose proof (bpow_ge_0 radix2 (- prec)); unfold unit_roundoff; lra).
  assert (Q : 2 * bpow radix2 (emax - 2) = half_big emax) by apply quarter_hi. pose proof (bpow_gt_0 radix2 (emax - 2)) as Q0.
  assert (H1 : 1 <= half_big emax) by (unfold half_big; change 1 with (bpow radix2 0); apply bpow_le; lia).
  split; [|split; [|split]].
  - intros H. apply nearest_returns; [exact U|]. rewrite Rabs_pos_eq by apply Rlt_le, exp_pos. lra.
  - apply nearest_returns; [exact U|]. pose proof (sin_le_1 (B2R x)). lra.
  - apply nearest_returns; [exact U|]. pose proof (cos_le_1 (B2R x)). lra.
  - intros H. pose proof (sinh_le_cosh (B2R x)). pose proof (cosh_pos (B2R x)).
    split; apply nearest_returns; try exact U; [lra|]. rewrite Rabs_pos_eq by lra. lra.
Qed.
Example C93_case : f32_libm_accurate (rounded_libm 24 128) /\ f64_libm_accurate (rounded_libm 53 1024)
  /\ sin_test 24 128 (rounded_libm 24 128) (repo_z 24 128) = Ok true.
Proof.
  assert (A : f32_libm_accurate (rounded_libm 24 128)) by (apply rounded_faithful; lia).
  assert (B : f64_libm_accurate (rounded_libm 53 1024)) by (apply rounded_faithful; lia).
  split; [exact A|]. split; [exact B|]. exact (proj1 (C93_repo_tests _ _ A B)).
Qed.
Print Assumptions C93_sin_test_passes.
Print Assumptions C93_sinh_test_passes.
Print Assumptions C93_cos_test_passes.
Print Assumptions C93_cosh_test_passes.
Print Assumptions C93_repo_sin.
Print Assumptions C93_repo_sinh.
Print Assumptions C93_repo_cos.
Print Assumptions C93_repo_cosh.
Print Assumptions C93_repo_tests.
