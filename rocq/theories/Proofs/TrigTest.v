(** sin, cos, sinh, cosh against their exponential formulas: error analysis (for C93). *)
From Coq Require Import List ZArith Reals Bool Lia Lra Psatz.
From Flocq Require Import Core.Core IEEE754.BinarySingleNaN Mult_error.
From Verif Require Import Base.Outcome Model.Traits Model.Float Model.Complex Spec.FloatErr
  Proofs.FloatErr Proofs.FloatRound Proofs.FloatRange Proofs.FloatSqrt Proofs.FloatComm Props.FloatRangeProps Props.FloatFunProps Props.SqrtTestProps.
Local Open Scope R_scope.

(** ** Real hyperbolic functions *)
Lemma sinh_ge x : 0 <= x -> x <= sinh x.
Proof.
  intros H. destruct (Req_dec x 0) as [->|N]; [rewrite sinh_0; lra|].
  assert (H0 : 0 < x) by (destruct H; [assumption|congruence]).
  destruct (MVT_cor2 (fun t => sinh t - t) (fun t => cosh t - 1) 0 x H0) as (c & E & _).
  - intros c _. apply (derivable_pt_lim_minus sinh id); [apply derivable_pt_lim_sinh|apply derivable_pt_lim_id].
  - rewrite sinh_0 in E. pose proof (cosh_pos c). unfold cosh in *. 
    assert (1 <= (exp c + exp (- c)) / 2).
    { pose proof (exp_pos c). pose proof (exp_pos (- c)). assert (exp c * exp (- c) = 1) by (rewrite <- exp_plus, Rplus_opp_r, exp_0; reflexivity).
      pose proof (Rle_0_sqr (exp c - exp (- c))) as S. unfold Rsqr in S.
      set (p := exp c) in *. set (q := exp (- c)) in *. assert (2 * 2 <= (p + q) * (p + q)) by lra. nra. }
    assert (0 <= ((exp c + exp (- c)) / 2 - 1) * (x - 0)) by (apply Rmult_le_pos; lra). lra.
Qed.

Lemma cosh_even x : cosh (- x) = cosh x.
Proof. unfold cosh. rewrite Ropp_involutive. lra. Qed.
Lemma sinh_odd x : sinh (- x) = - sinh x.
Proof. unfold sinh. rewrite Ropp_involutive. lra. Qed.
Lemma cosh_abs x : cosh (Rabs x) = cosh x.
Proof. unfold Rabs. destruct (Rcase_abs x); [apply cosh_even|reflexivity]. Qed.
Lemma sq_hyp x : cosh x * cosh x - sinh x * sinh x = 1.
Proof.
  unfold cosh, sinh. assert (exp x * exp (- x) = 1) by (rewrite <- exp_plus, Rplus_opp_r, exp_0; reflexivity). nra.
Qed.
Lemma sinh_prod x y : sinh (x + y) * sinh (x - y) = sinh x * sinh x - sinh y * sinh y.
Proof.
  unfold sinh. rewrite !Ropp_plus_distr. unfold Rminus. rewrite !Ropp_plus_distr, !exp_plus, !Ropp_involutive.
  assert (Hx : exp x * exp (- x) = 1) by (rewrite <- exp_plus, Rplus_opp_r, exp_0; reflexivity).
  assert (Hy : exp y * exp (- y) = 1) by (rewrite <- exp_plus, Rplus_opp_r, exp_0; reflexivity).
  set (p := exp x) in *. set (p' := exp (- x)) in *. set (q := exp y) in *. set (q' := exp (- y)) in *.
  replace ((p * q + - (p' * q')) / 2 * ((p * q' + - (p' * q)) / 2))
    with ((p * p * (q * q') + p' * p' * (q * q') - p * p' * (q * q + q' * q')) / 4) by field.
  rewrite Hx, Hy. replace ((p + - p') / 2 * ((p + - p') / 2) + - ((q + - q') / 2 * ((q + - q') / 2)))
    with ((p * p + p' * p' - 2 * (p * p') - q * q - q' * q' + 2 * (q * q')) / 4) by field. rewrite Hx, Hy. field.
Qed.

(** |sinh(a + ib)| <= sinh |a + ib|, cosh a <= cosh |a + ib|. *)
Lemma sinh_le_radius a b r : 0 <= r -> r * r = a * a + b * b -> sinh a * sinh a + b * b <= sinh r * sinh r.
Proof.
  intros Hr E. rewrite <- (Rplus_0_r (sinh r * sinh r)).
  assert (Ha : Rabs a <= r). { rewrite <- (Rabs_pos_eq r Hr). apply Rsqr_le_abs_0. unfold Rsqr. nra. }
  apply Rabs_le_inv in Ha. pose proof (sinh_prod r a) as P.
  assert (r + a <= sinh (r + a)) by (apply sinh_ge; lra). assert (r - a <= sinh (r - a)) by (apply sinh_ge; lra).
  assert ((r + a) * (r - a) <= sinh (r + a) * sinh (r - a)) by (apply Rmult_le_compat; lra).
  nra.
Qed.

Lemma cosh_le_radius a b r : 0 <= r -> r * r = a * a + b * b -> cosh a <= cosh r.
Proof.
  intros Hr E. pose proof (sinh_le_radius a b r Hr E). pose proof (sq_hyp a). pose proof (sq_hyp r).
  pose proof (cosh_pos a). pose proof (cosh_pos r). nra.
Qed.

Lemma cosh_ge_1 x : 1 <= cosh x.
Proof. pose proof (sq_hyp x). pose proof (cosh_pos x). nra. Qed.
Lemma exp_split x : exp x = cosh x + sinh x.
Proof. unfold cosh, sinh. lra. Qed.
Lemma exp_neg_split x : exp (- x) = cosh x - sinh x.
Proof. unfold cosh, sinh. lra. Qed.
Lemma exp_le_radius a b r : 0 <= r -> r * r = a * a + b * b -> exp a <= exp r.
Proof.
  intros Hr E. assert (a <= r). { apply Rle_trans with (Rabs a); [apply Rle_abs|]. rewrite <- (Rabs_pos_eq r Hr). apply Rsqr_le_abs_0. unfold Rsqr. nra. }
  destruct (Req_dec a r) as [->|N]; [lra|]. apply Rlt_le, exp_increasing. lra.
Qed.

(** ** Norms in the plane *)
Lemma norm_three A K h W1 W2 F C c s x y : 0 <= A -> 0 <= K -> 0 <= h -> 0 <= F -> 0 <= C ->
  W1 * W1 + W2 * W2 <= F * F -> c * c + s * s <= 1 ->
  Rabs x <= A * Rabs W1 + K * (C * Rabs c) + h -> Rabs y <= A * Rabs W2 + K * (C * Rabs s) + h ->
  sqrt (x * x + y * y) <= A * F + K * C + 2 * h.
Proof.
  intros HA HK Hh HF HC HW Hc Hx Hy.
  assert (T : forall p q, p * p + q * q = Rabs p * Rabs p + Rabs q * Rabs q) by (intros; rewrite <- !Rabs_mult, !Rabs_pos_eq by nra; reflexivity).
  apply Rle_trans with (sqrt ((A * Rabs W1 + K * (C * Rabs c) + h) * (A * Rabs W1 + K * (C * Rabs c) + h)
      + (A * Rabs W2 + K * (C * Rabs s) + h) * (A * Rabs W2 + K * (C * Rabs s) + h))).
  { apply sqrt_le_1_alt. rewrite T. pose proof (Rabs_pos x). pose proof (Rabs_pos y).
    apply Rplus_le_compat; apply Rmult_le_compat; lra. }
  eapply Rle_trans; [apply nm_triangle|]. 
  assert (N1 : sqrt (h * h + h * h) <= 2 * h).
  { rewrite <- (sqrt_square (2 * h)) by lra. apply sqrt_le_1_alt. nra. }
  assert (N2 : sqrt ((A * Rabs W1 + K * (C * Rabs c)) * (A * Rabs W1 + K * (C * Rabs c)) + (A * Rabs W2 + K * (C * Rabs s)) * (A * Rabs W2 + K * (C * Rabs s)))
     <= A * F + K * C).
  { eapply Rle_trans; [apply nm_triangle|]. apply Rplus_le_compat.
    - rewrite <- (sqrt_square (A * F)) by (apply Rmult_le_pos; lra). apply sqrt_le_1_alt.
      replace (A * Rabs W1 * (A * Rabs W1) + A * Rabs W2 * (A * Rabs W2)) with (A * A * (W1 * W1 + W2 * W2)) by (rewrite (T W1 W2); ring).
      replace (A * F * (A * F)) with (A * A * (F * F)) by ring. apply Rmult_le_compat_l; nra.
    - rewrite <- (sqrt_square (K * C)) by (apply Rmult_le_pos; lra). apply sqrt_le_1_alt.
      replace (K * (C * Rabs c) * (K * (C * Rabs c)) + K * (C * Rabs s) * (K * (C * Rabs s))) with (K * C * (K * C) * (c * c + s * s)) by (rewrite (T c s); ring).
      rewrite <- (Rmult_1_r (K * C * (K * C))) at 2. apply Rmult_le_compat_l; [|exact Hc]. apply Rmult_le_pos; apply Rmult_le_pos; lra. }
  lra.
Qed.

Section Fmt.
Context (prec emax : Z) {Hp : Prec_gt_0 prec} {He : Prec_lt_emax prec emax}.
Notation fl := (binary_float prec emax).
Notation u := (unit_roundoff prec).
Notation eta := (underflow_unit prec emax).
Notation rnd := (round radix2 (SpecFloat.fexp prec emax) (round_mode mode_NE)).
Notation add := (fl_add prec emax). Notation sub := (fl_sub prec emax).
Notation mul := (fl_mul prec emax). Notation div := (fl_div prec emax).
Notation hi := (half_big emax).
Context (Hprec : (24 <= prec)%Z) (Hemax : (prec + 30 <= emax)%Z).

Lemma fmt_facts : 0 < u <= 1 / 16000000 /\ 0 < eta /\ eta <= u * (1 / 1000000000) /\ 2 * eta <= (u * (1 / 1000)) * (u * (1 / 1000)) /\ 1000000000 <= hi.
Proof.
  assert (U : 0 < u <= 1 / 16000000).
  { split; [apply bpow_gt_0|]. unfold unit_roundoff. apply Rle_trans with (bpow radix2 (-24)); [apply bpow_le; lia|]. simpl. lra. }
  split; [exact U|]. split; [apply bpow_gt_0|].
  assert (E : eta = 4 * (u * bpow radix2 (- emax))).
  { unfold underflow_unit, unit_roundoff. rewrite <- bpow_plus. change 4 with (bpow radix2 2). rewrite <- bpow_plus. f_equal. lia. }
  assert (B : bpow radix2 (- emax) <= u * bpow radix2 (-30)).
  { unfold unit_roundoff. rewrite <- bpow_plus. apply bpow_le. lia. }
  assert (B30 : bpow radix2 (-30) = / 1073741824) by reflexivity. rewrite B30 in B.
  assert (Bp : 0 < bpow radix2 (- emax)) by apply bpow_gt_0.
  split; [rewrite E; nra|]. split; [rewrite E; nra|].
  unfold half_big. apply Rle_trans with (bpow radix2 53); [simpl; lra|apply bpow_le; lia].
Qed.

(** Multiplying by 2 is exact, by 1/4 up to the underflow unit. *)
Lemma times_two (x c : fl) : is_finite x = true -> is_finite c = true -> B2R c = 2 -> 2 * Rabs (B2R x) <= hi ->
  is_finite (mul x c) = true /\ B2R (mul x c) = 2 * B2R x.
Proof.
  intros Fx Fc Ec HB. destruct (mul_round prec emax x c Fx Fc) as [F E].
  { rewrite Ec, Rabs_mult, (Rabs_pos_eq 2) by lra. lra. }
  split; [exact F|]. rewrite E, Ec. replace (2 * B2R x) with (B2R x * bpow radix2 1) by (simpl; lra).
  change 2 with (bpow radix2 1). apply round_generic; [apply valid_rnd_round_mode|].
  apply mult_bpow_pos_exact_FLT; [apply generic_format_B2R|lia].
Qed.

Lemma times_quarter (x c : fl) : is_finite x = true -> is_finite c = true -> B2R c = / 4 -> Rabs (B2R x) <= hi ->
  is_finite (mul x c) = true /\ Rabs (B2R (mul x c) - B2R x / 4) <= eta.
Proof.
  intros Fx Fc Ec HB. destruct (mul_round prec emax x c Fx Fc) as [F E].
  { rewrite Ec, Rabs_mult, (Rabs_pos_eq (/ 4)) by lra. pose proof (Rabs_pos (B2R x)). lra. }
  split; [exact F|]. rewrite E, Ec.
  destruct (Rle_lt_dec (bpow radix2 (SpecFloat.emin prec emax + prec + 2)) (Rabs (B2R x))) as [L|L].
  - replace (round _ _ _ _) with (B2R x / 4).
    { unfold Rminus. rewrite Rplus_opp_r, Rabs_R0. apply bpow_ge_0. }
    symmetry. change (B2R x * / 4) with (B2R x / 4). replace (B2R x / 4) with (B2R x * bpow radix2 (-2)) by (simpl; lra).
    apply round_generic; [apply valid_rnd_round_mode|].
    apply (mult_bpow_exact_FLT radix2 (SpecFloat.emin prec emax) prec); [apply generic_format_B2R|].
    assert (SpecFloat.emin prec emax + prec + 2 < mag radix2 (B2R x))%Z.
    { apply (lt_bpow radix2). eapply Rle_lt_trans; [exact L|]. apply bpow_mag_gt. }
    lia.
  - eapply Rle_trans; [apply error_le_half_ulp; apply (fexp_correct prec emax Hp)|].
    rewrite <- eta_eq. apply Rmult_le_compat_l; [lra|].
    assert (S : Rabs (B2R x * / 4) < bpow radix2 (SpecFloat.emin prec emax + prec)).
    { rewrite Rabs_mult, (Rabs_pos_eq (/ 4)) by lra. replace (SpecFloat.emin prec emax + prec + 2)%Z with ((SpecFloat.emin prec emax + prec) + 2)%Z in L by ring.
      rewrite bpow_plus in L. change (bpow radix2 2) with 4 in L. lra. }
    apply Req_le. exact (ulp_FLT_small radix2 (SpecFloat.emin prec emax) prec _ S).
Qed.

(** ** A product of two values known up to d relative and eta absolute *)
Definition close (d : R) (x : fl) (v : R) : Prop := is_finite x = true /\ Rabs (B2R x - v) <= d * Rabs v + eta.

Notation kappa := (32001 / 10000 * u).

Lemma close_product d (x y : fl) v w G : 0 <= d <= 11 / 10 * u -> close d x v -> close d y w -> 
  1 <= G -> Rabs v <= G -> Rabs w <= G -> 8 * Rabs (v * w) + G + 1 <= hi ->
  is_finite (mul x y) = true /\ Rabs (B2R (mul x y) - v * w) <= kappa * Rabs (v * w) + 5 * eta * G.
Proof.
  intros Hd [Fx Hx] [Fy Hy] HG Hv Hw HB. destruct fmt_facts as (U & T0 & T1 & _ & _).
  pose proof (Rabs_pos v) as v0. pose proof (Rabs_pos w) as w0. rewrite Rabs_mult in HB |- *.
  set (V := Rabs v) in *. set (W := Rabs w) in *.
  assert (E1 : Rabs (B2R x * B2R y - v * w) <= (2 * d + d * d) * (V * W) + eta * ((V + W) * (1 + d) + eta)).
  { replace (B2R x * B2R y - v * w) with (v * (B2R y - w) + (B2R x - v) * (w + (B2R y - w))) by ring.
    eapply Rle_trans; [apply Rabs_triang|]. rewrite !Rabs_mult. fold V.
    assert (Rabs (w + (B2R y - w)) <= W + (d * W + eta)) by (eapply Rle_trans; [apply Rabs_triang|]; fold W; lra).
    assert (V * Rabs (B2R y - w) <= V * (d * W + eta)) by (apply Rmult_le_compat_l; assumption).
    assert (Rabs (B2R x - v) * Rabs (w + (B2R y - w)) <= (d * V + eta) * (W + (d * W + eta))) by (apply Rmult_le_compat; try apply Rabs_pos; assumption).
    lra. }
  set (e1 := Rabs (B2R x * B2R y - v * w)) in *. assert (VW : 0 <= V * W) by nra.
  assert (dd : 2 * d + d * d <= 220001 / 100000 * u) by nra.
  assert (S1 : eta * ((V + W) * (1 + d) + eta) <= 31 / 10 * (eta * G)).
  { replace (31 / 10 * (eta * G)) with (eta * (31 / 10 * G)) by ring. apply Rmult_le_compat_l; [lra|].
    assert ((V + W) * (1 + d) <= (G + G) * (11 / 10)) by (apply Rmult_le_compat; lra). lra. }
  assert (E2 : e1 <= 220001 / 100000 * u * (V * W) + 31 / 10 * (eta * G)).
  { eapply Rle_trans; [exact E1|]. apply Rplus_le_compat; [apply Rmult_le_compat_r; assumption|exact S1]. }
  assert (P : Rabs (B2R x * B2R y) <= V * W + e1).
  { replace (B2R x * B2R y) with (v * w + (B2R x * B2R y - v * w)) by ring. eapply Rle_trans; [apply Rabs_triang|]. rewrite (Rabs_mult v w). fold V W e1. lra. }
  assert (EG : eta * G <= 1 / 1000 * G) by (apply Rmult_le_compat_r; lra).
  assert (UV : u * (V * W) <= 1 / 1000 * (V * W)) by (apply Rmult_le_compat_r; lra).
  destruct (mul_round prec emax x y Fx Fy) as [F R]; [lra|].
  split; [exact F|]. rewrite R. destruct (rnd_any prec emax (B2R x * B2R y)) as (e & h & Hee & Hh & ->).
  replace (B2R x * B2R y * (1 + e) + h - v * w) with ((B2R x * B2R y - v * w) + (B2R x * B2R y) * e + h) by ring.
  eapply Rle_trans; [apply Rabs_triang|]. eapply Rle_trans; [apply Rplus_le_compat_r, Rabs_triang|]. fold e1. rewrite (Rabs_mult (B2R x * B2R y) e).
  assert (Rabs (B2R x * B2R y) * Rabs e <= (V * W + e1) * u) by (apply Rmult_le_compat; try apply Rabs_pos; assumption).
  assert (u * e1 <= 1 / 1000000 * e1) by (apply Rmult_le_compat_r; [unfold e1; apply Rabs_pos|lra]).
  assert (u * e1 <= u * (1 / 1000000 * (V * W)) + 1 / 1000 * (eta * G)).
  { assert (0 <= e1) by (unfold e1; apply Rabs_pos).
    assert (EGp : 0 <= eta * G) by nra.
    assert (u * e1 <= u * (220001 / 100000 * u * (V * W) + 31 / 10 * (eta * G))) by (apply Rmult_le_compat_l; lra).
    assert (u * (u * (V * W)) <= u * (1 / 16000000 * (V * W))) by (apply Rmult_le_compat_l; [lra|apply Rmult_le_compat_r; lra]).
    assert (u * (eta * G) <= 1 / 16000000 * (eta * G)) by (apply Rmult_le_compat_r; lra). lra. }
  assert (EG1 : eta <= eta * G) by (rewrite <- (Rmult_1_r eta) at 1; apply Rmult_le_compat_l; lra).
  assert (0 <= u * (V * W)) by (apply Rmult_le_pos; lra). assert (0 <= eta * G) by (apply Rmult_le_pos; lra). lra.
Qed.

(** ** One component: y approximates (v1 - v2)/2, x1 and x2 approximate v1 and v2; the difference
    of y and half of x1 - x2. *)
Lemma half_difference (x1 x2 y h : fl) v1 v2 G : 
  is_finite x1 = true -> is_finite x2 = true -> is_finite y = true ->
  Rabs (B2R x1 - v1) <= kappa * Rabs v1 + 5 * eta * G -> Rabs (B2R x2 - v2) <= kappa * Rabs v2 + 5 * eta * G ->
  Rabs (B2R y - (v1 - v2) / 2) <= kappa * Rabs ((v1 - v2) / 2) + 5 * eta * G ->
  1 <= G -> Rabs v1 <= G -> Rabs v2 <= G -> 64 * G <= hi ->
  is_finite (sub x1 x2) = true /\ Rabs (B2R (sub x1 x2)) <= 4 * G
  /\ (is_finite h = true -> Rabs (B2R h - B2R (sub x1 x2) / 2) <= eta ->
      is_finite (sub y h) = true
      /\ Rabs (B2R (sub y h)) <= 42002 / 10000 * u * Rabs ((v1 - v2) / 2) + 32002 / 10000 * u * ((Rabs v1 + Rabs v2) / 2) + 12 * eta * G
      /\ Rabs (B2R (sub y h)) <= 8 * (u * G)).
Proof.
  intros F1 F2 Fy H1 H2 Hy HG B1 B2 HB. destruct fmt_facts as (U & T0 & T1 & _ & _).
  pose proof (Rabs_pos v1) as P1. pose proof (Rabs_pos v2) as P2.
  assert (EG : 0 <= eta * G) by nra. assert (EG2 : eta * G <= u * G * (1 / 1000000000)) by nra.
  assert (UG : u * G <= 1 / 16000000 * G) by nra. assert (UG0 : 0 <= u * G) by nra.
  assert (K1 : u * Rabs v1 <= u * G) by nra. assert (K2 : u * Rabs v2 <= u * G) by nra.
  set (s := Rabs v1 + Rabs v2) in *. set (W := Rabs ((v1 - v2) / 2)) in *.
  assert (W0 : 0 <= W) by apply Rabs_pos.
  assert (Ws : W <= s / 2).
  { unfold W, Rdiv. rewrite Rabs_mult, (Rabs_pos_eq (/ 2)) by lra. apply Rmult_le_compat_r; [lra|]. unfold Rminus. eapply Rle_trans; [apply Rabs_triang|]. rewrite Rabs_Ropp. unfold s. lra. }
  assert (D1 : Rabs (B2R x1 - B2R x2 - (v1 - v2)) <= kappa * s + 10 * eta * G).
  { replace (B2R x1 - B2R x2 - (v1 - v2)) with ((B2R x1 - v1) + - (B2R x2 - v2)) by ring.
    eapply Rle_trans; [apply Rabs_triang|]. rewrite Rabs_Ropp. unfold s. lra. }
  assert (V2W : Rabs (v1 - v2) = 2 * W).
  { unfold W, Rdiv. rewrite Rabs_mult, (Rabs_pos_eq (/ 2)) by lra. lra. }
  set (D := B2R x1 - B2R x2) in *.
  assert (D2 : Rabs D <= 2 * W + (kappa * s + 10 * eta * G)).
  { replace D with ((v1 - v2) + (D - (v1 - v2))) by ring. eapply Rle_trans; [apply Rabs_triang|]. lra. }
  assert (sG : s <= 2 * G) by (unfold s; lra).
  assert (us : u * s <= 2 * (u * G)) by nra. assert (us0 : 0 <= u * s) by (apply Rmult_le_pos; unfold s; lra). assert (uW0 : 0 <= u * W) by (apply Rmult_le_pos; lra).
  destruct (sub_rel prec emax x1 x2 F1 F2) as (FD & e & Hee & ED); [fold D; lra|]. fold D in ED.
  assert (eD : Rabs (D * e) <= u * (2 * W + (kappa * s + 10 * eta * G))).
  { rewrite Rabs_mult, Rmult_comm. apply Rmult_le_compat; try apply Rabs_pos; assumption. }
  assert (us2 : u * (kappa * s + 10 * eta * G) <= 1 / 1000000 * (u * s) + 1 / 1000 * (eta * G)).
  { assert (s0 : 0 <= s) by (unfold s; lra). assert (u * (u * s) <= 1 / 16000000 * (u * s)) by (apply Rmult_le_compat_r; nra).
    assert (u * (eta * G) <= 1 / 16000000 * (eta * G)) by (apply Rmult_le_compat_r; lra). nra. }
  assert (uW : u * W <= u * G) by nra.
  split; [exact FD|]. split.
  { rewrite ED. replace (D * (1 + e)) with (D + D * e) by ring. eapply Rle_trans; [apply Rabs_triang|]. lra. }
  intros Fh Hh.
  assert (H3 : Rabs (B2R h - (v1 - v2) / 2) <= u * W + 320015 / 100000 * u * (s / 2) + 61 / 10 * (eta * G)).
  { replace (B2R h - (v1 - v2) / 2) with ((B2R h - B2R (sub x1 x2) / 2) + ((D - (v1 - v2)) + D * e) / 2) by (rewrite ED; field).
    eapply Rle_trans; [apply Rabs_triang|]. unfold Rdiv at 2. rewrite (Rabs_mult _ (/ 2)), (Rabs_pos_eq (/ 2)) by lra.
    assert (Rabs (D - (v1 - v2) + D * e) <= (kappa * s + 10 * eta * G) + u * (2 * W + (kappa * s + 10 * eta * G))) by (eapply Rle_trans; [apply Rabs_triang|]; lra).
    assert (eta <= eta * G) by (rewrite <- (Rmult_1_r eta) at 1; apply Rmult_le_compat_l; lra). lra. }
  assert (H4 : Rabs (B2R y - B2R h) <= 42001 / 10000 * u * W + 320015 / 100000 * u * (s / 2) + 112 / 10 * (eta * G)).
  { replace (B2R y - B2R h) with ((B2R y - (v1 - v2) / 2) + - (B2R h - (v1 - v2) / 2)) by ring.
    eapply Rle_trans; [apply Rabs_triang|]. rewrite Rabs_Ropp. lra. }
  destruct (sub_rel prec emax y h Fy Fh) as (FE & e' & Hee' & EE); [lra|].
  split; [exact FE|].
  assert (H5 : Rabs (B2R (sub y h)) <= 42002 / 10000 * u * W + 32002 / 10000 * u * (s / 2) + 12 * eta * G).
  { rewrite EE, Rabs_mult. set (q := Rabs (B2R y - B2R h)) in *. assert (q0 : 0 <= q) by apply Rabs_pos.
    assert (Rabs (1 + e') <= 1 + u) by (eapply Rle_trans; [apply Rabs_triang|]; rewrite Rabs_R1; lra).
    assert (q * Rabs (1 + e') <= q * (1 + u)) by (apply Rmult_le_compat_l; assumption).
    assert (u * q <= 1 / 16000000 * q) by (apply Rmult_le_compat_r; lra).
    assert (0 <= u * W) by nra. assert (0 <= u * (s / 2)) by (unfold s; nra). lra. }
  split; [exact H5|]. lra.
Qed.

(** ** The modulus of a finite number, with possible underflow *)
Lemma modulus (x y : fl) : is_finite x = true -> is_finite y = true ->
  let N := B2R x * B2R x + B2R y * B2R y in 4 * N + 4 <= hi ->
  let e := Bsqrt mode_NE (fl_norm2 prec emax x y) in
  is_finite e = true /\ 0 <= B2R e /\ Rabs (B2R e * B2R e - N) <= 5 * u * N + 3 * eta.
Proof.
  intros Fx Fy N B e. destruct fmt_facts as (U & T0 & T1 & _ & _). set (t := eta) in *.
  assert (P : forall v : fl, is_finite v = true -> 4 * (B2R v * B2R v) <= hi ->
     is_finite (mul v v) = true /\ 0 <= B2R (mul v v) /\ Rabs (B2R (mul v v) - B2R v * B2R v) <= u * (B2R v * B2R v) + t).
  { intros v Fv Bv. destruct (mul_round prec emax v v Fv Fv) as [F E]. { rewrite Rabs_pos_eq by nra. nra. }
    split; [exact F|]. rewrite E. split.
    - apply round_ge_generic; [apply fexp_correct; exact Hp|apply valid_rnd_round_mode|apply generic_format_0|nra].
    - destruct (rnd_any prec emax (B2R v * B2R v)) as (e1 & h & H1 & H2 & ->).
      replace (B2R v * B2R v * (1 + e1) + h - B2R v * B2R v) with (e1 * (B2R v * B2R v) + h) by ring.
      eapply Rle_trans; [apply Rabs_triang|]. rewrite Rabs_mult, (Rabs_pos_eq (B2R v * B2R v)) by nra.
      apply Rplus_le_compat; [apply Rmult_le_compat_r; [nra|exact H1]|exact H2]. }
  assert (x2 : 0 <= B2R x * B2R x) by nra. assert (y2 : 0 <= B2R y * B2R y) by nra.
  destruct (P x Fx ltac:(unfold N in B; lra)) as (F1 & Z1 & B1). destruct (P y Fy ltac:(unfold N in B; lra)) as (F2 & Z2 & B2).
  assert (N0 : 0 <= N) by (unfold N; lra).
  set (n := B2R (mul x x) + B2R (mul y y)) in *.
  assert (S : Rabs (n - N) <= u * N + 2 * t).
  { unfold n, N. replace (B2R (mul x x) + B2R (mul y y) - (B2R x * B2R x + B2R y * B2R y)) with ((B2R (mul x x) - B2R x * B2R x) + (B2R (mul y y) - B2R y * B2R y)) by ring.
    eapply Rle_trans; [apply Rabs_triang|]. lra. }
  apply Rabs_le_inv in S. assert (uN : u * N <= 1 / 16000000 * N) by (apply Rmult_le_compat_r; lra). assert (uN0 : 0 <= u * N) by nra.
  destruct (add_rel prec emax _ _ F1 F2) as (F3 & e3 & H3 & E3). { fold n. apply Rabs_le. lra. }
  change (add (mul x x) (mul y y)) with (fl_norm2 prec emax x y) in *. fold n in E3.
  assert (n0 : 0 <= B2R (fl_norm2 prec emax x y)).
  { rewrite E3. apply Rabs_le_inv in H3. apply Rmult_le_pos; unfold n; lra. }
  destruct (sqrt_rel prec emax _ F3 n0) as (F4 & e4 & H4 & E4). fold e in F4, E4. split; [exact F4|].
  apply Rabs_le_inv in H3, H4. split. { rewrite E4. apply Rmult_le_pos; [apply sqrt_pos|lra]. }
  rewrite E4. set (q := sqrt (B2R (fl_norm2 prec emax x y))) in *. assert (qq : q * q = B2R (fl_norm2 prec emax x y)) by (apply sqrt_sqrt, n0).
  replace (q * (1 + e4) * (q * (1 + e4))) with (n * ((1 + e3) * ((1 + e4) * (1 + e4)))).
  2: { transitivity (q * q * ((1 + e4) * (1 + e4))); [rewrite qq, E3; ring|ring]. }
  set (f := (1 + e3) * ((1 + e4) * (1 + e4))) in *.
  assert (Hf : 1 - 31 / 10 * u <= f <= 1 + 31 / 10 * u).
  { unfold f. assert (1 - 2 * u <= (1 + e4) * (1 + e4) <= 1 + 201 / 100 * u) as Hg by nra.
    set (g := (1 + e4) * (1 + e4)) in *. assert (u * g <= u * (101 / 100)) by (apply Rmult_le_compat_l; lra).
    assert (- u * g <= e3 * g <= u * g) by (split; apply Rmult_le_compat_r; lra). lra. }
  apply Rabs_le.
  assert (n1 : 0 <= n) by (unfold n; lra). assert (un : u * n <= u * N * (1 + 1 / 1000) + 1 / 1000 * t) by nra.
  assert (nf : n - 31 / 10 * (u * n) <= n * f <= n + 31 / 10 * (u * n)) by nra.
  lra.
Qed.
End Fmt.
