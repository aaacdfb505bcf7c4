(** The logarithm of a product: real analysis and single-precision error analysis (for C94). *)
From Coq Require Import List ZArith Reals Bool Lia Lra Psatz.
From Flocq Require Import Core.Core IEEE754.BinarySingleNaN.
From Verif Require Import Base.Outcome Model.Traits Model.Float Model.Complex Spec.FloatErr
  Proofs.FloatErr Proofs.FloatRound Proofs.FloatRange Proofs.FloatSqrt Proofs.PiE.
Local Open Scope R_scope.

(** ** Angles *)

(** [t] is an argument of the number x + iy: an angle between -pi and pi (both included) in whose direction it lies. *)
Definition is_argument (t x y : R) : Prop :=
  - PI <= t <= PI /\ x = sqrt (x * x + y * y) * cos t /\ y = sqrt (x * x + y * y) * sin t.

Lemma atan_le y : Rabs (atan y) <= Rabs y.
Proof.
  assert (P : forall z, 0 < z -> 0 <= atan z <= z).
  { intros z Hz. destruct (MVT_cor2 atan (fun x => / (1 + x ^ 2)) 0 z Hz) as (c & E & Hc).
    - intros c _. apply derivable_pt_lim_atan.
    - rewrite atan_0, !Rminus_0_r in E.
      assert (0 < / (1 + c ^ 2) <= 1). { assert (0 <= c ^ 2) by (apply pow2_ge_0). split; [apply Rinv_0_lt_compat; lra|]. rewrite <- Rinv_1 at 2. apply Rinv_le_contravar; lra. }
      rewrite E. split; [apply Rmult_le_pos; lra|]. rewrite <- (Rmult_1_l z) at 2. apply Rmult_le_compat_r; lra. }
  destruct (Rtotal_order y 0) as [H|[->|H]].
  - destruct (P (- y) ltac:(lra)) as [A B]. rewrite atan_opp in A, B. rewrite !Rabs_left1 by lra. lra.
  - rewrite atan_0. lra.
  - destruct (P y H) as [A B]. rewrite !Rabs_pos_eq by lra. lra.
Qed.

(** A direction within 1 +- rho of the positive real axis. *)
Lemma small_angle rho t phi : 0 <= rho <= 1 / 100 -> - (3 * PI) <= phi <= 3 * PI ->
  (t * cos phi - 1) * (t * cos phi - 1) + t * sin phi * (t * sin phi) <= rho * rho -> 0 <= t ->
  exists k : Z, (k = -1 \/ k = 0 \/ k = 1)%Z /\ Rabs (phi - 2 * PI * IZR k) <= 102 / 100 * rho.
Proof.
  intros Hr Hphi H Ht. pose proof PI_RGT_0 as HPI.
  assert (Hc : 99 / 100 <= t * cos phi). { destruct (Rle_or_lt (99 / 100) (t * cos phi)) as [L|L]; [exact L|exfalso].
    assert (1 / 100 * (1 / 100) < (1 - t * cos phi) * (1 - t * cos phi)) by (apply Rmult_gt_0_lt_compat; lra).
    assert (rho * rho <= 1 / 100 * (1 / 100)) by (apply Rmult_le_compat; lra). pose proof (Rle_0_sqr (t * sin phi)) as K. unfold Rsqr in K. lra. }
  assert (Hs : Rabs (t * sin phi) <= rho).
  { rewrite <- (Rabs_pos_eq rho) by lra. apply Rsqr_le_abs_0. unfold Rsqr. pose proof (Rle_0_sqr (t * cos phi - 1)) as K. unfold Rsqr in K. lra. }
  assert (C : 0 < cos phi). { destruct (Rle_or_lt (cos phi) 0) as [L|L]; [exfalso|exact L]. assert (t * cos phi <= 0) by nra. lra. }
  assert (tp : 0 < t). { destruct Ht as [Ht|<-]; [exact Ht|]. rewrite Rmult_0_l in Hc. lra. }
  assert (Core : forall psi, cos psi = cos phi -> sin psi = sin phi -> - (PI / 2) < psi < PI / 2 -> Rabs psi <= 102 / 100 * rho).
  { intros psi E1 E2 B. rewrite <- (atan_tan psi B). eapply Rle_trans; [apply atan_le|]. unfold tan. rewrite E1, E2.
    replace (sin phi / cos phi) with (t * sin phi / (t * cos phi)) by (field; lra).
    unfold Rdiv. rewrite Rabs_mult, (Rabs_pos_eq (/ (t * cos phi))) by (apply Rlt_le, Rinv_0_lt_compat; lra).
    rewrite Rmult_comm. apply Rmult_le_compat; [apply Rlt_le, Rinv_0_lt_compat; lra|apply Rabs_pos| |exact Hs].
    apply Rle_trans with (/ (99 / 100)); [apply Rinv_le_contravar; lra|lra]. }
  assert (NEG : forall x, PI / 2 <= x <= 3 * (PI / 2) -> cos x <= 0) by (intros x B; apply cos_le_0; lra).
  destruct (Rle_or_lt phi (- (PI / 2))) as [L1|L1].
  - destruct (Rle_or_lt (- (3 * (PI / 2))) phi) as [L2|L2].
    { exfalso. pose proof (NEG (- phi) ltac:(lra)). rewrite cos_neg in H0. lra. }
    destruct (Rle_or_lt phi (- (5 * (PI / 2)))) as [L3|L3].
    { exfalso. pose proof (NEG (phi + 2 * INR 2 * PI) ltac:(simpl INR; lra)) as Q. rewrite cos_period in Q. lra. }
    exists (-1)%Z. split; [auto|]. apply Core.
    + replace (phi - 2 * PI * IZR (-1)) with (phi + 2 * INR 1 * PI) by (simpl; ring). apply cos_period.
    + replace (phi - 2 * PI * IZR (-1)) with (phi + 2 * INR 1 * PI) by (simpl; ring). apply sin_period.
    + lra.
  - destruct (Rlt_or_le phi (PI / 2)) as [L2|L2].
    { exists 0%Z. split; [auto|]. rewrite Rmult_0_r, Rminus_0_r. apply Core; [reflexivity|reflexivity|lra]. }
    destruct (Rle_or_lt phi (3 * (PI / 2))) as [L3|L3].
    { exfalso. pose proof (NEG phi ltac:(lra)). lra. }
    destruct (Rlt_or_le phi (5 * (PI / 2))) as [L4|L4].
    + exists 1%Z. split; [auto|]. rewrite Rmult_1_r. apply Core.
      * replace (cos phi) with (cos ((phi - 2 * PI) + 2 * INR 1 * PI)) by (f_equal; simpl; ring). symmetry. apply cos_period.
      * replace (sin phi) with (sin ((phi - 2 * PI) + 2 * INR 1 * PI)) by (f_equal; simpl; ring). symmetry. apply sin_period.
      * lra.
    + exfalso. pose proof (NEG (phi - 2 * PI) ltac:(lra)) as Q. replace phi with ((phi - 2 * PI) + 2 * INR 1 * PI) in C by (simpl; ring).
      rewrite cos_period in C. lra.
Qed.

(** The argument of an approximate product. *)
Lemma product_argument a1 a2 b1 b2 c1 c2 ta tb tc rho :
  is_argument ta a1 a2 -> is_argument tb b1 b2 -> is_argument tc c1 c2 ->
  0 < a1 * a1 + a2 * a2 -> 0 < b1 * b1 + b2 * b2 -> 0 <= rho <= 1 / 100 ->
  let x := a1 * b1 - a2 * b2 in let y := a1 * b2 + a2 * b1 in
  (c1 - x) * (c1 - x) + (c2 - y) * (c2 - y) <= rho * rho * (x * x + y * y) ->
  exists k : Z, (k = -1 \/ k = 0 \/ k = 1)%Z /\ Rabs (tc - ta - tb - 2 * PI * IZR k) <= 102 / 100 * rho.
Proof.
  intros (Ra & A1 & A2) (Rb & B1 & B2) (Rc & C1 & C2) HA HB Hr x y H.
  set (ra := sqrt (a1 * a1 + a2 * a2)) in *. set (rb := sqrt (b1 * b1 + b2 * b2)) in *. set (rc := sqrt (c1 * c1 + c2 * c2)) in *.
  assert (Pa : 0 < ra) by (apply sqrt_lt_R0, HA). assert (Pb : 0 < rb) by (apply sqrt_lt_R0, HB). assert (Pc : 0 <= rc) by apply sqrt_pos.
  set (r := ra * rb). assert (Pr : 0 < r) by (apply Rmult_lt_0_compat; assumption).
  set (ph := ta + tb).
  assert (X : x = r * cos ph). { unfold x, r, ph. rewrite cos_plus, A1, A2, B1, B2. ring. }
  assert (Y : y = r * sin ph). { unfold y, r, ph. rewrite sin_plus, A1, A2, B1, B2. ring. }
  assert (XY : x * x + y * y = r * r).
  { rewrite X, Y. pose proof (sin2_cos2 ph) as S. unfold Rsqr in S.
    replace (r * cos ph * (r * cos ph) + r * sin ph * (r * sin ph)) with (r * r * (sin ph * sin ph + cos ph * cos ph)) by ring. rewrite S. ring. }
  set (t := rc / r). assert (T0 : 0 <= t) by (apply Rmult_le_pos; [exact Pc|apply Rlt_le, Rinv_0_lt_compat, Pr]).
  assert (RC : rc = t * r) by (unfold t; field; lra).
  destruct (small_angle rho t (tc - ta - tb) Hr) as (k & Hk & E); [lra| |exact T0|exists k; split; [exact Hk|exact E]].
  apply Rmult_le_reg_l with (r * r); [apply Rmult_lt_0_compat; exact Pr|]. rewrite XY in H.
  replace (r * r * (rho * rho)) with (rho * rho * (r * r)) by ring. eapply Rle_trans; [|exact H]. apply Req_le.
  replace (tc - ta - tb) with (tc - ph) by (unfold ph; ring). rewrite cos_minus, sin_minus, C1, C2, X, Y, RC.
  pose proof (sin2_cos2 ph) as S. pose proof (sin2_cos2 tc) as S'. unfold Rsqr in S, S'.
  set (p := cos tc) in *. set (q := sin tc) in *. set (m := cos ph) in *. set (n := sin ph) in *.
  replace (r * r * ((t * (p * m + q * n) - 1) * (t * (p * m + q * n) - 1) + t * (q * m - p * n) * (t * (q * m - p * n))))
    with (r * r * (t * t * ((q * q + p * p) * (n * n + m * m)) - 2 * t * (p * m + q * n) + 1)) by ring.
  replace ((t * r * p - r * m) * (t * r * p - r * m) + (t * r * q - r * n) * (t * r * q - r * n))
    with (r * r * (t * t * (q * q + p * p) - 2 * t * (p * m + q * n) + (n * n + m * m))) by ring.
  rewrite S, S'. ring.
Qed.

(** Logarithms of nearby numbers. *)
Lemma ln_ratio x y e : 0 < y -> 0 <= e <= 1 / 100 -> Rabs (x - y) <= e * y -> 0 < x /\ Rabs (ln x - ln y) <= 102 / 100 * e.
Proof.
  intros Hy He H. apply Rabs_le_inv in H. assert (Hx : 0 < x) by nra. split; [exact Hx|].
  assert (U : forall p q, 0 < p -> 0 < q -> ln p - ln q <= (p - q) / q).
  { intros p q Hp Hq. replace (ln p - ln q) with (ln (p / q)).
    - assert (0 < p / q) by (apply Rdiv_lt_0_compat; assumption). 
      assert (E : ln (p / q) <= p / q - 1). { destruct (Req_dec (ln (p / q)) 0) as [Z|Z].
        - rewrite Z. replace (p / q) with 1; [lra|]. rewrite <- (exp_ln (p / q)) by assumption. rewrite Z, exp_0. reflexivity.
        - pose proof (exp_ineq1 (ln (p / q)) Z) as Q. rewrite exp_ln in Q by assumption. lra. }
      replace ((p - q) / q) with (p / q - 1) by (field; lra). exact E.
    - unfold Rdiv. rewrite ln_mult, ln_Rinv; [ring|assumption|assumption|apply Rinv_0_lt_compat; assumption]. }
  apply Rabs_le. split.
  - pose proof (U y x Hy Hx) as V. assert ((y - x) / x <= 102 / 100 * e); [|lra].
    apply Rmult_le_reg_r with x; [exact Hx|]. replace ((y - x) / x * x) with (y - x) by (field; lra).
    assert (99 / 100 * y <= x) by nra. assert (102 / 100 * e * (99 / 100 * y) <= 102 / 100 * e * x) by (apply Rmult_le_compat_l; lra). 
    assert (0 <= e * y) by (apply Rmult_le_pos; lra). lra.
  - pose proof (U x y Hx Hy) as V. assert ((x - y) / y <= e); [|lra].
    apply Rmult_le_reg_r with y; [exact Hy|]. replace ((x - y) / y * y) with (x - y) by (field; lra). lra.
Qed.

(** ** Single precision *)
Section F32.
Notation fl := f32.
Notation u := (unit_roundoff 24).
Notation eta := (underflow_unit 24 128).
Notation rnd := (round radix2 (SpecFloat.fexp 24 128) (round_mode mode_NE)).
Notation add := (fl_add 24 128). Notation sub := (fl_sub 24 128).
Notation mul := (fl_mul 24 128). Notation div := (fl_div 24 128).
Notation hi := (half_big 128).

Lemma u32 : u = / 16777216.
Proof. unfold unit_roundoff. simpl. lra. Qed.
Lemma eta32 : eta = bpow radix2 (-150).
Proof. reflexivity. Qed.
Lemma hi32 : hi = bpow radix2 127.
Proof. reflexivity. Qed.
Lemma eta_tiny : 0 < eta <= u * / 1000000000.
Proof.
  rewrite eta32. split; [apply bpow_gt_0|]. apply Rle_trans with (bpow radix2 (-60)); [apply bpow_le; lia|]. rewrite u32. simpl. lra.
Qed.

Lemma norm_f32 (x y : fl) : is_finite x = true -> is_finite y = true ->
  let N := B2R x * B2R x + B2R y * B2R y in bpow radix2 (-110) <= N -> N <= bpow radix2 120 ->
  is_finite (fl_norm2 24 128 x y) = true /\ Rabs (B2R (fl_norm2 24 128 x y) - N) <= 21 / 10 * u * N.
Proof.
  intros Fx Fy N H1 H2. pose proof u32 as U.
  assert (N0 : 0 < N) by (pose proof (bpow_gt_0 radix2 (-110)); lra).
  assert (E : 65536 * eta <= u * N).
  { rewrite eta32. unfold unit_roundoff. change 65536 with (bpow radix2 16). rewrite <- bpow_plus.
    apply Rle_trans with (bpow radix2 (-(24)) * bpow radix2 (-110)); [rewrite <- bpow_plus; apply bpow_le; lia|]. apply Rmult_le_compat_l; [apply bpow_ge_0|exact H1]. }
  assert (T : 0 < eta) by apply eta_tiny.
  assert (F : is_finite (fl_norm2 24 128 x y) = true).
  { apply norm2_finite; auto; fold N; [lra|]. apply Rle_lt_trans with (2 * bpow radix2 120).
    - apply Rmult_le_compat; [apply pow_le; lra|lra| |exact H2]. rewrite U. simpl. lra.
    - change 2 with (bpow radix2 1). rewrite <- bpow_plus. apply bpow_lt. lia. }
  split; [exact F|]. destruct (norm2_error 24 128 x y F) as (_ & _ & B). fold N in B. eapply Rle_trans; [exact B|].
  rewrite U in *. simpl. lra.
Qed.

(** Rounding numbers below 8. *)
Lemma round_below_8 x : Rabs x < 8 -> Rabs (rnd x - x) <= 4 * u.
Proof.
  intros H. destruct (Req_dec x 0) as [->|N].
  { rewrite round_0 by apply valid_rnd_round_mode. rewrite Rminus_0_r, Rabs_R0, u32. lra. }
  pose proof (error_le_half_ulp radix2 (SpecFloat.fexp 24 128) (fun z => negb (Z.even z)) x) as E.
  change (ZnearestE) with (round_mode mode_NE) in E. eapply Rle_trans; [exact E|].
  assert (ulp radix2 (SpecFloat.fexp 24 128) x <= 8 * u); [|lra].
  rewrite ulp_neq_0 by exact N. unfold cexp.
  assert (M : (mag radix2 x <= 3)%Z) by (apply mag_le_bpow; [exact N|simpl; lra]).
  replace (8 * u) with (bpow radix2 (-21)) by (rewrite u32; simpl; lra). apply bpow_le. unfold SpecFloat.fexp, SpecFloat.emin. lia.
Qed.

(** Numbers between 4 and 8 are multiples of 2^-21. *)
Lemma grid (x : fl) : 4 <= B2R x < 8 -> exists m, B2R x = IZR m * (8 * u).
Proof.
  intros H. pose proof (generic_format_B2R 24 128 x) as G. unfold generic_format, F2R in G. cbn [Fnum Fexp] in G.
  exists (Ztrunc (scaled_mantissa radix2 (SpecFloat.fexp 24 128) (B2R x))). rewrite G at 1. f_equal.
  assert (M : mag radix2 (B2R x) = 3%Z :> Z) by (apply mag_unique; rewrite Rabs_pos_eq by lra; simpl; lra).
  unfold cexp. rewrite M, u32. simpl. lra.
Qed.

(** std::f32::consts::PI. *)
Definition pi32 : fl := binary_normalize 24 128 _ _ mode_NE 13176795 (-22) false.
Lemma pi32_value : is_finite pi32 = true /\ B2R pi32 = 13176795 * / 4194304.
Proof. split; [vm_compute; reflexivity|]. unfold pi32. vm_compute. lra. Qed.
(** It is the float nearest to pi. *)
Lemma pi32_error : Rabs (B2R pi32 - PI) <= 1495 / 1000 * u.
Proof. rewrite (proj2 pi32_value), u32. pose proof PI_close. apply Rabs_le. lra. Qed.
Definition two_pi : fl := mul (fl_int 24 128 2) pi32.
Lemma two_pi_value : is_finite two_pi = true /\ B2R two_pi = 13176795 * (8 * u).
Proof. split; [vm_compute; reflexivity|]. rewrite u32. vm_compute. lra. Qed.

(** The last assertion of the test: near 2 pi. *)
Lemma near_two_pi (v : fl) : is_finite v = true -> Rabs (B2R v - 2 * PI) <= 209 / 10 * u ->
  is_finite (sub v two_pi) = true /\ Rabs (B2R (sub v two_pi)) <= 16 * u.
Proof.
  intros F H. destruct two_pi_value as [F2 V2]. pose proof PI_close as HPI. pose proof u32 as U.
  apply Rabs_le_inv in H. assert (B : 4 <= B2R v < 8) by (rewrite U in H; lra). destruct (grid v B) as [m E].
  assert (D : Rabs (B2R v - B2R two_pi) < 24 * u).
  { pose proof pi32_error as P. apply Rabs_le_inv in P.
    assert (W : B2R two_pi = 2 * B2R pi32) by (rewrite V2, (proj2 pi32_value), U; lra). rewrite W.
    apply Rabs_def1; lra. }
  assert (E2 : B2R v - B2R two_pi = IZR (m - 13176795) * (8 * u)). { rewrite E, V2, minus_IZR. ring. }
  assert (K : (-2 <= m - 13176795 <= 2)%Z).
  { rewrite E2 in D. apply Rabs_def2 in D. destruct D as [D1 D2].
    assert (IZR (m - 13176795) < 3) by (apply Rmult_lt_reg_r with (8 * u); [rewrite U; lra|lra]).
    assert (-3 < IZR (m - 13176795)) by (apply Rmult_lt_reg_r with (8 * u); [rewrite U; lra|lra]).
    apply lt_IZR in H0. apply lt_IZR in H1. lia. }
  assert (A : Rabs (B2R v - B2R two_pi) <= 16 * u).
  { rewrite E2. assert (-2 <= IZR (m - 13176795) <= 2) by (split; apply IZR_le; lia). apply Rabs_le. rewrite U. lra. }
  destruct (sub_round 24 128 v two_pi F F2) as [Fs Es]. { eapply Rle_trans; [exact A|]. rewrite U, hi32. apply Rle_trans with (bpow radix2 0); [simpl; lra|apply bpow_le; lia]. }
  split; [exact Fs|]. rewrite Es. apply rnd_abs_le; [exact _| |exact A].
  replace (16 * u) with (bpow radix2 (-20)) by (rewrite U; simpl; lra). apply generic_format_bpow. unfold SpecFloat.fexp, SpecFloat.emin. lia.
Qed.
End F32.
