(** Property C71: the Ackley function as it is computed in f32.

    The basic operations are IEEE 754 binary32; the three libm functions are arbitrary up to the
    stated hypotheses.  [B2R x] is the real number a finite float denotes. *)
From Coq Require Import List Reals Lra Lia ZArith.
From Flocq Require Import Core.Core IEEE754.BinarySingleNaN.
From Verif Require Import Base.Outcome Model.Float Model.Ackley Spec.FloatErr Proofs.FloatErr Proofs.FloatRound Proofs.FloatRange Proofs.PiE
  Props.AckleyProps.
Open Scope R_scope.

(** ** The constants of the source are the nearest f32 numbers *)
Lemma lit_02 : B2R f32_0_2 = 13421773 / 67108864 /\ is_finite f32_0_2 = true.
Proof. split; [vm_compute; lra|reflexivity]. Qed.
Lemma lit_05 : B2R f32_0_5 = / 2 /\ is_finite f32_0_5 = true.
Proof. split; [vm_compute; lra|reflexivity]. Qed.
Lemma lit_E : B2R f32_E = 11401300 / 4194304 /\ is_finite f32_E = true.
Proof. split; [vm_compute; lra|reflexivity]. Qed.
Lemma lit_PI : B2R f32_PI = 13176795 / 4194304 /\ is_finite f32_PI = true.
Proof. split; [vm_compute; lra|reflexivity]. Qed.
Lemma lit_20 : B2R (f32_of_Z 20) = 20 /\ is_finite (f32_of_Z 20) = true.
Proof. split; [vm_compute; lra|reflexivity]. Qed.
Lemma lit_2 : B2R (f32_of_Z 2) = 2 /\ is_finite (f32_of_Z 2) = true.
Proof. split; [vm_compute; lra|reflexivity]. Qed.

(** Half a unit in the last place: 2^-23 in [2,4), 2^-27 in [1/8,1/4). *)
Theorem C71_constants :
  Rabs (B2R f32_PI - PI) <= / 2 ^ 23 /\ Rabs (B2R f32_E - exp 1) <= / 2 ^ 23
  /\ Rabs (B2R f32_0_2 - 1 / 5) <= / 2 ^ 27 /\ B2R f32_0_5 = 1 / 2
  /\ B2R (f32_of_Z 20) = 20 /\ B2R (f32_of_Z 2) = 2.
Proof.
  rewrite (proj1 lit_PI), (proj1 lit_E), (proj1 lit_02), (proj1 lit_05), (proj1 lit_20), (proj1 lit_2).
  pose proof PI_close. pose proof E_close.
  repeat split; try (apply Rabs_le; cbn [pow]; lra); lra.
Qed.

(** ** Auxiliary facts *)
Notation fadd := (fl_add 24 128). Notation fsub := (fl_sub 24 128). Notation fmul := (fl_mul 24 128).
Notation rnd32 := (round radix2 (SpecFloat.fexp 24 128) (round_mode mode_NE)).
Definition u32 : R := / 16777216.
Definition tiny : R := / IZR (2 ^ 149).

Lemma u32_eq : unit_roundoff 24 = u32.
Proof. unfold unit_roundoff, u32. reflexivity. Qed.
Lemma tiny_eq : underflow_unit 24 128 <= tiny.
Proof.
  unfold underflow_unit, tiny. change (2 - 128 - 24)%Z with (- (150))%Z. rewrite (bpow_opp radix2 150). change (bpow radix2 150) with (IZR (2 ^ 150)).
  apply Rinv_le_contravar; [apply IZR_lt; reflexivity|apply IZR_le; lia].
Qed.
Lemma big32 : half_big 128 = IZR (2 ^ 127). Proof. reflexivity. Qed.

Lemma rnd32_err v : Rabs (rnd32 v - v) <= u32 * Rabs v + tiny.
Proof.
  destruct (rnd_any 24 128 v) as (e & h & He & Hh & ->). rewrite u32_eq in He. pose proof tiny_eq.
  replace (v * (1 + e) + h - v) with (e * v + h) by ring. eapply Rle_trans; [apply Rabs_triang|].
  rewrite Rabs_mult. pose proof (Rabs_pos v). assert (Rabs e * Rabs v <= u32 * Rabs v) by (apply Rmult_le_compat_r; assumption). lra.
Qed.

Lemma sub_err (x y : f32) : Rabs (rnd32 (B2R x - B2R y) - (B2R x - B2R y)) <= u32 * Rabs (B2R x - B2R y).
Proof.
  destruct (rnd_add 24 128 x (Bopp y)) as (d & Hd & E). rewrite B2R_Bopp in E. fold (B2R x - B2R y) in E. rewrite E.
  rewrite u32_eq in Hd. replace ((B2R x - B2R y) * (1 + d) - (B2R x - B2R y)) with (d * (B2R x - B2R y)) by ring.
  rewrite Rabs_mult. apply Rmult_le_compat_r; [apply Rabs_pos|exact Hd].
Qed.
Lemma add_err (x y : f32) : Rabs (rnd32 (B2R x + B2R y) - (B2R x + B2R y)) <= u32 * Rabs (B2R x + B2R y).
Proof.
  destruct (rnd_add 24 128 x y) as (d & Hd & E). rewrite E.
  rewrite u32_eq in Hd. replace ((B2R x + B2R y) * (1 + d) - (B2R x + B2R y)) with (d * (B2R x + B2R y)) by ring.
  rewrite Rabs_mult. apply Rmult_le_compat_r; [apply Rabs_pos|exact Hd].
Qed.

Lemma exp_lip a b c : a <= c -> b <= c -> Rabs (exp a - exp b) <= exp c * Rabs (a - b).
Proof.
  assert (G : forall a b, a <= b -> b <= c -> 0 <= exp b - exp a <= exp c * (b - a)).
  { intros a' b' H1 H2. split.
    - destruct H1 as [H1|H1]; [left; apply exp_increasing in H1; lra|rewrite H1; lra].
    - assert (E : exp a' = exp b' * exp (a' - b')) by (rewrite <- exp_plus; f_equal; ring).
      pose proof (exp_ineq1_le (a' - b')) as I. pose proof (exp_pos b') as P.
      assert (exp b' <= exp c) by (destruct H2 as [H2|H2]; [left; apply exp_increasing, H2|rewrite H2; lra]).
      rewrite E. assert (exp b' * (1 + (a' - b')) <= exp b' * exp (a' - b')) by (apply Rmult_le_compat_l; lra). nra. }
  intros Ha Hb. destruct (Rle_dec a b) as [H|H].
  - destruct (G a b H Hb). rewrite Rabs_minus_sym, Rabs_pos_eq by lra. rewrite (Rabs_minus_sym a b), (Rabs_pos_eq (b - a)) by lra. lra.
  - destruct (G b a) as [G1 G2]; [lra|exact Ha|]. rewrite Rabs_pos_eq by lra. rewrite (Rabs_pos_eq (a - b)) by lra. lra.
Qed.

Lemma sin_abs z : Rabs (sin z) <= Rabs z.
Proof.
  assert (P : forall z, 0 <= z -> Rabs (sin z) <= z).
  { intros t Ht. destruct (Rle_dec 1 t) as [H|H].
    - pose proof (SIN_bound t). apply Rabs_le. lra.
    - destruct Ht as [Ht|<-]; [|rewrite sin_0, Rabs_R0; lra].
      pose proof PI_close. assert (0 <= sin t) by (apply sin_ge_0; lra).
      rewrite Rabs_pos_eq by assumption. left. apply sin_lt_x, Ht. }
  destruct (Rle_dec 0 z) as [H|H].
  - rewrite (Rabs_pos_eq z H). apply P, H.
  - rewrite <- (Rabs_Ropp (sin z)), <- sin_neg, <- (Rabs_Ropp z), (Rabs_pos_eq (- z)) by lra. apply P. lra.
Qed.

Lemma cos_lip a b : Rabs (cos a - cos b) <= Rabs (a - b).
Proof.
  rewrite form2. rewrite !Rabs_mult. replace (Rabs (-2)) with 2 by (rewrite Rabs_left; lra).
  pose proof (sin_abs ((a - b) / 2)) as H1.
  assert (H2 : Rabs (sin ((a + b) / 2)) <= 1) by (apply Rabs_le; pose proof (SIN_bound ((a + b) / 2)); lra).
  replace (Rabs (a - b)) with (2 * Rabs ((a - b) / 2)).
  - pose proof (Rabs_pos (sin ((a - b) / 2))). pose proof (Rabs_pos (sin ((a + b) / 2))).
    assert (Rabs (sin ((a - b) / 2)) * Rabs (sin ((a + b) / 2)) <= Rabs (sin ((a - b) / 2)) * 1) by (apply Rmult_le_compat_l; lra). lra.
  - unfold Rdiv. rewrite Rabs_mult, (Rabs_pos_eq (/ 2)) by lra. field.
Qed.

(** [|x| <= 2^60]: far beyond the documented domain [-5,5]. *)
Definition moderate (x : f32) : Prop := is_finite x = true /\ Rabs (B2R x) <= 2 ^ 60.

(** The arguments handed to libm. *)
Definition arg_m1 (x y : f32) : f32 :=
  fmul (Bopp f32_0_2) (Bsqrt mode_NE (fmul f32_0_5 (fadd (fmul x x) (fmul y y)))).
Definition arg_cos (x : f32) : f32 := fmul (fmul (f32_of_Z 2) f32_PI) x.
Definition rms (x y : f32) : R := sqrt (5 / 10 * (B2R x ^ 2 + B2R y ^ 2)).

Lemma sq_le x : Rabs x <= 2 ^ 60 -> 0 <= x * x <= IZR (2 ^ 120).
Proof.
  intros H. split; [nra|]. replace (x * x) with (Rabs x * Rabs x).
  - replace (IZR (2 ^ 120)) with (2 ^ 60 * 2 ^ 60).
    + apply Rmult_le_compat; try apply Rabs_pos; assumption.
    + change (2 ^ 60) with (IZR 2 ^ 60). rewrite pow_IZR, <- mult_IZR. reflexivity.
  - rewrite <- Rabs_mult. apply Rabs_pos_eq. nra.
Qed.

Lemma sqrt_close h S k t : 0 <= h -> 0 <= S -> 0 <= k <= 1 -> 0 <= t ->
  Rabs (h - S * S) <= k * (S * S) + t * t -> Rabs (sqrt h - S) <= k * S + t.
Proof.
  intros Hh HS Hk Ht H. pose proof (sqrt_pos h) as P. pose proof (sqrt_sqrt h Hh) as Q.
  assert (HL : S * S - h <= k * (S * S) + t * t) by (pose proof (Rle_abs (- (h - S * S))) as A; rewrite Rabs_Ropp in A; lra).
  assert (HU : h - S * S <= k * (S * S) + t * t) by (pose proof (Rle_abs (h - S * S)); lra).
  set (r := sqrt h) in *. apply Rabs_le. split.
  - apply Rnot_lt_le. intros C. assert (A : t < S * (1 - k) - r) by lra.
    assert (0 <= S * (1 - k)) by (apply Rmult_le_pos; lra). set (A0 := S * (1 - k)) in *.
    assert (B : r * r + t * t < A0 * A0).
    { assert (r + t < A0) by lra. assert ((r + t) * (r + t) < A0 * A0) by nra. assert (0 <= r * t) by (apply Rmult_le_pos; lra). nra. }
    assert (A0 * A0 <= S * S * (1 - k)).
    { unfold A0. replace (S * (1 - k) * (S * (1 - k))) with (S * S * (1 - k) * (1 - k)) by ring.
      assert (0 <= S * S * (1 - k)) by (apply Rmult_le_pos; [nra|lra]). nra. }
    lra.
  - apply Rnot_lt_le. intros C. set (A0 := S * (1 + k)) in *. assert (A : A0 + t < r) by (unfold A0; lra).
    assert (0 <= A0) by (unfold A0; apply Rmult_le_pos; lra).
    assert (B : A0 * A0 + t * t < r * r).
    { assert ((A0 + t) * (A0 + t) < r * r) by nra. assert (0 <= A0 * t) by (apply Rmult_le_pos; lra). nra. }
    assert (S * S * (1 + k) <= A0 * A0).
    { unfold A0. replace (S * (1 + k) * (S * (1 + k))) with (S * S * (1 + k) * (1 + k)) by ring.
      assert (0 <= S * S * (1 + k)) by (apply Rmult_le_pos; [nra|lra]). nra. }
    lra.
Qed.

Definition e73 : R := / IZR (2 ^ 70).
Lemma e73_sq : 4 * tiny <= e73 * e73 / 4.
Proof. unfold tiny, e73. lra. Qed.

Lemma arg_m1_ok x y : moderate x -> moderate y ->
  is_finite (arg_m1 x y) = true /\ B2R (arg_m1 x y) <= 0
  /\ Rabs (B2R (arg_m1 x y) + rms x y / 5) <= 6 / 5 * u32 * rms x y + e73.
Proof.
  intros [Fx Hx] [Fy Hy]. unfold arg_m1.
  set (X := B2R x) in *. set (Y := B2R y) in *.
  destruct (sq_le X Hx) as [X0 X1]. destruct (sq_le Y Hy) as [Y0 Y1].
  assert (Z0 : 0 <= IZR (2 ^ 120)) by (apply IZR_le; lia).
  assert (T0 : 0 < tiny) by (unfold tiny; apply Rinv_0_lt_compat; apply IZR_lt; reflexivity).
  assert (T1 : tiny <= 1) by (unfold tiny; lra).
  destruct (mul_round 24 128 x x Fx Fx) as [Fa Ea].
  { fold X. rewrite big32, Rabs_pos_eq by exact X0. lra. }
  destruct (mul_round 24 128 y y Fy Fy) as [Fb Eb].
  { fold Y. rewrite big32, Rabs_pos_eq by exact Y0. lra. }
  fold X in Ea. fold Y in Eb.
  pose proof (rnd_nonneg 24 128 (X * X) X0) as Pa. pose proof (rnd_nonneg 24 128 (Y * Y) Y0) as Pb.
  pose proof (rnd32_err (X * X)) as Ra. pose proof (rnd32_err (Y * Y)) as Rb.
  rewrite <- Ea in Pa, Ra. rewrite <- Eb in Pb, Rb. rewrite (Rabs_pos_eq (X * X)) in Ra by exact X0. rewrite (Rabs_pos_eq (Y * Y)) in Rb by exact Y0.
  set (a := fmul x x) in *. set (b := fmul y y) in *. apply Rabs_le_inv in Ra. apply Rabs_le_inv in Rb.
  unfold u32 in Ra, Rb.
  destruct (add_round 24 128 a b Fa Fb) as [Fs Es].
  { rewrite big32, Rabs_pos_eq by lra. lra. }
  pose proof (add_err a b) as Rs. rewrite <- Es in Rs. rewrite (Rabs_pos_eq (B2R a + B2R b)) in Rs by lra.
  pose proof (rnd_nonneg 24 128 (B2R a + B2R b) ltac:(lra)) as Ps. rewrite <- Es in Ps.
  set (s := fadd a b) in *. apply Rabs_le_inv in Rs. unfold u32 in Rs.
  destruct lit_05 as [L5 F5].
  destruct (mul_round 24 128 f32_0_5 s F5 Fs) as [Fh Eh].
  { rewrite L5, big32, Rabs_pos_eq by lra. lra. }
  rewrite L5 in Eh. pose proof (rnd32_err (/ 2 * B2R s)) as Rh.
  pose proof (rnd_nonneg 24 128 (/ 2 * B2R s) ltac:(lra)) as Ph. rewrite <- Eh in Rh, Ph.
  rewrite (Rabs_pos_eq (/ 2 * B2R s)) in Rh by lra. set (h := fmul f32_0_5 s) in *. apply Rabs_le_inv in Rh. unfold u32 in Rh.
  (* the square root *)
  unfold rms. fold X Y. replace (5 / 10 * (X ^ 2 + Y ^ 2)) with ((X * X + Y * Y) / 2) by (simpl; field).
  set (S2 := (X * X + Y * Y) / 2). assert (S2p : 0 <= S2) by (unfold S2; lra).
  set (S := sqrt S2). assert (Sp : 0 <= S) by apply sqrt_pos.
  assert (SS : S * S = S2) by (apply sqrt_sqrt, S2p).
  assert (Sb : S <= 2 ^ 61).
  { apply Rnot_lt_le. intros C. assert (2 ^ 61 * 2 ^ 61 < S * S) by nra. rewrite SS in H. unfold S2 in H. simpl pow in H. lra. }
  assert (e0 : 0 < e73) by (unfold e73; apply Rinv_0_lt_compat; apply IZR_lt; reflexivity).
  assert (RS : Rabs (sqrt (B2R h) - S) <= 31 / 10 * u32 * S + e73 / 2).
  { apply sqrt_close; [exact Ph|exact Sp|unfold u32; lra|lra|].
    rewrite SS. pose proof e73_sq. apply Rabs_le. unfold u32, S2. lra. }
  apply Rabs_le_inv in RS.
  destruct (sqrt_round 24 128 h Fh Ph) as [Fq Eq].
  assert (RqA : exists e, Rabs e <= u32 /\ B2R (Bsqrt mode_NE h) = sqrt (B2R h) * (1 + e)).
  { destruct (Verif.Proofs.FloatRange.sqrt_rel 24 128 h Fh Ph) as (_ & e & He & E). exists e. rewrite <- u32_eq. auto. }
  destruct RqA as (eq & Heq & Eqq).
  assert (Rq : Rabs (B2R (Bsqrt mode_NE h) - sqrt (B2R h)) <= u32 * sqrt (B2R h)).
  { rewrite Eqq. replace (sqrt (B2R h) * (1 + eq) - sqrt (B2R h)) with (eq * sqrt (B2R h)) by ring.
    rewrite Rabs_mult, (Rabs_pos_eq (sqrt (B2R h))) by apply sqrt_pos. apply Rmult_le_compat_r; [apply sqrt_pos|exact Heq]. }
  apply Rabs_le_inv in Rq. pose proof (sqrt_pos (B2R h)) as Pr.
  assert (Pq : 0 <= B2R (Bsqrt mode_NE h)) by (rewrite Eq; apply (rnd_nonneg 24 128); exact Pr).
  set (q := Bsqrt mode_NE h) in *. set (r := sqrt (B2R h)) in *. unfold u32 in Rq, RS.
  destruct lit_02 as [L2 F2].
  assert (E70 : e73 <= 1) by (unfold e73; lra).
  simpl pow in Sb.
  destruct (mul_round 24 128 (Bopp f32_0_2) q) as [Ft Et].
  { rewrite opp_finite. exact F2. } { exact Fq. }
  { rewrite B2R_Bopp, L2, big32. rewrite Rabs_left1 by nra. assert (Q : B2R q <= 2 ^ 62) by (simpl pow; lra). simpl pow in Q. lra. }
  split; [exact Ft|]. rewrite Et. rewrite B2R_Bopp, L2.
  split; [apply (rnd_nonpos 24 128); nra|].
  pose proof (rnd32_err (- (13421773 / 67108864) * B2R q)) as Rt.
  rewrite (Rabs_left1 (- (13421773 / 67108864) * B2R q)) in Rt by nra.
  set (t := rnd32 _) in *. apply Rabs_le_inv in Rt. apply Rabs_le. unfold u32 in *.
  assert (tiny <= e73 / 100) by (unfold tiny, e73; lra). lra.
Qed.

Lemma arg_cos_ok x : moderate x ->
  is_finite (arg_cos x) = true /\ Rabs (B2R (arg_cos x) - 2 * PI * B2R x) <= 10 * u32 * Rabs (B2R x) + tiny.
Proof.
  intros [Fx Hx]. unfold arg_cos. set (X := B2R x) in *.
  assert (K : B2R (fmul (f32_of_Z 2) f32_PI) = 13176795 / 2097152 /\ is_finite (fmul (f32_of_Z 2) f32_PI) = true)
    by (split; [vm_compute; lra|reflexivity]).
  destruct K as [K FK].
  destruct (mul_round 24 128 (fmul (f32_of_Z 2) f32_PI) x FK Fx) as [F E].
  { rewrite K, big32, Rabs_mult, (Rabs_pos_eq (13176795 / 2097152)) by lra. fold X. simpl pow in Hx. lra. }
  split; [exact F|]. rewrite E, K. fold X.
  pose proof (rnd32_err (13176795 / 2097152 * X)) as Rt. set (t := rnd32 _) in *.
  rewrite Rabs_mult, (Rabs_pos_eq (13176795 / 2097152)) in Rt by lra.
  replace (t - 2 * PI * X) with ((t - 13176795 / 2097152 * X) + (13176795 / 2097152 - 2 * PI) * X) by ring.
  eapply Rle_trans; [apply Rabs_triang|]. rewrite (Rabs_mult _ X).
  assert (D : Rabs (13176795 / 2097152 - 2 * PI) <= 3 * u32) by (pose proof PI_close; unfold u32; apply Rabs_le; lra).
  pose proof (Rabs_pos X) as PX. assert (Rabs (13176795 / 2097152 - 2 * PI) * Rabs X <= 3 * u32 * Rabs X) by (apply Rmult_le_compat_r; assumption).
  unfold u32 in *. lra.
Qed.

(** ** What is assumed of libm *)
(** Range: the cosine stays in [-1,1], exp of an argument up to 1 is between 0 and the constant E,
    exp_m1 of a non-positive argument is between -1 and 0; finite arguments give finite values. *)
Record libm_in_range (ex em co : f32 -> f32) : Prop := MkInRange {
  range_cos : forall t, is_finite t = true -> is_finite (co t) = true /\ -1 <= B2R (co t) <= 1;
  range_exp : forall t, is_finite t = true -> -1 <= B2R t <= 1 -> is_finite (ex t) = true /\ 0 <= B2R (ex t) <= B2R f32_E;
  range_em1 : forall t, is_finite t = true -> B2R t <= 0 -> is_finite (em t) = true /\ -1 <= B2R (em t) <= 0
}.

(** Accuracy: every value is within [eta] of the mathematical one (on the arguments that can occur). *)
Record libm_accurate (eta : R) (ex em co : f32 -> f32) : Prop := MkAccurate {
  acc_cos : forall t, is_finite t = true -> is_finite (co t) = true /\ Rabs (B2R (co t) - cos (B2R t)) <= eta;
  acc_exp : forall t, is_finite t = true -> -2 <= B2R t <= 2 -> is_finite (ex t) = true /\ Rabs (B2R (ex t) - exp (B2R t)) <= eta;
  acc_em1 : forall t, is_finite t = true -> B2R t <= 0 -> is_finite (em t) = true /\ Rabs (B2R (em t) - (exp (B2R t) - 1)) <= eta
}.

Lemma ackley_unfold ex em co x y :
  ackley (f32_ackley_ops ex em co) x y =
  Ok (fsub (fmul (Bopp (f32_of_Z 20)) (em (arg_m1 x y)))
           (fsub (ex (fmul f32_0_5 (fadd (co (arg_cos x)) (co (arg_cos y))))) f32_E)).
Proof. reflexivity. Qed.

Lemma half_big32_ge v : Rabs v <= 100 -> Rabs v <= half_big 128.
Proof. intros H. rewrite big32. eapply Rle_trans; [exact H|]. apply IZR_le. lia. Qed.

Lemma small_int k : (Z.abs k <= 100)%Z -> B2R (f32_of_Z k) = IZR k /\ is_finite (f32_of_Z k) = true.
Proof.
  intros Hk. unfold fl_int. pose proof (binary_normalize_correct 24 128 f32_prec f32_emax mode_NE k 0 false) as C.
  cbn zeta in C.
  assert (G : generic_format radix2 (SpecFloat.fexp 24 128) (IZR k)).
  { replace (IZR k) with (F2R (Float radix2 k 0)) by (unfold F2R; simpl; ring).
    apply generic_format_F2R. intros Nz. unfold cexp, SpecFloat.fexp, SpecFloat.emin.
    assert (M : (mag radix2 (F2R (Float radix2 k 0)) <= 7)%Z).
    { apply mag_le_bpow; [unfold F2R; simpl; rewrite Rmult_1_r; apply not_0_IZR, Nz|].
      unfold F2R; cbn [Fnum Fexp bpow]. rewrite Rmult_1_r, <- abs_IZR. apply IZR_lt. simpl. lia. }
    lia. }
  replace (F2R (Float radix2 k 0)) with (IZR k) in C by (unfold F2R; simpl; ring).
  rewrite round_generic in C by (try apply valid_rnd_round_mode; exact G).
  rewrite Rlt_bool_true in C; [exact (conj (proj1 C) (proj1 (proj2 C)))|].
  rewrite <- abs_IZR. apply Rle_lt_trans with (IZR 100); [apply IZR_le, Hk|]. apply IZR_lt. reflexivity.
Qed.
Lemma rnd32_up v k : v <= IZR k -> (Z.abs k <= 100)%Z -> rnd32 v <= IZR k.
Proof. intros H Hk. rewrite <- (proj1 (small_int k Hk)) in *. apply (rnd_le_B2R 24 128), H. Qed.
Lemma rnd32_down v k : IZR k <= v -> (Z.abs k <= 100)%Z -> IZR k <= rnd32 v.
Proof. intros H Hk. rewrite <- (proj1 (small_int k Hk)) in *. apply (rnd_ge_B2R 24 128), H. Qed.

(** ** Theorems *)
(** The computed value is never negative (the documented global minimum is 0) and never above 23. *)
Theorem C71_f32_nonnegative : forall ex em co x y,
  libm_in_range ex em co -> moderate x -> moderate y ->
  exists r, ackley (f32_ackley_ops ex em co) x y = Ok r /\ is_finite r = true /\ 0 <= B2R r <= 23.
Proof.
  intros ex em co x y [Rc Re Rm] Hx Hy. rewrite ackley_unfold. eexists. split; [reflexivity|].
  destruct (arg_m1_ok x y Hx Hy) as (Ft & Nt & _).
  destruct (arg_cos_ok x Hx) as (Fcx & _). destruct (arg_cos_ok y Hy) as (Fcy & _).
  destruct (Rc _ Fcx) as [F1 B1]. destruct (Rc _ Fcy) as [F2 B2]. destruct (Rm _ Ft Nt) as [F3 B3].
  set (cx := co (arg_cos x)) in *. set (cy := co (arg_cos y)) in *. set (m := em (arg_m1 x y)) in *.
  destruct (add_round 24 128 cx cy F1 F2) as [Fs Es]; [apply half_big32_ge, Rabs_le; lra|].
  assert (Bs : -2 <= B2R (fadd cx cy) <= 2).
  { rewrite Es. split; [apply (rnd32_down _ (-2))|apply (rnd32_up _ 2)]; try lia; lra. }
  set (s := fadd cx cy) in *. destruct lit_05 as [L5 F5].
  destruct (mul_round 24 128 f32_0_5 s F5 Fs) as [Fv Ev]; [rewrite L5; apply half_big32_ge, Rabs_le; lra|]. rewrite L5 in Ev.
  assert (Bv : -1 <= B2R (fmul f32_0_5 s) <= 1).
  { rewrite Ev. split; [apply (rnd32_down _ (-1))|apply (rnd32_up _ 1)]; try lia; lra. }
  set (v := fmul f32_0_5 s) in *. destruct (Re _ Fv Bv) as [Fw Bw]. set (w := ex v) in *.
  destruct lit_E as [LE FE]. destruct lit_20 as [L20 F20].
  destruct (sub_round 24 128 w f32_E Fw FE) as [Fd Ed]; [apply half_big32_ge, Rabs_le; lra|].
  assert (Bd : -3 <= B2R (fsub w f32_E) <= 0).
  { rewrite Ed. split; [apply (rnd32_down _ (-3))|apply (rnd32_up _ 0)]; try lia; lra. }
  set (d := fsub w f32_E) in *.
  destruct (mul_round 24 128 (Bopp (f32_of_Z 20)) m) as [Fp Ep];
    [rewrite opp_finite; exact F20|exact F3|rewrite B2R_Bopp, L20; apply half_big32_ge, Rabs_le; lra|].
  rewrite B2R_Bopp, L20 in Ep.
  assert (Bp : 0 <= B2R (fmul (Bopp (f32_of_Z 20)) m) <= 20).
  { rewrite Ep. split; [apply (rnd32_down _ 0)|apply (rnd32_up _ 20)]; try lia; lra. }
  set (p := fmul (Bopp (f32_of_Z 20)) m) in *.
  destruct (sub_round 24 128 p d Fp Fd) as [Fr Er]; [apply half_big32_ge, Rabs_le; lra|].
  split; [exact Fr|]. rewrite Er.
  split; [apply (rnd32_down _ 0)|apply (rnd32_up _ 23)]; try lia; lra.
Qed.

(** At the origin, whatever the signs of the zeros, the result is exactly +0. *)
Theorem C71_f32_origin : forall ex em co sx sy,
  em (B754_zero true) = B754_zero true ->
  (forall s, co (B754_zero s) = f32_of_Z 1) -> ex (f32_of_Z 1) = f32_E ->
  ackley (f32_ackley_ops ex em co) (B754_zero sx) (B754_zero sy) = Ok (B754_zero false).
Proof.
  intros ex em co sx sy Hm Hc He. rewrite ackley_unfold.
  assert (A : arg_m1 (B754_zero sx) (B754_zero sy) = B754_zero true) by (destruct sx, sy; vm_compute; reflexivity).
  assert (C : forall s, exists s', arg_cos (B754_zero s) = B754_zero s') by (intros []; eexists; vm_compute; reflexivity).
  destruct (C sx) as [s1 E1]. destruct (C sy) as [s2 E2]. rewrite A, E1, E2, Hm, !Hc.
  assert (V : fmul f32_0_5 (fadd (f32_of_Z 1) (f32_of_Z 1)) = f32_of_Z 1) by (apply B2SF_inj; vm_compute; reflexivity).
  rewrite V, He. vm_compute. reflexivity.
Qed.

Lemma exp_65 : exp (6 / 5) <= 17 / 5.
Proof.
  replace (6 / 5) with (1 + 1 / 5) by lra. rewrite exp_plus. pose proof E_close as [_ U]. pose proof (exp_pos 1).
  assert (M : exp (1 / 5) * exp (- (1 / 5)) = 1) by (rewrite <- exp_plus; replace (1 / 5 + - (1 / 5)) with 0 by lra; apply exp_0).
  pose proof (exp_ineq1_le (- (1 / 5))) as I. pose proof (exp_pos (1 / 5)).
  assert (exp (1 / 5) <= 5 / 4) by nra. nra.
Qed.

Lemma rms_le x y : 0 <= rms x y <= Rabs (B2R x) + Rabs (B2R y).
Proof.
  unfold rms. split; [apply sqrt_pos|]. set (X := B2R x). set (Y := B2R y).
  pose proof (Rabs_pos X). pose proof (Rabs_pos Y).
  rewrite <- (sqrt_Rsqr (Rabs X + Rabs Y)) by lra. apply sqrt_le_1_alt. unfold Rsqr.
  replace (X ^ 2) with (Rabs X * Rabs X) by (rewrite <- Rabs_mult, Rabs_pos_eq; [ring|nra]).
  replace (Y ^ 2) with (Rabs Y * Rabs Y) by (rewrite <- Rabs_mult, Rabs_pos_eq; [ring|nra]). nra.
Qed.

(** Absolute error of the computed value: [u32 = 2^-24]. *)
Theorem C71_f32_error : forall eta ex em co x y,
  0 <= eta <= 1 / 8 -> libm_accurate eta ex em co -> moderate x -> moderate y ->
  exists r, ackley (f32_ackley_ops ex em co) x y = Ok r /\ is_finite r = true /\
    Rabs (B2R r - ackley_formula (B2R x) (B2R y))
      <= 25 * eta + 64 * / 2 ^ 24 + 42 * / 2 ^ 24 * (Rabs (B2R x) + Rabs (B2R y)).
Proof.
  intros eta ex em co x y Heta [Rc Re Rm] Hx Hy. rewrite ackley_unfold. eexists. split; [reflexivity|].
  destruct (arg_m1_ok x y Hx Hy) as (Ft & Nt & Et).
  destruct (arg_cos_ok x Hx) as (Fcx & Ecx). destruct (arg_cos_ok y Hy) as (Fcy & Ecy).
  destruct (Rc _ Fcx) as [F1 B1]. destruct (Rc _ Fcy) as [F2 B2]. destruct (Rm _ Ft Nt) as [F3 B3].
  destruct (rms_le x y) as [S0 S1]. set (S := rms x y) in *.
  set (X := B2R x) in *. set (Y := B2R y) in *.
  set (cx := co (arg_cos x)) in *. set (cy := co (arg_cos y)) in *. set (m := em (arg_m1 x y)) in *.
  (* the cosines *)
  pose proof (cos_lip (B2R (arg_cos x)) (2 * PI * X)) as Lx. pose proof (cos_lip (B2R (arg_cos y)) (2 * PI * Y)) as Ly.
  assert (Dx : Rabs (B2R cx - cos (2 * PI * X)) <= eta + (10 * u32 * Rabs X + tiny)).
  { replace (B2R cx - cos (2 * PI * X)) with ((B2R cx - cos (B2R (arg_cos x))) + (cos (B2R (arg_cos x)) - cos (2 * PI * X))) by ring.
    eapply Rle_trans; [apply Rabs_triang|]. lra. }
  assert (Dy : Rabs (B2R cy - cos (2 * PI * Y)) <= eta + (10 * u32 * Rabs Y + tiny)).
  { replace (B2R cy - cos (2 * PI * Y)) with ((B2R cy - cos (B2R (arg_cos y))) + (cos (B2R (arg_cos y)) - cos (2 * PI * Y))) by ring.
    eapply Rle_trans; [apply Rabs_triang|]. lra. }
  apply Rabs_le_inv in B1. apply Rabs_le_inv in B2. apply Rabs_le_inv in Dx. apply Rabs_le_inv in Dy.
  pose proof (COS_bound (B2R (arg_cos x))). pose proof (COS_bound (B2R (arg_cos y))).
  pose proof (COS_bound (2 * PI * X)). pose proof (COS_bound (2 * PI * Y)).
  assert (T0 : 0 < tiny <= / 1000000 * u32) by (unfold tiny, u32; lra).
  assert (E0 : 0 < e73 <= / 1000000 * u32) by (unfold e73, u32; lra).
  assert (U0 : 0 < u32 <= / 10000000) by (unfold u32; lra).
  destruct (add_round 24 128 cx cy F1 F2) as [Fs Es]; [apply half_big32_ge, Rabs_le; lra|].
  assert (Qs : Rabs (B2R (fadd cx cy) - (B2R cx + B2R cy)) <= u32 * (9 / 4)).
  { rewrite Es. eapply Rle_trans; [apply add_err|]. apply Rmult_le_compat_l; [lra|]. apply Rabs_le; lra. }
  apply Rabs_le_inv in Qs. set (s := fadd cx cy) in *. destruct lit_05 as [L5 F5].
  destruct (mul_round 24 128 f32_0_5 s F5 Fs) as [Fv Ev]; [rewrite L5; apply half_big32_ge, Rabs_le; lra|]. rewrite L5 in Ev.
  assert (Qv : Rabs (B2R (fmul f32_0_5 s) - / 2 * B2R s) <= u32 * (6 / 5) + tiny).
  { rewrite Ev. eapply Rle_trans; [apply rnd32_err|]. apply Rplus_le_compat_r, Rmult_le_compat_l; [lra|]. apply Rabs_le; lra. }
  apply Rabs_le_inv in Qv. set (v := fmul f32_0_5 s) in *.
  destruct (Re v Fv) as [Fw Bw]; [lra|]. set (w := ex v) in *.
  set (V := 5 / 10 * (cos (2 * PI * X) + cos (2 * PI * Y))).
  pose proof exp_65 as E65.
  assert (Dv : Rabs (B2R v - V) <= eta + 5 * u32 * (Rabs X + Rabs Y) + 12 / 5 * u32) by (apply Rabs_le; unfold V; lra).
  assert (Dw : Rabs (exp (B2R v) - exp V) <= 17 / 5 * (eta + 5 * u32 * (Rabs X + Rabs Y) + 12 / 5 * u32)).
  { eapply Rle_trans; [apply (exp_lip _ _ (6 / 5)); [lra|unfold V; lra]|].
    apply Rmult_le_compat; [left; apply exp_pos|apply Rabs_pos|exact E65|exact Dv]. }
  assert (Wb : 0 < exp (B2R v) <= 17 / 5).
  { split; [apply exp_pos|]. eapply Rle_trans; [apply exp_mono|exact E65]. lra. }
  apply Rabs_le_inv in Bw. apply Rabs_le_inv in Dw.
  destruct lit_E as [LE FE]. destruct lit_20 as [L20 F20]. pose proof E_close as Ecl.
  destruct (sub_round 24 128 w f32_E Fw FE) as [Fd Ed]; [apply half_big32_ge, Rabs_le; lra|].
  assert (Qd : Rabs (B2R (fsub w f32_E) - (B2R w - B2R f32_E)) <= u32 * 3).
  { rewrite Ed. eapply Rle_trans; [apply sub_err|]. apply Rmult_le_compat_l; [lra|]. apply Rabs_le; lra. }
  apply Rabs_le_inv in Qd. set (d := fsub w f32_E) in *.
  (* exp_m1 *)
  assert (Dm : Rabs (exp (B2R (arg_m1 x y)) - exp (- (S / 5))) <= 6 / 5 * u32 * S + e73).
  { eapply Rle_trans; [apply (exp_lip _ _ 0); lra|]. rewrite exp_0, Rmult_1_l.
    replace (B2R (arg_m1 x y) - - (S / 5)) with (B2R (arg_m1 x y) + S / 5) by ring. exact Et. }
  assert (Mb : 0 < exp (B2R (arg_m1 x y)) <= 1).
  { split; [apply exp_pos|]. rewrite <- exp_0. apply exp_mono. exact Nt. }
  apply Rabs_le_inv in B3. apply Rabs_le_inv in Dm.
  destruct (mul_round 24 128 (Bopp (f32_of_Z 20)) m) as [Fp Ep];
    [rewrite opp_finite; exact F20|exact F3|rewrite B2R_Bopp, L20; apply half_big32_ge, Rabs_le; lra|].
  rewrite B2R_Bopp, L20 in Ep.
  assert (Qp : Rabs (B2R (fmul (Bopp (f32_of_Z 20)) m) - (-20 * B2R m)) <= u32 * (45 / 2) + tiny).
  { rewrite Ep. eapply Rle_trans; [apply rnd32_err|]. apply Rplus_le_compat_r, Rmult_le_compat_l; [lra|]. apply Rabs_le; lra. }
  apply Rabs_le_inv in Qp. set (p := fmul (Bopp (f32_of_Z 20)) m) in *.
  destruct (sub_round 24 128 p d Fp Fd) as [Fr Er]; [apply half_big32_ge, Rabs_le; lra|].
  split; [exact Fr|].
  assert (Qr : Rabs (B2R (fsub p d) - (B2R p - B2R d)) <= u32 * 26).
  { rewrite Er. eapply Rle_trans; [apply sub_err|]. apply Rmult_le_compat_l; [lra|]. apply Rabs_le; lra. }
  apply Rabs_le_inv in Qr. set (r := fsub p d) in *.
  unfold ackley_formula. fold V.
  replace (- (2 / 10) * sqrt (5 / 10 * (X ^ 2 + Y ^ 2))) with (- (S / 5)) by (unfold S, rms; fold X Y; lra).
  replace (/ 2 ^ 24) with u32 by (unfold u32; f_equal; simpl; lra).
  assert (LE' : -2 * u32 <= B2R f32_E - exp 1 <= 2 * u32) by (rewrite LE; unfold u32; lra).
  assert (US : u32 * S <= u32 * (Rabs X + Rabs Y)) by (apply Rmult_le_compat_l; lra).
  apply Rabs_le. lra.
Qed.

(** ** Such a libm exists: the correctly rounded one *)
Definition f32_nearest (v : R) : f32 :=
  f32_lit (ZnearestE (scaled_mantissa radix2 (SpecFloat.fexp 24 128) v)) (cexp radix2 (SpecFloat.fexp 24 128) v).

Lemma nearest_value v : Rabs v <= 100 -> is_finite (f32_nearest v) = true /\ B2R (f32_nearest v) = rnd32 v.
Proof.
  intros H. unfold f32_nearest, f32_lit.
  set (n := ZnearestE (scaled_mantissa radix2 (SpecFloat.fexp 24 128) v)). set (e := cexp radix2 (SpecFloat.fexp 24 128) v).
  pose proof (binary_normalize_correct 24 128 f32_prec f32_emax mode_NE n e false) as C.
  cbn zeta in C. change (F2R (Float radix2 n e)) with (rnd32 v) in C.
  assert (R2 : rnd32 (rnd32 v) = rnd32 v).
  { apply round_generic; [apply valid_rnd_round_mode|]. apply generic_format_round; [apply fexp_valid; exact f32_prec|apply valid_rnd_round_mode]. }
  rewrite R2 in C.
  rewrite Rlt_bool_true in C; [exact (conj (proj1 (proj2 C)) (proj1 C))|].
  pose proof (proj1 (Rabs_le_inv _ _ H)). pose proof (proj2 (Rabs_le_inv _ _ H)).
  apply Rle_lt_trans with 100; [|change (100 < IZR (2 ^ 128)); apply IZR_lt; reflexivity].
  apply Rabs_le. split; [apply (rnd32_down v (-100))|apply (rnd32_up v 100)]; try lia; assumption.
Qed.

Lemma rnd_e : rnd32 (exp 1) = B2R f32_E.
Proof.
  pose proof E_close as [L U]. rewrite (proj1 lit_E).
  assert (M : mag radix2 (exp 1) = 2%Z :> Z).
  { apply mag_unique. rewrite Rabs_pos_eq by lra. simpl. lra. }
  unfold round, cexp, scaled_mantissa, cexp. rewrite M. change (SpecFloat.fexp 24 128 2) with (-22)%Z.
  assert (N : ZnearestE (exp 1 * bpow radix2 (- (-22))) = 11401300%Z).
  { apply Znearest_imp. change (bpow radix2 (- (-22))) with 4194304. apply Rabs_lt. lra. }
  cbn [round_mode]. rewrite N. unfold F2R. cbn [Fnum Fexp]. change (bpow radix2 (-22)) with (/ 4194304). lra.
Qed.

Definition round_exp (t : f32) : f32 := f32_nearest (exp (B2R t)).
Definition round_em1 (t : f32) : f32 := f32_nearest (exp (B2R t) - 1).
Definition round_cos (t : f32) : f32 := f32_nearest (cos (B2R t)).

Lemma exp_m1_range t : t <= 0 -> -1 < exp t - 1 <= 0.
Proof. intros H. pose proof (exp_pos t). pose proof (exp_mono t 0 H) as E. rewrite exp_0 in E. lra. Qed.

Theorem C71_rounded_libm_in_range : libm_in_range round_exp round_em1 round_cos.
Proof.
  split; intros t Ft.
  - pose proof (COS_bound (B2R t)) as B. destruct (nearest_value (cos (B2R t))) as [F E]; [apply Rabs_le; lra|].
    split; [exact F|]. unfold round_cos. rewrite E. split; [apply (rnd32_down _ (-1))|apply (rnd32_up _ 1)]; try lia; lra.
  - intros B. pose proof (exp_pos (B2R t)) as P. pose proof (exp_mono (B2R t) 1 (proj2 B)) as Q. pose proof E_close.
    destruct (nearest_value (exp (B2R t))) as [F E]; [apply Rabs_le; lra|].
    split; [exact F|]. unfold round_exp. rewrite E. split; [apply (rnd32_down _ 0); [lra|lia]|].
    rewrite <- rnd_e. apply (rnd_le 24 128). exact Q.
  - intros B. pose proof (exp_m1_range _ B). destruct (nearest_value (exp (B2R t) - 1)) as [F E]; [apply Rabs_le; lra|].
    split; [exact F|]. unfold round_em1. rewrite E. split; [apply (rnd32_down _ (-1))|apply (rnd32_up _ 0)]; try lia; lra.
Qed.

Lemma exp_2 : exp 2 <= 15 / 2.
Proof.
  replace 2 with (1 + 1) by lra. rewrite exp_plus. pose proof E_close as [L U].
  apply Rle_trans with (2718281835 / 1000000000 * (2718281835 / 1000000000)); [apply Rmult_le_compat; lra|lra].
Qed.

Theorem C71_rounded_libm_accurate : libm_accurate (8 * / 2 ^ 24) round_exp round_em1 round_cos.
Proof.
  replace (/ 2 ^ 24) with u32 by (unfold u32; f_equal; simpl; lra).
  assert (T0 : 0 < tiny <= / 1000000 * u32) by (unfold tiny, u32; lra).
  assert (G : forall v, Rabs v <= 15 / 2 -> is_finite (f32_nearest v) = true /\ Rabs (B2R (f32_nearest v) - v) <= 8 * u32).
  { intros v H. destruct (nearest_value v) as [F E]; [lra|]. split; [exact F|]. rewrite E.
    eapply Rle_trans; [apply rnd32_err|]. assert (u32 * Rabs v <= u32 * (15 / 2)) by (apply Rmult_le_compat_l; [unfold u32; lra|exact H]). lra. }
  split; intros t Ft.
  - apply G. apply Rabs_le. pose proof (COS_bound (B2R t)). lra.
  - intros B. apply G. apply Rabs_le. pose proof (exp_pos (B2R t)). pose proof (exp_mono (B2R t) 2 (proj2 B)). pose proof exp_2. lra.
  - intros B. apply G. apply Rabs_le. pose proof (exp_m1_range _ B). lra.
Qed.

(** With it, on the documented domain [-5,5]^2, the error is below 685 * 2^-24 < 4.1e-5. *)
Theorem C71_f32_error_on_domain : forall x y : f32,
  is_finite x = true -> is_finite y = true -> -5 <= B2R x <= 5 -> -5 <= B2R y <= 5 ->
  exists r, ackley (f32_ackley_ops round_exp round_em1 round_cos) x y = Ok r /\ is_finite r = true /\ 0 <= B2R r
    /\ Rabs (B2R r - ackley_formula (B2R x) (B2R y)) <= 41 / 1000000.
Proof.
  intros x y Fx Fy Bx By.
  assert (Ax : Rabs (B2R x) <= 5) by (apply Rabs_le; lra). assert (Ay : Rabs (B2R y) <= 5) by (apply Rabs_le; lra).
  assert (Mx : moderate x) by (split; [exact Fx|]; simpl; lra). assert (My : moderate y) by (split; [exact Fy|]; simpl; lra).
  destruct (C71_f32_nonnegative _ _ _ x y C71_rounded_libm_in_range Mx My) as (r & E & F & P & _).
  destruct (C71_f32_error (8 * / 2 ^ 24) round_exp round_em1 round_cos x y) as (r' & E' & _ & Q);
    [simpl; lra|exact C71_rounded_libm_accurate|exact Mx|exact My|].
  rewrite E in E'. injection E' as <-. exists r. repeat split; try assumption.
  eapply Rle_trans; [exact Q|]. simpl pow. lra.
Qed.

(** A concrete case of the hypotheses: x = 1/2, y = -20. *)
Example C71_case : moderate (f32_lit 1 (-1)) /\ moderate (f32_of_Z (-20)) /\ B2R (f32_of_Z (-20)) = -20
  /\ 0 <= 8 * / 2 ^ 24 <= 1 / 8.
Proof.
  destruct (small_int (-20)) as [E F]; [lia|]. destruct lit_05 as [E5 F5].
  repeat split; try assumption; try (simpl; lra).
  - change (f32_lit 1 (-1)) with f32_0_5. rewrite E5, Rabs_pos_eq by lra. simpl. lra.
  - rewrite E, Rabs_left by lra. simpl. lra.
Qed.
Print Assumptions C71_constants.
Print Assumptions C71_f32_nonnegative.
Print Assumptions C71_f32_origin.
Print Assumptions C71_f32_error.
Print Assumptions C71_rounded_libm_in_range.
Print Assumptions C71_rounded_libm_accurate.
Print Assumptions C71_f32_error_on_domain.
