(** Property C74: the elementary functions of Complex<f32> and Complex<f64>, given the accuracy of
    the real functions of libm.

    [B2R x] is the real number a finite float denotes, [u] is the unit roundoff (2^-24 or 2^-53),
    [eta] half the smallest positive number (2^-150 or 2^-1075). *)
From Coq Require Import List ZArith Reals Bool Lia Lra Psatz.
From Flocq Require Import Core.Core IEEE754.BinarySingleNaN.
From Verif Require Import Base.Outcome Model.Traits Model.Float Model.Complex Spec.FloatErr
  Proofs.FloatErr Proofs.FloatRound Proofs.FloatRange Proofs.FloatSqrt Proofs.FloatComm Proofs.PiE Model.RealInstance
  Props.FloatRangeProps Props.FloatSqrtProps Props.FloatDivProps.
Local Open Scope R_scope.

(** A libm call returned a finite number with relative error at most [d]. *)
Definition accurate {prec emax} (d : R) (got : outcome (binary_float prec emax)) (v : R) : Prop :=
  exists y, got = Ok y /\ is_finite y = true /\ Rabs (B2R y - v) <= d * Rabs v.

Lemma cosh_pos b : 0 < cosh b.
Proof. unfold cosh. pose proof (exp_pos b). pose proof (exp_pos (- b)). lra. Qed.
Lemma sinh_le_cosh b : Rabs (sinh b) <= cosh b.
Proof. unfold cosh, sinh. pose proof (exp_pos b). pose proof (exp_pos (- b)). apply Rabs_le. lra. Qed.
Lemma sin_le_1 x : Rabs (sin x) <= 1. Proof. apply Rabs_le. pose proof (SIN_bound x). lra. Qed.
Lemma cos_le_1 x : Rabs (cos x) <= 1. Proof. apply Rabs_le. pose proof (COS_bound x). lra. Qed.

Section Fmt.
Context (prec emax : Z) {Hp : Prec_gt_0 prec} {He : Prec_lt_emax prec emax} (libm : FunOps (binary_float prec emax)).
Notation fl := (binary_float prec emax).
Notation FF := (float_field prec emax).
Notation FE := (float_fun prec emax libm).
Notation u := (unit_roundoff prec).
Notation eta := (underflow_unit prec emax).
Notation rnd := (round radix2 (SpecFloat.fexp prec emax) (round_mode mode_NE)).
Notation mul := (fl_mul prec emax).
Notation lo := (bpow radix2 (2 - emax)).
Notation hi := (half_big emax).
Notation quarter := (bpow radix2 (emax - 2)).
Hypothesis Hprec : (11 <= prec)%Z.

(** The float [x] approximates [v]: relative error 3d + 2u, plus an underflow term that is absent
    when [v] is zero or not tiny (at least 2^(3-emax)). *)
Definition approximates (d : R) (x : fl) (v : R) : Prop :=
  is_finite x = true
  /\ Rabs (B2R x - v) <= (3 * d + 2 * u) * Rabs v + eta
  /\ (v = 0 \/ bpow radix2 (3 - emax) <= Rabs v -> Rabs (B2R x - v) <= (3 * d + 2 * u) * Rabs v).

Lemma ratio x v d : 0 <= d -> Rabs (x - v) <= d * Rabs v -> exists e, Rabs e <= d /\ x = v * (1 + e).
Proof.
  intros Hd H. destruct (Req_dec v 0) as [->|N].
  - rewrite Rabs_R0, Rmult_0_r, Rminus_0_r in H. apply Rabs_le_inv in H. exists 0. rewrite Rabs_R0. split; lra.
  - exists ((x - v) / v). split; [|field; exact N]. pose proof (Rabs_pos_lt v N).
    unfold Rdiv. rewrite Rabs_mult, Rabs_inv. apply Rmult_le_reg_r with (Rabs v); [assumption|].
    rewrite Rmult_assoc, Rinv_l, Rmult_1_r by lra. exact H.
Qed.

Lemma quarter_hi : 2 * quarter = hi.
Proof. unfold half_big. replace (emax - 1)%Z with (1 + (emax - 2))%Z by ring. rewrite bpow_plus. reflexivity. Qed.
Lemma lo_twice : bpow radix2 (3 - emax) = 2 * lo.
Proof. replace (3 - emax)%Z with (1 + (2 - emax))%Z by ring. rewrite bpow_plus. reflexivity. Qed.

Lemma product d (x y : fl) v w : 0 <= d <= 1 / 8 -> is_finite x = true -> is_finite y = true ->
  Rabs (B2R x - v) <= d * Rabs v -> Rabs (B2R y - w) <= d * Rabs w -> Rabs (v * w) <= quarter ->
  approximates d (mul x y) (v * w).
Proof.
  intros Hd Fx Fy Hx Hy HB. pose proof (u_small prec Hprec) as U. pose proof quarter_hi as QH.
  destruct (ratio _ _ _ (proj1 Hd) Hx) as (a & Ha & Ea). destruct (ratio _ _ _ (proj1 Hd) Hy) as (b & Hb & Eb).
  set (t := (1 + a) * (1 + b) - 1).
  assert (Ht : Rabs t <= 17 / 8 * d).
  { unfold t. replace ((1 + a) * (1 + b) - 1) with (a + b + a * b) by ring. eapply Rle_trans; [apply Rabs_triang|]. rewrite Rabs_mult.
    assert (Rabs (a + b) <= 2 * d) by (eapply Rle_trans; [apply Rabs_triang|lra]).
    assert (Rabs a * Rabs b <= d * (1 / 8)) by (apply Rmult_le_compat; try apply Rabs_pos; lra). lra. }
  assert (E : B2R x * B2R y = v * w * (1 + t)) by (rewrite Ea, Eb; unfold t; ring).
  assert (T2 : 11 / 16 <= 1 + t <= 21 / 16) by (apply Rabs_le_inv in Ht; lra).
  pose proof (Rabs_pos (v * w)) as P.
  assert (A : Rabs (B2R x * B2R y) = Rabs (v * w) * (1 + t)) by (rewrite E, Rabs_mult, (Rabs_pos_eq (1 + t)) by lra; reflexivity).
  destruct (mul_round prec emax x y Fx Fy) as [F R]; [rewrite A; nra|].
  assert (K : forall e, Rabs e <= u -> Rabs (v * w * (1 + t) * (1 + e) - v * w) <= (3 * d + 2 * u) * Rabs (v * w)).
  { intros e Hee. replace (v * w * (1 + t) * (1 + e) - v * w) with (v * w * (t + (1 + t) * e)) by ring.
    rewrite Rabs_mult, Rmult_comm. apply Rmult_le_compat_r; [exact P|]. eapply Rle_trans; [apply Rabs_triang|].
    rewrite Rabs_mult, (Rabs_pos_eq (1 + t)) by lra.
    assert ((1 + t) * Rabs e <= 21 / 16 * u) by (apply Rmult_le_compat; try apply Rabs_pos; lra). lra. }
  split; [exact F|]. rewrite R, E. split.
  - destruct (rnd_any prec emax (v * w * (1 + t))) as (e & h & Hee & Hh & ->).
    replace (v * w * (1 + t) * (1 + e) + h - v * w) with (v * w * (1 + t) * (1 + e) - v * w + h) by ring.
    eapply Rle_trans; [apply Rabs_triang|]. apply Rplus_le_compat; [apply K, Hee|exact Hh].
  - intros L. destruct (rnd_rel prec emax (v * w * (1 + t))) as (e & Hee & ->); [|apply K, Hee].
    destruct L as [->|L]; [left; ring|right]. rewrite lo_twice in L.
    rewrite Rabs_mult, (Rabs_pos_eq (1 + t)) by lra. pose proof (bpow_gt_0 radix2 (2 - emax)). nra.
Qed.

Lemma product_neg d (x : fl) v : approximates d x v -> approximates d (Bopp x) (- v).
Proof.
  intros (F & A & B). unfold approximates. rewrite is_finite_Bopp, B2R_Bopp, Rabs_Ropp.
  replace (- B2R x - - v) with (- (B2R x - v)) by ring. rewrite Rabs_Ropp.
  split; [exact F|]. split; [exact A|]. intros L. apply B. destruct L as [L|L]; [left; lra|right; exact L].
Qed.

Lemma le_quarter x y B : Rabs x <= 1 -> Rabs y <= B -> B <= quarter -> Rabs (x * y) <= quarter.
Proof.
  intros Hx Hy HB. rewrite Rabs_mult. pose proof (Rabs_pos x). pose proof (Rabs_pos y).
  assert (Rabs x * Rabs y <= 1 * Rabs y) by (apply Rmult_le_compat_r; lra). lra.
Qed.

(** ** The products: exp, sin, cos, sinh, cosh *)

(** e^(a+ib) = e^a cos b + i e^a sin b. *)
Theorem C74_exp : forall d (z : complex fl), 0 <= d <= 1 / 8 ->
  let a := B2R (re z) in let b := B2R (im z) in
  accurate d (fn_exp libm (re z)) (exp a) -> accurate d (fn_cos libm (im z)) (cos b) -> accurate d (fn_sin libm (im z)) (sin b) ->
  exp a <= quarter ->
  exists w, complex_exp FF FE z = Ok w
    /\ approximates d (re w) (exp a * cos b) /\ approximates d (im w) (exp a * sin b).
Proof.
  intros d z Hd a b (e & Ee & Fe & He') (c & Ec & Fc & Hc) (s & Es & Fs & Hs) Q.
  unfold complex_exp. cbn [fn_exp fn_cos fn_sin float_fun]. rewrite Ee, Ec, Es. cbn [bind]. eexists. split; [reflexivity|]. cbn [re im complex_new].
  pose proof (exp_pos a). assert (Rabs (exp a) <= quarter) by (rewrite Rabs_pos_eq; lra).
  split; apply product; auto; rewrite Rmult_comm; apply le_quarter with quarter; auto using cos_le_1, sin_le_1; lra.
Qed.

(** sin(a+ib) = sin a cosh b + i cos a sinh b. *)
Theorem C74_sin : forall d (z : complex fl), 0 <= d <= 1 / 8 ->
  let a := B2R (re z) in let b := B2R (im z) in
  accurate d (fn_sin libm (re z)) (sin a) -> accurate d (fn_cos libm (re z)) (cos a) ->
  accurate d (fn_sinh libm (im z)) (sinh b) -> accurate d (fn_cosh libm (im z)) (cosh b) ->
  cosh b <= quarter ->
  exists w, complex_sin FF FE z = Ok w
    /\ approximates d (re w) (sin a * cosh b) /\ approximates d (im w) (cos a * sinh b).
Proof.
  intros d z Hd a b (s & Es & Fs & Hs) (c & Ec & Fc & Hc) (sh & Esh & Fsh & Hsh) (ch & Ech & Fch & Hch) Q.
  unfold complex_sin. cbn [fn_sinh fn_cos fn_sin fn_cosh float_fun]. rewrite Es, Ech. cbn [bind]. cbn [f_ring float_field r_mul float_ring bind]. rewrite Ec, Esh. cbn [bind].
  eexists. split; [reflexivity|]. cbn [re im complex_new]. pose proof (cosh_pos b). pose proof (sinh_le_cosh b).
  split; apply product; auto; apply le_quarter with (cosh b); auto using cos_le_1, sin_le_1; rewrite Rabs_pos_eq; lra.
Qed.

(** cos(a+ib) = cos a cosh b - i sin a sinh b. *)
Theorem C74_cos : forall d (z : complex fl), 0 <= d <= 1 / 8 ->
  let a := B2R (re z) in let b := B2R (im z) in
  accurate d (fn_sin libm (re z)) (sin a) -> accurate d (fn_cos libm (re z)) (cos a) ->
  accurate d (fn_sinh libm (im z)) (sinh b) -> accurate d (fn_cosh libm (im z)) (cosh b) ->
  cosh b <= quarter ->
  exists w, complex_cos FF FE z = Ok w
    /\ approximates d (re w) (cos a * cosh b) /\ approximates d (im w) (- (sin a * sinh b)).
Proof.
  intros d z Hd a b (s & Es & Fs & Hs) (c & Ec & Fc & Hc) (sh & Esh & Fsh & Hsh) (ch & Ech & Fch & Hch) Q.
  unfold complex_cos. cbn [fn_sinh fn_cos fn_sin fn_cosh float_fun]. rewrite Ec, Ech. cbn [bind]. cbn [f_ring float_field r_mul r_neg float_ring bind]. rewrite Es, Esh. cbn [bind].
  eexists. split; [reflexivity|]. cbn [re im complex_new]. pose proof (cosh_pos b). pose proof (sinh_le_cosh b).
  split; [|apply product_neg]; apply product; auto; apply le_quarter with (cosh b); auto using cos_le_1, sin_le_1; rewrite Rabs_pos_eq; lra.
Qed.

(** sinh(a+ib) = sinh a cos b + i cosh a sin b. *)
Theorem C74_sinh : forall d (z : complex fl), 0 <= d <= 1 / 8 ->
  let a := B2R (re z) in let b := B2R (im z) in
  accurate d (fn_sin libm (im z)) (sin b) -> accurate d (fn_cos libm (im z)) (cos b) ->
  accurate d (fn_sinh libm (re z)) (sinh a) -> accurate d (fn_cosh libm (re z)) (cosh a) ->
  cosh a <= quarter ->
  exists w, complex_sinh FF FE z = Ok w
    /\ approximates d (re w) (sinh a * cos b) /\ approximates d (im w) (cosh a * sin b).
Proof.
  intros d z Hd a b (s & Es & Fs & Hs) (c & Ec & Fc & Hc) (sh & Esh & Fsh & Hsh) (ch & Ech & Fch & Hch) Q.
  unfold complex_sinh. cbn [fn_sinh fn_cos fn_sin fn_cosh float_fun]. rewrite Esh, Ec. cbn [bind]. cbn [f_ring float_field r_mul r_neg float_ring bind]. rewrite Es, Ech. cbn [bind].
  eexists. split; [reflexivity|]. cbn [re im complex_new]. pose proof (cosh_pos a). pose proof (sinh_le_cosh a).
  split; apply product; auto; rewrite Rmult_comm; apply le_quarter with (cosh a); auto using cos_le_1, sin_le_1; rewrite Rabs_pos_eq; lra.
Qed.

(** cosh(a+ib) = cosh a cos b + i sinh a sin b. *)
Theorem C74_cosh : forall d (z : complex fl), 0 <= d <= 1 / 8 ->
  let a := B2R (re z) in let b := B2R (im z) in
  accurate d (fn_sin libm (im z)) (sin b) -> accurate d (fn_cos libm (im z)) (cos b) ->
  accurate d (fn_sinh libm (re z)) (sinh a) -> accurate d (fn_cosh libm (re z)) (cosh a) ->
  cosh a <= quarter ->
  exists w, complex_cosh FF FE z = Ok w
    /\ approximates d (re w) (cosh a * cos b) /\ approximates d (im w) (sinh a * sin b).
Proof.
  intros d z Hd a b (s & Es & Fs & Hs) (c & Ec & Fc & Hc) (sh & Esh & Fsh & Hsh) (ch & Ech & Fch & Hch) Q.
  unfold complex_cosh. cbn [fn_sinh fn_cos fn_sin fn_cosh float_fun]. rewrite Ech, Ec. cbn [bind]. cbn [f_ring float_field r_mul r_neg float_ring bind]. rewrite Esh, Es. cbn [bind].
  eexists. split; [reflexivity|]. cbn [re im complex_new]. pose proof (cosh_pos a). pose proof (sinh_le_cosh a).
  split; apply product; auto; rewrite Rmult_comm; apply le_quarter with (cosh a); auto using cos_le_1, sin_le_1; rewrite Rabs_pos_eq; lra.
Qed.

(** ** The logarithm *)
Lemma ln_near_1 t : Rabs t <= 1 / 100 -> Rabs (ln (1 + t)) <= 102 / 100 * Rabs t.
Proof.
  intros H. pose proof (Rabs_le_inv _ _ H) as B.
  assert (G : forall x, -1 / 50 <= x -> ln (1 + x) <= x).
  { intros x Hx. rewrite <- (ln_exp x) at 2. destruct (exp_ineq1_le x) as [L|L]; [left; apply ln_increasing; lra|rewrite L; lra]. }
  pose proof (G t ltac:(lra)) as G1.
  assert (I : 1 + t <> 0) by lra. pose proof (G (- t / (1 + t))) as G2.
  assert (E : 1 + - t / (1 + t) = / (1 + t)) by (field; lra). rewrite E, ln_Rinv in G2 by lra.
  assert (D : Rabs (- t / (1 + t)) <= 102 / 100 * Rabs t).
  { unfold Rdiv. rewrite Rabs_mult, Rabs_Ropp, Rmult_comm. apply Rmult_le_compat_r; [apply Rabs_pos|].
    rewrite Rabs_pos_eq by (left; apply Rinv_0_lt_compat; lra). apply Rmult_le_reg_r with (1 + t); [lra|]. rewrite Rinv_l by lra. lra. }
  pose proof (Rabs_le_inv _ _ D) as D'. pose proof (Rabs_pos t). pose proof (Rle_abs t).
  assert (L : Rabs t * (102 / 100) <= 1 / 50) by lra. specialize (G2 ltac:(lra)).
  apply Rabs_le. lra.
Qed.

Lemma norm2_rel k (a b : fl) : (0 <= k)%Z -> (2 * k + 10 <= emax)%Z -> within k a -> within k b ->
  ~ (B2R a = 0 /\ B2R b = 0) ->
  let N := B2R a * B2R a + B2R b * B2R b in
  0 < N /\ is_finite (fl_norm2 prec emax a b) = true
  /\ exists t, Rabs t <= 25 / 10 * u /\ B2R (fl_norm2 prec emax a b) = N * (1 + t).
Proof.
  intros H0 Hk [Fa Ra] [Fb Rb] NZ N. pose proof (Q_facts emax k H0 Hk) as (Q1 & Q2 & Q3 & L0). pose proof (u_small prec Hprec) as U.
  rewrite bpow_opp in Ra, Rb.
  destruct (Z_facts prec emax k H0 Hk a b (conj Fa Ra) (conj Fb Rb)) as (Z0 & Z2 & _ & _ & Z1). fold N in Z2.
  change (B2R a * B2R a + B2R b * B2R b) with N in Z0, Z1. set (Z := sqrt N) in *. set (Q := bpow radix2 k) in *. assert (iQ : 0 < / Q) by (apply Rinv_0_lt_compat; lra).
  destruct Z1 as [Z1|Z1].
  { exfalso. apply NZ. rewrite Z1, Rmult_0_l in Z2. unfold N in Z2. split; nra. }
  assert (N0 : 0 < N) by (rewrite <- Z2; nra).
  assert (NL : 256 * lo <= N).
  { rewrite <- Z2. apply Rle_trans with (/ Q * / Q); [|apply Rmult_le_compat; lra].
    apply Rmult_le_reg_r with (Q * Q); [nra|]. replace (/ Q * / Q * (Q * Q)) with 1 by (field; lra). lra. }
  assert (EL : eta = u * lo) by (unfold underflow_unit, unit_roundoff; rewrite <- bpow_plus; f_equal; ring).
  assert (HE : 256 * eta <= u * N) by (rewrite EL; nra).
  assert (F : is_finite (fl_norm2 prec emax a b) = true).
  { apply norm2_finite; auto; fold N.
    - pose proof (eta_pos prec emax). lra.
    - assert (N <= 2 * Q * (2 * Q)) by (rewrite <- Z2; apply Rmult_le_compat; lra).
      assert ((1 + u) ^ 3 <= 2) by (simpl; nra). assert (0 <= (1 + u) ^ 3) by (apply pow_le; lra).
      apply Rle_lt_trans with (2 * (4 * (Q * Q))); [apply Rmult_le_compat; nra|].
      apply Rlt_le_trans with hi; [nra|]. unfold half_big. apply bpow_le. lia. }
  split; [exact N0|]. split; [exact F|].
  destruct (norm2_error prec emax a b F) as (_ & _ & B). fold N in B.
  apply ratio; [lra|]. rewrite (Rabs_pos_eq N) by lra. eapply Rle_trans; [exact B|].
  assert (u * (u * N) <= / 2048 * (u * N)) by (apply Rmult_le_compat_r; nra). nra.
Qed.

(** ln|z| with absolute error 2u and relative error d + 2u; the argument is what atan2 returns. *)
Theorem C74_ln : forall d k (z : complex fl), 0 <= d <= 1 / 8 ->
  (0 <= k)%Z -> (2 * k + 10 <= emax)%Z -> within k (re z) -> within k (im z) ->
  let a := B2R (re z) in let b := B2R (im z) in ~ (a = 0 /\ b = 0) ->
  (forall x, is_finite x = true -> 0 < B2R x -> accurate d (fn_ln libm x) (ln (B2R x))) ->
  forall th, fn_atan2 libm (im z) (re z) = Ok th ->
  exists w, complex_ln FF FE z = Ok w /\ im w = th /\ is_finite (re w) = true
    /\ Rabs (B2R (re w) - ln (sqrt (a * a + b * b))) <= (d + 2 * u) * Rabs (ln (sqrt (a * a + b * b))) + 2 * u.
Proof.
  intros d k z Hd H0 Hk Ra Rb a b NZ HL th Hth. pose proof (u_small prec Hprec) as U.
  destruct (two_value prec emax Hprec k H0 Hk) as [F2 E2].
  destruct (norm2_rel k (re z) (im z) H0 Hk Ra Rb NZ) as (N0 & Fn & t & Ht & En). fold a b in N0, En. set (N := a * a + b * b) in *.
  assert (T2 : -1 / 100 <= t <= 1 / 100) by (apply Rabs_le_inv in Ht; lra).
  assert (Pn : 0 < B2R (fl_norm2 prec emax (re z) (im z))) by (rewrite En; nra).
  destruct (HL _ Fn Pn) as (l & El & Fl & Hl). rewrite En, ln_mult in Hl by lra.
  assert (S : ln N = 2 * ln (sqrt N)).
  { rewrite <- (sqrt_sqrt N) at 1 by lra. pose proof (sqrt_lt_R0 N N0). rewrite ln_mult by assumption. ring. }
  set (L := ln (sqrt N)) in *. rewrite S in Hl. set (q := ln (1 + t)) in *.
  assert (Hq : Rabs q <= 255 / 100 * u).
  { pose proof (ln_near_1 t ltac:(apply Rabs_le; lra)). fold q in H. lra. }
  destruct (ratio _ _ _ (proj1 Hd) Hl) as (e & Hee & Ee).
  unfold complex_ln. cbn [f_ring float_field r_one r_add f_div float_ring bind]. unfold complex_sqr_norm. cbn [r_add r_mul float_ring f_ring float_field bind].
  cbn [fn_ln fn_atan2 float_fun]. change (fl_add prec emax (fl_mul prec emax (re z) (re z)) (fl_mul prec emax (im z) (im z))) with (fl_norm2 prec emax (re z) (im z)).
  rewrite El. cbn [bind]. rewrite Hth. cbn [bind].
  eexists. split; [reflexivity|]. cbn [re im complex_new]. split; [reflexivity|].
  set (two := fl_add prec emax _ _) in *.
  assert (LB : Rabs (B2R l / B2R two) <= hi).
  { rewrite E2. pose proof (abs_B2R_lt_emax prec emax l). unfold Rdiv. rewrite Rabs_mult, (Rabs_pos_eq (/ 2)) by lra.
    assert (EB : bpow radix2 emax = 2 * bpow radix2 (emax - 1)).
    { transitivity (bpow radix2 (1 + (emax - 1))); [f_equal; ring|]. rewrite bpow_plus. reflexivity. }
    unfold half_big. lra. }
  destruct (div_round prec emax l two Fl ltac:(rewrite E2; lra) LB) as [F E]. split; [exact F|]. rewrite E, E2.
  destruct (rnd_any prec emax (B2R l / 2)) as (e' & h & He' & Hh & Er). rewrite Er, Ee.
  assert (EL : eta = u * lo) by (unfold underflow_unit, unit_roundoff; rewrite <- bpow_plus; f_equal; ring).
  pose proof (Q_facts emax k H0 Hk) as (Q1 & _ & Q3 & L0). assert (LO : lo <= / 256).
  { set (QQ := bpow radix2 k * bpow radix2 k) in *. assert (1 <= QQ) by (unfold QQ; rewrite <- (Rmult_1_l 1) at 1; apply Rmult_le_compat; lra).
    assert (lo * 1 <= lo * QQ) by (apply Rmult_le_compat_l; lra). lra. }
  assert (Hh' : Rabs h <= / 256 * u) by (rewrite EL in Hh; nra).
  replace ((2 * L + q) * (1 + e) / 2 * (1 + e') + h - L) with (L * (e + (1 + e) * e') + q * ((1 + e) * (1 + e') / 2) + h) by field.
  eapply Rle_trans; [apply Rabs_triang|]. 
  assert (A1 : Rabs ((1 + e) * e') <= 9 / 8 * u).
  { rewrite Rabs_mult. apply Rmult_le_compat; try apply Rabs_pos; [|exact He']. apply Rabs_le. apply Rabs_le_inv in Hee. lra. }
  assert (A2 : Rabs (L * (e + (1 + e) * e')) <= (d + 2 * u) * Rabs L).
  { rewrite Rabs_mult, Rmult_comm. apply Rmult_le_compat_r; [apply Rabs_pos|]. eapply Rle_trans; [apply Rabs_triang|]. lra. }
  assert (A3 : Rabs (q * ((1 + e) * (1 + e') / 2)) <= 255 / 100 * u * (6 / 10)).
  { rewrite Rabs_mult. apply Rmult_le_compat; try apply Rabs_pos; [exact Hq|]. apply Rabs_le.
    apply Rabs_le_inv in Hee. apply Rabs_le_inv in He'.
    assert (M : 0 <= (1 + e) * (1 + e') <= 9 / 8 * (1 + / 1000)).
    { split; [apply Rmult_le_pos; lra|apply Rmult_le_compat; lra]. }
    lra. }
  pose proof (Rabs_triang (L * (e + (1 + e) * e')) (q * ((1 + e) * (1 + e') / 2))). lra.
Qed.

(** ** The tangent *)
Lemma two_squares p q : p <> 0 \/ q <> 0 -> 0 < p * p + q * q.
Proof.
  intros H. pose proof (Rle_0_sqr p). pose proof (Rle_0_sqr q). unfold Rsqr in *.
  destruct H as [H|H]; apply Rsqr_pos_lt in H; unfold Rsqr in H; lra.
Qed.
Lemma nm_mul x y c d : sqrt ((x * c - y * d) * (x * c - y * d) + (x * d + y * c) * (x * d + y * c))
  = sqrt (x * x + y * y) * sqrt (c * c + d * d).
Proof. rewrite <- sqrt_mult by nra. f_equal. ring. Qed.
Lemma nm_pos x y : 0 <= sqrt (x * x + y * y). Proof. apply sqrt_pos. Qed.
Lemma nm_sq x y : sqrt (x * x + y * y) * sqrt (x * x + y * y) = x * x + y * y. Proof. apply sqrt_sqrt. nra. Qed.
Lemma abs_sq t : Rabs t * Rabs t = t * t. Proof. rewrite <- Rabs_mult. apply Rabs_pos_eq. nra. Qed.
Lemma nm_comp x y : Rabs x <= sqrt (x * x + y * y) /\ Rabs y <= sqrt (x * x + y * y).
Proof.
  pose proof (nm_pos x y). pose proof (nm_sq x y). pose proof (abs_sq x). pose proof (abs_sq y).
  pose proof (Rabs_pos x). pose proof (Rabs_pos y). split; apply Rnot_lt_le; intros C; nra.
Qed.
Lemma nm_triangle x y x' y' : sqrt ((x + x') * (x + x') + (y + y') * (y + y')) <= sqrt (x * x + y * y) + sqrt (x' * x' + y' * y').
Proof.
  pose proof (cauchy2 x y x' y' _ _ (nm_pos x y) (nm_pos x' y') (nm_sq x y) (nm_sq x' y')) as C.
  pose proof (nm_pos x y). pose proof (nm_sq x y). pose proof (nm_pos x' y'). pose proof (nm_sq x' y').
  pose proof (nm_pos (x + x') (y + y')). pose proof (nm_sq (x + x') (y + y')).
  set (A := sqrt (x * x + y * y)) in *. set (B := sqrt (x' * x' + y' * y')) in *. set (S := sqrt _) in *.
  assert (x * x' + y * y' <= A * B).
  { eapply Rle_trans; [apply Rle_abs|]. eapply Rle_trans; [apply Rabs_triang|]. rewrite !Rabs_mult. exact C. }
  apply Rnot_lt_le. intros L. nra.
Qed.
Lemma nm_le K x y x' y' : 0 <= K -> Rabs x <= K * Rabs x' -> Rabs y <= K * Rabs y' ->
  sqrt (x * x + y * y) <= K * sqrt (x' * x' + y' * y').
Proof.
  intros HK Hx Hy. pose proof (nm_pos x y). pose proof (nm_sq x y). pose proof (nm_pos x' y'). pose proof (nm_sq x' y').
  set (A := sqrt (x * x + y * y)) in *. set (B := sqrt (x' * x' + y' * y')) in *.
  pose proof (abs_sq x). pose proof (abs_sq y). pose proof (abs_sq x'). pose proof (abs_sq y').
  assert (Rabs x * Rabs x <= (K * Rabs x') * (K * Rabs x')) by (apply Rmult_le_compat; try apply Rabs_pos; assumption).
  assert (Rabs y * Rabs y <= (K * Rabs y') * (K * Rabs y')) by (apply Rmult_le_compat; try apply Rabs_pos; assumption).
  assert (A * A <= (K * B) * (K * B)) by nra. assert (0 <= K * B) by (apply Rmult_le_pos; lra).
  apply Rnot_lt_le. intros L. nra.
Qed.

(** The real part of a quotient of perturbed numbers. *)
Lemma perturbed_quotient K sr si cr ci s1 s2 c1 c2 x y x' y' : 0 <= K <= 1 / 8 ->
  Rabs (s1 - sr) <= K * Rabs sr -> Rabs (s2 - si) <= K * Rabs si ->
  Rabs (c1 - cr) <= K * Rabs cr -> Rabs (c2 - ci) <= K * Rabs ci ->
  is_quotient sr si cr ci x y -> is_quotient s1 s2 c1 c2 x' y' ->
  sqrt ((x' - x) * (x' - x) + (y' - y) * (y' - y)) <= 23 / 10 * K * sqrt (x * x + y * y)
  /\ sqrt (s1 * s1 + s2 * s2) / sqrt (c1 * c1 + c2 * c2) <= 8 / 7 * (9 / 8) * sqrt (x * x + y * y).
Proof.
  intros HK H1 H2 H3 H4 (E1 & E2 & N) (E1' & E2' & N').
  pose proof (nm_le K _ _ _ _ (proj1 HK) H1 H2) as DS. pose proof (nm_le K _ _ _ _ (proj1 HK) H3 H4) as DC.
  assert (CP : forall p q, p <> 0 \/ q <> 0 -> 0 < sqrt (p * p + q * q)) by (intros p q Hpq; apply sqrt_lt_R0, two_squares, Hpq).
  pose proof (CP _ _ N) as C0. pose proof (CP _ _ N') as C0'. clear CP.
  (* |S| = |T| |C| *)
  pose proof (nm_mul x y cr ci) as MS. rewrite E1, E2 in MS.
  pose proof (nm_mul x' y' c1 c2) as MS'. rewrite E1', E2' in MS'.
  (* (T' - T) C' = dS - T dC *)
  pose proof (nm_mul (x' - x) (y' - y) c1 c2) as MD.
  replace ((x' - x) * c1 - (y' - y) * c2) with ((s1 - sr) + (- (x * (c1 - cr) - y * (c2 - ci)))) in MD by (rewrite <- E1, <- E1'; ring).
  replace ((x' - x) * c2 + (y' - y) * c1) with ((s2 - si) + (- (x * (c2 - ci) + y * (c1 - cr)))) in MD by (rewrite <- E2, <- E2'; ring).
  pose proof (nm_triangle (s1 - sr) (s2 - si) (- (x * (c1 - cr) - y * (c2 - ci))) (- (x * (c2 - ci) + y * (c1 - cr)))) as T.
  rewrite MD in T. rewrite !Rmult_opp_opp, nm_mul in T.
  pose proof (nm_triangle cr ci (c1 - cr) (c2 - ci)) as TC.
  pose proof (nm_triangle c1 c2 (cr - c1) (ci - c2)) as TC'.
  pose proof (nm_triangle sr si (s1 - sr) (s2 - si)) as TS.
  replace (cr + (c1 - cr)) with c1 in TC by ring. replace (ci + (c2 - ci)) with c2 in TC by ring.
  replace (c1 + (cr - c1)) with cr in TC' by ring. replace (c2 + (ci - c2)) with ci in TC' by ring.
  replace (sr + (s1 - sr)) with s1 in TS by ring. replace (si + (s2 - si)) with s2 in TS by ring.
  replace ((cr - c1) * (cr - c1) + (ci - c2) * (ci - c2)) with ((c1 - cr) * (c1 - cr) + (c2 - ci) * (c2 - ci)) in TC' by ring.
  pose proof (nm_pos x y) as T0. pose proof (nm_pos (x' - x) (y' - y)) as D0.
  pose proof (nm_pos (c1 - cr) (c2 - ci)) as DC0. pose proof (nm_pos (s1 - sr) (s2 - si)) as DS0.
  set (SS := sqrt (sr * sr + si * si)) in *. set (S' := sqrt (s1 * s1 + s2 * s2)) in *.
  set (CC := sqrt (cr * cr + ci * ci)) in *. set (C' := sqrt (c1 * c1 + c2 * c2)) in *.
  set (TT := sqrt (x * x + y * y)) in *. set (DD := sqrt ((x' - x) * (x' - x) + (y' - y) * (y' - y))) in *.
  set (dC := sqrt ((c1 - cr) * (c1 - cr) + (c2 - ci) * (c2 - ci))) in *. set (dS := sqrt ((s1 - sr) * (s1 - sr) + (s2 - si) * (s2 - si))) in *.
  assert (KC : K * CC <= 1 / 8 * CC) by (apply Rmult_le_compat_r; lra).
  assert (LC : 7 / 8 * CC <= C') by lra.
  assert (KT : 0 <= K * TT) by (apply Rmult_le_pos; lra).
  split.
  - assert (B : DD * C' <= 2 * (K * TT) * CC).
    { eapply Rle_trans; [exact T|]. assert (TT * dC <= TT * (K * CC)) by (apply Rmult_le_compat_l; lra). rewrite MS in DS. lra. }
    apply Rmult_le_reg_r with C'; [lra|]. eapply Rle_trans; [exact B|].
    assert (2 * (K * TT) * CC <= 2 * (K * TT) * (8 / 7 * C')) by (apply Rmult_le_compat_l; lra). 
    assert (0 <= K * TT * C') by (apply Rmult_le_pos; lra). lra.
  - apply Rmult_le_reg_r with C'; [lra|]. unfold Rdiv. rewrite Rmult_assoc, Rinv_l, Rmult_1_r by lra.
    assert (K * SS <= 1 / 8 * SS) by (apply Rmult_le_compat_r; [unfold SS; apply nm_pos|lra]).
    assert (TT * CC <= TT * (8 / 7 * C')) by (apply Rmult_le_compat_l; lra). lra.
Qed.

(** A real number that is zero or of magnitude between 2^-k and 2^k. *)
Definition moderate_size (k : Z) (v : R) : Prop := v = 0 \/ bpow radix2 (- k) <= Rabs v <= bpow radix2 k.

Lemma approx_within k d (x : fl) v : (0 <= k)%Z -> (k + 4 <= emax)%Z -> 0 <= d -> 3 * d + 2 * u <= 1 / 8 ->
  approximates d x v -> moderate_size k v ->
  within (k + 1) x /\ Rabs (B2R x - v) <= (3 * d + 2 * u) * Rabs v /\ (B2R x = 0 -> v = 0).
Proof.
  intros H0 Hk Hd HK (F & _ & A) M. pose proof (u_small prec Hprec) as U. 
  assert (L : Rabs (B2R x - v) <= (3 * d + 2 * u) * Rabs v).
  { apply A. destruct M as [M|M]; [left; exact M|right]. apply Rle_trans with (bpow radix2 (- k)); [apply bpow_le; lia|lra]. }
  assert (L8 : Rabs (B2R x - v) <= 1 / 8 * Rabs v) by (eapply Rle_trans; [exact L|apply Rmult_le_compat_r; [apply Rabs_pos|exact HK]]).
  assert (B1 : 7 / 8 * Rabs v <= Rabs (B2R x)).
  { pose proof (Rabs_triang (B2R x) (v - B2R x)). replace (B2R x + (v - B2R x)) with v in H by ring. rewrite (Rabs_minus_sym v) in H. lra. }
  assert (B2 : Rabs (B2R x) <= 9 / 8 * Rabs v).
  { pose proof (Rabs_triang v (B2R x - v)). replace (v + (B2R x - v)) with (B2R x) in H by ring. lra. }
  split; [|split; [exact L|]].
  - split; [exact F|]. destruct M as [M|M].
    + left. rewrite M, Rabs_R0 in B2. pose proof (Rabs_pos (B2R x)). destruct (Req_dec (B2R x) 0) as [|N]; [assumption|]. apply Rabs_pos_lt in N. lra.
    + right. replace (- (k + 1))%Z with (-1 + - k)%Z by ring. replace (k + 1)%Z with (1 + k)%Z by ring. rewrite !bpow_plus.
      simpl (bpow radix2 1). simpl (bpow radix2 (-1)). pose proof (bpow_gt_0 radix2 (- k)). pose proof (bpow_gt_0 radix2 k). lra.
  - intros Z0. rewrite Z0, Rabs_R0 in B1. destruct (Req_dec v 0) as [|N]; [assumption|]. apply Rabs_pos_lt in N. lra.
Qed.

(** tan z = sin z / cos z, each component within (7d + 15u) |tan z|. *)
Theorem C74_tan : forall d k (z : complex fl), 0 <= d -> 3 * d + 2 * u <= 1 / 8 -> (0 <= k)%Z -> (4 * k + 14 <= emax)%Z ->
  let a := B2R (re z) in let b := B2R (im z) in
  accurate d (fn_sin libm (re z)) (sin a) -> accurate d (fn_cos libm (re z)) (cos a) ->
  accurate d (fn_sinh libm (im z)) (sinh b) -> accurate d (fn_cosh libm (im z)) (cosh b) ->
  cosh b <= quarter -> ~ (cos a = 0 /\ b = 0) (* z is not a pole *) ->
  moderate_size k (sin a * cosh b) -> moderate_size k (cos a * sinh b) ->
  moderate_size k (cos a * cosh b) -> moderate_size k (sin a * sinh b) ->
  exists w x y, complex_tan FF FE z = Ok w
    /\ is_quotient (sin a * cosh b) (cos a * sinh b) (cos a * cosh b) (- (sin a * sinh b)) x y
    /\ is_finite (re w) = true /\ Rabs (B2R (re w) - x) <= (7 * d + 15 * u) * sqrt (x * x + y * y)
    /\ is_finite (im w) = true /\ Rabs (B2R (im w) - y) <= (7 * d + 15 * u) * sqrt (x * x + y * y).
Proof.
  intros d k z Hd HK H0 Hk a b A1 A2 A3 A4 Q NP M1 M2 M3 M4. pose proof (u_small prec Hprec) as U.
  assert (Hd8 : 0 <= d <= 1 / 8) by lra.
  destruct (C74_sin d z Hd8 A1 A2 A3 A4 Q) as (S & ES & S1 & S2). destruct (C74_cos d z Hd8 A1 A2 A3 A4 Q) as (C & EC & C1 & C2).
  fold a b in S1, S2, C1, C2.
  assert (M4' : moderate_size k (- (sin a * sinh b))) by (unfold moderate_size in *; rewrite Rabs_Ropp; destruct M4; [left; lra|right; assumption]).
  destruct (approx_within k d _ _ H0 ltac:(lia) Hd HK S1 M1) as (W1 & L1 & _).
  destruct (approx_within k d _ _ H0 ltac:(lia) Hd HK S2 M2) as (W2 & L2 & _).
  destruct (approx_within k d _ _ H0 ltac:(lia) Hd HK C1 M3) as (W3 & L3 & Z3).
  destruct (approx_within k d _ _ H0 ltac:(lia) Hd HK C2 M4') as (W4 & L4 & Z4).
  assert (CZ : ~ (cos a * cosh b = 0 /\ - (sin a * sinh b) = 0)).
  { intros [E1 E2]. pose proof (cosh_pos b). assert (Ca : cos a = 0) by (apply Rmult_integral in E1; destruct E1; lra).
    pose proof (sin2_cos2 a) as P. rewrite Ca in P. unfold Rsqr in P.
    assert (Sb : sinh b = 0). { assert (sin a * sinh b = 0) as X by lra. apply Rmult_integral in X. destruct X as [X|X]; [rewrite X in P; lra|exact X]. }
    apply NP. split; [exact Ca|]. unfold sinh in Sb. assert (E : exp b = exp (- b)) by lra. apply exp_inv in E. lra. }
  assert (NZ : ~ (B2R (re C) = 0 /\ B2R (im C) = 0)) by (intros [E1 E2]; apply CZ; auto).
  destruct (C73_div_accurate prec emax Hprec (k + 1) ltac:(lia) ltac:(lia) S C W1 W2 W3 W4 NZ) as (w & x' & y' & Ew & _ & IQ' & F1 & B1 & F2 & B2).
  assert (P : 0 < cos a * cosh b * (cos a * cosh b) + - (sin a * sinh b) * - (sin a * sinh b)).
  { apply two_squares. destruct (Req_dec (cos a * cosh b) 0) as [E1|E1]; [destruct (Req_dec (- (sin a * sinh b)) 0) as [E2|E2]; [exfalso; auto|]|]; auto. }
  set (sr := sin a * cosh b) in *. set (si := cos a * sinh b) in *. set (cr := cos a * cosh b) in *. set (ci := - (sin a * sinh b)) in *.
  set (x := (sr * cr + si * ci) / (cr * cr + ci * ci)). set (y := (si * cr - sr * ci) / (cr * cr + ci * ci)).
  assert (IQ : is_quotient sr si cr ci x y).
  { unfold is_quotient, x, y. repeat split; try (field; lra). destruct (Req_dec cr 0) as [E1|E1]; [right|left; exact E1]. intros E2. apply CZ; auto. }
  exists w, x, y. unfold complex_tan. rewrite ES. cbn [bind]. rewrite EC. cbn [bind]. split; [exact Ew|]. split; [exact IQ|].
  assert (HK' : 0 <= 3 * d + 2 * u <= 1 / 8) by lra.
  destruct (perturbed_quotient _ _ _ _ _ _ _ _ _ _ _ _ _ HK' L1 L2 L3 L4 IQ IQ') as [D G].
  destruct (nm_comp (x' - x) (y' - y)) as [D1 D2]. pose proof (nm_pos x y) as T0.
  set (TT := sqrt (x * x + y * y)) in *. set (SC := sqrt _ / sqrt _) in *.
  assert (UT : 0 <= u * TT) by (apply Rmult_le_pos; lra). assert (DT : 0 <= d * TT) by (apply Rmult_le_pos; lra).
  assert (G7 : 7 * u * SC <= 9 * (u * TT)).
  { assert (u * SC <= u * (8 / 7 * (9 / 8) * TT)) by (apply Rmult_le_compat_l; lra). lra. }
  assert (R : forall p q r, Rabs (p - q) <= 7 * u * SC -> Rabs (q - r) <= 23 / 10 * (3 * d + 2 * u) * TT -> Rabs (p - r) <= (7 * d + 15 * u) * TT).
  { intros p q r X Y. replace (p - r) with ((p - q) + (q - r)) by ring. eapply Rle_trans; [apply Rabs_triang|]. lra. }
  split; [exact F1|]. split; [apply (R _ x'); [exact B1|lra]|]. split; [exact F2|]. apply (R _ y'); [exact B2|lra].
Qed.
End Fmt.

(** ** Not relatively accurate near the unit circle *)
(** 1 + 2^-40 i has modulus above 1, so the real part of its logarithm is positive; the computed one is zero,
    for every libm whose ln(1) is zero. *)
Theorem C74_ln_relative_refuted : forall libm : FunOps f64, forall th,
  fn_ln libm (f64_of_Z 1) = Ok (f64_of_Z 0) ->
  let z := Cx (f64_of_Z 1) (fl_div 53 1024 (f64_of_Z 1) (f64_of_Z (2 ^ 40))) in
  fn_atan2 libm (im z) (re z) = Ok th ->
  B2R (re z) = 1 /\ B2R (im z) = / 2 ^ 40
  /\ 0 < ln (sqrt (B2R (re z) * B2R (re z) + B2R (im z) * B2R (im z)))
  /\ exists w, complex_ln f64_field (float_fun 53 1024 libm) z = Ok w /\ B2R (re w) = 0.
Proof.
  intros libm th HL z Hth.
  assert (E1 : B2R (re z) = 1) by (vm_compute; lra).
  assert (E2 : B2R (im z) = / 2 ^ 40).
  { assert (Q : im z = binary_normalize 53 1024 f64_prec f64_emax mode_NE 1 (-40) false) by (apply B2SF_inj; vm_compute; reflexivity). rewrite Q. vm_compute; lra. }
  split; [exact E1|]. split; [exact E2|]. split.
  - rewrite E1, E2. assert (P : 0 < / 2 ^ 40) by (apply Rinv_0_lt_compat, pow_lt; lra). set (q := / 2 ^ 40) in *. clearbody q. rewrite <- ln_1. apply ln_increasing; [lra|]. rewrite <- sqrt_1 at 1. apply sqrt_lt_1; nra.
  - unfold complex_ln. cbn [f_ring float_field r_one r_add f_div float_ring bind]. unfold complex_sqr_norm. cbn [r_add r_mul float_ring f_ring float_field bind].
    cbn [fn_ln fn_atan2 float_fun].
    assert (Q : fl_add 53 1024 (fl_mul 53 1024 (re z) (re z)) (fl_mul 53 1024 (im z) (im z)) = f64_of_Z 1) by (apply B2SF_inj; vm_compute; reflexivity).
    rewrite Q, HL. cbn [bind]. rewrite Hth. cbn [bind]. eexists. split; [reflexivity|]. vm_compute. reflexivity.
Qed.

(** ** The hypotheses are met: a correctly rounded libm, in every format *)
Section Rounded.
Context (prec emax : Z) {Hp : Prec_gt_0 prec} {He : Prec_lt_emax prec emax}.
Notation fl := (binary_float prec emax).
Notation u := (unit_roundoff prec).
Notation fexp := (SpecFloat.fexp prec emax).
Notation rnd := (round radix2 fexp (round_mode mode_NE)).

Definition nearest (v : R) : fl :=
  binary_normalize prec emax Hp He mode_NE (ZnearestE (scaled_mantissa radix2 fexp v)) (cexp radix2 fexp v) false.

Lemma nearest_is_rounding v : Rabs v <= half_big emax -> is_finite (nearest v) = true /\ B2R (nearest v) = rnd v.
Proof.
  intros H. unfold nearest. set (n := ZnearestE _). set (e := cexp _ _ v).
  pose proof (binary_normalize_correct prec emax Hp He mode_NE n e false) as C. cbn zeta in C.
  change (F2R (Float radix2 n e)) with (rnd v) in C.
  assert (R2 : rnd (rnd v) = rnd v).
  { apply round_generic; [apply valid_rnd_round_mode|]. apply generic_format_round; [apply fexp_valid; exact Hp|apply valid_rnd_round_mode]. }
  rewrite R2, (small_enough prec emax v H) in C. exact (conj (proj1 (proj2 C)) (proj1 C)).
Qed.

(** Normal results are rounded with relative error u. *)
Lemma nearest_accurate v : v = 0 \/ bpow radix2 (2 - emax) <= Rabs v -> Rabs v <= half_big emax -> accurate u (Ok (nearest v)) v.
Proof.
  intros L H. destruct (nearest_is_rounding v H) as [F E]. exists (nearest v). split; [reflexivity|]. split; [exact F|].
  rewrite E. destruct (rnd_rel prec emax v L) as (e & He' & ->). replace (v * (1 + e) - v) with (v * e) by ring.
  rewrite Rabs_mult, Rmult_comm. apply Rmult_le_compat_r; [apply Rabs_pos|exact He'].
Qed.

Definition rounded_libm : FunOps fl := {|
  fn_exp := fun x => Ok (nearest (exp (B2R x)));
  fn_sin := fun x => Ok (nearest (sin (B2R x)));
  fn_cos := fun x => Ok (nearest (cos (B2R x)));
  fn_sinh := fun x => Ok (nearest (sinh (B2R x)));
  fn_cosh := fun x => Ok (nearest (cosh (B2R x)));
  fn_ln := fun x => Ok (nearest (ln (B2R x)));
  fn_atan2 := fun y x => Ok (nearest (atan2 (B2R y) (B2R x)));
  fn_sqrt := fun x => Ok (Bsqrt mode_NE x);
  fn_abs := fun x => Ok (Babs x);
  fn_leb := Bleb;
  fn_ltb := Bltb
|}.

Lemma bounded_ok v : bpow radix2 (2 - emax) <= Rabs v <= half_big emax -> accurate u (Ok (nearest v)) v.
Proof. intros [L H]. apply nearest_accurate; auto. Qed.
End Rounded.

(** At z = 1 + i every hypothesis of the theorems above holds in f64, with d = u. *)
Lemma b_lo : bpow radix2 (2 - 1024) <= 1 / 4.
Proof. change (1 / 4) with (/ 4 * 1)%R || idtac. replace (1 / 4) with (bpow radix2 (-2)) by (simpl; lra). apply bpow_le. lia. Qed.
Lemma b_hi : 16 <= half_big 1024 /\ 16 <= bpow radix2 (1024 - 2).
Proof. unfold half_big. change 16 with (bpow radix2 4). split; apply bpow_le; lia. Qed.
Lemma u53 : unit_roundoff 53 = / 2 ^ 53.
Proof. unfold unit_roundoff. simpl. lra. Qed.

(** A float other than 1 is at least 2^-53 away from 1. *)
Lemma gap_at_1 (x : f64) : 0 < B2R x -> B2R x <> 1 -> / 2 ^ 53 <= Rabs (B2R x - 1).
Proof.
  intros P N. pose proof (fexp_valid 53 1024) as V. pose proof (generic_format_B2R 53 1024 x) as G.
  assert (G1 : generic_format radix2 (SpecFloat.fexp 53 1024) 1) by (change 1 with (bpow radix2 0); apply generic_format_bpow; vm_compute; discriminate).
  assert (P53 : 0 < / 2 ^ 53) by (apply Rinv_0_lt_compat, pow_lt; lra).
  assert (S53 : / 2 ^ 53 = bpow radix2 (-53)) by (simpl; lra).
  destruct (Rle_dec 1 (B2R x)) as [H|H].
  - assert (L : 1 < B2R x) by lra. pose proof (succ_le_lt radix2 (SpecFloat.fexp 53 1024) 1 (B2R x) G1 G L) as S.
    rewrite succ_eq_pos in S by lra. change 1 with (bpow radix2 0) in S at 2. rewrite ulp_bpow in S.
    change (SpecFloat.fexp 53 1024 (0 + 1)) with (-52)%Z in S. rewrite Rabs_pos_eq by lra.
    assert (bpow radix2 (-53) <= bpow radix2 (-52)) by (apply bpow_le; lia). lra.
  - assert (L : B2R x < 1) by lra. rewrite Rabs_left by lra. destruct (Rle_dec (/ 2) (B2R x)) as [H2|H2].
    + pose proof (succ_le_lt radix2 (SpecFloat.fexp 53 1024) (B2R x) 1 G G1 L) as S. rewrite succ_eq_pos in S by lra.
      assert (U : bpow radix2 (-53) <= ulp radix2 (SpecFloat.fexp 53 1024) (B2R x)).
      { apply Rle_trans with (ulp radix2 (SpecFloat.fexp 53 1024) (/ 2)).
        - change (/ 2) with (bpow radix2 (-1)). rewrite ulp_bpow. apply bpow_le. vm_compute. discriminate.
        - apply ulp_le_pos; [exact V|apply monotone_exp_FLT_like || apply FLT_exp_monotone|lra|exact H2]. }
      lra.
    + assert (bpow radix2 (-53) <= bpow radix2 (-1)) by (apply bpow_le; lia). simpl (bpow radix2 (-1)) in H0. lra.
Qed.

Lemma ln_ge x : 0 < x -> 1 - / x <= ln x.
Proof.
  intros P. pose proof (exp_ineq1_le (- ln x)) as I. rewrite exp_Ropp, exp_ln in I by exact P. lra.
Qed.
Lemma ln_le x : 0 < x -> ln x <= x - 1.
Proof. intros P. pose proof (exp_ineq1_le (ln x)) as I. rewrite exp_ln in I by exact P. lra. Qed.
Lemma ln_bpow e : ln (bpow radix2 e) = IZR e * ln 2.
Proof.
  rewrite bpow_powerRZ. change (IZR radix2) with 2. rewrite powerRZ_Rpower by lra. unfold Rpower. apply ln_exp.
Qed.

Theorem C74_rounded_ln : forall x : f64, is_finite x = true -> 0 < B2R x ->
  accurate (unit_roundoff 53) (fn_ln (rounded_libm 53 1024) x) (ln (B2R x)).
Proof.
  intros x F P. cbn [fn_ln rounded_libm]. apply nearest_accurate.
  - destruct (Req_dec (B2R x) 1) as [->|N]; [left; apply ln_1|right].
    pose proof (gap_at_1 x P N) as G. assert (S53 : / 2 ^ 53 = bpow radix2 (-53)) by (simpl; lra). rewrite S53 in G.
    apply Rle_trans with (bpow radix2 (-55)); [apply bpow_le; lia|].
    assert (E55 : bpow radix2 (-55) = / 4 * bpow radix2 (-53)) by (simpl; lra). rewrite E55.
    assert (B : bpow radix2 (-53) <= / 2) by (change (/ 2) with (bpow radix2 (-1)); apply bpow_le; lia). pose proof (bpow_gt_0 radix2 (-53)) as B0.
    set (g := bpow radix2 (-53)) in *. set (v := B2R x) in *. clearbody g v. pose proof (ln_ge v P) as L1. pose proof (ln_le v P) as L2.
    destruct (Rle_dec 1 v) as [H|H].
    + rewrite Rabs_pos_eq in G by lra. assert (Q : / 4 * g <= 1 - / v).
      { apply Rmult_le_reg_r with v; [exact P|]. rewrite Rmult_minus_distr_r, Rinv_l by lra. nra. }
      eapply Rle_trans; [|apply Rle_abs]. lra.
    + rewrite Rabs_left in G by lra. rewrite <- Rabs_Ropp. eapply Rle_trans; [|apply Rle_abs]. lra.
  - pose proof (abs_B2R_lt_emax 53 1024 x) as U. rewrite Rabs_pos_eq in U by lra.
    assert (L : bpow radix2 (-1074) <= B2R x).
    { pose proof (abs_B2R_ge_emin 53 1024 x) as Q. rewrite Rabs_pos_eq in Q by lra. apply Q.
      destruct x as [s|s| |s m e Bd]; try reflexivity; try discriminate; simpl in P; lra. }
    assert (L2 : 0 < ln 2 < 1) by (pose proof (ln_le 2 ltac:(lra)); pose proof (ln_ge 2 ltac:(lra)); split; [lra|]; rewrite <- (ln_exp 1); apply ln_increasing; [lra|]; pose proof E_close; lra).
    assert (LU : ln (B2R x) <= IZR 1024 * ln 2) by (rewrite <- ln_bpow; left; apply ln_increasing; assumption).
    assert (LL : IZR (-1074) * ln 2 <= ln (B2R x)).
    { rewrite <- ln_bpow. destruct L as [L|L]; [left; apply ln_increasing; [apply bpow_gt_0|exact L]|rewrite L; lra]. }
    apply Rle_trans with (bpow radix2 11); [|apply bpow_le; lia]. change (bpow radix2 11) with 2048. apply Rabs_le. lra.
Qed.

(** exp with a correctly rounded libm: 5u per component. *)
Theorem C74_rounded_exp : forall z : complex f64,
  let a := B2R (re z) in let b := B2R (im z) in
  bpow radix2 (-1022) <= exp a <= bpow radix2 1022 ->
  (cos b = 0 \/ bpow radix2 (-1022) <= Rabs (cos b)) -> (sin b = 0 \/ bpow radix2 (-1022) <= Rabs (sin b)) ->
  exists w, complex_exp f64_field (float_fun 53 1024 (rounded_libm 53 1024)) z = Ok w
    /\ Rabs (B2R (re w) - exp a * cos b) <= 5 * / 2 ^ 53 * Rabs (exp a * cos b) + / 2 ^ 1075
    /\ Rabs (B2R (im w) - exp a * sin b) <= 5 * / 2 ^ 53 * Rabs (exp a * sin b) + / 2 ^ 1075.
Proof.
  intros z a b Ha Hc Hs. pose proof b_hi as [H1 H2].
  assert (U : 0 <= unit_roundoff 53 <= 1 / 8).
  { rewrite u53. split; [left; apply Rinv_0_lt_compat, pow_lt; lra|simpl; lra]. }
  destruct (C74_exp 53 1024 (rounded_libm 53 1024) ltac:(lia) (unit_roundoff 53) z U) as (w & E & (_ & A & _) & (_ & B & _)).
  - apply nearest_accurate; fold a; rewrite (Rabs_pos_eq (exp a)) by (left; apply exp_pos); [right; exact (proj1 Ha)|].
    apply Rle_trans with (bpow radix2 1022); [lra|]. unfold half_big. apply bpow_le. lia.
  - apply nearest_accurate; [exact Hc|]. pose proof (cos_le_1 b). fold b. lra.
  - apply nearest_accurate; [exact Hs|]. pose proof (sin_le_1 b). fold b. lra.
  - exact (proj2 Ha).
  - exists w. split; [exact E|]. fold a b in A, B.
    assert (ET : underflow_unit 53 1024 = / 2 ^ 1075).
    { unfold underflow_unit. change (2 - 1024 - 53)%Z with (- (1075))%Z. rewrite bpow_opp. f_equal. rewrite bpow_powerRZ. change (IZR radix2) with 2. symmetry. apply (pow_powerRZ 2 1075). }
    rewrite ET, u53 in A, B. split; [eapply Rle_trans; [exact A|]|eapply Rle_trans; [exact B|]]; apply Rplus_le_compat_r; apply Rmult_le_compat_r; try apply Rabs_pos; lra.
Qed.

Lemma at_1 : 1 / 2 <= sin 1 <= 1 /\ 1 / 2 <= cos 1 <= 1 /\ 1 <= sinh 1 <= 2 /\ 1 <= cosh 1 <= 2 /\ 2 <= exp 1 <= 3.
Proof.
  pose proof PI_close as P. pose proof E_close as E. pose proof (SIN_bound 1). pose proof (COS_bound 1).
  assert (S : sin (PI / 6) <= sin 1) by (left; apply sin_increasing_1; lra). rewrite sin_PI6 in S.
  assert (C : cos (PI / 3) <= cos 1) by (left; apply cos_decreasing_1; lra). rewrite cos_PI3 in C.
  assert (I : 1 / 3 <= exp (- (1)) <= 2 / 5).
  { rewrite exp_Ropp. split; apply Rmult_le_reg_r with (exp 1); try lra; rewrite Rinv_l by lra; lra. }
  unfold sinh, cosh. repeat split; lra.
Qed.

(** The hypotheses of every theorem above hold at z = 1 + i in f64 with a correctly rounded libm. *)
Example C74_case : let libm := rounded_libm 53 1024 in let one := f64_of_Z 1 in let u := unit_roundoff 53 in
  B2R one = 1 /\ 3 * u + 2 * u <= 1 / 8
  /\ accurate u (fn_exp libm one) (exp 1) /\ accurate u (fn_sin libm one) (sin 1) /\ accurate u (fn_cos libm one) (cos 1)
  /\ accurate u (fn_sinh libm one) (sinh 1) /\ accurate u (fn_cosh libm one) (cosh 1)
  /\ exp 1 <= bpow radix2 (1024 - 2) /\ cosh 1 <= bpow radix2 (1024 - 2) /\ ~ (cos 1 = 0 /\ 1 = 0) /\ within 250 one
  /\ moderate_size 250 (sin 1 * cosh 1) /\ moderate_size 250 (cos 1 * sinh 1)
  /\ moderate_size 250 (cos 1 * cosh 1) /\ moderate_size 250 (sin 1 * sinh 1).
Proof.
  intros libm one u. assert (E : B2R one = 1) by (vm_compute; lra).
  pose proof at_1 as (S & C & SH & CH & EX). pose proof b_hi as [H1 H2]. pose proof b_lo as HL.
  assert (A : forall v, 1 / 2 <= v <= 3 -> accurate u (Ok (nearest 53 1024 v)) v).
  { intros v Hv. apply bounded_ok. rewrite Rabs_pos_eq by lra. lra. }
  assert (L250 : bpow radix2 (- (250)) <= 1 / 2) by (replace (1 / 2) with (bpow radix2 (-1)) by (simpl; lra); apply bpow_le; lia).
  assert (H250 : 4 <= bpow radix2 250) by (change 4 with (bpow radix2 2); apply bpow_le; lia).
  assert (M : forall v w, 1 / 2 <= v <= 1 -> 1 <= w <= 2 -> moderate_size 250 (v * w)).
  { intros v w Hv Hw. right. rewrite Rabs_pos_eq by nra. split; nra. }
  split; [exact E|]. split; [unfold u; rewrite u53; simpl; lra|]. unfold libm. cbn [fn_exp fn_sin fn_cos fn_sinh fn_cosh rounded_libm]. rewrite E.
  repeat match goal with |- _ /\ _ => split end; try (apply A; lra); try (apply M; lra); try lra.
  split; [reflexivity|right]. rewrite E, Rabs_R1. lra.
Qed.
Print Assumptions C74_exp.
Print Assumptions C74_sin.
Print Assumptions C74_cos.
Print Assumptions C74_sinh.
Print Assumptions C74_cosh.
Print Assumptions C74_tan.
Print Assumptions C74_ln.
Print Assumptions C74_ln_relative_refuted.
Print Assumptions C74_rounded_ln.
Print Assumptions C74_rounded_exp.
