(** Property C105: the textbook identities between the elementary functions of Complex<f32> and Complex<f64> hold up to
    rounding, given the accuracy of libm: |e^z| = e^Re z, the polar form, e^z e^-z = 1, sqrt z = e^(ln(z)/2),
    sin^2 + cos^2 = 1 and cosh^2 - sinh^2 = 1. *)
From Coq Require Import List ZArith Reals Bool Lia Lra Psatz.
From Flocq Require Import Core.Core IEEE754.BinarySingleNaN.
From Verif Require Import Base.Outcome Model.Traits Model.Float Model.Complex Model.RealInstance Spec.FloatErr Spec.ComplexErr
  Proofs.FloatErr Proofs.FloatRound Proofs.FloatRange Proofs.PiE Proofs.ComplexReal Proofs.ComplexErr Props.ComplexErrProps Props.ComplexBranchProps
  Props.FloatSqrtProps Props.SqrtAnyProps Props.FloatFunProps Props.FloatProps Proofs.TrigTest Props.TrigTestProps Proofs.LnTest Proofs.ComplexUndo Props.ComplexUndoProps Proofs.ExpLn Props.ExpLnProps.
Local Open Scope R_scope.

Lemma exp_le r s : r <= s -> exp r <= exp s.
Proof. intros [H|H]; [left; apply exp_increasing; exact H|rewrite H; right; reflexivity]. Qed.
Lemma exp_1_ge : 2 <= exp 1.
Proof. pose proof (exp_ineq1 1 ltac:(lra)). lra. Qed.
Lemma cosh_le_exp x : cosh x <= exp (Rabs x).
Proof.
  rewrite <- cosh_abs. rewrite exp_split. pose proof (sinh_ge (Rabs x) (Rabs_pos x)). pose proof (Rabs_pos x). lra.
Qed.

Section Fmt.
Context (prec emax : Z) {Hp : Prec_gt_0 prec} {He : Prec_lt_emax prec emax} (libm : FunOps (binary_float prec emax)).
Notation fl := (binary_float prec emax).
Notation FF := (float_field prec emax).
Notation FR := (float_ring prec emax).
Notation FE := (float_fun prec emax libm).
Notation u := (unit_roundoff prec).
Notation eta := (underflow_unit prec emax).
Notation rnd := (round radix2 (SpecFloat.fexp prec emax) (round_mode mode_NE)).
Notation add := (fl_add prec emax). Notation sub := (fl_sub prec emax).
Notation mul := (fl_mul prec emax). Notation div := (fl_div prec emax).
Notation hi := (half_big emax).
Context (Hprec : (24 <= prec)%Z) (k : Z) (Hk0 : (1 <= k)%Z) (Hk : (4 * k + 26 <= emax)%Z).
Context (d : R) (Hd : u <= d) (Hdk : d * (IZR k + 3) <= / 400) (HL : libm_error prec emax libm d).
Notation mid := (mid k).

Lemma dr : 0 < u <= / 16777216 /\ u <= d <= / 1600 /\ 1 <= IZR k.
Proof. exact (d_range prec Hprec k Hk0 d Hd Hdk). Qed.

(** Anything between e^-(2k+1) and e^(2k+1) is in range. *)
Lemma mid_between x : exp (- (2 * IZR k + 1)) <= x <= exp (2 * IZR k + 1) -> mid x.
Proof.
  intros [A B]. destruct dr as (_ & _ & K). assert (Q : 0 <= 2 * IZR k + 1) by lra.
  destruct (exp_mid k Hk0 (2 * IZR k + 1)) as [_ M2]. { rewrite Rabs_pos_eq; lra. }
  destruct (exp_mid k Hk0 (- (2 * IZR k + 1))) as [M1 _]. { rewrite Rabs_Ropp, Rabs_pos_eq; lra. }
  split; lra.
Qed.

Lemma near_exp v a : Rabs a <= IZR k -> Rabs (v - exp a) <= 1 / 100 * exp a -> mid (v * v) /\ mid v /\ 0 < v.
Proof.
  intros Ha Hv. destruct dr as (_ & _ & K). apply Rabs_le_inv in Ha. apply Rabs_le_inv in Hv. pose proof (exp_pos a) as E0. pose proof exp_1_ge as E1.
  pose proof (exp_le _ _ (proj2 Ha)) as U. pose proof (exp_le _ _ (proj1 Ha)) as L.
  set (X := exp (IZR k)) in *. set (Y := exp (- IZR k)) in *. assert (X0 : 0 < X) by apply exp_pos. assert (Y0 : 0 < Y) by apply exp_pos.
  assert (X1 : 1 <= X). { unfold X. rewrite <- exp_0. apply exp_le. lra. } assert (Y1 : Y <= 1). { unfold Y. rewrite <- exp_0. apply exp_le. lra. }
  assert (EX : exp (2 * IZR k + 1) = X * X * exp 1). { unfold X. rewrite <- !exp_plus. f_equal. ring. }
  assert (EY : exp (- (2 * IZR k + 1)) = Y * Y * / exp 1). { unfold Y. rewrite <- exp_Ropp, <- !exp_plus. f_equal. ring. }
  assert (I : / exp 1 <= / 2) by (apply Rinv_le; lra). assert (I0 : 0 < / exp 1) by (apply Rinv_0_lt_compat; apply exp_pos).
  assert (YY : 0 < Y * Y) by (apply Rmult_lt_0_compat; lra). assert (XX : 0 < X * X) by (apply Rmult_lt_0_compat; lra).
  assert (Q1 : Y * Y * / exp 1 <= Y * Y * / 2) by (apply Rmult_le_compat_l; lra). assert (Q2 : X * X * 2 <= X * X * exp 1) by (apply Rmult_le_compat_l; lra).
  assert (Q3 : Y * Y <= Y * 1) by (apply Rmult_le_compat_l; lra). assert (Q4 : X * 1 <= X * X) by (apply Rmult_le_compat_l; lra).
  split; [|split; [|lra]]; apply mid_between; rewrite EX, EY; [split|lra].
  - apply Rle_trans with (99 / 100 * Y * (99 / 100 * Y)); [lra|apply Rmult_le_compat; lra].
  - apply Rle_trans with (101 / 100 * X * (101 / 100 * X)); [apply Rmult_le_compat; lra|lra].
Qed.

(** ** |e^z| = e^Re z *)
Theorem C105_modulus_of_exp : forall z : complex fl, cfinite z -> Rabs (B2R (re z)) <= IZR k ->
  exists v m, complex_exp FF FE z = Ok v /\ complex_abs FF FE v = Ok m /\ is_finite m = true
    /\ Rabs (B2R m - exp (B2R (re z))) <= 52 / 10 * d * exp (B2R (re z)).
Proof.
  intros z Fz Ha. destruct dr as (U & D & K).
  destruct (exp_sized prec emax libm Hprec k Hk0 Hk d ltac:(lra) (proj1 HL) z Fz ltac:(lra)) as (v & Ev & Fv & Hv).
  set (a := B2R (re z)) in *. pose proof (exp_pos a) as E0. assert (dE : d * exp a <= / 1600 * exp a) by (apply Rmult_le_compat_r; lra).
  assert (NV : Rabs (cnorm (cval v) - exp a) <= 31 / 10 * d * exp a).
  { assert (N : cnorm (cexp (cval z)) = exp a) by apply cnorm_cexp. apply Rabs_le. pose proof (cnorm_le_diff (cval v) (cexp (cval z))) as A. pose proof (cnorm_le_diff (cexp (cval z)) (cval v)) as B.
    rewrite csub_norm_sym in B. lra. }
  destruct (near_exp (cnorm (cval v)) a Ha ltac:(lra)) as (M2 & M1 & V0).
  destruct (abs_sized prec emax libm Hprec k Hk v Fv M2 M1) as (m & Em & Fm & Hm). exists v, m. repeat split; try assumption.
  set (V := cnorm (cval v)) in *. apply Rabs_le_inv in NV. apply Rabs_le_inv in Hm. assert (uV : u * V <= d * (101 / 100 * exp a)) by (apply Rmult_le_compat; lra).
  apply Rabs_le. lra.
Qed.

(** ** e^z e^-z = 1 *)
Theorem C105_exp_times_exp_minus : forall z : complex fl, cfinite z -> Rabs (B2R (re z)) <= IZR k ->
  exists n v w, complex_neg (r_neg FR) z = Ok n /\ complex_exp FF FE z = Ok v /\ complex_exp FF FE n = Ok w
    /\ yields (complex_mul FR v w) c1 (87 / 10 * d).
Proof.
  intros z Fz Ha. destruct dr as (U & D & K). set (n := Cx (Bopp (re z)) (Bopp (im z)) : complex fl).
  assert (Fn : cfinite n) by (destruct Fz; split; cbn [re im n]; rewrite is_finite_Bopp; assumption).
  assert (Vn : cval n = (- B2R (re z), - B2R (im z))) by (unfold cval, n; cbn [re im]; rewrite !B2R_Bopp; reflexivity).
  destruct (exp_sized prec emax libm Hprec k Hk0 Hk d ltac:(lra) (proj1 HL) z Fz ltac:(lra)) as (v & Ev & Fv & Hv).
  destruct (exp_sized prec emax libm Hprec k Hk0 Hk d ltac:(lra) (proj1 HL) n Fn) as (w & Ew & Fw & Hw).
  { cbn [n re]. rewrite B2R_Bopp, Rabs_Ropp. lra. }
  exists n, v, w. split; [reflexivity|]. split; [exact Ev|]. split; [exact Ew|].
  replace (B2R (re n)) with (- B2R (re z)) in Hw by (cbn [n re]; rewrite B2R_Bopp; reflexivity).
  set (a := B2R (re z)) in *. set (b := B2R (im z)) in *. pose proof (exp_pos a) as E0. pose proof (exp_pos (- a)) as G0.
  assert (EG : exp a * exp (- a) = 1) by (rewrite <- exp_plus, Rplus_opp_r; apply exp_0).
  set (P := cexp (cval z)) in *. set (Q := cexp (cval n)) in *.
  assert (NP : cnorm P = exp a) by apply cnorm_cexp. assert (NQ : cnorm Q = exp (- a)). { unfold Q. rewrite Vn. apply (cnorm_cexp (-a, -b)). }
  assert (PQ : cmul P Q = c1).
  { unfold P, Q. rewrite Vn. rewrite <- cexp_add. unfold cadd, cval, cexp, c1. cbn [fst snd]. fold a b. rewrite !Rplus_opp_r, exp_0, cos_0, sin_0. f_equal; ring. }
  assert (D1 : cnorm (csub (cmul (cval v) (cval w)) c1) <= 63 / 10 * d).
  { rewrite <- PQ. replace (csub (cmul (cval v) (cval w)) (cmul P Q)) with (cadd (cadd (cmul (csub (cval v) P) Q) (cmul P (csub (cval w) Q))) (cmul (csub (cval v) P) (csub (cval w) Q))) by (unfold csub, cadd, cmul; cbn [fst snd]; f_equal; ring).
    eapply Rle_trans; [apply cnorm_triangle|]. eapply Rle_trans; [apply Rplus_le_compat_r; apply cnorm_triangle|]. rewrite !cnorm_mul, NP, NQ.
    pose proof (cnorm_nonneg (csub (cval v) P)) as A0. pose proof (cnorm_nonneg (csub (cval w) Q)) as B0. set (A := cnorm (csub (cval v) P)) in *. set (B := cnorm (csub (cval w) Q)) in *.
    assert (A * exp (- a) <= 31 / 10 * d * exp a * exp (- a)) by (apply Rmult_le_compat_r; lra). assert (exp a * B <= exp a * (31 / 10 * d * exp (- a))) by (apply Rmult_le_compat_l; lra).
    assert (A * B <= 31 / 10 * d * exp a * (31 / 10 * d * exp (- a))) by (apply Rmult_le_compat; lra).
    assert (Q1 : 31 / 10 * d * exp a * exp (- a) = 31 / 10 * d * (exp a * exp (- a))) by ring. assert (Q2 : exp a * (31 / 10 * d * exp (- a)) = 31 / 10 * d * (exp a * exp (- a))) by ring.
    assert (Q3 : 31 / 10 * d * exp a * (31 / 10 * d * exp (- a)) = 961 / 100 * (d * d) * (exp a * exp (- a))) by field. rewrite EG in Q1, Q2, Q3. assert (d * d <= / 1600 * d) by (apply Rmult_le_compat_r; lra). lra. }
  assert (N1 : cnorm c1 = 1) by apply cnorm_one.
  assert (VW : 9 / 10 <= cnorm (cval v) * cnorm (cval w) <= 101 / 100).
  { rewrite <- cnorm_mul. pose proof (cnorm_le_diff (cmul (cval v) (cval w)) c1) as A. pose proof (cnorm_le_diff c1 (cmul (cval v) (cval w))) as B. rewrite csub_norm_sym in B. lra. }
  destruct (mul_sized prec emax Hprec k Hk v w Fv Fw) as (p & Ep & Fp & Hpp).
  { apply mid_between. rewrite exp_Ropp. assert (2 <= exp (2 * IZR k + 1)). { apply Rle_trans with (exp 1); [apply exp_1_ge|apply exp_le; lra]. }
    assert (/ exp (2 * IZR k + 1) <= / 2) by (apply Rinv_le; lra). lra. }
  exists p. split; [exact Ep|]. split; [exact Fp|]. rewrite N1. eapply Rle_trans; [apply (csub_triangle _ (cmul (cval v) (cval w)))|].
  assert (u * (cnorm (cval v) * cnorm (cval w)) <= d * (101 / 100)) by (apply Rmult_le_compat; lra). lra.
Qed.

(** ** z = |z| (cos arg z + i sin arg z) *)
Theorem C105_polar_form : forall z : complex fl, sized k z ->
  exists m t c s, complex_abs FF FE z = Ok m /\ complex_arg FE z = Ok t /\ fn_cos FE t = Ok c /\ fn_sin FE t = Ok s
    /\ yields (Ok (complex_new (mul m c) (mul m s))) (cval z) (73 / 10 * d).
Proof.
  intros z Sz. destruct dr as (U & D & K). pose proof (win_sized prec emax k z Sz) as Wz. pose proof (win_mul k _ _ _ _ _ _ Rlt_0_1 Rlt_0_1 Wz Wz) as WZZ.
  pose proof (win_pos k _ _ _ Rlt_0_1 Wz) as Z0. destruct Sz as [Fz Sz].
  assert (M1 : mid (cnorm (cval z))) by (eapply win_mid; [| | |exact Wz]; [lia|lra|lia]). assert (M2 : mid (cnorm (cval z) * cnorm (cval z))) by (eapply win_mid; [| | |exact WZZ]; [lia|lra|lia]).
  destruct (abs_sized prec emax libm Hprec k Hk z Fz M2 M1) as (m & Em & Fm & Hm).
  destruct HL as (H1 & _ & H3). destruct (H3 (im z) (re z) (proj2 Fz) (proj1 Fz)) as (t0 & Ht & t & Et & Ft & Dt).
  { intros [A B]. assert (Q : cnorm (cval z) * cnorm (cval z) = 0) by (rewrite cnorm_sq; unfold cval; cbn [fst snd]; rewrite A, B; ring).
    assert (0 < cnorm (cval z) * cnorm (cval z)) by (apply Rmult_lt_0_compat; exact Z0). lra. }
  destruct (H1 t Ft) as (_ & (s & Es & Fs & Ds) & (c & Ec & Fc & Dc) & _). exists m, t, c, s. split; [exact Em|]. split; [exact Et|]. split; [exact Ec|]. split; [exact Es|].
  set (Z := cnorm (cval z)) in *. pose proof (mid_eta prec emax Hprec k Hk _ M1) as Em1. pose proof (mid_hi emax k Hk _ M1) as Mh. pose proof (eta_tiny_u prec emax Hprec k Hk0 Hk) as T. pose proof (eta_pos prec emax) as T0.
  assert (Dt' : Rabs (B2R t - t0) <= 3142 / 1000 * d).
  { destruct Ht as [Ht _]. pose proof PI_close as P. assert (d * Rabs t0 <= d * (3141592655 / 1000000000)) by (apply Rmult_le_compat_l; [lra|]; apply Rabs_le; lra). lra. }
  assert (C0 : cnorm (csub (cos (B2R t), sin (B2R t)) (cos t0, sin t0)) <= 324 / 100 * d).
  { pose proof (cexp_moved (0, t0) (0, B2R t)) as M. unfold cexp in M. cbn [fst snd] in M. rewrite exp_0, !Rmult_1_l, !Rminus_0_r, Rabs_R0 in M. specialize (M ltac:(lra)). lra. }
  assert (DU : cnorm (csub (B2R c, B2R s) (cos (B2R t), sin (B2R t))) <= 1001 / 1000 * d).
  { eapply Rle_trans; [apply (cnorm_perturb _ _ _ _ d eta); [lra|lra|exact Dc|exact Ds]|]. rewrite cnorm_unit. lra. }
  assert (D2 : cnorm (csub (B2R c, B2R s) (cos t0, sin t0)) <= 4242 / 1000 * d). { eapply Rle_trans; [apply (csub_triangle _ (cos (B2R t), sin (B2R t)))|]. lra. }
  assert (NU : cnorm (B2R c, B2R s) <= 1003 / 1000). { eapply Rle_trans; [apply (cnorm_le_diff _ (cos t0, sin t0))|]. rewrite cnorm_unit. lra. }
  set (S := cscale (B2R m) (B2R c, B2R s)). apply Rabs_le_inv in Hm. assert (uZ : u * Z <= d * Z) by (apply Rmult_le_compat_r; lra). assert (dZ : d * Z <= / 1600 * Z) by (apply Rmult_le_compat_r; lra). assert (dZ0 : 0 < d * Z) by (apply Rmult_lt_0_compat; lra). assert (uZ0 : 0 < u * Z) by (apply Rmult_lt_0_compat; lra).
  assert (m0 : 0 <= B2R m) by lra.
  assert (VZ : cval z = cscale Z (cos t0, sin t0)). { destruct Ht as (_ & A & B). unfold cval, cscale. cbn [fst snd]. f_equal; assumption. }
  assert (DS : cnorm (csub S (cval z)) <= 6268 / 1000 * (d * Z)).
  { rewrite VZ. eapply Rle_trans; [apply (csub_triangle _ (cscale Z (B2R c, B2R s)))|].
    replace (csub (cscale Z (B2R c, B2R s)) (cscale Z (cos t0, sin t0))) with (cscale Z (csub (B2R c, B2R s) (cos t0, sin t0))) by (unfold cscale, csub; cbn [fst snd]; f_equal; ring).
    rewrite cnorm_scale by lra. assert (Z * cnorm (csub (B2R c, B2R s) (cos t0, sin t0)) <= Z * (4242 / 1000 * d)) by (apply Rmult_le_compat_l; lra).
    assert (cnorm (csub S (cscale Z (B2R c, B2R s))) <= 201 / 100 * (u * Z) * (1003 / 1000)); [|lra].
    eapply Rle_trans; [apply (cnorm_mono _ (cscale (201 / 100 * (u * Z)) (Rabs (B2R c), Rabs (B2R s)))); unfold S, csub, cscale; cbn [fst snd]|].
    - rewrite <- Rmult_minus_distr_r, Rabs_mult. apply Rmult_le_compat_r; [apply Rabs_pos|apply Rabs_le; lra].
    - rewrite <- Rmult_minus_distr_r, Rabs_mult. apply Rmult_le_compat_r; [apply Rabs_pos|apply Rabs_le; lra].
    - rewrite cnorm_scale by lra. rewrite cnorm_abs. apply Rmult_le_compat_l; lra. }
  assert (NS : cnorm S <= 101 / 100 * Z). { eapply Rle_trans; [apply (cnorm_le_diff _ (cval z))|]. fold Z. lra. }
  destruct (abs_le_norm (fst S) (snd S)) as [N1 N2]. rewrite <- surjective_pairing in N1, N2. unfold S in N1, N2. cbn [cscale fst snd] in N1, N2. fold S in N1, N2.
  destruct (mul_round prec emax m c Fm Fc) as [F1 V1]; [lra|]. destruct (mul_round prec emax m s Fm Fs) as [F2 V2]; [lra|].
  exists (Cx (mul m c) (mul m s)). split; [reflexivity|]. split; [split; assumption|].
  change (cval (Cx (mul m c) (mul m s))) with (B2R (mul m c), B2R (mul m s)). rewrite V1, V2. fold Z.
  eapply Rle_trans; [apply (csub_triangle _ S)|].
  assert (cnorm (csub (rnd (B2R m * B2R c), rnd (B2R m * B2R s)) S) <= u * cnorm S + 3 / 2 * eta).
  { apply (cnorm_perturb (B2R m * B2R c) (B2R m * B2R s)); [lra|lra|apply (rnd_err prec emax)|apply (rnd_err prec emax)]. }
  assert (u * cnorm S <= u * (101 / 100 * Z)) by (apply Rmult_le_compat_l; lra). lra.
Qed.

(** ** sqrt z = e^(ln(z)/2) *)
(** e^(ln(z)/2) with either of the arguments of z is a square root, and the principal one unless the argument is -pi. *)
Lemma half_ln_root x y t : is_argument t x y -> 0 < sqrt (x * x + y * y) ->
  let L := ln (sqrt (x * x + y * y)) in let w := cexp (L / 2, t / 2) in
  (- PI < t -> principal_root x y (fst w) (snd w)) /\ (t = - PI -> principal_root x y (- fst w) (- snd w)).
Proof.
  intros (Rt & X & Y) N0 L w. set (N := sqrt (x * x + y * y)) in *. pose proof PI_RGT_0 as P.
  assert (E2 : exp (L / 2) * exp (L / 2) = N) by (rewrite <- exp_plus; replace (L / 2 + L / 2) with L by field; apply exp_ln; exact N0).
  pose proof (exp_pos (L / 2)) as E0. set (E := exp (L / 2)) in *.
  assert (C : cos t = cos (t / 2) * cos (t / 2) - sin (t / 2) * sin (t / 2)). { replace t with (t / 2 + t / 2) at 1 by field. apply cos_plus. }
  assert (S : sin t = 2 * (sin (t / 2) * cos (t / 2))). { replace t with (t / 2 + t / 2) at 1 by field. rewrite sin_plus. ring. }
  assert (Cp : 0 <= cos (t / 2)) by (apply cos_ge_0; lra). unfold w, cexp. cbn [fst snd]. fold E. split; intros Ht; (split; [|split; [|split]]).
  - rewrite X, C, <- E2. ring.
  - rewrite Y, S, <- E2. ring.
  - apply Rmult_le_pos; lra.
  - intros Z. destruct (Req_dec t PI) as [->|Nt]. { rewrite sin_PI2. lra. } exfalso.
    assert (0 < cos (t / 2)) by (apply cos_gt_0; lra). assert (0 < E * cos (t / 2)) by (apply Rmult_lt_0_compat; lra). lra.
  - rewrite X, C, <- E2. ring.
  - rewrite Y, S, <- E2. ring.
  - subst t. replace (- PI / 2) with (- (PI / 2)) by field. rewrite cos_neg, cos_PI2. lra.
  - intros _. subst t. replace (- PI / 2) with (- (PI / 2)) by field. rewrite sin_neg, sin_PI2. lra.
Qed.

(** The computed values agree up to (1.6 |ln |z|| + 20) d sqrt |z|; if z is on the negative real axis, up to sign, which
    depends on the side of the cut libm's atan2 takes. *)
Theorem C105_sqrt_is_exp_of_half_ln : forall (z : complex fl) (two : fl), sized k z -> B2R two = 2 ->
  exists s l e (sign : R), complex_sqrt FF FE z = Ok s /\ complex_ln FF FE z = Ok l
    /\ complex_exp FF FE (complex_new (div (re l) two) (div (im l) two)) = Ok e /\ cfinite s /\ cfinite e
    /\ (sign = 1 \/ sign = -1) /\ (~ (B2R (im z) = 0 /\ B2R (re z) < 0) -> sign = 1)
    /\ cnorm (csub (cval e) (sign * fst (cval s), sign * snd (cval s))) <= (16 / 10 * Rabs (ln (cnorm (cval z))) + 20) * d * sqrt (cnorm (cval z)).
Proof.
  intros z two Sz H2. destruct dr as (U & D & K). pose proof (win_sized prec emax k z Sz) as Wz. pose proof (win_mul k _ _ _ _ _ _ Rlt_0_1 Rlt_0_1 Wz Wz) as WZZ.
  pose proof (win_pos k _ _ _ Rlt_0_1 Wz) as Z0. destruct (full_ln prec emax libm Hprec k Hk0 Hk d Hd Hdk HL z (proj1 Sz)) as (l & t & El & Fl & Ht & H1 & H3); [|exact Z0|].
  { eapply win_mid; [| | |exact WZZ]; [lia|lra|lia]. }
  destruct (C72_sqrt_normwise prec emax libm k z) as (s & p & q & Es & Hr & [F1 F2] & S12 & NS); [lia|lia|lia|exact (proj1 Sz)|exact (proj2 Sz)|].
  destruct Sz as [Fz Sz]. change (cnorm (cval z)) with (sqrt (B2R (re z) * B2R (re z) + B2R (im z) * B2R (im z))) in Z0.
  pose proof (half_ln_root _ _ _ Ht Z0) as HR. change (sqrt (B2R (re z) * B2R (re z) + B2R (im z) * B2R (im z))) with (cnorm (cval z)) in HR, Z0.
  set (Z := cnorm (cval z)) in *. set (L := ln Z) in *. cbv zeta in HR. set (w := cexp (L / 2, t / 2)) in *.
  assert (EL : Rabs L <= 7 / 10 * IZR k).
  { pose proof ln_2_le as L2.
    assert (L20 : 0 <= ln 2) by (rewrite <- ln_1; apply ln_le_compat; lra).
    pose proof (ln_le_compat _ _ (bpow_gt_0 radix2 (- k)) (proj1 Sz)) as A1. pose proof (ln_le_compat _ _ Z0 (proj2 Sz)) as A2. rewrite ln_bpow in A1, A2. rewrite opp_IZR in A1. fold L in A1, A2.
    assert (IZR k * ln 2 <= IZR k * (7 / 10)) by (apply Rmult_le_compat_l; lra). apply Rabs_le. lra. }
  assert (dA0 : 0 <= d * Rabs L) by (apply Rmult_le_pos; [lra|apply Rabs_pos]).
  assert (dA : d * Rabs L <= 7 / 10 * (d * IZR k)). { assert (d * Rabs L <= d * (7 / 10 * IZR k)) by (apply Rmult_le_compat_l; lra). lra. }
  pose proof (eta_tiny_u prec emax Hprec k Hk0 Hk) as T. pose proof (eta_pos prec emax) as T0.
  assert (Hhi : 4 * IZR k + 16 <= hi).
  { pose proof (mid_hi emax k Hk (exp (IZR k))) as MH. specialize (MH (exp_mid k Hk0 (IZR k) ltac:(rewrite Rabs_pos_eq; lra))).
    apply Rle_trans with (16 * bpow radix2 (4 * k)); [|apply Rle_trans with (bpow radix2 (4 + 4 * k)); [rewrite bpow_plus; change (bpow radix2 4) with 16; lra|unfold half_big; apply bpow_le; lia]].
    assert (IZR k + 1 <= bpow radix2 (4 * k)). { rewrite <- (plus_IZR k 1). rewrite <- IZR_Zpower by lia. apply IZR_le. pose proof (Zpower_gt_id radix2 (4 * k)) as Q. lia. } lra. }
  assert (Aw : Rabs (B2R (re l)) <= (1 + 201 / 100 * d) * Rabs L + 11 / 10 * d). { replace (B2R (re l)) with ((B2R (re l) - L) + L) by ring. eapply Rle_trans; [apply Rabs_triang|]. lra. }
  assert (At : Rabs (B2R (im l)) <= 315 / 100). { destruct Ht as [Ht _]. pose proof PI_close as P. apply Rabs_le_inv in H3. apply Rabs_le. lra. }
  assert (Nt : B2R two <> 0) by lra.
  destruct (div_round prec emax (re l) two (proj1 Fl) Nt) as [G1 V1]. { rewrite H2. unfold Rdiv. rewrite Rabs_mult, (Rabs_pos_eq (/ 2)) by lra. assert (d * Rabs L <= 1 * Rabs L) by (apply Rmult_le_compat_r; [apply Rabs_pos|lra]). lra. }
  destruct (div_round prec emax (im l) two (proj2 Fl) Nt) as [G2 V2]. { rewrite H2. unfold Rdiv. rewrite Rabs_mult, (Rabs_pos_eq (/ 2)) by lra. lra. }
  rewrite H2 in V1, V2. set (h := complex_new (div (re l) two) (div (im l) two)) in *.
  assert (uL : u * Rabs L <= d * Rabs L) by (apply Rmult_le_compat_r; [apply Rabs_pos|lra]).
  assert (E1 : Rabs (B2R (re h) - L / 2) <= 151 / 100 * (d * Rabs L) + 56 / 100 * d).
  { cbn [re h complex_new]. rewrite V1. replace (rnd (B2R (re l) / 2) - L / 2) with ((rnd (B2R (re l) / 2) - B2R (re l) / 2) + (B2R (re l) - L) / 2) by field.
    eapply Rle_trans; [apply Rabs_triang|]. pose proof (rnd_err prec emax (B2R (re l) / 2)) as Q. unfold Rdiv in Q |- *. rewrite Rabs_mult, (Rabs_pos_eq (/ 2)) in Q by lra. rewrite (Rabs_mult (B2R (re l) - L)), (Rabs_pos_eq (/ 2)) by lra.
    assert (u * (Rabs (B2R (re l)) * / 2) <= u * (((1 + 201 / 100 * d) * Rabs L + 11 / 10 * d) * / 2)) by (apply Rmult_le_compat_l; lra).
    assert (u * (d * Rabs L) <= / 16777216 * (d * Rabs L)) by (apply Rmult_le_compat_r; lra). assert (u * d <= / 16777216 * d) by (apply Rmult_le_compat_r; lra). lra. }
  assert (E2 : Rabs (B2R (im h) - t / 2) <= 316 / 100 * d).
  { cbn [im h complex_new]. rewrite V2. replace (rnd (B2R (im l) / 2) - t / 2) with ((rnd (B2R (im l) / 2) - B2R (im l) / 2) + (B2R (im l) - t) / 2) by field.
    eapply Rle_trans; [apply Rabs_triang|]. pose proof (rnd_err prec emax (B2R (im l) / 2)) as Q. unfold Rdiv in Q |- *. rewrite Rabs_mult, (Rabs_pos_eq (/ 2)) in Q by lra. rewrite (Rabs_mult (B2R (im l) - t)), (Rabs_pos_eq (/ 2)) by lra.
    assert (u * (Rabs (B2R (im l)) * / 2) <= u * (315 / 100 * / 2)) by (apply Rmult_le_compat_l; lra). lra. }
  assert (AL : Rabs (L / 2) = Rabs L / 2) by (unfold Rdiv; rewrite Rabs_mult, (Rabs_pos_eq (/ 2)) by lra; reflexivity).
  assert (W : Rabs (B2R (re h)) <= 2 * IZR k + 1).
  { replace (B2R (re h)) with ((B2R (re h) - L / 2) + L / 2) by ring. eapply Rle_trans; [apply Rabs_triang|]. lra. }
  destruct (exp_sized prec emax libm Hprec k Hk0 Hk d ltac:(lra) (proj1 HL) h (conj G1 G2) W) as (e & Ee & Fe & Hee).
  assert (RZ : exp (L / 2) = sqrt Z).
  { symmetry. rewrite <- (sqrt_Rsqr (exp (L / 2))) by (left; apply exp_pos). f_equal. unfold Rsqr. rewrite <- exp_plus. replace (L / 2 + L / 2) with L by field. symmetry. apply exp_ln. exact Z0. }
  pose proof (cexp_moved (L / 2, t / 2) (cval h)) as Mv. cbn [cval fst snd] in Mv. fold w in Mv. rewrite RZ in Mv. specialize (Mv ltac:(lra)).
  pose proof (sqrt_lt_R0 Z Z0) as Y0. set (Y := sqrt Z) in *.
  assert (Mv' : cnorm (csub (cexp (cval h)) w) <= 103 / 100 * (151 / 100 * (d * Rabs L) + 372 / 100 * d) * Y).
  { eapply Rle_trans; [exact Mv|]. apply Rmult_le_compat_r; [lra|]. apply Rmult_le_compat_l; lra. }
  assert (NW : cnorm w = Y) by (unfold w; rewrite cnorm_cexp; exact RZ).
  assert (NE : exp (B2R (re h)) <= 102 / 100 * Y).
  { change (exp (B2R (re h))) with (exp (fst (cval h))). rewrite <- cnorm_cexp. eapply Rle_trans; [apply (cnorm_le_diff _ w)|]. rewrite NW.
    assert (103 / 100 * (151 / 100 * (d * Rabs L) + 372 / 100 * d) * Y <= 2 / 100 * Y) by (apply Rmult_le_compat_r; lra). lra. }
  assert (dY0 : 0 < d * Y) by (apply Rmult_lt_0_compat; lra). assert (0 <= d * Rabs L * Y) by (apply Rmult_le_pos; lra). assert (uY : u * Y <= d * Y) by (apply Rmult_le_compat_r; lra).
  assert (De : cnorm (csub (cval e) w) <= (16 / 10 * Rabs L + 75 / 10) * d * Y).
  { eapply Rle_trans; [apply (csub_triangle _ (cexp (cval h)))|].
    assert (31 / 10 * d * exp (B2R (re h)) <= 31 / 10 * d * (102 / 100 * Y)) by (apply Rmult_le_compat_l; lra). lra. }
  assert (Dp : forall sg, sg = 1 \/ sg = -1 -> p = sg * fst w -> q = sg * snd w -> cnorm (csub w (sg * B2R (re s), sg * B2R (im s))) <= 121 / 10 * u * Y).
  { intros sg Hs Ep Eq. assert (G : sg * sg = 1) by (destruct Hs; subst sg; lra).
    assert (Ew : w = (sg * p, sg * q)). { rewrite Ep, Eq. rewrite <- !Rmult_assoc, G, !Rmult_1_l. apply surjective_pairing. }
    assert (Ag : Rabs sg = 1) by (destruct Hs; subst sg; [apply Rabs_R1|rewrite Rabs_left by lra; lra]).
    rewrite NS in S12. rewrite csub_norm_sym. rewrite Ew. fold Z in S12. fold Y in S12.
    replace (cnorm (csub (sg * B2R (re s), sg * B2R (im s)) (sg * p, sg * q))) with (cnorm (csub (cval s) (p, q))); [lra|].
    unfold cnorm, csub, cval. cbn [fst snd]. f_equal. destruct Hs; subst sg; ring. }
  destruct (Req_dec t (- PI)) as [Et|Nt'].
  - destruct (root_unique _ _ _ _ _ _ Hr (proj2 HR Et)) as [Rp Rq].
    exists s, l, e, (-1). split; [exact Es|]. split; [exact El|]. split; [exact Ee|]. split; [split; assumption|]. split; [exact Fe|]. split; [right; reflexivity|]. split.
    + intros N. exfalso. apply N. destruct Ht as (_ & X & Y'). rewrite Et in X, Y'. rewrite cos_neg, cos_PI in X. rewrite sin_neg, sin_PI in Y'.
      change (sqrt (B2R (re z) * B2R (re z) + B2R (im z) * B2R (im z))) with Z in X, Y'. lra.
    + eapply Rle_trans; [apply (csub_triangle _ w)|]. specialize (Dp (-1) (or_intror eq_refl) ltac:(lra) ltac:(lra)). cbn [fst snd cval]. lra.
  - destruct (root_unique _ _ _ _ _ _ Hr (proj1 HR ltac:(destruct Ht as [[[Ht|Ht] _] _]; lra))) as [Rp Rq].
    exists s, l, e, 1. split; [exact Es|]. split; [exact El|]. split; [exact Ee|]. split; [split; assumption|]. split; [exact Fe|]. split; [left; reflexivity|]. split; [reflexivity|].
    eapply Rle_trans; [apply (csub_triangle _ w)|]. specialize (Dp 1 (or_introl eq_refl) ltac:(lra) ltac:(lra)). cbn [fst snd cval]. lra.
Qed.

(** ** sin^2 + cos^2 = 1, cosh^2 - sinh^2 = 1 *)
(** A product of two libm results. *)
Lemma libm_product (ox oy : outcome fl) v w C : returns prec emax d ox v -> returns prec emax d oy w -> 1 <= C -> mid C -> Rabs v <= C -> Rabs w <= C -> Rabs (v * w) <= C ->
  exists x y, ox = Ok x /\ oy = Ok y /\ is_finite (mul x y) = true /\ Rabs (B2R (mul x y) - v * w) <= 302 / 100 * d * Rabs (v * w) + 5 * eta * C.
Proof.
  intros (x & Ex & Fx & Dx) (y & Ey & Fy & Dy) C1 M Hv Hw HC. destruct dr as (U & D & K). exists x, y. split; [exact Ex|]. split; [exact Ey|].
  pose proof (eta_tiny_u prec emax Hprec k Hk0 Hk) as T. pose proof (eta_pos prec emax) as T0. pose proof (mid_hi emax k Hk _ M) as Mh.
  set (a := B2R x) in *. set (b := B2R y) in *. pose proof (Rabs_pos v) as v0. pose proof (Rabs_pos w) as w0. rewrite Rabs_mult in *.
  assert (etaC : eta * C <= / 1600 * C) by (apply Rmult_le_compat_r; lra). assert (etaC0 : 0 < eta * C) by (apply Rmult_lt_0_compat; lra).
  assert (ev : eta * Rabs v <= eta * C) by (apply Rmult_le_compat_l; lra). assert (ew : eta * Rabs w <= eta * C) by (apply Rmult_le_compat_l; lra).
  assert (ee : eta * eta <= / 1600 * eta) by (apply Rmult_le_compat_r; lra). assert (eC : eta * 1 <= eta * C) by (apply Rmult_le_compat_l; lra).
  set (P := Rabs v * Rabs w) in *. assert (P0 : 0 <= P) by (apply Rmult_le_pos; assumption). assert (dP : d * P <= / 1600 * P) by (apply Rmult_le_compat_r; lra). assert (dP0 : 0 <= d * P) by (apply Rmult_le_pos; lra).
  assert (E1 : Rabs (a * b - v * w) <= 2001 / 1000 * (d * P) + 202 / 100 * (eta * C)).
  { replace (a * b - v * w) with (v * (b - w) + (a - v) * w + (a - v) * (b - w)) by ring.
    eapply Rle_trans; [apply Rabs_triang|]. eapply Rle_trans; [apply Rplus_le_compat_r; apply Rabs_triang|]. rewrite !Rabs_mult.
    assert (A1 : Rabs v * Rabs (b - w) <= Rabs v * (d * Rabs w + eta)) by (apply Rmult_le_compat_l; lra).
    assert (A2 : Rabs (a - v) * Rabs w <= (d * Rabs v + eta) * Rabs w) by (apply Rmult_le_compat_r; lra).
    assert (A3 : Rabs (a - v) * Rabs (b - w) <= (d * Rabs v + eta) * (d * Rabs w + eta)) by (apply Rmult_le_compat; [apply Rabs_pos|apply Rabs_pos|lra|lra]).
    replace (Rabs v * (d * Rabs w + eta)) with (d * P + eta * Rabs v) in A1 by (unfold P; ring).
    replace ((d * Rabs v + eta) * Rabs w) with (d * P + eta * Rabs w) in A2 by (unfold P; ring).
    replace ((d * Rabs v + eta) * (d * Rabs w + eta)) with (d * (d * P) + d * (eta * Rabs v) + d * (eta * Rabs w) + eta * eta) in A3 by (unfold P; ring).
    assert (d * (d * P) <= / 1600 * (d * P)) by (apply Rmult_le_compat_r; lra).
    assert (d * (eta * Rabs v) <= / 1600 * (eta * C)). { apply Rmult_le_compat; try lra. apply Rmult_le_pos; lra. }
    assert (d * (eta * Rabs w) <= / 1600 * (eta * C)). { apply Rmult_le_compat; try lra. apply Rmult_le_pos; lra. } lra. }
  assert (N : Rabs (a * b) <= P + 2001 / 1000 * (d * P) + 202 / 100 * (eta * C)). { replace (a * b) with ((a * b - v * w) + v * w) by ring. eapply Rle_trans; [apply Rabs_triang|]. rewrite (Rabs_mult v w). fold P. lra. }
  destruct (mul_round prec emax x y Fx Fy) as [F V]. { fold a b. lra. } split; [exact F|]. rewrite V. fold a b.
  pose proof (rnd_err prec emax (a * b)) as Q. assert (uab : u * Rabs (a * b) <= u * (P + 2001 / 1000 * (d * P) + 202 / 100 * (eta * C))) by (apply Rmult_le_compat_l; lra).
  assert (uP : u * P <= d * P) by (apply Rmult_le_compat_r; lra). assert (u * (d * P) <= / 16777216 * (d * P)) by (apply Rmult_le_compat_r; lra). assert (u * (eta * C) <= / 16777216 * (eta * C)) by (apply Rmult_le_compat_r; lra).
  replace (rnd (a * b) - v * w) with ((rnd (a * b) - a * b) + (a * b - v * w)) by ring. eapply Rle_trans; [apply Rabs_triang|]. lra.
Qed.

(** A computed pair of such products, normwise. *)
Lemma products_near (x y : fl) v w C : 1 <= C -> cnorm (v, w) <= C ->
  Rabs (B2R x - v) <= 302 / 100 * d * Rabs v + 5 * eta * C -> Rabs (B2R y - w) <= 302 / 100 * d * Rabs w + 5 * eta * C ->
  cnorm (csub (B2R x, B2R y) (v, w)) <= 303 / 100 * d * C.
Proof.
  intros C1 N H1 H2. destruct dr as (U & D & K). pose proof (eta_tiny_u prec emax Hprec k Hk0 Hk) as T. pose proof (eta_pos prec emax) as T0.
  assert (0 <= eta * C) by (apply Rmult_le_pos; lra). eapply Rle_trans; [apply (cnorm_perturb v w _ _ (302 / 100 * d) (5 * eta * C)); lra|].
  assert (302 / 100 * d * cnorm (v, w) <= 302 / 100 * d * C) by (apply Rmult_le_compat_l; lra). assert (eta * C <= / 100000000 * d * C) by (apply Rmult_le_compat_r; lra). lra.
Qed.

Lemma cosh_mid b : Rabs b <= IZR k -> 1 <= cosh b /\ mid (cosh b) /\ mid (11 / 10 * (cosh b * cosh b)) /\ cosh b <= bpow radix2 (emax - 2).
Proof.
  intros Hb. destruct dr as (U & D & K). pose proof (cosh_ge_1 b) as C1. pose proof (cosh_le_exp b) as CE. pose proof (exp_le _ _ Hb) as E1. pose proof exp_1_ge as E2.
  set (X := exp (IZR k)) in *. assert (EX : exp (2 * IZR k + 1) = X * X * exp 1). { unfold X. rewrite <- !exp_plus. f_equal. ring. }
  assert (CC : cosh b * cosh b <= X * X) by (apply Rmult_le_compat; lra). assert (C2 : 1 * 1 <= cosh b * cosh b) by (apply Rmult_le_compat; lra).
  assert (XE : X * X * 2 <= X * X * exp 1) by (apply Rmult_le_compat_l; lra). assert (X1 : X * 1 <= X * X) by (apply Rmult_le_compat_l; lra).
  assert (B : forall x, 1 <= x <= X * X * 2 -> mid x).
  { intros x Hx. apply mid_between. rewrite exp_Ropp, EX. assert (/ (X * X * exp 1) <= / 1) by (apply Rinv_le; lra). lra. }
  assert (M : mid (cosh b)) by (apply B; lra). split; [exact C1|]. split; [exact M|]. split; [apply B; lra|].
  pose proof (mid_hi emax k Hk _ M) as Mh. unfold half_big in Mh. replace (emax - 1)%Z with ((emax - 2) + 1)%Z in Mh by lia. rewrite bpow_plus in Mh. change (bpow radix2 1) with 2 in Mh. lra.
Qed.

Lemma trig_norm x c s : c * c + s * s = 1 -> cnorm (s * cosh x, c * sinh x) <= cosh x /\ cnorm (c * cosh x, - (s * sinh x)) <= cosh x
  /\ cnorm (sinh x * c, cosh x * s) <= cosh x /\ cnorm (cosh x * c, sinh x * s) <= cosh x.
Proof.
  intros T. pose proof (cosh_ge_1 x) as C1. pose proof (sq_hyp x) as H.
  assert (B : forall z, fst z * fst z + snd z * snd z <= cosh x * cosh x -> cnorm z <= cosh x).
  { intros z Hz. unfold cnorm. rewrite <- (sqrt_square (cosh x)) by lra. apply sqrt_le_1_alt. exact Hz. }
  assert (S0 : 0 <= s * s) by apply Rle_0_sqr. assert (C0 : 0 <= c * c) by apply Rle_0_sqr.
  assert (Q1 : c * c * (cosh x * cosh x) + s * s * (cosh x * cosh x) = cosh x * cosh x) by (rewrite <- Rmult_plus_distr_r, T; ring).
  assert (Q2 : c * c * (sinh x * sinh x) <= c * c * (cosh x * cosh x)) by (apply Rmult_le_compat_l; lra).
  assert (Q3 : s * s * (sinh x * sinh x) <= s * s * (cosh x * cosh x)) by (apply Rmult_le_compat_l; lra).
  repeat split; apply B; cbn [fst snd]; lra.
Qed.

(** The product of two numbers whose size is bounded from above. *)
Lemma mul_bounded (z w : complex fl) M : cfinite z -> cfinite w -> mid M -> cnorm (cval z) * cnorm (cval w) <= M ->
  exists p, complex_mul FR z w = Ok p /\ cfinite p /\ cnorm (csub (cval p) (cmul (cval z) (cval w))) <= 231 / 100 * u * M.
Proof. intros Fz Fw HM HB. exact (mul_below prec emax Hprec k Hk z w M Fz Fw HM HB). Qed.

(** z^2 for a z known up to 3.03 d C. *)
Lemma square_near (z : complex fl) (e : cplx) C : cfinite z -> 1 <= C -> mid (11 / 10 * (C * C)) -> cnorm e <= C -> cnorm (csub (cval z) e) <= 303 / 100 * d * C ->
  exists p, complex_mul FR z z = Ok p /\ cfinite p /\ cnorm (csub (cval p) (cmul e e)) <= 42 / 5 * d * (C * C) /\ cnorm (cval p) <= 102 / 100 * (C * C).
Proof.
  intros Fz C1 M Ne De. destruct dr as (U & D & K). assert (CC : 1 * 1 <= C * C) by (apply Rmult_le_compat; lra). assert (dC : d * C <= / 1600 * C) by (apply Rmult_le_compat_r; lra). assert (dC0 : 0 < d * C) by (apply Rmult_lt_0_compat; lra).
  pose proof (cnorm_nonneg (cval z)) as z0. pose proof (cnorm_nonneg e) as e0. pose proof (cnorm_nonneg (csub (cval z) e)) as f0. pose proof (cnorm_le_diff (cval z) e) as Nz.
  assert (Nz' : cnorm (cval z) <= 1002 / 1000 * C) by lra.
  assert (ZZ : cnorm (cval z) * cnorm (cval z) <= 1002 / 1000 * C * (1002 / 1000 * C)) by (apply Rmult_le_compat; lra).
  assert (dCC : d * (C * C) <= / 1600 * (C * C)) by (apply Rmult_le_compat_r; lra). assert (uCC : u * (C * C) <= d * (C * C)) by (apply Rmult_le_compat_r; lra). assert (dCC0 : 0 < d * (C * C)) by (apply Rmult_lt_0_compat; lra). assert (uCC0 : 0 < u * (C * C)) by (apply Rmult_lt_0_compat; lra).
  assert (Mz : mid (1005 / 1000 * (C * C))).
  { destruct M as [M1 M2]. split; [|lra]. apply Rle_trans with 1; [|lra]. pose proof (bpow_ge_0 radix2 (- (4 * k))) as B0. assert (bpow radix2 (- (4 * k)) <= bpow radix2 0) by (apply bpow_le; lia). change (bpow radix2 0) with 1 in *. lra. }
  destruct (mul_bounded z z (1005 / 1000 * (C * C)) Fz Fz Mz ltac:(lra)) as (p & Ep & Fp & Hpp).
  assert (D1 : cnorm (csub (cmul (cval z) (cval z)) (cmul e e)) <= 607 / 100 * (d * (C * C))).
  { replace (csub (cmul (cval z) (cval z)) (cmul e e)) with (cmul (csub (cval z) e) (cadd (cval z) e)) by (unfold csub, cadd, cmul; cbn [fst snd]; f_equal; ring).
    rewrite cnorm_mul. pose proof (cnorm_triangle (cval z) e) as Ns. pose proof (cnorm_nonneg (cadd (cval z) e)). assert (cnorm (csub (cval z) e) * cnorm (cadd (cval z) e) <= 303 / 100 * d * C * (2002 / 1000 * C)) by (apply Rmult_le_compat; lra). lra. }
  exists p. split; [exact Ep|]. split; [exact Fp|]. assert (H : cnorm (csub (cval p) (cmul e e)) <= 42 / 5 * d * (C * C)) by (eapply Rle_trans; [apply (csub_triangle _ (cmul (cval z) (cval z)))|]; lra).
  split; [exact H|]. eapply Rle_trans; [apply (cnorm_le_diff _ (cmul e e))|]. rewrite cnorm_mul. assert (cnorm e * cnorm e <= C * C) by (apply Rmult_le_compat; lra). lra.
Qed.

(** A sum or difference of two such squares. *)
Lemma squares_near (p q : complex fl) (e f : cplx) C : cfinite p -> cfinite q -> 1 <= C -> mid (11 / 10 * (C * C)) ->
  cnorm (csub (cval p) e) <= 42 / 5 * d * (C * C) -> cnorm (cval p) <= 102 / 100 * (C * C) -> cnorm (csub (cval q) f) <= 42 / 5 * d * (C * C) -> cnorm (cval q) <= 102 / 100 * (C * C) ->
  (exists r, complex_add (r_add FR) p q = Ok r /\ cfinite r /\ cnorm (csub (cval r) (cadd e f)) <= 19 * d * (C * C))
  /\ (exists r, complex_sub (r_sub FR) p q = Ok r /\ cfinite r /\ cnorm (csub (cval r) (csub e f)) <= 19 * d * (C * C)).
Proof.
  intros [Fa Fb] [Fc Fe] C1 M D1 N1 D2 N2. destruct dr as (U & D & K). assert (CC : 1 * 1 <= C * C) by (apply Rmult_le_compat; lra).
  pose proof (mid_hi emax k Hk _ M) as Mh. pose proof (eta_tiny_u prec emax Hprec k Hk0 Hk) as T. pose proof (eta_pos prec emax) as T0.
  destruct (abs_le_norm (B2R (re p)) (B2R (im p))) as [P1 P2]. destruct (abs_le_norm (B2R (re q)) (B2R (im q))) as [Q1 Q2].
  change (cnorm (B2R (re p), B2R (im p))) with (cnorm (cval p)) in *. change (cnorm (B2R (re q), B2R (im q))) with (cnorm (cval q)) in *.
  assert (uC : u * (C * C) <= d * (C * C)) by (apply Rmult_le_compat_r; lra). assert (dC0 : 0 < d * (C * C)) by (apply Rmult_lt_0_compat; lra).
  assert (eC : eta <= / 100000000 * (d * (C * C))). { assert (d * 1 <= d * (C * C)) by (apply Rmult_le_compat_l; lra). lra. }
  split.
  - destruct (add_round prec emax (re p) (re q) Fa Fc) as [F1 V1]. { eapply Rle_trans; [apply Rabs_triang|]. lra. }
    destruct (add_round prec emax (im p) (im q) Fb Fe) as [F2 V2]. { eapply Rle_trans; [apply Rabs_triang|]. lra. }
    exists (Cx (add (re p) (re q)) (add (im p) (im q))). split; [reflexivity|]. split; [split; assumption|].
    change (cval (Cx (add (re p) (re q)) (add (im p) (im q)))) with (B2R (add (re p) (re q)), B2R (add (im p) (im q))). rewrite V1, V2.
    eapply Rle_trans; [apply (csub_triangle _ (cadd (cval p) (cval q)))|].
    assert (A : cnorm (csub (rnd (B2R (re p) + B2R (re q)), rnd (B2R (im p) + B2R (im q))) (cadd (cval p) (cval q))) <= u * cnorm (cadd (cval p) (cval q)) + 3 / 2 * eta).
    { apply (cnorm_perturb (B2R (re p) + B2R (re q)) (B2R (im p) + B2R (im q))); [lra|lra|apply (rnd_err prec emax)|apply (rnd_err prec emax)]. }
    pose proof (cnorm_triangle (cval p) (cval q)) as Nt. assert (u * cnorm (cadd (cval p) (cval q)) <= u * (204 / 100 * (C * C))) by (apply Rmult_le_compat_l; lra).
    replace (csub (cadd (cval p) (cval q)) (cadd e f)) with (cadd (csub (cval p) e) (csub (cval q) f)) by (unfold csub, cadd; cbn [fst snd]; f_equal; ring).
    pose proof (cnorm_triangle (csub (cval p) e) (csub (cval q) f)). lra.
  - destruct (sub_round prec emax (re p) (re q) Fa Fc) as [F1 V1]. { unfold Rminus. eapply Rle_trans; [apply Rabs_triang|]. rewrite Rabs_Ropp. lra. }
    destruct (sub_round prec emax (im p) (im q) Fb Fe) as [F2 V2]. { unfold Rminus. eapply Rle_trans; [apply Rabs_triang|]. rewrite Rabs_Ropp. lra. }
    exists (Cx (sub (re p) (re q)) (sub (im p) (im q))). split; [reflexivity|]. split; [split; assumption|].
    change (cval (Cx (sub (re p) (re q)) (sub (im p) (im q)))) with (B2R (sub (re p) (re q)), B2R (sub (im p) (im q))). rewrite V1, V2.
    eapply Rle_trans; [apply (csub_triangle _ (csub (cval p) (cval q)))|].
    assert (A : cnorm (csub (rnd (B2R (re p) - B2R (re q)), rnd (B2R (im p) - B2R (im q))) (csub (cval p) (cval q))) <= u * cnorm (csub (cval p) (cval q)) + 3 / 2 * eta).
    { apply (cnorm_perturb (B2R (re p) - B2R (re q)) (B2R (im p) - B2R (im q))); [lra|lra|apply (rnd_err prec emax)|apply (rnd_err prec emax)]. }
    assert (Nt : cnorm (csub (cval p) (cval q)) <= cnorm (cval p) + cnorm (cval q)).
    { eapply Rle_trans; [apply (csub_triangle _ c0)|]. rewrite (csub_norm_sym c0). replace (csub (cval p) c0) with (cval p) by (unfold csub, c0, cval; cbn [fst snd]; f_equal; ring). replace (csub (cval q) c0) with (cval q) by (unfold csub, c0, cval; cbn [fst snd]; f_equal; ring). lra. }
    assert (u * cnorm (csub (cval p) (cval q)) <= u * (204 / 100 * (C * C))) by (apply Rmult_le_compat_l; lra).
    replace (csub (csub (cval p) (cval q)) (csub e f)) with (csub (csub (cval p) e) (csub (cval q) f)) by (unfold csub; cbn [fst snd]; f_equal; ring).
    assert (cnorm (csub (csub (cval p) e) (csub (cval q) f)) <= cnorm (csub (cval p) e) + cnorm (csub (cval q) f)).
    { eapply Rle_trans; [apply (csub_triangle _ c0)|]. rewrite (csub_norm_sym c0). replace (csub (csub (cval p) e) c0) with (csub (cval p) e) by (unfold csub, c0, cval; cbn [fst snd]; f_equal; ring). replace (csub (csub (cval q) f) c0) with (csub (cval q) f) by (unfold csub, c0, cval; cbn [fst snd]; f_equal; ring). lra. }
    lra.
Qed.

Theorem C105_sin2_plus_cos2 : forall z : complex fl, cfinite z -> Rabs (B2R (im z)) <= IZR k ->
  exists s c s2 c2 r, complex_sin FF FE z = Ok s /\ complex_cos FF FE z = Ok c /\ complex_mul FR s s = Ok s2 /\ complex_mul FR c c = Ok c2
    /\ complex_add (r_add FR) s2 c2 = Ok r /\ cfinite r /\ cnorm (csub (cval r) c1) <= 19 * d * (cosh (B2R (im z)) * cosh (B2R (im z))).
Proof.
  intros z [Fa Fb] Hb. destruct dr as (U & D & K). destruct (cosh_mid _ Hb) as (C1 & M1 & M2 & Q).
  destruct (proj1 HL (re z) Fa) as (_ & Ls & Lc & _). destruct (proj1 HL (im z) Fb) as (_ & _ & _ & LH). destruct (LH Q) as [Lsh Lch].
  set (a := B2R (re z)) in *. set (b := B2R (im z)) in *. set (C := cosh b) in *.
  pose proof (sin_le_1 a) as S1. pose proof (cos_le_1 a) as K1. pose proof (sinh_le_cosh b) as H1. fold C in H1.
  assert (CA : Rabs C <= C) by (rewrite Rabs_pos_eq; lra). assert (S1C : Rabs (sin a) <= C) by lra. assert (K1C : Rabs (cos a) <= C) by lra.
  assert (bnd : forall x y, Rabs x <= 1 -> Rabs y <= C -> Rabs (x * y) <= C). { intros x y Hx Hy. rewrite Rabs_mult. replace C with (1 * C) by ring. apply Rmult_le_compat; try apply Rabs_pos; assumption. }
  destruct (libm_product _ _ _ _ C Ls Lch C1 M1 S1C CA (bnd _ _ S1 CA)) as (s & ch & Es & Ech & G1 & D1).
  destruct (libm_product _ _ _ _ C Lc Lsh C1 M1 K1C H1 (bnd _ _ K1 H1)) as (c & sh & Ec & Esh & G2 & D2).
  destruct (libm_product _ _ _ _ C Lc Lch C1 M1 K1C CA (bnd _ _ K1 CA)) as (c' & ch' & Ec' & Ech' & G3 & D3).
  destruct (libm_product _ _ _ _ C Ls Lsh C1 M1 S1C H1 (bnd _ _ S1 H1)) as (s' & sh' & Es' & Esh' & G4 & D4).
  rewrite Ec in Ec'. injection Ec' as <-. rewrite Ech in Ech'. injection Ech' as <-. rewrite Es in Es'. injection Es' as <-. rewrite Esh in Esh'. injection Esh' as <-.
  pose proof (sin2_cos2 a) as SC. unfold Rsqr in SC. destruct (trig_norm b (cos a) (sin a) ltac:(lra)) as (N1 & N2 & _ & _). fold C in N1, N2.
  set (S := Cx (mul s ch) (mul c sh) : complex fl). set (Kc := Cx (mul c ch) (Bopp (mul s sh)) : complex fl).
  assert (ES : complex_sin FF FE z = Ok S).
  { unfold complex_sin. change (fn_sin FE (re z)) with (fn_sin libm (re z)). change (fn_cosh FE (im z)) with (fn_cosh libm (im z)). change (fn_cos FE (re z)) with (fn_cos libm (re z)). change (fn_sinh FE (im z)) with (fn_sinh libm (im z)).
    rewrite Es, Ech, Ec, Esh. reflexivity. }
  assert (EK : complex_cos FF FE z = Ok Kc).
  { unfold complex_cos. change (fn_sin FE (re z)) with (fn_sin libm (re z)). change (fn_cosh FE (im z)) with (fn_cosh libm (im z)). change (fn_cos FE (re z)) with (fn_cos libm (re z)). change (fn_sinh FE (im z)) with (fn_sinh libm (im z)).
    rewrite Es, Ech, Ec, Esh. reflexivity. }
  assert (DS : cnorm (csub (cval S) (sin a * C, cos a * sinh b)) <= 303 / 100 * d * C) by (apply products_near; assumption).
  assert (DK : cnorm (csub (cval Kc) (cos a * C, - (sin a * sinh b))) <= 303 / 100 * d * C).
  { apply products_near; try assumption. change (im Kc) with (Bopp (mul s sh)). rewrite B2R_Bopp, Rabs_Ropp. replace (- B2R (mul s sh) - - (sin a * sinh b)) with (- (B2R (mul s sh) - sin a * sinh b)) by ring. rewrite Rabs_Ropp. exact D4. }
  assert (FS : cfinite S) by (split; assumption). assert (FK : cfinite Kc) by (split; [exact G3|cbn [im Kc]; rewrite is_finite_Bopp; exact G4]).
  destruct (square_near S _ C FS C1 M2 N1 DS) as (s2 & Es2 & Fs2 & Ds2 & Ns2). destruct (square_near Kc _ C FK C1 M2 N2 DK) as (c2 & Ec2 & Fc2 & Dc2 & Nc2).
  destruct (proj1 (squares_near s2 c2 _ _ C Fs2 Fc2 C1 M2 Ds2 Ns2 Dc2 Nc2)) as (r & Er & Fr & Dr).
  exists S, Kc, s2, c2, r. do 6 (split; [assumption|]).
  match type of Dr with cnorm (csub _ ?e) <= _ => replace e with c1 in Dr; [exact Dr|] end.
  pose proof (sq_hyp b) as H. fold C in H. unfold cadd, cmul, c1. cbn [fst snd]. f_equal; [|ring].
  replace (sin a * C * (sin a * C) - cos a * sinh b * (cos a * sinh b) + (cos a * C * (cos a * C) - - (sin a * sinh b) * - (sin a * sinh b))) with ((sin a * sin a + cos a * cos a) * (C * C - sinh b * sinh b)) by ring.
  rewrite SC, H. ring.
Qed.

Theorem C105_cosh2_minus_sinh2 : forall z : complex fl, cfinite z -> Rabs (B2R (re z)) <= IZR k ->
  exists s c s2 c2 r, complex_sinh FF FE z = Ok s /\ complex_cosh FF FE z = Ok c /\ complex_mul FR s s = Ok s2 /\ complex_mul FR c c = Ok c2
    /\ complex_sub (r_sub FR) c2 s2 = Ok r /\ cfinite r /\ cnorm (csub (cval r) c1) <= 19 * d * (cosh (B2R (re z)) * cosh (B2R (re z))).
Proof.
  intros z [Fa Fb] Ha. destruct dr as (U & D & K). destruct (cosh_mid _ Ha) as (C1 & M1 & M2 & Q).
  destruct (proj1 HL (im z) Fb) as (_ & Ls & Lc & _). destruct (proj1 HL (re z) Fa) as (_ & _ & _ & LH). destruct (LH Q) as [Lsh Lch].
  set (a := B2R (re z)) in *. set (b := B2R (im z)) in *. set (C := cosh a) in *.
  pose proof (sin_le_1 b) as S1. pose proof (cos_le_1 b) as K1. pose proof (sinh_le_cosh a) as H1. fold C in H1.
  assert (CA : Rabs C <= C) by (rewrite Rabs_pos_eq; lra). assert (S1C : Rabs (sin b) <= C) by lra. assert (K1C : Rabs (cos b) <= C) by lra.
  assert (bnd : forall x y, Rabs x <= C -> Rabs y <= 1 -> Rabs (x * y) <= C). { intros x y Hx Hy. rewrite Rabs_mult. replace C with (C * 1) by ring. apply Rmult_le_compat; try apply Rabs_pos; assumption. }
  destruct (libm_product _ _ _ _ C Lsh Lc C1 M1 H1 K1C (bnd _ _ H1 K1)) as (sh & c & Esh & Ec & G1 & D1).
  destruct (libm_product _ _ _ _ C Lch Ls C1 M1 CA S1C (bnd _ _ CA S1)) as (ch & s & Ech & Es & G2 & D2).
  destruct (libm_product _ _ _ _ C Lch Lc C1 M1 CA K1C (bnd _ _ CA K1)) as (ch' & c' & Ech' & Ec' & G3 & D3).
  destruct (libm_product _ _ _ _ C Lsh Ls C1 M1 H1 S1C (bnd _ _ H1 S1)) as (sh' & s' & Esh' & Es' & G4 & D4).
  rewrite Ec in Ec'. injection Ec' as <-. rewrite Ech in Ech'. injection Ech' as <-. rewrite Es in Es'. injection Es' as <-. rewrite Esh in Esh'. injection Esh' as <-.
  pose proof (sin2_cos2 b) as SC. unfold Rsqr in SC. destruct (trig_norm a (cos b) (sin b) ltac:(lra)) as (_ & _ & N1 & N2). fold C in N1, N2.
  set (S := Cx (mul sh c) (mul ch s) : complex fl). set (Kc := Cx (mul ch c) (mul sh s) : complex fl).
  assert (ES : complex_sinh FF FE z = Ok S).
  { unfold complex_sinh. change (fn_sin FE (im z)) with (fn_sin libm (im z)). change (fn_cosh FE (re z)) with (fn_cosh libm (re z)). change (fn_cos FE (im z)) with (fn_cos libm (im z)). change (fn_sinh FE (re z)) with (fn_sinh libm (re z)).
    rewrite Es, Ech, Ec, Esh. reflexivity. }
  assert (EK : complex_cosh FF FE z = Ok Kc).
  { unfold complex_cosh. change (fn_sin FE (im z)) with (fn_sin libm (im z)). change (fn_cosh FE (re z)) with (fn_cosh libm (re z)). change (fn_cos FE (im z)) with (fn_cos libm (im z)). change (fn_sinh FE (re z)) with (fn_sinh libm (re z)).
    rewrite Es, Ech, Ec, Esh. reflexivity. }
  assert (DS : cnorm (csub (cval S) (sinh a * cos b, C * sin b)) <= 303 / 100 * d * C) by (apply products_near; assumption).
  assert (DK : cnorm (csub (cval Kc) (C * cos b, sinh a * sin b)) <= 303 / 100 * d * C) by (apply products_near; assumption).
  assert (FS : cfinite S) by (split; assumption). assert (FK : cfinite Kc) by (split; assumption).
  destruct (square_near S _ C FS C1 M2 N1 DS) as (s2 & Es2 & Fs2 & Ds2 & Ns2). destruct (square_near Kc _ C FK C1 M2 N2 DK) as (c2 & Ec2 & Fc2 & Dc2 & Nc2).
  destruct (proj2 (squares_near c2 s2 _ _ C Fc2 Fs2 C1 M2 Dc2 Nc2 Ds2 Ns2)) as (r & Er & Fr & Dr).
  exists S, Kc, s2, c2, r. do 6 (split; [assumption|]).
  match type of Dr with cnorm (csub _ ?e) <= _ => replace e with c1 in Dr; [exact Dr|] end.
  pose proof (sq_hyp a) as H. fold C in H. unfold csub, cmul, c1. cbn [fst snd]. f_equal; [|ring].
  replace (C * cos b * (C * cos b) - sinh a * sin b * (sinh a * sin b) - (sinh a * cos b * (sinh a * cos b) - C * sin b * (C * sin b))) with ((sin b * sin b + cos b * cos b) * (C * C - sinh a * sinh a)) by ring.
  rewrite SC, H. ring.
Qed.
End Fmt.

(** ** f32 *)
Corollary C105_f32 : forall (libm : FunOps f32) (d : R), unit_roundoff 24 <= d <= / 20000 -> libm_error 24 128 libm d ->
  let FE := float_fun 24 128 libm in
  (forall z, sized 25 z -> exists m t c s, complex_abs f32_f FE z = Ok m /\ complex_arg FE z = Ok t /\ fn_cos FE t = Ok c /\ fn_sin FE t = Ok s
     /\ yields (Ok (complex_new (fl_mul 24 128 m c) (fl_mul 24 128 m s))) (cval z) (73 / 10 * d))
  /\ (forall z, cfinite z -> Rabs (B2R (re z)) <= 25 -> exists v m, complex_exp f32_f FE z = Ok v /\ complex_abs f32_f FE v = Ok m /\ is_finite m = true
     /\ Rabs (B2R m - exp (B2R (re z))) <= 52 / 10 * d * exp (B2R (re z)))
  /\ (forall z, cfinite z -> Rabs (B2R (im z)) <= 25 -> exists s c s2 c2 r, complex_sin f32_f FE z = Ok s /\ complex_cos f32_f FE z = Ok c
     /\ complex_mul (float_ring 24 128) s s = Ok s2 /\ complex_mul (float_ring 24 128) c c = Ok c2 /\ complex_add (r_add (float_ring 24 128)) s2 c2 = Ok r /\ cfinite r
     /\ cnorm (csub (cval r) c1) <= 19 * d * (cosh (B2R (im z)) * cosh (B2R (im z)))).
Proof.
  intros libm d Hd HL FE. assert (H3 : d * (IZR 25 + 3) <= / 400) by lra. split; [|split].
  - intros z Sz. exact (C105_polar_form 24 128 libm ltac:(lia) 25 ltac:(lia) ltac:(lia) d (proj1 Hd) H3 HL z Sz).
  - intros z Fz Ha. exact (C105_modulus_of_exp 24 128 libm ltac:(lia) 25 ltac:(lia) ltac:(lia) d (proj1 Hd) H3 HL z Fz Ha).
  - intros z Fz Ha. exact (C105_sin2_plus_cos2 24 128 libm ltac:(lia) 25 ltac:(lia) ltac:(lia) d (proj1 Hd) H3 HL z Fz Ha).
Qed.

(** f64, a correctly rounded libm and the numbers 1 + 4i and 1 + i: every hypothesis is met. *)
Example C105_case : let FE := float_fun 53 1024 round64 in let d := 11 / 10 * unit_roundoff 53 in
  (exists m t c s, complex_abs f64_f FE z14 = Ok m /\ complex_arg FE z14 = Ok t /\ fn_cos FE t = Ok c /\ fn_sin FE t = Ok s
     /\ yields (Ok (complex_new (fl_mul 53 1024 m c) (fl_mul 53 1024 m s))) (1, 4) (73 / 10 * d))
  /\ (exists s l e, complex_sqrt f64_f FE z14 = Ok s /\ complex_ln f64_f FE z14 = Ok l
     /\ complex_exp f64_f FE (complex_new (fl_div 53 1024 (re l) (fint 2)) (fl_div 53 1024 (im l) (fint 2))) = Ok e
     /\ cnorm (csub (cval e) (cval s)) <= (16 / 10 * Rabs (ln (cnorm (1, 4))) + 20) * d * sqrt (cnorm (1, 4)))
  /\ (exists s c s2 c2 r, complex_sinh f64_f FE z14 = Ok s /\ complex_cosh f64_f FE z14 = Ok c /\ complex_mul (float_ring 53 1024) s s = Ok s2 /\ complex_mul (float_ring 53 1024) c c = Ok c2
    /\ complex_sub (r_sub (float_ring 53 1024)) c2 s2 = Ok r /\ cnorm (csub (cval r) c1) <= 19 * d * (cosh 1 * cosh 1)).
Proof.
  intros FE d. destruct C96_case as (_ & HL & _). assert (U : unit_roundoff 53 <= / 9007199254740992 /\ 0 < unit_roundoff 53) by (unfold unit_roundoff; simpl; lra).
  assert (V1 : B2R (fint 1) = 1) by (vm_compute; lra). assert (V4 : B2R (fint 4) = 4) by (vm_compute; lra). assert (V2 : B2R (fint 2) = 2) by (vm_compute; lra).
  assert (CV : cval z14 = (1, 4)) by (unfold cval; cbn [z14 re im]; rewrite V1, V4; reflexivity).
  assert (H1 : unit_roundoff 53 <= d) by (unfold d; lra). assert (H3 : d * (IZR 249 + 3) <= / 400) by (unfold d; lra).
  split; [|split].
  - rewrite <- CV. exact (C105_polar_form 53 1024 round64 ltac:(lia) 249 ltac:(lia) ltac:(lia) d H1 H3 HL z14 (proj1 C95_case)).
  - destruct (C105_sqrt_is_exp_of_half_ln 53 1024 round64 ltac:(lia) 249 ltac:(lia) ltac:(lia) d H1 H3 HL z14 (fint 2) (proj1 C95_case)) as (s & l & e & sg & E1 & E2 & E3 & _ & _ & _ & G & B).
    + exact V2.
    + exists s, l, e. split; [exact E1|]. split; [exact E2|]. split; [exact E3|]. rewrite (G ltac:(cbn [z14 re im]; rewrite V1, V4; lra)), !Rmult_1_l, <- surjective_pairing, CV in B. exact B.
  - destruct (C105_cosh2_minus_sinh2 53 1024 round64 ltac:(lia) 249 ltac:(lia) ltac:(lia) d H1 H3 HL z14) as (s & c & s2 & c2 & r & E1 & E2 & E3 & E4 & E5 & _ & B).
    + split; reflexivity.
    + cbn [z14 re]. rewrite V1, Rabs_R1. lra.
    + exists s, c, s2, c2, r. cbn [z14 re] in B. rewrite V1 in B. repeat split; assumption.
Qed.

Print Assumptions C105_modulus_of_exp.
Print Assumptions C105_exp_times_exp_minus.
Print Assumptions C105_polar_form.
Print Assumptions C105_sqrt_is_exp_of_half_ln.
Print Assumptions C105_sin2_plus_cos2.
Print Assumptions C105_cosh2_minus_sinh2.
Print Assumptions C105_f32.
