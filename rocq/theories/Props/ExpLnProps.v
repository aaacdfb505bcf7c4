(** Property C96: exp and ln of Complex<f32> and Complex<f64> are inverse to each other, and exp turns sums into
    products, up to stated errors, given the accuracy of libm. *)
From Coq Require Import List ZArith Reals Bool Lia Lra Psatz.
From Flocq Require Import Core.Core IEEE754.BinarySingleNaN.
From Verif Require Import Base.Outcome Model.Traits Model.Float Model.Complex Model.RealInstance Spec.FloatErr Spec.ComplexErr
  Proofs.FloatErr Proofs.FloatRound Proofs.FloatRange Proofs.PiE Proofs.ComplexReal Proofs.ComplexErr Props.ComplexErrProps Props.ComplexBranchProps
  Props.FloatFunProps Props.FloatProps Props.TrigTestProps Proofs.LnTest Proofs.ComplexUndo Props.ComplexUndoProps Proofs.ExpLn.
Local Open Scope R_scope.

Lemma ln_2_le : ln 2 <= 7 / 10.
Proof.
  rewrite <- (ln_exp (7 / 10)). apply ln_le_compat; [lra|]. replace (7 / 10) with (INR 8 * (7 / 80)) by (simpl; lra). rewrite exp_pow.
  assert (Q : 10908 / 10000 <= exp (7 / 80)).
  { replace (7 / 80) with (INR 7 * (1 / 80)) by (simpl; lra). rewrite exp_pow. apply Rle_trans with ((81 / 80) ^ 7); [simpl; lra|]. apply pow_incr. pose proof (exp_ineq1 (1 / 80)). lra. }
  apply Rle_trans with ((10908 / 10000) ^ 8); [simpl; lra|]. apply pow_incr. lra.
Qed.

Section Fmt.
Context (prec emax : Z) {Hp : Prec_gt_0 prec} {He : Prec_lt_emax prec emax} (libm : FunOps (binary_float prec emax)).
Notation fl := (binary_float prec emax).
Notation FF := (float_field prec emax).
Notation FR := (float_ring prec emax).
Notation FE := (float_fun prec emax libm).
Notation u := (unit_roundoff prec).
Notation eta := (underflow_unit prec emax).
Notation rnd := (round radix2 (SpecFloat.fexp prec emax) (round_mode mode_NE)).
Notation add := (fl_add prec emax).
Notation hi := (half_big emax).

(** What is assumed of libm: exp, sin, cos ([faithful]), ln and atan2 have relative error at most d (beyond underflow). *)
Definition libm_error (d : R) : Prop :=
  faithful prec emax libm d
  /\ (forall x : fl, is_finite x = true -> 0 < B2R x -> returns prec emax d (fn_ln libm x) (ln (B2R x)))
  /\ (forall y x : fl, is_finite y = true -> is_finite x = true -> ~ (B2R x = 0 /\ B2R y = 0) ->
        exists t, is_argument t (B2R x) (B2R y) /\ returns prec emax d (fn_atan2 libm y x) t).

Context (Hprec : (24 <= prec)%Z) (k : Z) (Hk0 : (1 <= k)%Z) (Hk : (4 * k + 26 <= emax)%Z).
Context (d : R) (Hd : u <= d) (Hdk : d * (IZR k + 3) <= / 400) (HL : libm_error d).
Notation mid := (mid k).

Lemma d_range : 0 < u <= / 16777216 /\ u <= d <= / 1600 /\ 1 <= IZR k.
Proof.
  pose proof (u_range prec Hprec) as U. assert (K : 1 <= IZR k) by (apply IZR_le; exact Hk0).
  assert (d * 4 <= d * (IZR k + 3)) by (apply Rmult_le_compat_l; lra). lra.
Qed.

Lemma full_ln (z : complex fl) : cfinite z -> mid (cnorm (cval z) * cnorm (cval z)) -> 0 < cnorm (cval z) ->
  let L := ln (cnorm (cval z)) in
  exists w t, complex_ln FF FE z = Ok w /\ cfinite w /\ is_argument t (B2R (re z)) (B2R (im z))
    /\ Rabs (B2R (re w) - L) <= 201 / 100 * d * Rabs L + 11 / 10 * d /\ Rabs (B2R (im w) - t) <= 315 / 100 * d.
Proof.
  intros Fz M Z0 L. destruct d_range as (U & D & K). destruct HL as (H1 & H2 & H3).
  destruct (ln_sized prec emax libm Hprec k Hk0 Hk d ltac:(lra) z Fz M Z0 H2) as (r & Er & Fr & Hr).
  destruct (H3 (im z) (re z) (proj2 Fz) (proj1 Fz)) as (t & Ht & i & Ei & Fi & Hi).
  { intros [A B]. assert (Q : cnorm (cval z) * cnorm (cval z) = 0) by (rewrite cnorm_sq; unfold cval; cbn [fst snd]; rewrite A, B; ring).
    assert (0 < cnorm (cval z) * cnorm (cval z)) by (apply Rmult_lt_0_compat; exact Z0). lra. }
  exists (Cx r i), t. split; [apply Er; exact Ei|]. split; [split; assumption|]. split; [exact Ht|]. split; [exact Hr|]. cbn [im].
  destruct Ht as [Ht _]. pose proof PI_close as P. pose proof (eta_tiny_u prec emax Hprec k Hk0 Hk) as T.
  assert (d * Rabs t <= d * (3141592655 / 1000000000)) by (apply Rmult_le_compat_l; [lra|]; apply Rabs_le; lra). lra.
Qed.

(** exp(ln z) is z, up to (2.1 |ln |z|| + 8) d |z|. *)
Theorem C96_exp_of_ln : forall z : complex fl, sized k z ->
  exists w, complex_ln FF FE z = Ok w
    /\ yields (complex_exp FF FE w) (cval z) ((21 / 10 * Rabs (ln (cnorm (cval z))) + 8) * d).
Proof.
  intros z Sz. destruct d_range as (U & D & K). pose proof (win_sized prec emax k z Sz) as Wz. pose proof (win_mul k _ _ _ _ _ _ Rlt_0_1 Rlt_0_1 Wz Wz) as WZZ.
  pose proof (win_pos k _ _ _ Rlt_0_1 Wz) as Z0. destruct (full_ln z (proj1 Sz)) as (w & t & Ew & Fw & (Rt & X & Y) & H1 & H2); [|exact Z0|].
  { eapply win_mid; [| | |exact WZZ]; [lia|lra|lia]. }
  exists w. split; [exact Ew|]. destruct Sz as [Fz Sz]. set (Z := cnorm (cval z)) in *. set (L := ln Z) in *.
  assert (EL : Rabs L <= 7 / 10 * IZR k).
  { pose proof ln_2_le as L2.
    assert (L20 : 0 <= ln 2) by (rewrite <- ln_1; apply ln_le_compat; lra).
    pose proof (ln_le_compat _ _ (bpow_gt_0 radix2 (- k)) (proj1 Sz)) as A1. pose proof (ln_le_compat _ _ Z0 (proj2 Sz)) as A2. rewrite ln_bpow in A1, A2. rewrite opp_IZR in A1. fold L in A1, A2.
    assert (IZR k * ln 2 <= IZR k * (7 / 10)) by (apply Rmult_le_compat_l; lra). apply Rabs_le. lra. }
  assert (dA0 : 0 <= d * Rabs L) by (apply Rmult_le_pos; [lra|apply Rabs_pos]).
  assert (dA : d * Rabs L <= 7 / 10 * (d * IZR k)). { assert (d * Rabs L <= d * (7 / 10 * IZR k)) by (apply Rmult_le_compat_l; lra). lra. }
  assert (W : Rabs (B2R (re w)) <= 2 * IZR k + 1).
  { replace (B2R (re w)) with ((B2R (re w) - L) + L) by ring. eapply Rle_trans; [apply Rabs_triang|]. lra. }
  destruct (exp_sized prec emax libm Hprec k Hk0 Hk d ltac:(lra) (proj1 HL) w Fw W) as (v & Ev & Fv & Hv).
  exists v. split; [exact Ev|]. split; [exact Fv|]. fold Z.
  assert (EZ : cexp (L, t) = cval z).
  { unfold cexp. cbn [fst snd]. unfold L. rewrite exp_ln by exact Z0. unfold cval. apply injective_projections; cbn [fst snd]; symmetry; assumption. }
  assert (EL' : exp (fst (L, t)) = Z) by (cbn [fst]; apply exp_ln; exact Z0).
  pose proof (cexp_moved (L, t) (cval w)) as Mv. rewrite EL', EZ in Mv. cbn [cval fst snd] in Mv.
  assert (Sm : Rabs (B2R (re w) - L) <= 1 / 50) by lra. specialize (Mv Sm).
  assert (Mv' : cnorm (csub (cexp (cval w)) (cval z)) <= 103 / 100 * (201 / 100 * (d * Rabs L) + 425 / 100 * d) * Z).
  { eapply Rle_trans; [exact Mv|]. apply Rmult_le_compat_r; [lra|]. apply Rmult_le_compat_l; lra. }
  assert (NE : exp (B2R (re w)) <= 102 / 100 * Z).
  { change (exp (B2R (re w))) with (exp (fst (cval w))). rewrite <- cnorm_cexp. eapply Rle_trans; [apply (cnorm_le_diff _ (cval z))|]. fold Z.
    assert (103 / 100 * (201 / 100 * (d * Rabs L) + 425 / 100 * d) * Z <= 2 / 100 * Z) by (apply Rmult_le_compat_r; lra). lra. }
  eapply Rle_trans; [apply (csub_triangle _ (cexp (cval w)))|].
  assert (31 / 10 * d * exp (B2R (re w)) <= 31 / 10 * d * (102 / 100 * Z)) by (apply Rmult_le_compat_l; lra).
  assert (dZ0 : 0 < d * Z) by (apply Rmult_lt_0_compat; lra). assert (0 <= d * Rabs L * Z) by (apply Rmult_le_pos; lra). lra.
Qed.

(** ln(exp z) is z up to full turns: the real part within (2.1 |Re z| + 5) d, the imaginary part within 7 d of Im z + 2 pi n for some integer n. *)
Theorem C96_ln_of_exp : forall z : complex fl, cfinite z -> Rabs (B2R (re z)) <= IZR k ->
  exists v w (n : Z), complex_exp FF FE z = Ok v /\ complex_ln FF FE v = Ok w /\ cfinite w
    /\ Rabs (B2R (re w) - B2R (re z)) <= (21 / 10 * Rabs (B2R (re z)) + 5) * d
    /\ Rabs (B2R (im w) - (B2R (im z) + 2 * PI * IZR n)) <= 7 * d
    /\ (Rabs (B2R (im z)) <= 3 -> n = 0%Z).
Proof.
  intros z Fz Ha. destruct d_range as (U & D & K). assert (A2k : Rabs (B2R (re z)) <= 2 * IZR k + 1) by lra.
  destruct (exp_sized prec emax libm Hprec k Hk0 Hk d ltac:(lra) (proj1 HL) z Fz A2k) as (v & Ev & Fv & Hv).
  set (a := B2R (re z)) in *. set (b := B2R (im z)) in *. assert (E0 : 0 < exp a) by apply exp_pos.
  assert (NV : Rabs (cnorm (cval v) - exp a) <= 31 / 10 * d * exp a).
  { assert (N : cnorm (cexp (cval z)) = exp a) by apply cnorm_cexp. apply Rabs_le. pose proof (cnorm_le_diff (cval v) (cexp (cval z))) as A. pose proof (cnorm_le_diff (cexp (cval z)) (cval v)) as B.
    rewrite csub_norm_sym in B. lra. }
  assert (dE : d * exp a <= / 1600 * exp a) by (apply Rmult_le_compat_r; lra). set (V := cnorm (cval v)) in *.
  pose proof (Rabs_le_inv _ _ NV) as NV'. assert (V0 : 0 < V) by lra.
  assert (MV : mid (V * V)).
  { assert (B : forall r, r <= IZR k -> exp r <= exp (IZR k)) by (intros r Hr; destruct Hr as [Hr|Hr]; [left; apply exp_increasing; exact Hr|rewrite Hr; right; reflexivity]).
    assert (E2 : exp (IZR k) * exp (IZR k) <= 4 * bpow radix2 (4 * k)).
    { rewrite <- exp_plus. change 4 with (bpow radix2 2). rewrite <- bpow_plus. apply exp_ln2; [lia|]. rewrite plus_IZR, mult_IZR. lra. }
    apply Rabs_le_inv in Ha. pose proof (B a ltac:(lra)) as B1. pose proof (B (- a) ltac:(lra)) as B2. rewrite exp_Ropp in B2. set (X := exp (IZR k)) in *.
    assert (X0 : 0 < X) by apply exp_pos. assert (XL : / X <= exp a). { rewrite <- (Rinv_inv (exp a)). apply Rinv_le; [apply Rinv_0_lt_compat; exact E0|exact B2]. }
    assert (iX : 0 < / X) by (apply Rinv_0_lt_compat; exact X0). split.
    - apply Rle_trans with (/ 2 * / X * (/ 2 * / X)); [|apply Rmult_le_compat; lra]. replace (/ 2 * / X * (/ 2 * / X)) with (/ (4 * (X * X))) by (field; lra).
      rewrite bpow_opp, <- Rinv_mult. apply Rinv_le; [|lra]. apply Rmult_lt_0_compat; [lra|apply Rmult_lt_0_compat; exact X0].
    - apply Rle_trans with (2 * X * (2 * X)); [apply Rmult_le_compat; lra|]. lra. }
  destruct (full_ln v Fv MV V0) as (w & t & Ew & Fw & Ht & H1 & H2). fold V in H1.
  destruct (angle_near (cval z) (cval v) t (31 / 10 * d)) as [n Hn]; [exact Ht|lra|exact Hv|]. cbn [cval snd] in Hn. fold b in Hn.
  exists v, w, n. split; [exact Ev|]. split; [exact Ew|]. split; [exact Fw|].
  assert (LV : Rabs (ln V - a) <= 317 / 100 * d).
  { destruct (ln_ratio V (exp a) (31 / 10 * d)) as [_ R]; [exact E0|lra|exact NV|]. rewrite ln_exp in R. lra. }
  assert (I2 : Rabs (B2R (im w) - (b + 2 * PI * IZR n)) <= 7 * d).
  { replace (B2R (im w) - (b + 2 * PI * IZR n)) with ((B2R (im w) - t) + (t - b - 2 * PI * IZR n)) by ring. eapply Rle_trans; [apply Rabs_triang|]. lra. }
  split; [|split; [exact I2|]].
  - assert (Rabs (ln V) <= Rabs a + 317 / 100 * d). { replace (ln V) with ((ln V - a) + a) by ring. eapply Rle_trans; [apply Rabs_triang|]. lra. }
    assert (d * Rabs (ln V) <= d * (Rabs a + 317 / 100 * d)) by (apply Rmult_le_compat_l; lra). assert (d * d <= / 1600 * d) by (apply Rmult_le_compat_r; lra). pose proof (Rabs_pos a). assert (0 <= d * Rabs a) by (apply Rmult_le_pos; lra).
    replace (B2R (re w) - a) with ((B2R (re w) - ln V) + (ln V - a)) by ring. eapply Rle_trans; [apply Rabs_triang|]. lra.
  - intros Hb. destruct Ht as [Ht _]. pose proof PI_close as P. apply Rabs_le_inv in Hb. apply Rabs_le_inv in Hn.
    assert (Q1 : 2 * PI * IZR n < 2 * PI * 1) by lra. assert (Q2 : 2 * PI * -1 < 2 * PI * IZR n) by lra.
    apply Rmult_lt_reg_l in Q1; [|lra]. apply Rmult_lt_reg_l in Q2; [|lra]. apply lt_IZR in Q1. apply lt_IZR in Q2. lia.
Qed.

(** exp(z + w) and exp(z) exp(w) agree, up to (1.1 (|Re(z+w)| + |Im(z+w)|) + 12) d e^Re(z+w). *)
Theorem C96_exp_of_sum : forall z w : complex fl, cfinite z -> cfinite w ->
  let a := B2R (re z) + B2R (re w) in let b := B2R (im z) + B2R (im w) in
  Rabs (B2R (re z)) <= IZR k -> Rabs (B2R (re w)) <= IZR k -> d * (Rabs a + Rabs b) <= / 100 ->
  exists s es ez ew p,
    complex_add (r_add FR) z w = Ok s /\ complex_exp FF FE s = Ok es
    /\ complex_exp FF FE z = Ok ez /\ complex_exp FF FE w = Ok ew /\ complex_mul FR ez ew = Ok p
    /\ cfinite es /\ cfinite p
    /\ cnorm (csub (cval es) (cval p)) <= (11 / 10 * (Rabs a + Rabs b) + 12) * d * exp a.
Proof.
  intros z w Fz Fw a b Az Aw Hab. destruct d_range as (U & D & K). pose proof (eta_tiny_u prec emax Hprec k Hk0 Hk) as T. pose proof (eta_pos prec emax) as T0.
  pose proof (Rabs_pos a) as A0. pose proof (Rabs_pos b) as B0. set (S := Rabs a + Rabs b) in *. assert (S0 : 0 <= S) by (unfold S; lra).
  assert (uS : u * S <= d * S) by (apply Rmult_le_compat_r; lra).
  assert (Sb : S <= hi). { assert (HS : u * S <= / 100) by lra. assert (B : S <= bpow radix2 prec).
    { apply Rmult_le_reg_l with u; [lra|]. unfold unit_roundoff at 2. rewrite <- bpow_plus. replace (- prec + prec)%Z with 0%Z by lia. simpl. lra. }
    unfold half_big. eapply Rle_trans; [exact B|]. apply bpow_le. unfold Prec_lt_emax in He. lia. }
  destruct (add_round prec emax (re z) (re w) (proj1 Fz) (proj1 Fw)) as [F1 V1]; [fold a; unfold S in Sb; lra|].
  destruct (add_round prec emax (im z) (im w) (proj2 Fz) (proj2 Fw)) as [F2 V2]; [fold b; unfold S in Sb; lra|]. fold a in V1. fold b in V2.
  pose proof (rnd_err prec emax a) as R1. pose proof (rnd_err prec emax b) as R2. rewrite <- V1 in R1. rewrite <- V2 in R2.
  set (s := Cx (add (re z) (re w)) (add (im z) (im w))). exists s.
  assert (uab : u * Rabs a + u * Rabs b <= d * S) by (rewrite <- Rmult_plus_distr_l; fold S; exact uS).
  assert (ua0 : 0 <= u * Rabs a) by (apply Rmult_le_pos; lra). assert (ub0 : 0 <= u * Rabs b) by (apply Rmult_le_pos; lra).
  assert (Aa : Rabs a <= 2 * IZR k) by (unfold a; eapply Rle_trans; [apply Rabs_triang|]; lra).
  assert (As : Rabs (B2R (re s)) <= 2 * IZR k + 1).
  { cbn [re s]. replace (B2R (add (re z) (re w))) with ((B2R (add (re z) (re w)) - a) + a) by ring. eapply Rle_trans; [apply Rabs_triang|]. lra. }
  destruct (exp_sized prec emax libm Hprec k Hk0 Hk d ltac:(lra) (proj1 HL) s (conj F1 F2) As) as (es & Es & Fs & Hs).
  destruct (exp_sized prec emax libm Hprec k Hk0 Hk d ltac:(lra) (proj1 HL) z Fz ltac:(lra)) as (ez & Ez & Fez & Hz).
  destruct (exp_sized prec emax libm Hprec k Hk0 Hk d ltac:(lra) (proj1 HL) w Fw ltac:(lra)) as (ew & Ew & Few & Hw).
  set (x := B2R (re z)) in *. set (y := B2R (re w)) in *. assert (X0 : 0 < exp x) by apply exp_pos. assert (Y0 : 0 < exp y) by apply exp_pos.
  assert (EA : exp a = exp x * exp y) by (unfold a; apply exp_plus). assert (E0 : 0 < exp a) by apply exp_pos.
  assert (NX : cnorm (cexp (cval z)) = exp x) by apply cnorm_cexp. assert (NY : cnorm (cexp (cval w)) = exp y) by apply cnorm_cexp.
  set (P := cnorm (cval ez)) in *. set (Q := cnorm (cval ew)) in *.
  assert (dX : d * exp x <= / 1600 * exp x) by (apply Rmult_le_compat_r; lra). assert (dY : d * exp y <= / 1600 * exp y) by (apply Rmult_le_compat_r; lra).
  assert (P1 : 99 / 100 * exp x <= P <= 1004 / 1000 * exp x).
  { pose proof (cnorm_le_diff (cval ez) (cexp (cval z))) as A. pose proof (cnorm_le_diff (cexp (cval z)) (cval ez)) as B. rewrite csub_norm_sym in B. fold P in A, B. lra. }
  assert (Q1 : 99 / 100 * exp y <= Q <= 1004 / 1000 * exp y).
  { pose proof (cnorm_le_diff (cval ew) (cexp (cval w))) as A. pose proof (cnorm_le_diff (cexp (cval w)) (cval ew)) as B. rewrite csub_norm_sym in B. fold Q in A, B. lra. }
  assert (PQ : 98 / 100 * exp a <= P * Q <= 1009 / 1000 * exp a).
  { rewrite EA. split.
    - apply Rle_trans with (99 / 100 * exp x * (99 / 100 * exp y)); [assert (0 < exp x * exp y) by lra; lra|apply Rmult_le_compat; lra].
    - apply Rle_trans with (1004 / 1000 * exp x * (1004 / 1000 * exp y)); [apply Rmult_le_compat; lra|assert (0 < exp x * exp y) by lra; lra]. }
  assert (MPQ : mid (P * Q)).
  { assert (B : forall r, r <= 2 * IZR k -> exp r <= 8 * bpow radix2 (4 * k)).
    { intros r R. change 8 with (bpow radix2 3). rewrite <- bpow_plus. apply exp_ln2; [lia|]. rewrite plus_IZR, mult_IZR. lra. }
    apply Rabs_le_inv in Aa. pose proof (B a ltac:(lra)) as B1. pose proof (B (- a) ltac:(lra)) as B2. rewrite exp_Ropp in B2. pose proof (bpow_gt_0 radix2 (4 * k)) as P4. split; [|lra].
    rewrite bpow_opp, <- Rinv_mult. apply Rle_trans with (98 / 100 * exp a); [|lra].
    assert (L : / (8 * bpow radix2 (4 * k)) <= exp a). { rewrite <- (Rinv_inv (exp a)). apply Rinv_le; [apply Rinv_0_lt_compat; exact E0|exact B2]. }
    apply Rle_trans with (98 / 100 * / (8 * bpow radix2 (4 * k))); [|lra]. rewrite !Rinv_mult. pose proof (Rinv_0_lt_compat _ P4). lra. }
  destruct (mul_sized prec emax Hprec k Hk ez ew Fez Few MPQ) as (p & Ep & Fp & Hpp). fold P Q in Hpp.
  exists es, ez, ew, p. split; [reflexivity|]. split; [exact Es|]. split; [exact Ez|]. split; [exact Ew|]. split; [exact Ep|]. split; [exact Fs|]. split; [exact Fp|].
  (* the sum *)
  assert (Mv : cnorm (csub (cexp (cval s)) (cexp (a, b))) <= 103 / 100 * (d * S + / 1000 * d) * exp a).
  { eapply Rle_trans; [apply (cexp_moved (a, b) (cval s)); cbn [cval s re im fst snd]; lra|]. cbn [fst]. apply Rmult_le_compat_r; [lra|]. apply Rmult_le_compat_l; [lra|]. cbn [cval s re im fst snd]. lra. }
  assert (dS0 : 0 <= d * S) by (apply Rmult_le_pos; lra). assert (dSE : d * S * exp a <= / 100 * exp a) by (apply Rmult_le_compat_r; lra).
  assert (dE : d * exp a <= / 1600 * exp a) by (apply Rmult_le_compat_r; lra). assert (dE0 : 0 < d * exp a) by (apply Rmult_lt_0_compat; lra).
  assert (NS : exp (B2R (re s)) <= 102 / 100 * exp a).
  { change (B2R (re s)) with (fst (cval s)). rewrite <- cnorm_cexp. eapply Rle_trans; [apply (cnorm_le_diff _ (cexp (a, b)))|]. rewrite cnorm_cexp. cbn [fst]. lra. }
  assert (Hs' : cnorm (csub (cval es) (cexp (cval s))) <= 31 / 10 * d * (102 / 100 * exp a)).
  { eapply Rle_trans; [exact Hs|]. apply Rmult_le_compat_l; lra. }
  (* the product *)
  assert (EAB : cexp (a, b) = cmul (cexp (cval z)) (cexp (cval w))) by (rewrite <- cexp_add; reflexivity).
  assert (Hm : cnorm (csub (cexp (a, b)) (cmul (cval ez) (cval ew))) <= 6225 / 1000 * (d * exp a)).
  { rewrite EAB. eapply Rle_trans; [apply (csub_triangle _ (cmul (cval ez) (cexp (cval w))))|].
    rewrite csub_mul, cnorm_mul, NY, csub_norm_sym.
    replace (csub (cmul (cval ez) (cexp (cval w))) (cmul (cval ez) (cval ew))) with (cmul (csub (cexp (cval w)) (cval ew)) (cval ez)) by (unfold csub, cmul; cbn [fst snd]; f_equal; ring).
    rewrite cnorm_mul, (csub_norm_sym (cexp (cval w))). fold P.
    apply Rle_trans with (31 / 10 * d * exp x * exp y + 31 / 10 * d * exp y * (1004 / 1000 * exp x)).
    - apply Rplus_le_compat; [apply Rmult_le_compat_r; lra|]. apply Rmult_le_compat; [apply cnorm_nonneg|lra|exact Hw|lra].
    - rewrite EA in dE0 |- *. lra. }
  assert (Hp' : cnorm (csub (cmul (cval ez) (cval ew)) (cval p)) <= 234 / 100 * (d * exp a)).
  { rewrite csub_norm_sym. eapply Rle_trans; [exact Hpp|]. apply Rle_trans with (231 / 100 * u * (1009 / 1000 * exp a)); [apply Rmult_le_compat_l; lra|].
    assert (u * exp a <= d * exp a) by (apply Rmult_le_compat_r; lra). lra. }
  eapply Rle_trans; [apply (csub_triangle _ (cexp (cval s)))|]. eapply Rle_trans; [apply Rplus_le_compat_l, (csub_triangle _ (cexp (a, b)))|].
  eapply Rle_trans; [apply Rplus_le_compat_l, Rplus_le_compat_l, (csub_triangle _ (cmul (cval ez) (cval ew)))|].
  assert (0 <= d * S * exp a) by (apply Rmult_le_pos; lra). lra.
Qed.
End Fmt.

(** ** The formats of the library *)
(** f32: 2^-25 <= |z| <= 2^25 for exp(ln z), |Re z| <= 25 for the others. *)
Corollary C96_f32 : forall (libm : FunOps f32) (d : R), unit_roundoff 24 <= d <= / 20000 -> libm_error 24 128 libm d ->
  let FE := float_fun 24 128 libm in
  (forall z, sized 25 z -> exists w, complex_ln f32_f FE z = Ok w
     /\ yields (complex_exp f32_f FE w) (cval z) ((21 / 10 * Rabs (ln (cnorm (cval z))) + 8) * d))
  /\ (forall z, cfinite z -> Rabs (B2R (re z)) <= 25 -> Rabs (B2R (im z)) <= 3 ->
      exists v w, complex_exp f32_f FE z = Ok v /\ complex_ln f32_f FE v = Ok w /\ cfinite w
        /\ Rabs (B2R (re w) - B2R (re z)) <= (21 / 10 * Rabs (B2R (re z)) + 5) * d
        /\ Rabs (B2R (im w) - B2R (im z)) <= 7 * d).
Proof.
  intros libm d Hd HL FE. assert (H3 : d * (IZR 25 + 3) <= / 400) by lra. split.
  - intros z Sz. apply (C96_exp_of_ln 24 128 libm ltac:(lia) 25 ltac:(lia) ltac:(lia) d (proj1 Hd) H3 HL z Sz).
  - intros z Fz Ha Hb. destruct (C96_ln_of_exp 24 128 libm ltac:(lia) 25 ltac:(lia) ltac:(lia) d (proj1 Hd) H3 HL z Fz Ha) as (v & w & n & E1 & E2 & F & A & B & N).
    exists v, w. rewrite (N Hb), Rmult_0_r, Rplus_0_r in B. repeat split; try assumption; apply F.
Qed.

(** f64: 2^-249 <= |z| <= 2^249 and |Re z| <= 249. *)
Corollary C96_f64 : forall (libm : FunOps f64) (d : R), unit_roundoff 53 <= d <= / 200000 -> libm_error 53 1024 libm d ->
  let FE := float_fun 53 1024 libm in
  (forall z, sized 249 z -> exists w, complex_ln f64_f FE z = Ok w
     /\ yields (complex_exp f64_f FE w) (cval z) ((21 / 10 * Rabs (ln (cnorm (cval z))) + 8) * d))
  /\ (forall z, cfinite z -> Rabs (B2R (re z)) <= 249 -> Rabs (B2R (im z)) <= 3 ->
      exists v w, complex_exp f64_f FE z = Ok v /\ complex_ln f64_f FE v = Ok w /\ cfinite w
        /\ Rabs (B2R (re w) - B2R (re z)) <= (21 / 10 * Rabs (B2R (re z)) + 5) * d
        /\ Rabs (B2R (im w) - B2R (im z)) <= 7 * d).
Proof.
  intros libm d Hd HL FE. assert (H3 : d * (IZR 249 + 3) <= / 400) by lra. split.
  - intros z Sz. apply (C96_exp_of_ln 53 1024 libm ltac:(lia) 249 ltac:(lia) ltac:(lia) d (proj1 Hd) H3 HL z Sz).
  - intros z Fz Ha Hb. destruct (C96_ln_of_exp 53 1024 libm ltac:(lia) 249 ltac:(lia) ltac:(lia) d (proj1 Hd) H3 HL z Fz Ha) as (v & w & n & E1 & E2 & F & A & B & N).
    exists v, w. rewrite (N Hb), Rmult_0_r, Rplus_0_r in B. repeat split; try assumption; apply F.
Qed.

(** ** The hypotheses are met by a correctly rounded libm *)
Lemma rounded_libm_error (prec emax : Z) {Hp : Prec_gt_0 prec} {He : Prec_lt_emax prec emax} : (24 <= prec)%Z -> (20 <= emax)%Z -> IZR (2 * emax) <= half_big emax ->
  libm_error prec emax (rounded_libm prec emax) (11 / 10 * unit_roundoff prec).
Proof.
  intros Hprec Hemax Hb. pose proof (u_range prec Hprec) as U. split; [apply rounded_faithful; lia|]. split.
  - intros x Fx Px. cbn [fn_ln rounded_libm]. apply nearest_returns; [lra|].
    pose proof (abs_B2R_lt_emax prec emax x) as H. rewrite Rabs_pos_eq in H by lra.
    assert (L2 : 0 <= ln 2 <= 1) by (split; [rewrite <- ln_1; apply ln_le_compat; lra|pose proof ln_2_le; lra]).
    assert (Lo : bpow radix2 (SpecFloat.emin prec emax) <= B2R x).
    { pose proof (abs_B2R_ge_emin prec emax x) as G. rewrite is_finite_strict_B2R in G by lra. rewrite Rabs_pos_eq in G by lra. apply G. reflexivity. }
    pose proof (ln_le_compat _ _ Px (Rlt_le _ _ H)) as A1. pose proof (ln_le_compat _ _ (bpow_gt_0 radix2 _) Lo) as A2. rewrite ln_bpow in A1, A2.
    assert (P : (prec < emax)%Z) by exact He. assert (E1 : 0 <= IZR emax) by (apply IZR_le; lia). assert (E2 : - IZR (2 * emax) <= IZR (SpecFloat.emin prec emax)).
    { rewrite <- opp_IZR. apply IZR_le. unfold SpecFloat.emin. lia. }
    assert (E3 : IZR (2 * emax) = 2 * IZR emax) by apply mult_IZR.
    assert (IZR emax * ln 2 <= IZR emax * 1) by (apply Rmult_le_compat_l; lra). assert (- IZR (2 * emax) * ln 2 <= IZR (SpecFloat.emin prec emax) * ln 2) by (apply Rmult_le_compat_r; lra).
    assert (IZR (2 * emax) * ln 2 <= IZR (2 * emax) * 1) by (apply Rmult_le_compat_l; lra). apply Rabs_le. lra.
  - intros y x Fy Fx NZ. exists (atan2 (B2R y) (B2R x)). pose proof (atan2_range (B2R y) (B2R x)) as R. split.
    + split; [lra|]. destruct (polar (B2R y) (B2R x)) as [E1 E2]. split; symmetry; assumption.
    + apply nearest_returns; [lra|]. pose proof PI_4. apply Rle_trans with 4; [apply Rabs_le; lra|]. eapply Rle_trans; [|exact Hb]. apply IZR_le. lia.
Qed.

(** 1 + 4i, with a correctly rounded libm: exp(ln z) is computed and near z; so is ln(exp(1 + i)). *)
Notation round64 := (rounded_libm 53 1024).
Example C96_case :
  libm_error 24 128 (rounded_libm 24 128) (11 / 10 * unit_roundoff 24) /\ libm_error 53 1024 round64 (11 / 10 * unit_roundoff 53)
  /\ (exists w, complex_ln f64_f (float_fun 53 1024 round64) z14 = Ok w
       /\ yields (complex_exp f64_f (float_fun 53 1024 round64) w) (1, 4) ((21 / 10 * Rabs (ln (cnorm (1, 4))) + 8) * (11 / 10 * unit_roundoff 53)))
  /\ (exists v w, complex_exp f64_f (float_fun 53 1024 round64) (Cx (fint 1) (fint 1)) = Ok v
       /\ complex_ln f64_f (float_fun 53 1024 round64) v = Ok w /\ Rabs (B2R (re w) - 1) <= 8 * unit_roundoff 53 /\ Rabs (B2R (im w) - 1) <= 8 * unit_roundoff 53).
Proof.
  assert (H32 : libm_error 24 128 (rounded_libm 24 128) (11 / 10 * unit_roundoff 24)).
  { apply rounded_libm_error; [lia|lia|]. apply Rle_trans with (bpow radix2 10); [simpl; lra|apply bpow_le; lia]. }
  assert (H64 : libm_error 53 1024 round64 (11 / 10 * unit_roundoff 53)).
  { apply rounded_libm_error; [lia|lia|]. apply Rle_trans with (bpow radix2 12); [simpl; lra|apply bpow_le; lia]. }
  assert (U : unit_roundoff 53 <= / 9007199254740992 /\ 0 < unit_roundoff 53) by (unfold unit_roundoff; simpl; lra).
  assert (V1 : B2R (fint 1) = 1) by (vm_compute; lra). assert (V4 : B2R (fint 4) = 4) by (vm_compute; lra).
  destruct (C96_f64 round64 (11 / 10 * unit_roundoff 53) ltac:(lra) H64) as [T1 T2].
  split; [exact H32|]. split; [exact H64|]. split.
  - destruct (T1 z14 (proj1 C95_case)) as (w & E & Y). assert (CV : cval z14 = (1, 4)) by (unfold cval; cbn [z14 re im]; rewrite V1, V4; reflexivity).
    rewrite CV in Y. exists w. split; assumption.
  - destruct (T2 (Cx (fint 1) (fint 1))) as (v & w & E1 & E2 & F & A & B); cbn [re im] in *.
    + split; reflexivity.
    + rewrite V1, Rabs_R1. lra.
    + rewrite V1, Rabs_R1. lra.
    + rewrite V1 in A, B. rewrite Rabs_R1 in A. exists v, w. split; [exact E1|]. split; [exact E2|]. split; lra.
Qed.

Print Assumptions C96_exp_of_ln.
Print Assumptions C96_ln_of_exp.
Print Assumptions C96_exp_of_sum.
Print Assumptions C96_f32.
Print Assumptions C96_f64.
