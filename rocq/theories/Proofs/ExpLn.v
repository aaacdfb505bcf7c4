(** The exponential and the logarithm of complex floats as inverse functions: error analysis (for C96). *)
From Coq Require Import List ZArith Reals Bool Lia Lra Psatz.
From Flocq Require Import Core.Core IEEE754.BinarySingleNaN.
From Verif Require Import Base.Outcome Model.Traits Model.Float Model.Complex Spec.FloatErr Spec.ComplexErr
  Proofs.FloatErr Proofs.FloatRound Proofs.FloatRange Proofs.PiE Proofs.ComplexErr Props.ComplexErrProps Props.ComplexBranchProps
  Props.FloatFunProps Props.TrigTestProps Proofs.LnTest Proofs.ComplexUndo.
Local Open Scope R_scope.

(** ** Real analysis *)

(** e^(a+ib). *)
Definition cexp (z : cplx) : cplx := (exp (fst z) * cos (snd z), exp (fst z) * sin (snd z)).

Lemma cnorm_unit t : cnorm (cos t, sin t) = 1.
Proof. unfold cnorm. cbn [fst snd]. pose proof (sin2_cos2 t) as S. unfold Rsqr in S. rewrite Rplus_comm, S. apply sqrt_1. Qed.
Lemma cexp_scale z : cexp z = cscale (exp (fst z)) (cos (snd z), sin (snd z)).
Proof. reflexivity. Qed.
Lemma cnorm_cexp z : cnorm (cexp z) = exp (fst z).
Proof. rewrite cexp_scale, cnorm_scale, cnorm_unit by (left; apply exp_pos). ring. Qed.
Lemma cexp_add z w : cexp (cadd z w) = cmul (cexp z) (cexp w).
Proof. unfold cexp, cadd, cmul. cbn [fst snd]. rewrite exp_plus, cos_plus, sin_plus. f_equal; ring. Qed.

Lemma exp_near x : Rabs x <= 1 / 50 -> Rabs (exp x - 1) <= 103 / 100 * Rabs x.
Proof.
  intros H. apply Rabs_le_inv in H.
  assert (L : forall y, 1 + y <= exp y) by (intros y; destruct (Req_dec y 0) as [->|N]; [rewrite exp_0; lra|left; apply exp_ineq1; exact N]).
  pose proof (L x) as A. pose proof (L (- x)) as B. rewrite exp_Ropp in B.
  assert (P : 0 < exp x) by apply exp_pos. assert (D : exp x * (1 - x) <= 1).
  { apply Rmult_le_reg_r with (/ exp x); [apply Rinv_0_lt_compat; exact P|]. replace (exp x * (1 - x) * / exp x) with (1 - x) by (field; lra). lra. }
  destruct (Rle_or_lt 0 x) as [X|X].
  - rewrite (Rabs_pos_eq x), Rabs_pos_eq by lra. apply Rnot_lt_le. intros C.
    assert ((1 + 103 / 100 * x) * (1 - x) < exp x * (1 - x)) by (apply Rmult_lt_compat_r; lra). nra.
  - rewrite (Rabs_left x), Rabs_left1; [lra| |lra]. apply Rnot_lt_le. intros C. assert (1 * (1 - x) <= exp x * (1 - x)) by (apply Rmult_le_compat_r; lra). lra.
Qed.

Lemma unit_near y : cnorm (csub (cos y, sin y) c1) <= Rabs y.
Proof.
  unfold cnorm, csub, c1. cbn [fst snd]. apply sq_le; [apply Rabs_pos|]. rewrite sqrt_sqrt.
  - replace (Rabs y * Rabs y) with (y * y) by (unfold Rabs; destruct (Rcase_abs y); ring).
    pose proof (sin2_cos2 y) as S. unfold Rsqr in S. pose proof (sin_sq_le (y / 2)) as Q.
    assert (C : cos y = 1 - 2 * (sin (y / 2) * sin (y / 2))). { replace y with (2 * (y / 2)) at 1 by field. rewrite cos_2a_sin. ring. }
    replace ((cos y - 1) * (cos y - 1) + (sin y - 0) * (sin y - 0)) with (sin y * sin y + cos y * cos y - 2 * cos y + 1) by ring. rewrite S, C. lra.
  - apply Rplus_le_le_0_compat; apply sq_nonneg.
Qed.

(** e^z is near 1 for small z. *)
Lemma cexp_near x y : Rabs x <= 1 / 50 -> cnorm (csub (cexp (x, y)) c1) <= 103 / 100 * (Rabs x + Rabs y).
Proof.
  intros H. pose proof (exp_near x H) as E. pose proof (Rabs_le_inv _ _ E) as E'.
  eapply Rle_trans; [apply (csub_triangle _ (cscale (exp x) c1))|].
  replace (csub (cexp (x, y)) (cscale (exp x) c1)) with (cscale (exp x) (csub (cos y, sin y) c1)) by (unfold cexp, cscale, csub, c1; cbn [fst snd]; f_equal; ring).
  rewrite cnorm_scale by (left; apply exp_pos).
  replace (cnorm (csub (cscale (exp x) c1) c1)) with (Rabs (exp x - 1)).
  2:{ unfold cnorm, csub, cscale, c1. cbn [fst snd]. replace ((exp x * 1 - 1) * (exp x * 1 - 1) + (exp x * 0 - 0) * (exp x * 0 - 0)) with (Rsqr (exp x - 1)) by (unfold Rsqr; ring).
      symmetry. apply sqrt_Rsqr_abs. }
  assert (exp x * cnorm (csub (cos y, sin y) c1) <= 103 / 100 * Rabs y); [|lra].
  apply Rmult_le_compat; [left; apply exp_pos|apply cnorm_nonneg|lra|apply unit_near].
Qed.

(** Moving the argument of the exponential. *)
Lemma cexp_moved z w : Rabs (fst w - fst z) <= 1 / 50 ->
  cnorm (csub (cexp w) (cexp z)) <= 103 / 100 * (Rabs (fst w - fst z) + Rabs (snd w - snd z)) * exp (fst z).
Proof.
  intros H. replace (csub (cexp w) (cexp z)) with (cmul (csub (cexp (fst w - fst z, snd w - snd z)) c1) (cexp z)).
  - rewrite cnorm_mul, cnorm_cexp. apply Rmult_le_compat_r; [left; apply exp_pos|]. apply cexp_near. exact H.
  - rewrite <- csub_mul. f_equal.
    + rewrite <- cexp_add. f_equal. unfold cadd. apply injective_projections; cbn [fst snd]; ring.
    + unfold cmul, c1. apply injective_projections; cbn [fst snd]; ring.
Qed.

(** Every angle is in [-pi, pi] up to full turns. *)
Lemma full_turns b : exists n : Z, - PI <= b - 2 * PI * IZR n <= PI.
Proof.
  pose proof PI_RGT_0 as P. exists (Zfloor ((b + PI) / (2 * PI))). set (q := (b + PI) / (2 * PI)).
  pose proof (Zfloor_lb q) as L. pose proof (Zfloor_ub q) as U. assert (E : 2 * PI * q = b + PI) by (unfold q; field; lra).
  assert (2 * PI * IZR (Zfloor q) <= 2 * PI * q) by (apply Rmult_le_compat_l; lra).
  assert (2 * PI * q <= 2 * PI * (IZR (Zfloor q) + 1)) by (apply Rmult_le_compat_l; lra). lra.
Qed.

(** The argument of a number near e^z. *)
Lemma angle_near z v t rho : is_argument t (fst v) (snd v) -> 0 <= rho <= 1 / 100 -> cnorm (csub v (cexp z)) <= rho * exp (fst z) ->
  exists n : Z, Rabs (t - snd z - 2 * PI * IZR n) <= 102 / 100 * rho.
Proof.
  intros T Hr H. destruct (full_turns (snd z)) as [n0 B]. set (b0 := snd z - 2 * PI * IZR n0) in *.
  assert (E : cexp z = (exp (fst z) * cos b0, exp (fst z) * sin b0)).
  { unfold cexp, b0. replace (snd z - 2 * PI * IZR n0) with (snd z + 2 * PI * IZR (- n0)) by (rewrite opp_IZR; ring). rewrite cos_period_Z, sin_period_Z. reflexivity. }
  assert (P : 0 < exp (fst z)) by apply exp_pos. pose proof (sin2_cos2 b0) as S. unfold Rsqr in S.
  assert (Q : exp (fst z) * cos b0 * (exp (fst z) * cos b0) + exp (fst z) * sin b0 * (exp (fst z) * sin b0) = exp (fst z) * exp (fst z)).
  { replace (exp (fst z) * cos b0 * (exp (fst z) * cos b0) + exp (fst z) * sin b0 * (exp (fst z) * sin b0)) with (exp (fst z) * exp (fst z) * (sin b0 * sin b0 + cos b0 * cos b0)) by ring. rewrite S. ring. }
  assert (N : sqrt (exp (fst z) * cos b0 * (exp (fst z) * cos b0) + exp (fst z) * sin b0 * (exp (fst z) * sin b0)) = exp (fst z)).
  { rewrite Q. apply sqrt_square. lra. }
  destruct (product_argument 1 0 (exp (fst z) * cos b0) (exp (fst z) * sin b0) (fst v) (snd v) 0 b0 t rho) as (k & _ & K); try assumption.
  - split; [pose proof PI_RGT_0; lra|]. rewrite cos_0, sin_0. replace (1 * 1 + 0 * 0) with 1 by ring. rewrite sqrt_1. lra.
  - split; [exact B|]. rewrite N. split; reflexivity.
  - lra.
  - rewrite Q. apply Rmult_lt_0_compat; exact P.
  - set (x := 1 * (exp (fst z) * cos b0) - 0 * (exp (fst z) * sin b0)). set (y := 1 * (exp (fst z) * sin b0) + 0 * (exp (fst z) * cos b0)).
    assert (X : x = fst (cexp z)) by (rewrite E; unfold x; cbn [fst]; ring). assert (Y : y = snd (cexp z)) by (rewrite E; unfold y; cbn [snd]; ring).
    assert (XY : x * x + y * y = exp (fst z) * exp (fst z)) by (rewrite X, Y, <- cnorm_sq, cnorm_cexp; reflexivity).
    rewrite XY. replace ((fst v - x) * (fst v - x) + (snd v - y) * (snd v - y)) with (cnorm (csub v (cexp z)) * cnorm (csub v (cexp z))) by (rewrite cnorm_sq, X, Y; reflexivity).
    replace (rho * rho * (exp (fst z) * exp (fst z))) with ((rho * exp (fst z)) * (rho * exp (fst z))) by ring.
    apply Rmult_le_compat; try apply cnorm_nonneg; exact H.
  - exists (k - n0)%Z. rewrite minus_IZR. unfold b0 in K. replace (t - snd z - 2 * PI * (IZR k - IZR n0)) with (t - 0 - (snd z - 2 * PI * IZR n0) - 2 * PI * IZR k) by ring. exact K.
Qed.

(** ** Floats *)

Section Fmt.
Context (prec emax : Z) {Hp : Prec_gt_0 prec} {He : Prec_lt_emax prec emax} (libm : FunOps (binary_float prec emax)).
Notation fl := (binary_float prec emax).
Notation FF := (float_field prec emax).
Notation FR := (float_ring prec emax).
Notation FE := (float_fun prec emax libm).
Notation u := (unit_roundoff prec).
Notation eta := (underflow_unit prec emax).
Notation rnd := (round radix2 (SpecFloat.fexp prec emax) (round_mode mode_NE)).
Notation add := (fl_add prec emax). Notation sub := (fl_sub prec emax).
Notation mul := (fl_mul prec emax). Notation div := (fl_div prec emax).
Notation hi := (half_big emax).
Context (Hprec : (24 <= prec)%Z) (k : Z) (Hk0 : (1 <= k)%Z) (Hk : (4 * k + 26 <= emax)%Z).
Notation mid := (mid k).

(** The exponential of a number of size up to 2k+1 stays in range. *)
Lemma exp_mid a : Rabs a <= 2 * IZR k + 1 -> mid (exp a).
Proof.
  intros H. apply Rabs_le_inv in H. assert (K : 1 <= IZR k) by (apply IZR_le; exact Hk0).
  assert (E : bpow radix2 (4 * k + 4) = 16 * bpow radix2 (4 * k)) by (rewrite bpow_plus; change (bpow radix2 4) with 16; ring).
  assert (B : forall r, r <= 2 * IZR k + 1 -> exp r <= 16 * bpow radix2 (4 * k)).
  { intros r R. rewrite <- E. apply exp_ln2; [lia|]. rewrite plus_IZR, mult_IZR. lra. }
  split; [|apply B; lra]. rewrite bpow_opp, <- Rinv_mult. replace (exp a) with (/ exp (- a)) by (rewrite exp_Ropp; field; apply Rgt_not_eq, exp_pos).
  apply Rinv_le; [apply exp_pos|apply B; lra].
Qed.

Lemma eta_tiny_u : eta <= / 100000000 * u.
Proof.
  pose proof (u_range prec Hprec) as U. assert (eta <= bpow radix2 (-28) * u). { unfold underflow_unit, unit_roundoff. rewrite <- bpow_plus. apply bpow_le. lia. }
  assert (bpow radix2 (-28) <= / 100000000) by (simpl; lra). assert (bpow radix2 (-28) * u <= / 100000000 * u) by (apply Rmult_le_compat_r; lra). lra.
Qed.
Lemma mid_inv x : mid x -> mid (/ x).
Proof.
  intros M. pose proof (mid_pos k _ M) as P. destruct M as [M1 M2]. pose proof (bpow_gt_0 radix2 (4 * k)) as B. split.
  - rewrite bpow_opp, <- Rinv_mult. apply Rinv_le; [exact P|exact M2].
  - replace (16 * bpow radix2 (4 * k)) with (/ (/ 16 * bpow radix2 (- (4 * k)))) by (rewrite bpow_opp; field; apply Rgt_not_eq; exact B).
    apply Rinv_le; [|exact M1]. apply Rmult_lt_0_compat; [lra|apply bpow_gt_0].
Qed.
Lemma mid_ln x : mid x -> Rabs (ln x) <= hi / 2.
Proof.
  intros M. pose proof (mid_pos k _ M) as P. pose proof (mid_hi emax k Hk _ M) as H1. pose proof (mid_hi emax k Hk _ (mid_inv _ M)) as H2.
  pose proof (ln_le x P). pose proof (ln_ge x P). pose proof (Rinv_0_lt_compat _ P). apply Rabs_le. lra.
Qed.

Context (d : R) (Hd : u <= d <= / 1000) (HL : faithful prec emax libm d).

(** *** The computed exponential *)
Lemma exp_sized (z : complex fl) : cfinite z -> Rabs (B2R (re z)) <= 2 * IZR k + 1 ->
  exists v, complex_exp FF FE z = Ok v /\ cfinite v
    /\ cnorm (csub (cval v) (cexp (cval z))) <= 31 / 10 * d * exp (B2R (re z)).
Proof.
  intros [Fa Fb] Ha. pose proof (u_range prec Hprec) as U. pose proof (eta_pos prec emax) as T0. pose proof (exp_mid _ Ha) as M.
  pose proof (mid_eta prec emax Hprec k Hk _ M) as Em. pose proof (mid_hi emax k Hk _ M) as Mh. pose proof (mid_pos k _ M) as M0.
  set (a := B2R (re z)) in *. set (b := B2R (im z)) in *. set (E := exp a) in *.
  assert (uE : u * E <= d * E) by (apply Rmult_le_compat_r; lra). assert (dE : d * E <= / 1000 * E) by (apply Rmult_le_compat_r; lra). assert (dE0 : 0 < d * E) by (apply Rmult_lt_0_compat; lra). assert (uE0 : 0 < u * E) by (apply Rmult_lt_0_compat; lra).
  pose proof eta_tiny_u as T1.
  destruct (HL (re z) Fa) as (He' & _ & _ & _). destruct He' as (e & Ee & Fe & De).
  { apply Rle_trans with (hi / 2); [fold a E; lra|]. unfold half_big. replace (emax - 1)%Z with ((emax - 2) + 1)%Z by lia. rewrite bpow_plus. change (bpow radix2 1) with 2. lra. }
  destruct (HL (im z) Fb) as (_ & (s & Es & Fs & Ds) & (c & Ec & Fc & Dc) & _). fold a in De. fold E in De. fold b in Ds, Dc.
  rewrite (Rabs_pos_eq E) in De by lra.
  assert (DU : cnorm (csub (B2R c, B2R s) (cos b, sin b)) <= 1001 / 1000 * d).
  { eapply Rle_trans; [apply (cnorm_perturb _ _ _ _ d eta); [lra|lra|exact Dc|exact Ds]|]. rewrite cnorm_unit. lra. }
  assert (NU : cnorm (B2R c, B2R s) <= 1002 / 1000). { eapply Rle_trans; [apply (cnorm_le_diff _ (cos b, sin b))|]. rewrite cnorm_unit. lra. }
  apply Rabs_le_inv in De. assert (e0 : 0 <= B2R e) by lra.
  set (S := cscale (B2R e) (B2R c, B2R s)).
  assert (DS : cnorm (csub S (cscale E (cos b, sin b))) <= 2005 / 1000 * (d * E)).
  { eapply Rle_trans; [apply (csub_triangle _ (cscale E (B2R c, B2R s)))|].
    replace (csub (cscale E (B2R c, B2R s)) (cscale E (cos b, sin b))) with (cscale E (csub (B2R c, B2R s) (cos b, sin b))) by (unfold cscale, csub; cbn [fst snd]; f_equal; ring).
    rewrite cnorm_scale by lra. assert (E * cnorm (csub (B2R c, B2R s) (cos b, sin b)) <= E * (1001 / 1000 * d)) by (apply Rmult_le_compat_l; lra).
    assert (cnorm (csub S (cscale E (B2R c, B2R s))) <= 10001 / 10000 * (d * E) * (1002 / 1000)); [|lra].
    eapply Rle_trans; [apply (cnorm_mono _ (cscale (10001 / 10000 * (d * E)) (Rabs (B2R c), Rabs (B2R s)))); unfold S, csub, cscale; cbn [fst snd]|].
    - rewrite <- Rmult_minus_distr_r, Rabs_mult. apply Rmult_le_compat_r; [apply Rabs_pos|apply Rabs_le; lra].
    - rewrite <- Rmult_minus_distr_r, Rabs_mult. apply Rmult_le_compat_r; [apply Rabs_pos|apply Rabs_le; lra].
    - rewrite cnorm_scale by lra. rewrite cnorm_abs. apply Rmult_le_compat_l; lra. }
  assert (NS : cnorm S <= 1003 / 1000 * E). { eapply Rle_trans; [apply (cnorm_le_diff _ (cscale E (cos b, sin b)))|]. rewrite cnorm_scale, cnorm_unit by lra. lra. }
  destruct (abs_le_norm (fst S) (snd S)) as [N1 N2]. rewrite <- surjective_pairing in N1, N2. unfold S in N1, N2. cbn [cscale fst snd] in N1, N2. fold S in N1, N2.
  destruct (mul_round prec emax e c Fe Fc) as [F1 V1]; [lra|]. destruct (mul_round prec emax e s Fe Fs) as [F2 V2]; [lra|].
  exists (Cx (mul e c) (mul e s)). split.
  { unfold complex_exp. cbn [bind]. change (fn_exp FE (re z)) with (fn_exp libm (re z)). change (fn_cos FE (im z)) with (fn_cos libm (im z)). change (fn_sin FE (im z)) with (fn_sin libm (im z)).
    rewrite Ee, Ec, Es. reflexivity. }
  split; [split; assumption|]. change (cval (Cx (mul e c) (mul e s))) with (B2R (mul e c), B2R (mul e s)). rewrite V1, V2.
  replace (cexp (cval z)) with (cscale E (cos b, sin b)) by reflexivity.
  eapply Rle_trans; [apply (csub_triangle _ S)|].
  assert (cnorm (csub (rnd (B2R e * B2R c), rnd (B2R e * B2R s)) S) <= u * cnorm S + 3 / 2 * eta).
  { apply (cnorm_perturb (B2R e * B2R c) (B2R e * B2R s)); [lra|lra|apply (rnd_err prec emax)|apply (rnd_err prec emax)]. }
  assert (u * cnorm S <= u * (1003 / 1000 * E)) by (apply Rmult_le_compat_l; lra). lra.
Qed.

(** *** The computed logarithm *)
Lemma ln_sized (z : complex fl) : cfinite z -> mid (cnorm (cval z) * cnorm (cval z)) -> 0 < cnorm (cval z) ->
  (forall x : fl, is_finite x = true -> 0 < B2R x -> returns prec emax d (fn_ln libm x) (ln (B2R x))) ->
  let L := ln (cnorm (cval z)) in
  exists r, (forall i, fn_atan2 libm (im z) (re z) = Ok i -> complex_ln FF FE z = Ok (Cx r i)) /\ is_finite r = true
    /\ Rabs (B2R r - L) <= 201 / 100 * d * Rabs L + 11 / 10 * d.
Proof.
  intros Fz M Z0 Hln L. pose proof (u_range prec Hprec) as U. pose proof (eta_pos prec emax) as T0. pose proof eta_tiny_u as T1.
  destruct (norm_sized prec emax Hprec k Hk z Fz M) as [Fn En]. set (n := fl_norm2 prec emax (re z) (im z)) in *. set (Z := cnorm (cval z)) in *.
  assert (ZZ : 0 < Z * Z) by (apply Rmult_lt_0_compat; exact Z0).
  destruct (ln_ratio (B2R n) (Z * Z) (20001 / 10000 * u)) as [Pn Rn]; [exact ZZ|lra|exact En|].
  pose proof (mid_ln _ M) as SL. rewrite ln_mult in Rn, SL by exact Z0. fold L in Rn, SL.
  destruct (Hln n Fn Pn) as (l & El & Fl & Hl).
  assert (V2 : is_finite (add (fl_int prec emax 1) (fl_int prec emax 1)) = true /\ B2R (add (fl_int prec emax 1) (fl_int prec emax 1)) = 2).
  { destruct (small_int prec emax Hprec 1 ltac:(lia)) as [O1 O2]. destruct (small_int prec emax Hprec 2 ltac:(lia)) as [W1 W2].
    destruct (add_value prec emax (fl_int prec emax 1) (fl_int prec emax 1) (fl_int prec emax 2) O1 O1) as [Q1 Q2]; [rewrite O2, W2; simpl; lra|]. split; [exact Q1|]. rewrite Q2, W2. reflexivity. }
  destruct V2 as [F2 V2]. pose proof (Rabs_pos L) as L0. set (A := Rabs L) in *.
  assert (uA : u * A <= d * A) by (apply Rmult_le_compat_r; lra). assert (dA : d * A <= / 1000 * A) by (apply Rmult_le_compat_r; lra).
  assert (uu : u * u <= / 16777216 * u) by (apply Rmult_le_compat_r; lra). assert (du : d * u <= / 1000 * u) by (apply Rmult_le_compat_r; lra).
  assert (duA : u * (d * A) <= / 16777216 * (d * A)) by (apply Rmult_le_compat_r; [apply Rmult_le_pos; lra|lra]). assert (dA0 : 0 <= d * A) by (apply Rmult_le_pos; lra). assert (uA0 : 0 <= u * A) by (apply Rmult_le_pos; lra).
  assert (A2 : Rabs (ln (B2R n)) <= 2 * A + 2041 / 1000 * u).
  { replace (ln (B2R n)) with ((ln (B2R n) - (L + L)) + 2 * L) by ring. eapply Rle_trans; [apply Rabs_triang|]. rewrite (Rabs_mult 2), (Rabs_pos_eq 2) by lra. fold A. lra. }
  assert (E2 : Rabs (B2R l / 2 - L) <= d * A + 1023 / 1000 * u).
  { replace (B2R l / 2 - L) with (/ 2 * ((B2R l - ln (B2R n)) + (ln (B2R n) - (L + L)))) by field. rewrite Rabs_mult, (Rabs_pos_eq (/ 2)) by lra.
    assert (Rabs ((B2R l - ln (B2R n)) + (ln (B2R n) - (L + L))) <= d * (2 * A + 2041 / 1000 * u) + eta + 102 / 100 * (20001 / 10000 * u)).
    { eapply Rle_trans; [apply Rabs_triang|]. assert (d * Rabs (ln (B2R n)) <= d * (2 * A + 2041 / 1000 * u)) by (apply Rmult_le_compat_l; lra). lra. }
    lra. }
  assert (B2 : Rabs (B2R l / 2) <= A + d * A + 1023 / 1000 * u).
  { replace (B2R l / 2) with ((B2R l / 2 - L) + L) by ring. eapply Rle_trans; [apply Rabs_triang|]. fold A. lra. }
  assert (H2A : 2 * A <= hi / 2). { replace (2 * A) with (Rabs (L + L)); [exact SL|]. replace (L + L) with (2 * L) by ring. rewrite Rabs_mult, (Rabs_pos_eq 2) by lra. reflexivity. }
  assert (H1 : 1 <= hi) by (unfold half_big; change 1 with (bpow radix2 0); apply bpow_le; lia).
  destruct (div_round prec emax l (add (fl_int prec emax 1) (fl_int prec emax 1)) Fl) as [Fd Ed].
  { rewrite V2. lra. } { rewrite V2. lra. }
  exists (div l (add (fl_int prec emax 1) (fl_int prec emax 1))). split.
  { intros i Ei. unfold complex_ln, complex_sqr_norm. cbn [bind r_add r_one r_mul f_ring float_field float_ring]. fold (fl_norm2 prec emax (re z) (im z)). fold n.
    change (fn_ln FE n) with (fn_ln libm n). rewrite El. cbn [bind f_div float_field]. change (fn_atan2 FE (im z) (re z)) with (fn_atan2 libm (im z) (re z)).
    rewrite Ei. reflexivity. }
  split; [exact Fd|]. rewrite Ed, V2. pose proof (rnd_err prec emax (B2R l / 2)) as R.
  replace (rnd (B2R l / 2) - L) with ((rnd (B2R l / 2) - B2R l / 2) + (B2R l / 2 - L)) by ring. eapply Rle_trans; [apply Rabs_triang|].
  assert (u * Rabs (B2R l / 2) <= u * (A + d * A + 1023 / 1000 * u)) by (apply Rmult_le_compat_l; lra). lra.
Qed.
End Fmt.
