(** Property C110: the complex exp, sin, cos, sinh and cosh are finite exactly where the real functions they call are; so they
    overflow, in both components, already where the exact result is representable. *)
From Coq Require Import List ZArith Reals Bool Lia Lra Psatz.
From Flocq Require Import Core.Core IEEE754.BinarySingleNaN.
From Verif Require Import Base.Outcome Model.Traits Model.Float Model.Complex Spec.FloatErr Spec.ComplexErr
  Proofs.FloatErr Proofs.FloatRound Proofs.FloatRange Proofs.PiE Proofs.TrigTest Props.FloatFunProps Props.TrigTestProps Props.TanRangeProps Props.SqrtRangeProps.
Local Open Scope R_scope.

Section Fmt.
Context (prec emax : Z) {Hp : Prec_gt_0 prec} {He : Prec_lt_emax prec emax} (libm : FunOps (binary_float prec emax)).
Notation fl := (binary_float prec emax).
Notation FF := (float_field prec emax).
Notation FE := (float_fun prec emax libm).
Notation mul := (fl_mul prec emax).
Notation top := (bpow radix2 emax).

(** A call that returns; a call that returns a number of magnitude at most 1; a call that returns something that is not a
    finite number wherever the exact value [v] is beyond the range. *)
Definition answers (got : outcome fl) : Prop := exists y, got = Ok y.
Definition at_most_1 (got : outcome fl) : Prop := exists y, got = Ok y /\ is_finite y = true /\ Rabs (B2R y) <= 1.
Definition overflows (got : outcome fl) (v : R) : Prop := top <= Rabs v -> exists y, got = Ok y /\ is_finite y = false.

Definition libm_bounded : Prop := forall x : fl, is_finite x = true ->
  at_most_1 (fn_sin libm x) /\ at_most_1 (fn_cos libm x) /\ answers (fn_exp libm x) /\ answers (fn_sinh libm x) /\ answers (fn_cosh libm x).
Definition libm_overflows : Prop := forall x : fl, is_finite x = true ->
  overflows (fn_exp libm x) (exp (B2R x)) /\ overflows (fn_sinh libm x) (sinh (B2R x)) /\ overflows (fn_cosh libm x) (cosh (B2R x)).

Lemma product_finite (e c : fl) : is_finite c = true -> Rabs (B2R c) <= 1 -> is_finite (mul e c) = is_finite e.
Proof.
  intros Fc Hc. destruct (is_finite e) eqn:Fe.
  - pose proof (Bmult_correct prec emax Hp He mode_NE e c) as C. rewrite Rlt_bool_true in C.
    + destruct C as (_ & F & _). unfold fl_mul. rewrite F, Fe, Fc. reflexivity.
    + apply Rle_lt_trans with (Rabs (B2R e)); [|apply abs_B2R_lt_emax].
      apply abs_round_le_generic; [apply fexp_correct; exact Hp|apply valid_rnd_round_mode|apply generic_format_abs, generic_format_B2R|].
      rewrite Rabs_mult. rewrite <- (Rmult_1_r (Rabs (B2R e))) at 2. apply Rmult_le_compat_l; [apply Rabs_pos|exact Hc].
  - destruct e, c; try discriminate; reflexivity.
Qed.
Lemma product_finite' (c e : fl) : is_finite c = true -> Rabs (B2R c) <= 1 -> is_finite (mul c e) = is_finite e.
Proof.
  intros Fc Hc. destruct (is_finite e) eqn:Fe.
  - pose proof (Bmult_correct prec emax Hp He mode_NE c e) as C. rewrite Rlt_bool_true in C.
    + destruct C as (_ & F & _). unfold fl_mul. rewrite F, Fe, Fc. reflexivity.
    + apply Rle_lt_trans with (Rabs (B2R e)); [|apply abs_B2R_lt_emax].
      apply abs_round_le_generic; [apply fexp_correct; exact Hp|apply valid_rnd_round_mode|apply generic_format_abs, generic_format_B2R|].
      rewrite Rabs_mult. rewrite <- (Rmult_1_l (Rabs (B2R e))) at 2. apply Rmult_le_compat_r; [apply Rabs_pos|exact Hc].
  - destruct e, c; try discriminate; reflexivity.
Qed.

(** Each component is finite exactly if the one real exponential or hyperbolic function it contains is. *)
Theorem C110_finite_iff : libm_bounded -> forall z : complex fl, cfinite z ->
  (exists e w, fn_exp libm (re z) = Ok e /\ complex_exp FF FE z = Ok w /\ is_finite (re w) = is_finite e /\ is_finite (im w) = is_finite e)
  /\ (exists ch sh w, fn_cosh libm (im z) = Ok ch /\ fn_sinh libm (im z) = Ok sh /\ complex_sin FF FE z = Ok w /\ is_finite (re w) = is_finite ch /\ is_finite (im w) = is_finite sh)
  /\ (exists ch sh w, fn_cosh libm (im z) = Ok ch /\ fn_sinh libm (im z) = Ok sh /\ complex_cos FF FE z = Ok w /\ is_finite (re w) = is_finite ch /\ is_finite (im w) = is_finite sh)
  /\ (exists ch sh w, fn_cosh libm (re z) = Ok ch /\ fn_sinh libm (re z) = Ok sh /\ complex_sinh FF FE z = Ok w /\ is_finite (re w) = is_finite sh /\ is_finite (im w) = is_finite ch)
  /\ (exists ch sh w, fn_cosh libm (re z) = Ok ch /\ fn_sinh libm (re z) = Ok sh /\ complex_cosh FF FE z = Ok w /\ is_finite (re w) = is_finite ch /\ is_finite (im w) = is_finite sh).
Proof.
  intros L z [Fa Fb]. destruct (L (re z) Fa) as ((s & Es & Fs & Bs) & (c & Ec & Fc & Bc) & (e & Ee) & (sh & Esh) & (ch & Ech)).
  destruct (L (im z) Fb) as ((s' & Es' & Fs' & Bs') & (c' & Ec' & Fc' & Bc') & (e' & Ee') & (sh' & Esh') & (ch' & Ech')).
  split; [|split; [|split; [|split]]].
  - exists e, (Cx (mul e c') (mul e s')). split; [exact Ee|]. split.
    { unfold complex_exp. cbn [fn_exp fn_cos fn_sin float_fun]. rewrite Ee, Ec', Es'. reflexivity. }
    cbn [re im]. split; apply product_finite; assumption.
  - exists ch', sh', (Cx (mul s ch') (mul c sh')). split; [exact Ech'|]. split; [exact Esh'|]. split.
    { unfold complex_sin. cbn [fn_cosh fn_sinh fn_cos fn_sin float_fun]. rewrite Es, Ech', Ec, Esh'. reflexivity. }
    cbn [re im]. split; apply product_finite'; assumption.
  - exists ch', sh', (Cx (mul c ch') (Bopp (mul s sh'))). split; [exact Ech'|]. split; [exact Esh'|]. split.
    { unfold complex_cos. cbn [fn_cosh fn_sinh fn_cos fn_sin float_fun]. rewrite Es, Ech', Ec, Esh'. reflexivity. }
    cbn [re im]. rewrite opp_finite. split; apply product_finite'; assumption.
  - exists ch, sh, (Cx (mul sh c') (mul ch s')). split; [exact Ech|]. split; [exact Esh|]. split.
    { unfold complex_sinh. cbn [fn_cosh fn_sinh fn_cos fn_sin float_fun]. rewrite Es', Ech, Ec', Esh. reflexivity. }
    cbn [re im]. split; apply product_finite; assumption.
  - exists ch, sh, (Cx (mul ch c') (mul sh s')). split; [exact Ech|]. split; [exact Esh|]. split.
    { unfold complex_cosh. cbn [fn_cosh fn_sinh fn_cos fn_sin float_fun]. rewrite Es', Ech, Ec', Esh. reflexivity. }
    cbn [re im]. split; apply product_finite; assumption.
Qed.

(** ** Overflow although the exact result is representable: both its components are below 15/16 of 2^emax. *)
Definition lost (got : outcome (complex fl)) : Prop := exists w, got = Ok w /\ is_finite (re w) = false /\ is_finite (im w) = false.
Definition fits (v : cplx) : Prop := Rabs (fst v) <= 15 / 16 * top /\ Rabs (snd v) <= 15 / 16 * top.

Lemma fits_product a b : Rabs a <= 5 / 4 * top -> Rabs b <= 3 / 4 -> Rabs (a * b) <= 15 / 16 * top.
Proof.
  intros A B. rewrite Rabs_mult. replace (15 / 16 * top) with (5 / 4 * top * (3 / 4)) by field.
  apply Rmult_le_compat; try apply Rabs_pos; assumption.
Qed.
Lemma sinh_below_cosh y : Rabs (sinh y) <= cosh y.
Proof. unfold sinh, cosh. pose proof (exp_pos y). pose proof (exp_pos (- y)). apply Rabs_le. lra. Qed.

Theorem C110_spurious_overflow_refuted : libm_bounded -> libm_overflows -> forall z : complex fl, cfinite z ->
  let x := B2R (re z) in let y := B2R (im z) in
  (top <= exp x <= 5 / 4 * top -> Rabs (cos y) <= 3 / 4 -> Rabs (sin y) <= 3 / 4 ->
     lost (complex_exp FF FE z) /\ fits (exp x * cos y, exp x * sin y))
  /\ (top <= Rabs (sinh y) -> cosh y <= 5 / 4 * top -> Rabs (cos x) <= 3 / 4 -> Rabs (sin x) <= 3 / 4 ->
     lost (complex_sin FF FE z) /\ fits (sin x * cosh y, cos x * sinh y) /\ lost (complex_cos FF FE z) /\ fits (cos x * cosh y, - (sin x * sinh y)))
  /\ (top <= Rabs (sinh x) -> cosh x <= 5 / 4 * top -> Rabs (cos y) <= 3 / 4 -> Rabs (sin y) <= 3 / 4 ->
     lost (complex_sinh FF FE z) /\ fits (sinh x * cos y, cosh x * sin y) /\ lost (complex_cosh FF FE z) /\ fits (cosh x * cos y, sinh x * sin y)).
Proof.
  intros L O z F x y. destruct (C110_finite_iff L z F) as ((e & w1 & A1 & A2 & A3 & A4) & (ch & sh & w2 & B1 & B2 & B3 & B4 & B5) & (ch' & sh' & w3 & C1 & C2 & C3 & C4 & C5)
    & (ch2 & sh2 & w4 & D1 & D2 & D3 & D4 & D5) & (ch3 & sh3 & w5 & E1 & E2 & E3 & E4 & E5)).
  destruct F as [Fa Fb]. destruct (O (re z) Fa) as (O1 & O2 & O3). destruct (O (im z) Fb) as (P1 & P2 & P3).
  rewrite C1 in B1. rewrite C2 in B2. rewrite E1 in D1. rewrite E2 in D2. injection B1 as <-. injection B2 as <-. injection D1 as <-. injection D2 as <-.
  fold x in O1, O2, O3. fold y in P1, P2, P3. pose proof (sinh_below_cosh x) as Sx. pose proof (sinh_below_cosh y) as Sy.
  assert (Ac : forall t, Rabs (cosh t) = cosh t) by (intros t; apply Rabs_pos_eq; unfold cosh; pose proof (exp_pos t); pose proof (exp_pos (- t)); lra).
  split; [|split].
  - intros [T1 T2] Hc Hs. assert (Ex : Rabs (exp x) = exp x) by (apply Rabs_pos_eq, Rlt_le, exp_pos). unfold overflows in O1. rewrite Ex in O1.
    destruct (O1 T1) as (e' & Q1 & Q2). rewrite A1 in Q1. injection Q1 as <-. rewrite Q2 in A3, A4. split; [exists w1; auto|].
    split; cbn [fst snd]; apply fits_product; rewrite ?Ex; assumption.
  - intros T1 T2 Hc Hs. unfold overflows in P2, P3. rewrite Ac in P3. destruct (P2 T1) as (s & Q1 & Q2). destruct (P3 ltac:(lra)) as (c & Q3 & Q4).
    rewrite C2 in Q1. injection Q1 as <-. rewrite C1 in Q3. injection Q3 as <-. rewrite Q4 in B4, C4. rewrite Q2 in B5, C5.
    split; [exists w2; auto|]. split; [|split; [exists w3; auto|]]; split; cbn [fst snd]; rewrite ?Rabs_Ropp; rewrite Rmult_comm; apply fits_product; rewrite ?Ac; try assumption; lra.
  - intros T1 T2 Hc Hs. unfold overflows in O2, O3. rewrite Ac in O3. destruct (O2 T1) as (s & Q1 & Q2). destruct (O3 ltac:(lra)) as (c & Q3 & Q4).
    rewrite E2 in Q1. injection Q1 as <-. rewrite E1 in Q3. injection Q3 as <-. rewrite Q4 in D5, E4. rewrite Q2 in D4, E5.
    split; [exists w4; auto|]. split; [|split; [exists w5; auto|]]; split; cbn [fst snd]; apply fits_product; rewrite ?Ac; try assumption; lra.
Qed.
End Fmt.

(** ** f32 and f64 *)
Lemma exp_frac (n : nat) : exp (INR n) = exp 1 ^ n.
Proof. apply exp_nat. Qed.
Lemma ln2_close : 192 / 277 <= ln 2 <= 61 / 88.
Proof.
  pose proof E_close as [L U]. split.
  - assert (H : exp 192 <= 2 ^ 277).
    { replace 192 with (INR 192) by (rewrite INR_IZR_INZ; reflexivity). rewrite exp_frac. apply Rle_trans with ((27183 / 10000) ^ 192); [apply pow_incr; pose proof (exp_pos 1); lra|].
      unfold Rdiv. rewrite Rpow_mult_distr, pow_inv. apply Rmult_le_reg_r with (10000 ^ 192); [apply pow_lt; lra|]. rewrite Rmult_assoc, Rinv_l, Rmult_1_r by (apply pow_nonzero; lra).
      rewrite !pow_IZR, <- mult_IZR. apply IZR_le. vm_compute. discriminate. }
    apply ln_mono in H; [|apply exp_pos]. rewrite ln_exp, ln_pow in H by lra. rewrite INR_IZR_INZ in H. change (IZR (Z.of_nat 277)) with 277 in H. lra.
  - assert (H : 2 ^ 88 <= exp 61).
    { replace 61 with (INR 61) by (rewrite INR_IZR_INZ; reflexivity). rewrite exp_frac. apply Rle_trans with ((271828 / 100000) ^ 61); [|apply pow_incr; lra].
      unfold Rdiv. rewrite Rpow_mult_distr, pow_inv. apply Rmult_le_reg_r with (100000 ^ 61); [apply pow_lt; lra|]. rewrite Rmult_assoc, Rinv_l, Rmult_1_r by (apply pow_nonzero; lra).
      rewrite !pow_IZR, <- mult_IZR. apply IZR_le. vm_compute. discriminate. }
    apply ln_mono in H; [|apply pow_lt; lra]. rewrite ln_exp, ln_pow in H by lra. rewrite INR_IZR_INZ in H. change (IZR (Z.of_nat 88)) with 88 in H. lra.
Qed.
Lemma top_exp k : bpow radix2 k = exp (IZR k * ln 2).
Proof. rewrite bpow_powerRZ. change (IZR radix2) with 2. rewrite powerRZ_Rpower by lra. unfold Rpower. reflexivity. Qed.
Lemma exp_mono x y : x <= y -> exp x <= exp y.
Proof. intros [H|H]; [left; apply exp_increasing, H|right; f_equal; exact H]. Qed.
Lemma exp_within k x : IZR k * ln 2 <= x <= IZR k * ln 2 + 1 / 5 -> bpow radix2 k <= exp x <= 5 / 4 * bpow radix2 k.
Proof.
  intros [A B]. rewrite top_exp. split; [apply exp_mono, A|]. apply Rle_trans with (exp (IZR k * ln 2 + 1 / 5)); [apply exp_mono, B|].
  rewrite exp_plus, Rmult_comm. apply Rmult_le_compat_r; [apply Rlt_le, exp_pos|].
  pose proof (exp_ineq1_le (- (1 / 5))) as H. assert (P : exp (1 / 5) * exp (- (1 / 5)) = 1) by (rewrite <- exp_plus; replace (1 / 5 + - (1 / 5)) with 0 by ring; apply exp_0).
  pose proof (exp_pos (1 / 5)). pose proof (Rmult_le_compat_l (exp (1 / 5)) _ _ ltac:(lra) H) as H'. rewrite P in H'. lra.
Qed.
Lemma hyp_within k y : (9 <= k)%Z -> IZR (k + 1) * ln 2 + 1 / 200 <= Rabs y <= IZR (k + 1) * ln 2 + 195 / 1000 -> bpow radix2 k <= Rabs (sinh y) /\ cosh y <= 5 / 4 * bpow radix2 k.
Proof.
  intros Hk [A B]. set (a := Rabs y) in *.
  assert (Sg : forall t, 0 <= t -> 0 <= sinh t) by (intros t Ht; unfold sinh; pose proof (exp_mono (- t) t ltac:(lra)); lra).
  assert (Es : Rabs (sinh y) = sinh a).
  { unfold a. destruct (Rle_dec 0 y) as [Hy|Hy]; [rewrite (Rabs_pos_eq y) by exact Hy; apply Rabs_pos_eq, Sg, Hy|].
    rewrite (Rabs_left y), sinh_odd by lra. apply Rabs_left1. pose proof (Sg (- y) ltac:(lra)) as H. rewrite sinh_odd in H. lra. }
  assert (Ec : cosh y = cosh a) by (unfold a; symmetry; apply cosh_abs).
  rewrite Es, Ec. assert (T2 : bpow radix2 (k + 1) = 2 * bpow radix2 k) by (rewrite bpow_plus; change (bpow radix2 1) with 2; ring).
  assert (T9 : 512 <= bpow radix2 k) by (change 512 with (bpow radix2 9); apply bpow_le; lia).
  assert (L : bpow radix2 (k + 1) * (1 + 1 / 200) <= exp a).
  { rewrite top_exp. apply Rle_trans with (exp (IZR (k + 1) * ln 2 + 1 / 200)); [|apply exp_mono, A]. rewrite exp_plus. apply Rmult_le_compat_l; [apply Rlt_le, exp_pos|apply exp_ineq1_le]. }
  assert (U : exp a <= bpow radix2 (k + 1) * (1243 / 1000)).
  { rewrite top_exp. apply Rle_trans with (exp (IZR (k + 1) * ln 2 + 195 / 1000)); [apply exp_mono, B|]. rewrite exp_plus. apply Rmult_le_compat_l; [apply Rlt_le, exp_pos|].
    pose proof (exp_ineq1_le (- (195 / 1000))) as H. assert (P : exp (195 / 1000) * exp (- (195 / 1000)) = 1) by (rewrite <- exp_plus; replace (195 / 1000 + - (195 / 1000)) with 0 by ring; apply exp_0).
    pose proof (exp_pos (195 / 1000)). pose proof (Rmult_le_compat_l (exp (195 / 1000)) _ _ ltac:(lra) H) as H'. rewrite P in H'. lra. }
  assert (N : 0 < exp (- a) <= 1) by (split; [apply exp_pos|rewrite <- exp_0; apply exp_mono; pose proof (Rabs_pos y); unfold a; lra]).
  rewrite T2 in L, U. unfold sinh, cosh. split; lra.
Qed.

Corollary C110_f32_f64_refuted :
  (forall libm : FunOps f32, libm_bounded 24 128 libm -> libm_overflows 24 128 libm -> forall z, cfinite z ->
     let x := B2R (re z) in let y := B2R (im z) in let FF := float_field 24 128 in let FE := float_fun 24 128 libm in
     (88.73 <= x <= 88.92 -> Rabs (cos y) <= 3 / 4 -> Rabs (sin y) <= 3 / 4 -> lost 24 128 (complex_exp FF FE z) /\ fits 128 (exp x * cos y, exp x * sin y))
     /\ (89.43 <= Rabs y <= 89.61 -> Rabs (cos x) <= 3 / 4 -> Rabs (sin x) <= 3 / 4 ->
          lost 24 128 (complex_sin FF FE z) /\ fits 128 (sin x * cosh y, cos x * sinh y) /\ lost 24 128 (complex_cos FF FE z) /\ fits 128 (cos x * cosh y, - (sin x * sinh y))))
  /\ (forall libm : FunOps f64, libm_bounded 53 1024 libm -> libm_overflows 53 1024 libm -> forall z, cfinite z ->
     let x := B2R (re z) in let y := B2R (im z) in let FF := f64_field in let FE := float_fun 53 1024 libm in
     (709.82 <= x <= 709.97 -> Rabs (cos y) <= 3 / 4 -> Rabs (sin y) <= 3 / 4 -> lost 53 1024 (complex_exp FF FE z) /\ fits 1024 (exp x * cos y, exp x * sin y))
     /\ (710.52 <= Rabs y <= 710.66 -> Rabs (cos x) <= 3 / 4 -> Rabs (sin x) <= 3 / 4 ->
          lost 53 1024 (complex_sin FF FE z) /\ fits 1024 (sin x * cosh y, cos x * sinh y) /\ lost 53 1024 (complex_cos FF FE z) /\ fits 1024 (cos x * cosh y, - (sin x * sinh y)))).
Proof.
  pose proof ln2_close as [L U]. split; intros libm HB HO z F x y FF FE.
  - destruct (C110_spurious_overflow_refuted 24 128 libm HB HO z F) as (A & B & _). split.
    + intros Hx. apply A. apply exp_within. fold x. lra.
    + intros Hy. destruct (hyp_within 128 y ltac:(lia)) as [P Q]; [change (IZR (128 + 1)) with 129; lra|]. exact (B P Q).
  - destruct (C110_spurious_overflow_refuted 53 1024 libm HB HO z F) as (A & B & _). split.
    + intros Hx. apply A. apply exp_within. fold x. lra.
    + intros Hy. destruct (hyp_within 1024 y ltac:(lia)) as [P Q]; [change (IZR (1024 + 1)) with 1025; lra|]. exact (B P Q).
Qed.

(** ** A correctly rounded libm meets the hypotheses; the numbers 88.75 + 0.75 i, 0.75 + 89.5 i lie in the regions. *)
Section Rounded.
Context (prec emax : Z) {Hp : Prec_gt_0 prec} {He : Prec_lt_emax prec emax} (Hemax : (2 <= emax)%Z).
Lemma nearest_overflows v : overflows prec emax (Ok (nearest prec emax v)) v.
Proof.
  intros H. exists (nearest prec emax v). split; [reflexivity|]. unfold nearest. set (n := ZnearestE _). set (e := Generic_fmt.cexp _ _ v).
  pose proof (binary_normalize_correct prec emax Hp He mode_NE n e false) as C. cbn zeta in C. change (F2R (Float radix2 n e)) with (round radix2 (SpecFloat.fexp prec emax) (round_mode mode_NE) v) in C.
  rewrite (round_generic radix2 (SpecFloat.fexp prec emax) (round_mode mode_NE)) in C by (apply generic_format_round; [apply fexp_correct; exact Hp|apply valid_rnd_round_mode]).
  rewrite Rlt_bool_false in C.
  - exact (overflow_not_finite prec emax mode_NE _ _ C eq_refl).
  - apply abs_round_ge_generic; [apply fexp_correct; exact Hp|apply valid_rnd_round_mode|apply (big_format prec emax)|exact H].
Qed.
Lemma nearest_at_most_1 v : Rabs v <= 1 -> at_most_1 prec emax (Ok (nearest prec emax v)).
Proof.
  intros H. assert (G : 1 <= half_big emax) by (unfold half_big; change 1 with (bpow radix2 0); apply bpow_le; lia).
  destruct (nearest_is_rounding prec emax v ltac:(lra)) as [F E]. exists (nearest prec emax v). split; [reflexivity|]. split; [exact F|]. rewrite E.
  apply abs_round_le_generic; [apply fexp_correct; exact Hp|apply valid_rnd_round_mode| |exact H]. change 1 with (bpow radix2 0). apply generic_format_bpow.
  pose proof Hp as P. pose proof He as Q. unfold Prec_gt_0, Prec_lt_emax in *. unfold SpecFloat.fexp, SpecFloat.emin. lia.
Qed.
Lemma rounded_meets : libm_bounded prec emax (rounded_libm prec emax) /\ libm_overflows prec emax (rounded_libm prec emax).
Proof.
  split; intros x Fx.
  - split; [apply nearest_at_most_1, Rabs_le; pose proof (SIN_bound (B2R x)); lra|]. split; [apply nearest_at_most_1, Rabs_le; pose proof (COS_bound (B2R x)); lra|].
    split; [|split]; eexists; reflexivity.
  - split; [|split]; apply nearest_overflows.
Qed.
End Rounded.

Lemma three_quarters : Rabs (cos (3 / 4)) <= 3 / 4 /\ Rabs (sin (3 / 4)) <= 3 / 4.
Proof.
  pose proof PI_close as [PL PU].
  assert (S0 : 0 < sin (3 / 4)) by (apply sin_gt_0; lra). assert (C0 : 0 < cos (3 / 4)) by (apply cos_gt_0; lra).
  split; rewrite Rabs_pos_eq by lra.
  - destruct (pre_cos_bound (3 / 4) 0 ltac:(lra) ltac:(lra)) as [_ H]. unfold cos_approx, cos_term in H. simpl in H. lra.
  - left. apply sin_lt_x. lra.
Qed.

Definition p : f32 := fl_div 24 128 (f32_of_Z 3) (f32_of_Z 4).
Example C110_case : let libm := rounded_libm 24 128 in let FE := float_fun 24 128 libm in let FF := float_field 24 128 in
  libm_bounded 24 128 libm /\ libm_overflows 24 128 libm
  /\ (let z := Cx (fl_div 24 128 (f32_of_Z 355) (f32_of_Z 4)) p in lost 24 128 (complex_exp FF FE z) /\ fits 128 (exp 88.75 * cos 0.75, exp 88.75 * sin 0.75))
  /\ (let z := Cx p (fl_div 24 128 (f32_of_Z 179) (f32_of_Z 2)) in lost 24 128 (complex_sin FF FE z) /\ fits 128 (sin 0.75 * cosh 89.5, cos 0.75 * sinh 89.5))
  /\ (forall z, cfinite z -> Rabs (B2R (re z)) <= 88 -> exists w, complex_exp FF FE z = Ok w /\ cfinite w).
Proof.
  intros libm FE FF. destruct (rounded_meets 24 128 ltac:(lia)) as [HB HO]. split; [exact HB|]. split; [exact HO|].
  assert (Vp : is_finite p = true /\ B2R p = 0.75) by (split; [reflexivity|vm_compute; lra]).
  assert (Va : is_finite (fl_div 24 128 (f32_of_Z 355) (f32_of_Z 4)) = true /\ B2R (fl_div 24 128 (f32_of_Z 355) (f32_of_Z 4)) = 88.75) by (split; [reflexivity|vm_compute; lra]).
  assert (Vb : is_finite (fl_div 24 128 (f32_of_Z 179) (f32_of_Z 2)) = true /\ B2R (fl_div 24 128 (f32_of_Z 179) (f32_of_Z 2)) = 89.5) by (split; [reflexivity|vm_compute; lra]).
  destruct three_quarters as [Q1 Q2]. replace (3 / 4) with 0.75 in Q1, Q2 by lra.
  destruct Vp as [Fp Vp]. destruct Va as [Fa Va]. destruct Vb as [Fb Vb]. split; [|split].
  - intros z. destruct (proj1 C110_f32_f64_refuted libm HB HO z (conj Fa Fp)) as [H _]. cbv zeta in H. unfold z in H. cbn [re im] in H. rewrite Va, Vp in H. apply H; lra.
  - intros z. destruct (proj1 C110_f32_f64_refuted libm HB HO z (conj Fp Fb)) as [_ H]. cbv zeta in H. unfold z in H. cbn [re im] in H. rewrite Vb, Vp in H.
    destruct H as (H1 & H2 & _); [rewrite Rabs_pos_eq; lra|lra|lra|]. split; assumption.
  - intros z F Hz. destruct (C110_finite_iff 24 128 libm HB z F) as ((e & w & E1 & E2 & E3 & E4) & _). exists w. split; [exact E2|]. unfold cfinite. rewrite E3, E4.
    assert (Fe : is_finite e = true); [|split; exact Fe]. cbn in E1. injection E1 as <-. apply nearest_is_rounding.
    rewrite Rabs_pos_eq by apply Rlt_le, exp_pos. apply Rabs_le_inv in Hz. pose proof ln2_close as [L _].
    unfold half_big. rewrite top_exp. apply exp_mono. change (IZR (128 - 1)) with 127. 
    lra.
Qed.

Print Assumptions C110_finite_iff. Print Assumptions C110_spurious_overflow_refuted. Print Assumptions C110_f32_f64_refuted. Print Assumptions C110_case.
