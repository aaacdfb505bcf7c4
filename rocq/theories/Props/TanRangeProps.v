(** Property C108: the tangent of complex floats: accurate wherever neither sin z nor cos z over- or underflows when squared,
    and NaN for every argument far from the real axis, where the exact tangent is i or -i up to rounding. *)
From Coq Require Import List ZArith Reals Bool Lia Lra Psatz.
From Flocq Require Import Core.Core IEEE754.BinarySingleNaN.
From Verif Require Import Base.Outcome Model.Traits Model.Float Model.Complex Model.RealInstance Spec.FloatErr Spec.ComplexErr Spec.CTan
  Proofs.FloatErr Proofs.FloatRound Proofs.FloatRange Proofs.PiE Proofs.ComplexReal Proofs.ComplexErr Props.ComplexErrProps
  Props.FloatFunProps Proofs.TrigTest Props.TrigTestProps Proofs.ComplexUndo Props.ComplexUndoProps Proofs.ExpLn Props.ExpLnProps Props.PolarProps Proofs.TanTest.
Local Open Scope R_scope.

(** ** Far from the real axis the exact tangent is close to i or -i *)
Definition sign_i (y : R) : cplx := (0, if Rle_dec 0 y then 1 else -1).

Lemma sinh_lower y : 1 <= y -> 2 / 5 * exp y <= sinh y.
Proof.
  intros H. unfold sinh. assert (E : exp (- y) * exp y = 1) by (rewrite <- exp_plus; replace (- y + y) with 0 by ring; apply exp_0).
  pose proof (exp_le 1 y H) as E1. pose proof E_close as E2. pose proof (exp_pos (- y)) as P.
  assert (exp (- y) * (2718281820 / 1000000000) <= 1) by (rewrite <- E; apply Rmult_le_compat_l; lra). lra.
Qed.

Theorem C108_exact_tangent : forall z t : cplx, is_tan t z -> 1 <= Rabs (snd z) ->
  cnorm (csub t (sign_i (snd z))) <= 5 / 2 * exp (- (2 * Rabs (snd z))).
Proof.
  intros [x y] t [Et Nt] Hy. cbn [fst snd] in *.
  set (s := if Rle_dec 0 y then 1 else -1). assert (S : s * y = Rabs y /\ s * s = 1).
  { unfold s. destruct (Rle_dec 0 y); [rewrite Rabs_pos_eq by lra|rewrite Rabs_left by lra]; lra. }
  set (w := ccs (x, y)) in *. set (Y := Rabs y) in *.
  assert (HS : Rabs (sinh y) = sinh Y). { unfold Y. destruct S as [S1 _]. unfold s in S1. destruct (Rle_dec 0 y) as [P|P].
    - rewrite (Rabs_pos_eq y) by lra. apply Rabs_pos_eq. pose proof (sinh_ge y P). lra.
    - rewrite (Rabs_left y) by lra. rewrite <- (Ropp_involutive y) at 1. rewrite sinh_odd, Rabs_Ropp. apply Rabs_pos_eq. pose proof (sinh_ge (- y) ltac:(lra)). lra. }
  pose proof (sinh_lower Y Hy) as L. pose proof (exp_pos Y) as EY.
  assert (W : sinh Y <= cnorm w).
  { apply sq_le; [apply cnorm_nonneg|]. unfold w. rewrite ccs_norm. cbn [fst snd]. rewrite <- HS. rewrite <- Rabs_mult, Rabs_pos_eq; [|pose proof (Rle_0_sqr (sinh y)); unfold Rsqr in *; lra].
    pose proof (Rle_0_sqr (cos x)). unfold Rsqr in *. lra. }
  assert (D : cnorm (cmul (csub t (0, s)) w) = exp (- Y)).
  { replace (cmul (csub t (0, s)) w) with (csub (csn (x, y)) (cmul (0, s) w)) by (rewrite <- csub_mul, Et; reflexivity).
    unfold w, csub, csn, ccs, cmul. cbn [fst snd].
    replace (sin x * cosh y - (0 * (cos x * cosh y) - s * - (sin x * sinh y))) with (sin x * (cosh y - s * sinh y)) by ring.
    replace (cos x * sinh y - (0 * - (sin x * sinh y) + s * (cos x * cosh y))) with (- (cos x * (s * (cosh y - s * sinh y)))) by (transitivity (cos x * (s * s * sinh y) - s * (cos x * cosh y)); [ring|rewrite (proj2 S); ring]).
    assert (EE : cosh y - s * sinh y = exp (- Y)).
    { unfold Y, s, cosh, sinh. destruct (Rle_dec 0 y); [rewrite Rabs_pos_eq by lra|rewrite Rabs_left, Ropp_involutive by lra]; field. }
    rewrite EE. unfold cnorm. cbn [fst snd]. pose proof (exp_pos (- Y)) as P. transitivity (sqrt (exp (- Y) * exp (- Y))); [f_equal|apply sqrt_square; lra].
    pose proof (sin2_cos2 x) as SC. unfold Rsqr in SC. pose proof (proj2 S) as S2.
    replace (sin x * exp (- Y) * (sin x * exp (- Y))) with (sin x * sin x * (exp (- Y) * exp (- Y))) by ring.
    replace (- (cos x * (s * exp (- Y))) * - (cos x * (s * exp (- Y)))) with (s * s * (cos x * cos x * (exp (- Y) * exp (- Y)))) by ring. rewrite S2, Rmult_1_l, <- Rmult_plus_distr_r, SC. ring. }
  rewrite cnorm_mul in D. change (sign_i (snd (x, y))) with (0, s). unfold sign_i. cbn [snd]. fold s. set (e := cnorm (csub t (0, s))) in *.
  assert (e0 : 0 <= e) by apply cnorm_nonneg.
  assert (K : e * (2 / 5 * exp Y) <= exp (- Y)) by (rewrite <- D; apply Rmult_le_compat_l; [exact e0|lra]).
  replace (- (2 * Y)) with (- Y + - Y) by ring. rewrite exp_plus. assert (EE : exp (- Y) * exp Y = 1) by (rewrite <- exp_plus; replace (- Y + Y) with 0 by ring; apply exp_0).
  apply Rmult_le_reg_r with (2 / 5 * exp Y); [lra|]. replace (5 / 2 * (exp (- Y) * exp (- Y)) * (2 / 5 * exp Y)) with (exp (- Y) * (exp (- Y) * exp Y)) by field. rewrite EE. lra.
Qed.

(** ** Far from the real axis the computed tangent is NaN *)
Section Far.
Context (prec emax : Z) {Hp : Prec_gt_0 prec} {He : Prec_lt_emax prec emax} (libm : FunOps (binary_float prec emax)).
Notation fl := (binary_float prec emax).
Notation FF := (float_field prec emax).
Notation FE := (float_fun prec emax libm).
Notation u := (unit_roundoff prec).
Notation eta := (underflow_unit prec emax).
Notation add := (fl_add prec emax). Notation sub := (fl_sub prec emax).
Notation mul := (fl_mul prec emax). Notation div := (fl_div prec emax).
Notation top := (bpow radix2 emax).
Context (Hprec : (24 <= prec)%Z).

(** A call that returns: whenever the result is finite it is accurate; infinities and NaN are allowed. *)
Definition right_if_finite (d : R) (got : outcome fl) (v : R) : Prop :=
  exists y, got = Ok y /\ (is_finite y = true -> Rabs (B2R y - v) <= d * Rabs v + eta).

(** sin and cos are accurate; sinh and cosh are accurate or overflow. *)
Definition libm_may_overflow (d : R) : Prop := forall x : fl, is_finite x = true ->
  returns prec emax d (fn_sin libm x) (sin (B2R x)) /\ returns prec emax d (fn_cos libm x) (cos (B2R x))
  /\ right_if_finite d (fn_sinh libm x) (sinh (B2R x)) /\ right_if_finite d (fn_cosh libm x) (cosh (B2R x)).

Context (d : R) (Hd : 0 <= d <= / 1600) (HL : libm_may_overflow d).

Lemma far_facts : 0 < u <= / 16777216 /\ 0 < eta <= / 1000000 /\ eta * (2 * top) <= / 10 /\ 1000 <= top.
Proof.
  assert (P : (prec < emax)%Z) by exact He. pose proof (u_range prec Hprec) as U. split; [exact U|].
  assert (T : 1000 <= top). { apply Rle_trans with (bpow radix2 10); [simpl; lra|]. apply bpow_le. lia. }
  split; [|split; [|exact T]].
  - split; [unfold underflow_unit; apply bpow_gt_0|]. apply Rle_trans with (bpow radix2 (-20)); [unfold underflow_unit; apply bpow_le; lia|simpl; lra].
  - unfold underflow_unit. replace (bpow radix2 (2 - emax - prec) * (2 * top)) with (bpow radix2 (3 - prec)).
    + apply Rle_trans with (bpow radix2 (-4)); [apply bpow_le; lia|simpl; lra].
    + change 2 with (bpow radix2 1). rewrite <- !bpow_plus. f_equal. lia.
Qed.

Lemma one_product (x y : fl) : is_finite (mul x y) = true ->
  is_finite x = true /\ is_finite y = true /\ Rabs (B2R (mul x y) - B2R x * B2R y) <= u * Rabs (B2R x * B2R y) + eta.
Proof.
  intros F. destruct (mul_model prec emax x y F) as (Fx & Fy & e & h & E & H & ->). split; [exact Fx|]. split; [exact Fy|].
  replace (B2R x * B2R y * (1 + e) + h - B2R x * B2R y) with (B2R x * B2R y * e + h) by ring. eapply Rle_trans; [apply Rabs_triang|].
  rewrite Rabs_mult, (Rmult_comm u). apply Rplus_le_compat; [apply Rmult_le_compat_l; [apply Rabs_pos|exact E]|exact H].
Qed.

Lemma product_of_two (X Y : fl) v w : is_finite (mul X Y) = true -> Rabs (B2R X - v) <= u * Rabs v + eta -> Rabs (B2R Y - w) <= u * Rabs w + eta ->
  Rabs v <= 2 * top -> Rabs w <= 2 * top -> Rabs (B2R (mul X Y) - v * w) <= / 1000000 * Rabs (v * w) + 1.
Proof.
  intros F HX HY Bv Bw. destruct (one_product X Y F) as (_ & _ & E). destruct far_facts as (U & T & TT & _).
  set (a := B2R X) in *. set (b := B2R Y) in *. pose proof (Rabs_pos v) as v0. pose proof (Rabs_pos w) as w0. rewrite Rabs_mult.
  set (V := Rabs v) in *. set (W := Rabs w) in *. assert (VW : 0 <= V * W) by (apply Rmult_le_pos; assumption).
  assert (eV : eta * V <= / 10) by (eapply Rle_trans; [apply Rmult_le_compat_l; [lra|exact Bv]|exact TT]).
  assert (eW : eta * W <= / 10) by (eapply Rle_trans; [apply Rmult_le_compat_l; [lra|exact Bw]|exact TT]).
  assert (eV0 : 0 <= eta * V) by (apply Rmult_le_pos; lra). assert (eW0 : 0 <= eta * W) by (apply Rmult_le_pos; lra).
  assert (uVW : u * (V * W) <= / 16777216 * (V * W)) by (apply Rmult_le_compat_r; lra).
  assert (K : Rabs (a * b - v * w) <= 21 / 10 * u * (V * W) + / 2).
  { replace (a * b - v * w) with (v * (b - w) + (a - v) * w + (a - v) * (b - w)) by ring.
    eapply Rle_trans; [apply Rabs_triang|]. eapply Rle_trans; [apply Rplus_le_compat_r, Rabs_triang|]. rewrite !Rabs_mult. fold V W.
    assert (V * Rabs (b - w) <= V * (u * W + eta)) by (apply Rmult_le_compat_l; assumption).
    assert (Rabs (a - v) * W <= (u * V + eta) * W) by (apply Rmult_le_compat_r; assumption).
    assert (Rabs (a - v) * Rabs (b - w) <= (u * V + eta) * (u * W + eta)) by (apply Rmult_le_compat; try apply Rabs_pos; assumption).
    assert (u * (u * (V * W)) <= / 16777216 * (u * (V * W))) by (apply Rmult_le_compat_r; [apply Rmult_le_pos; lra|lra]).
    assert (0 <= u * (V * W)) by (apply Rmult_le_pos; lra).
    assert (u * (eta * V) <= / 16777216 * (/ 10)) by (apply Rmult_le_compat; lra). assert (u * (eta * W) <= / 16777216 * (/ 10)) by (apply Rmult_le_compat; lra).
    assert (eta * eta <= / 1000000 * / 1000000) by (apply Rmult_le_compat; lra).
    replace ((u * V + eta) * (u * W + eta)) with (u * (u * (V * W)) + u * (eta * V) + u * (eta * W) + eta * eta) in * by ring.
    replace (V * (u * W + eta)) with (u * (V * W) + eta * V) in * by ring. replace ((u * V + eta) * W) with (u * (V * W) + eta * W) in * by ring. lra. }
  assert (AB : Rabs (a * b) <= V * W + (21 / 10 * u * (V * W) + / 2)).
  { replace (a * b) with (v * w + (a * b - v * w)) by ring. eapply Rle_trans; [apply Rabs_triang|]. rewrite Rabs_mult. fold V W. lra. }
  assert (uAB : u * Rabs (a * b) <= u * (11 / 10 * (V * W) + / 2)) by (apply Rmult_le_compat_l; lra).
  replace (B2R (mul X Y) - v * w) with ((B2R (mul X Y) - a * b) + (a * b - v * w)) by ring. eapply Rle_trans; [apply Rabs_triang|]. lra.
Qed.

(** The squares of sin and cos as computed add up to 1. *)
Lemma unit_square (a : R) (s c : R) : Rabs (s - sin a) <= d * Rabs (sin a) + eta -> Rabs (c - cos a) <= d * Rabs (cos a) + eta ->
  997 / 1000 <= s * s + c * c /\ Rabs s <= 2 /\ Rabs c <= 2.
Proof.
  intros Hs Hc. destruct far_facts as (_ & T & _ & _). pose proof (sin_le_1 a) as S1. pose proof (cos_le_1 a) as C1.
  assert (K : forall x v, Rabs (x - v) <= d * Rabs v + eta -> Rabs v <= 1 -> Rabs x <= 2 /\ 998 / 1000 * (v * v) - 5 * eta <= x * x).
  { intros x v Hx Hv. pose proof (Rabs_pos v) as v0. assert (dv : d * Rabs v <= / 1600 * Rabs v) by (apply Rmult_le_compat_r; lra).
    assert (X2 : Rabs x <= 2). { replace x with (v + (x - v)) by ring. eapply Rle_trans; [apply Rabs_triang|]. lra. }
    split; [exact X2|]. assert (L : 1599 / 1600 * Rabs v <= Rabs x + eta).
    { replace v with (x + - (x - v)) at 1 by ring. pose proof (Rabs_triang x (- (x - v))) as Q. rewrite Rabs_Ropp in Q. replace (x + - (x - v)) with v in * by ring. lra. }
    pose proof (Rabs_pos x) as x0. assert (1599 / 1600 * Rabs v * (1599 / 1600 * Rabs v) <= (Rabs x + eta) * (Rabs x + eta)) by (apply Rmult_le_compat; lra).
    assert (eta * Rabs x <= eta * 2) by (apply Rmult_le_compat_l; lra). assert (eta * eta <= eta * 1) by (apply Rmult_le_compat_l; lra).
    replace (v * v) with (Rabs v * Rabs v) by (rewrite <- Rabs_mult; apply Rabs_pos_eq, Rle_0_sqr). replace (x * x) with (Rabs x * Rabs x) by (rewrite <- Rabs_mult; apply Rabs_pos_eq, Rle_0_sqr).
    pose proof (Rle_0_sqr (Rabs v)) as q. unfold Rsqr in q. lra. }
  destruct (K s (sin a) Hs S1) as [A1 A2]. destruct (K c (cos a) Hc C1) as [B1 B2].
  pose proof (sin2_cos2 a) as SC. unfold Rsqr in SC. split; [lra|]. split; assumption.
Qed.

Lemma hyp_large (y h v : R) : Rabs (h - v) <= d * Rabs v + eta -> 1 <= Rabs y -> Rabs (sinh y) <= Rabs v -> 998 / 1000 * Rabs (sinh y) <= Rabs h.
Proof.
  intros Hh Hy Hv. destruct far_facts as (_ & T & _ & _). pose proof (Rabs_pos v) as v0. assert (dv : d * Rabs v <= / 1600 * Rabs v) by (apply Rmult_le_compat_r; lra).
  assert (S1 : 1 <= Rabs (sinh y)).
  { destruct (Rle_dec 0 y) as [P|P].
    - rewrite (Rabs_pos_eq y) in Hy by lra. pose proof (sinh_ge y P). rewrite Rabs_pos_eq; lra.
    - rewrite (Rabs_left y) in Hy by lra. pose proof (sinh_ge (- y) ltac:(lra)) as Q. rewrite sinh_odd in Q. rewrite Rabs_left; lra. }
  assert (Rabs v - Rabs (h - v) <= Rabs h); [|lra].
  replace v with (h + - (h - v)) at 1 by ring. pose proof (Rabs_triang h (- (h - v))) as Q. rewrite Rabs_Ropp in Q. lra.
Qed.

(** Two products of factors of this kind, of the same sign, add up to something beyond the range. *)
Lemma sum_overflows (P Q : fl) (f : fl -> fl -> fl) (g s c q r H2 : R) :
  (is_finite (f P Q) = true -> is_finite P = true /\ is_finite Q = true /\ exists e, Rabs e <= u /\ B2R (f P Q) = (B2R P + g * B2R Q) * (1 + e)) ->
  Rabs (B2R P - c * c * (q * r)) <= / 1000000 * Rabs (c * c * (q * r)) + 1 ->
  Rabs (g * B2R Q - s * s * (q * r)) <= / 1000000 * Rabs (s * s * (q * r)) + 1 ->
  997 / 1000 <= s * s + c * c -> 996 / 1000 * H2 <= Rabs (q * r) -> 104 / 100 * top <= H2 -> is_finite (f P Q) = false.
Proof.
  intros HF HP HQ SC QR HB. destruct (is_finite (f P Q)) eqn:F; [|reflexivity]. exfalso. destruct far_facts as (U & T & TT & T3).
  destruct (HF eq_refl) as (_ & _ & e & E & V). pose proof (abs_B2R_lt_emax prec emax (f P Q)) as L. rewrite V in L.
  set (m := Rabs (q * r)) in *. rewrite (Rabs_mult (c * c)), (Rabs_pos_eq (c * c)) in HP by apply Rle_0_sqr. rewrite (Rabs_mult (s * s)), (Rabs_pos_eq (s * s)) in HQ by apply Rle_0_sqr. fold m in HP, HQ.
  pose proof (Rle_0_sqr s) as s0. pose proof (Rle_0_sqr c) as c0. unfold Rsqr in *.
  assert (D : Rabs (B2R P + g * B2R Q - (s * s + c * c) * (q * r)) <= / 1000000 * ((s * s + c * c) * m) + 2).
  { replace (B2R P + g * B2R Q - (s * s + c * c) * (q * r)) with ((B2R P - c * c * (q * r)) + (g * B2R Q - s * s * (q * r))) by ring. eapply Rle_trans; [apply Rabs_triang|]. lra. }
  set (Z := B2R P + g * B2R Q) in *. set (t := s * s + c * c) in *.
  assert (M : Rabs (t * (q * r)) = t * m) by (rewrite Rabs_mult, (Rabs_pos_eq t) by lra; reflexivity).
  assert (m0 : 0 <= m) by apply Rabs_pos. assert (tm : 997 / 1000 * m <= t * m) by (apply Rmult_le_compat_r; assumption).
  assert (ZL : t * m - (/ 1000000 * (t * m) + 2) <= Rabs Z).
  { rewrite <- M at 1. pose proof (Rabs_triang Z (- (Z - t * (q * r)))) as Q1. rewrite Rabs_Ropp in Q1. replace (Z + - (Z - t * (q * r))) with (t * (q * r)) in Q1 by ring. lra. }
  rewrite Rabs_mult in L. apply Rabs_le_inv in E. rewrite (Rabs_pos_eq (1 + e)) in L by lra.
  assert (Rabs Z * (1 - / 16777216) <= Rabs Z * (1 + e)) by (apply Rmult_le_compat_l; [apply Rabs_pos|lra]). lra.
Qed.

Lemma sum_form (P Q : fl) : is_finite (add P Q) = true -> is_finite P = true /\ is_finite Q = true /\ exists e, Rabs e <= u /\ B2R (add P Q) = (B2R P + 1 * B2R Q) * (1 + e).
Proof. intros F. destruct (add_model prec emax P Q F) as (A & B & e & E & V). split; [exact A|]. split; [exact B|]. exists e. split; [exact E|]. rewrite V. ring. Qed.
Lemma diff_form (P Q : fl) : is_finite (sub P Q) = true -> is_finite P = true /\ is_finite Q = true /\ exists e, Rabs e <= u /\ B2R (sub P Q) = (B2R P + -1 * B2R Q) * (1 + e).
Proof. intros F. destruct (sub_model prec emax P Q F) as (A & B & e & E & V). split; [exact A|]. split; [exact B|]. exists e. split; [exact E|]. rewrite V. ring. Qed.

(** NaN from infinity times the reciprocal of infinity. *)
Lemma lost (n p : fl) : is_finite n = false -> is_finite p = false -> is_nan (mul p (div (fl_int prec emax 1) n)) = true.
Proof.
  intros Hn Hp'. unfold fl_div. destruct n as [|s| |]; try discriminate; destruct p as [|t| |]; try discriminate; destruct (fl_int prec emax 1); reflexivity.
Qed.
Lemma lost_re (n p : fl) : is_finite n = false -> let r := mul p (div (fl_int prec emax 1) n) in is_nan r = true \/ (is_finite r = true /\ B2R r = 0).
Proof.
  intros Hn. unfold fl_div. destruct n as [|s| |]; try discriminate; destruct (fl_int prec emax 1); destruct p; (left; reflexivity) || (right; split; reflexivity).
Qed.

Theorem C108_far_nan_refuted : forall z : complex fl, cfinite z -> 1 <= Rabs (B2R (im z)) ->
  104 / 100 * top <= sinh (B2R (im z)) * sinh (B2R (im z)) ->
  exists q, complex_tan FF FE z = Ok q /\ is_nan (im q) = true /\ (is_nan (re q) = true \/ (is_finite (re q) = true /\ B2R (re q) = 0)).
Proof.
  intros z [Fa Fb] H1 HB. destruct (HL (re z) Fa) as ((s & Es & Fs & Ds) & (c & Ec & Fc & Dc) & _ & _).
  destruct (HL (im z) Fb) as (_ & _ & (sh & Esh & Dsh) & (ch & Ech & Dch)).
  set (a := B2R (re z)) in *. set (b := B2R (im z)) in *. destruct (unit_square a _ _ Ds Dc) as (SC & S2 & C2).
  set (p := mul s ch). set (q := mul c sh). set (x := mul c ch). set (m := mul s sh).
  assert (Tan : complex_tan FF FE z = complex_div FF (Cx p q) (Cx x (Bopp m))).
  { unfold complex_tan, complex_sin, complex_cos. change (fn_sin FE (re z)) with (fn_sin libm (re z)). change (fn_cosh FE (im z)) with (fn_cosh libm (im z)).
    change (fn_cos FE (re z)) with (fn_cos libm (re z)). change (fn_sinh FE (im z)) with (fn_sinh libm (im z)). rewrite Es, Ech, Ec, Esh. reflexivity. }
  set (n := add (mul x x) (mul (Bopp m) (Bopp m))). set (p1 := add (mul p x) (mul q (Bopp m))). set (p2 := sub (mul q x) (mul p (Bopp m))).
  (* what finiteness of the three factors would imply *)
  assert (big : forall v : fl, forall t : R, Rabs t <= 2 -> Rabs (t * B2R v) <= 2 * top).
  { intros v t Ht. rewrite Rabs_mult. apply Rmult_le_compat; try apply Rabs_pos; [exact Ht|]. left. apply abs_B2R_lt_emax. }
  assert (Hyp : is_finite sh = true -> is_finite ch = true -> 998 / 1000 * Rabs (sinh b) <= Rabs (B2R sh) /\ 998 / 1000 * Rabs (sinh b) <= Rabs (B2R ch)).
  { intros F1 F2. split; [apply (hyp_large b _ _ (Dsh F1) H1); right; reflexivity|]. apply (hyp_large b _ _ (Dch F2) H1).
    rewrite (Rabs_pos_eq (cosh b)) by (left; apply cosh_pos). apply sinh_le_cosh. }
  assert (QR : forall v w, 998 / 1000 * Rabs (sinh b) <= Rabs v -> 998 / 1000 * Rabs (sinh b) <= Rabs w -> 996 / 1000 * (sinh b * sinh b) <= Rabs (v * w)).
  { intros v w Hv Hw. rewrite Rabs_mult. pose proof (Rabs_pos (sinh b)) as P0. assert (998 / 1000 * Rabs (sinh b) * (998 / 1000 * Rabs (sinh b)) <= Rabs v * Rabs w) by (apply Rmult_le_compat; lra).
    replace (sinh b * sinh b) with (Rabs (sinh b) * Rabs (sinh b)) by (rewrite <- Rabs_mult; apply Rabs_pos_eq, Rle_0_sqr). assert (0 <= Rabs (sinh b) * Rabs (sinh b)) by (apply Rmult_le_pos; lra). lra. }
  assert (Em : Rabs (B2R m - B2R s * B2R sh) <= u * Rabs (B2R s * B2R sh) + eta -> Rabs (B2R (Bopp m) - B2R s * - B2R sh) <= u * Rabs (B2R s * - B2R sh) + eta).
  { intros H. rewrite B2R_Bopp. replace (- B2R m - B2R s * - B2R sh) with (- (B2R m - B2R s * B2R sh)) by ring. replace (B2R s * - B2R sh) with (- (B2R s * B2R sh)) by ring. rewrite !Rabs_Ropp. exact H. }
  assert (bigm : forall t : R, Rabs t <= 2 -> Rabs (t * - B2R sh) <= 2 * top). { intros t Ht. replace (t * - B2R sh) with (- (t * B2R sh)) by ring. rewrite Rabs_Ropp. apply big. exact Ht. }
  assert (Nn : is_finite n = false).
  { destruct (is_finite n) eqn:F; [|reflexivity]. exfalso. destruct (add_model prec emax _ _ F) as (F1 & F2 & _).
    destruct (one_product _ _ F1) as (Fx & _ & _). destruct (one_product _ _ F2) as (Fm & _ & _). rewrite is_finite_Bopp in Fm.
    destruct (one_product _ _ Fx) as (_ & Fch & Dx). destruct (one_product _ _ Fm) as (_ & Fsh & Dm). destruct (Hyp Fsh Fch) as [L1 L2]. fold x in Dx. fold m in Dm.
    pose proof (product_of_two _ _ _ _ F1 Dx Dx (big ch _ C2) (big ch _ C2)) as G1. pose proof (product_of_two _ _ _ _ F2 (Em Dm) (Em Dm) (bigm _ S2) (bigm _ S2)) as G2.
    (* n is at least the sum with both factors replaced by the smaller *)
    pose proof (abs_B2R_lt_emax prec emax n) as L. destruct (sum_form _ _ F) as (_ & _ & e & E & V). fold n in V. rewrite V in L. destruct far_facts as (U & T & _ & T3).
    replace (B2R s * - B2R sh * (B2R s * - B2R sh)) with (B2R s * B2R s * (B2R sh * B2R sh)) in G2 by ring. replace (B2R c * B2R ch * (B2R c * B2R ch)) with (B2R c * B2R c * (B2R ch * B2R ch)) in G1 by ring.
    pose proof (QR _ _ L1 L1) as Q1. pose proof (QR _ _ L2 L2) as Q2. rewrite Rabs_pos_eq in Q1 by apply Rle_0_sqr. rewrite Rabs_pos_eq in Q2 by apply Rle_0_sqr.
    set (H2 := sinh b * sinh b) in *. pose proof (Rle_0_sqr (B2R s)) as s0. pose proof (Rle_0_sqr (B2R c)) as c0. pose proof (Rle_0_sqr (sinh b)) as h0. unfold Rsqr in *. fold H2 in h0.
    assert (M1 : B2R c * B2R c * (996 / 1000 * H2) <= B2R c * B2R c * (B2R ch * B2R ch)) by (apply Rmult_le_compat_l; assumption).
    assert (M2 : B2R s * B2R s * (996 / 1000 * H2) <= B2R s * B2R s * (B2R sh * B2R sh)) by (apply Rmult_le_compat_l; assumption).
    set (v := B2R c * B2R c * (B2R ch * B2R ch)) in *. set (w := B2R s * B2R s * (B2R sh * B2R sh)) in *.
    assert (v0 : 0 <= v) by (apply Rmult_le_pos; [assumption|apply Rle_0_sqr]). assert (w0 : 0 <= w) by (apply Rmult_le_pos; [assumption|apply Rle_0_sqr]).
    rewrite (Rabs_pos_eq v) in G1 by exact v0. rewrite (Rabs_pos_eq w) in G2 by exact w0. apply Rabs_le_inv in G1. apply Rabs_le_inv in G2.
    assert (SH : 997 / 1000 * (996 / 1000 * H2) <= v + w). { apply Rle_trans with ((B2R s * B2R s + B2R c * B2R c) * (996 / 1000 * H2)); [apply Rmult_le_compat_r; lra|lra]. }
    apply Rabs_le_inv in E. set (Z := B2R (mul x x) + 1 * B2R (mul (Bopp m) (Bopp m))) in *.
    assert (ZL : 1 <= Z /\ 102 / 100 * top <= Z) by (unfold Z; lra). rewrite Rabs_pos_eq in L by (apply Rmult_le_pos; lra).
    assert (Z * (1 - / 16777216) <= Z * (1 + e)) by (apply Rmult_le_compat_l; lra). lra. }
  assert (N2 : is_finite p2 = false).
  { destruct (is_finite p2) eqn:F; [|reflexivity]. exfalso. destruct (sub_model prec emax _ _ F) as (F1 & F2 & _).
    destruct (one_product _ _ F1) as (Fq & Fx & _). destruct (one_product _ _ F2) as (Fp & Fm & _). rewrite is_finite_Bopp in Fm.
    destruct (one_product _ _ Fx) as (_ & Fch & Dx). destruct (one_product _ _ Fm) as (_ & Fsh & Dm). destruct (one_product _ _ Fq) as (_ & _ & Dq). destruct (one_product _ _ Fp) as (_ & _ & Dp).
    destruct (Hyp Fsh Fch) as [L1 L2]. fold x in Dx. fold m in Dm. fold p in Dp. fold q in Dq.
    pose proof (product_of_two _ _ _ _ F1 Dq Dx (big sh _ C2) (big ch _ C2)) as G1. pose proof (product_of_two _ _ _ _ F2 Dp (Em Dm) (big ch _ S2) (bigm _ S2)) as G2.
    replace (B2R c * B2R sh * (B2R c * B2R ch)) with (B2R c * B2R c * (B2R sh * B2R ch)) in G1 by ring.
    replace (B2R s * B2R ch * (B2R s * - B2R sh)) with (- (B2R s * B2R s * (B2R sh * B2R ch))) in G2 by ring. rewrite Rabs_Ropp in G2.
    assert (G2' : Rabs (-1 * B2R (mul p (Bopp m)) - B2R s * B2R s * (B2R sh * B2R ch)) <= / 1000000 * Rabs (B2R s * B2R s * (B2R sh * B2R ch)) + 1).
    { replace (-1 * B2R (mul p (Bopp m)) - B2R s * B2R s * (B2R sh * B2R ch)) with (- (B2R (mul p (Bopp m)) - - (B2R s * B2R s * (B2R sh * B2R ch)))) by ring. rewrite Rabs_Ropp. exact G2. }
    assert (B : is_finite p2 = false); [|congruence].
    exact (sum_overflows (mul q x) (mul p (Bopp m)) sub (-1) (B2R s) (B2R c) (B2R sh) (B2R ch) _ (diff_form _ _) G1 G2' SC (QR _ _ L1 L2) HB). }
  exists (Cx (mul p1 (div (fl_int prec emax 1) n)) (mul p2 (div (fl_int prec emax 1) n))). split; [rewrite Tan; reflexivity|]. cbn [re im].
  split; [apply lost; assumption|apply lost_re; assumption].
Qed.
End Far.

(** ** Accuracy where nothing over- or underflows *)
Section Near.
Context (prec emax : Z) {Hp : Prec_gt_0 prec} {He : Prec_lt_emax prec emax} (libm : FunOps (binary_float prec emax)).
Notation fl := (binary_float prec emax).
Notation FF := (float_field prec emax).
Notation FE := (float_fun prec emax libm).
Notation u := (unit_roundoff prec).
Notation eta := (underflow_unit prec emax).
Notation mul := (fl_mul prec emax).
Context (Hprec : (24 <= prec)%Z) (k : Z) (Hk0 : (1 <= k)%Z) (Hk : (4 * k + 26 <= emax)%Z).
Context (d : R) (Hd : u <= d) (Hdk : d * (IZR k + 3) <= / 400) (HL : libm_error prec emax libm d).
Notation mid := (mid k).
Notation dr := (dr prec Hprec k Hk0 d Hd Hdk).
Notation lo := (bpow radix2 (- (2 * k))).
Notation up := (bpow radix2 (2 * k)).

Lemma lo_up : 0 < lo /\ lo * up = 1 /\ lo <= 1 <= up /\ lo * lo = bpow radix2 (- (4 * k)) /\ up * up = bpow radix2 (4 * k) /\ eta * up <= / 2000000 * (u * lo) /\ up <= bpow radix2 (emax - 2).
Proof.
  split; [apply bpow_gt_0|]. split; [rewrite <- bpow_plus; replace (- (2 * k) + 2 * k)%Z with 0%Z by lia; reflexivity|].
  split; [split; change 1 with (bpow radix2 0); apply bpow_le; lia|]. split; [rewrite <- bpow_plus; f_equal; lia|]. split; [rewrite <- bpow_plus; f_equal; lia|].
  split; [|apply bpow_le; lia]. apply Rle_trans with (bpow radix2 (-24) * (u * lo)).
  - unfold underflow_unit, unit_roundoff. rewrite <- !bpow_plus. apply bpow_le. lia.
  - apply Rmult_le_compat_r; [apply Rmult_le_pos; [unfold unit_roundoff|]; apply bpow_ge_0|]. simpl. lra.
Qed.

Lemma sin_cos_near (z : complex fl) : cfinite z -> cosh (B2R (im z)) <= up ->
  lo <= cnorm (csn (cval z)) -> lo <= cnorm (ccs (cval z)) ->
  exists s c, complex_tan FF FE z = complex_div FF s c /\ cfinite s /\ cfinite c
    /\ cnorm (csub (cval s) (csn (cval z))) <= 303 / 100 * d * cnorm (csn (cval z))
    /\ cnorm (csub (cval c) (ccs (cval z))) <= 303 / 100 * d * cnorm (ccs (cval z)).
Proof.
  intros [Fa Fb] Hb LS LC. destruct dr as (U & D & K). destruct lo_up as (L0 & LU & L1 & LL & UU & ET & UQ). pose proof (eta_pos prec emax) as T0.
  destruct (proj1 HL (re z) Fa) as (_ & Ls & Lc & _). destruct (proj1 HL (im z) Fb) as (_ & _ & _ & LH). destruct (LH (Rle_trans _ _ _ Hb UQ)) as [Lsh Lch].
  unfold csn, ccs in *. change (fst (cval z)) with (B2R (re z)) in *. change (snd (cval z)) with (B2R (im z)) in *.
  set (a := B2R (re z)) in *. set (b := B2R (im z)) in *. pose proof (cosh_ge_1 b) as C1. set (C := cosh b) in *.
  pose proof (sin_le_1 a) as S1. pose proof (cos_le_1 a) as K1. pose proof (sinh_le_cosh b) as H1. fold C in H1.
  assert (CA : Rabs C <= C) by (rewrite Rabs_pos_eq; lra). assert (S1C : Rabs (sin a) <= C) by lra. assert (K1C : Rabs (cos a) <= C) by lra.
  assert (bnd : forall x y, Rabs x <= 1 -> Rabs y <= C -> Rabs (x * y) <= C). { intros x y Hx Hy. rewrite Rabs_mult. replace C with (1 * C) by ring. apply Rmult_le_compat; try apply Rabs_pos; assumption. }
  assert (M1 : mid C).
  { assert (bpow radix2 (- (4 * k)) <= bpow radix2 0) by (apply bpow_le; lia). change (bpow radix2 0) with 1 in *. assert (up <= up * up) by (rewrite <- (Rmult_1_r up) at 1; apply Rmult_le_compat_l; lra).
    split; [lra|]. rewrite <- UU. lra. }
  pose proof (PolarProps.libm_product prec emax Hprec k Hk0 Hk d Hd Hdk) as LP.
  destruct (LP _ _ _ _ C Ls Lch C1 M1 S1C CA (bnd _ _ S1 CA)) as (s & ch & Es & Ech & G1 & D1).
  destruct (LP _ _ _ _ C Lc Lsh C1 M1 K1C H1 (bnd _ _ K1 H1)) as (c & sh & Ec & Esh & G2 & D2).
  destruct (LP _ _ _ _ C Lc Lch C1 M1 K1C CA (bnd _ _ K1 CA)) as (c' & ch' & Ec' & Ech' & G3 & D3).
  destruct (LP _ _ _ _ C Ls Lsh C1 M1 S1C H1 (bnd _ _ S1 H1)) as (s' & sh' & Es' & Esh' & G4 & D4).
  rewrite Ec in Ec'. injection Ec' as <-. rewrite Ech in Ech'. injection Ech' as <-. rewrite Es in Es'. injection Es' as <-. rewrite Esh in Esh'. injection Esh' as <-.
  set (S := Cx (mul s ch) (mul c sh) : complex fl). set (Kc := Cx (mul c ch) (Bopp (mul s sh)) : complex fl). exists S, Kc.
  split.
  { unfold complex_tan, complex_sin, complex_cos. change (fn_sin FE (re z)) with (fn_sin libm (re z)). change (fn_cosh FE (im z)) with (fn_cosh libm (im z)).
    change (fn_cos FE (re z)) with (fn_cos libm (re z)). change (fn_sinh FE (im z)) with (fn_sinh libm (im z)). rewrite Es, Ech, Ec, Esh. reflexivity. }
  split; [split; assumption|]. split; [split; [exact G3|cbn [im Kc]; rewrite is_finite_Bopp; exact G4]|].
  assert (SM : forall N, lo <= N -> 302 / 100 * d * N + 3 / 2 * (5 * eta * C) <= 303 / 100 * d * N).
  { intros N HN. assert (eta * C <= eta * up) by (apply Rmult_le_compat_l; lra). assert (u * lo <= d * N) by (apply Rmult_le_compat; lra). assert (0 <= d * N) by (apply Rmult_le_pos; lra). replace (5 * eta * C) with (5 * (eta * C)) by ring. replace (302 / 100 * d * N) with (302 / 100 * (d * N)) by ring. replace (303 / 100 * d * N) with (303 / 100 * (d * N)) by ring. lra. }
  assert (e0 : 0 <= 5 * eta * C) by (apply Rmult_le_pos; [apply Rmult_le_pos|]; lra).
  split; (eapply Rle_trans; [|apply SM; assumption]).
  - apply cnorm_perturb; [lra|exact e0|exact D1|exact D2].
  - change (cval Kc) with (B2R (mul c ch), B2R (Bopp (mul s sh))). apply cnorm_perturb; [lra|exact e0|exact D3|].
    rewrite B2R_Bopp, Rabs_Ropp. replace (- B2R (mul s sh) - - (sin a * sinh b)) with (- (B2R (mul s sh) - sin a * sinh b)) by ring. rewrite Rabs_Ropp. exact D4.
Qed.

Theorem C108_tangent_accurate : forall z : complex fl, cfinite z -> cosh (B2R (im z)) <= up ->
  lo <= cnorm (csn (cval z)) -> lo <= cnorm (ccs (cval z)) ->
  exists q t, complex_tan FF FE z = Ok q /\ cfinite q /\ is_tan t (cval z) /\ cnorm (csub (cval q) t) <= 25 / 2 * d * cnorm t.
Proof.
  intros z Fz Hb LS LC. destruct (sin_cos_near z Fz Hb LS LC) as (s & c & Tan & Fs & Fc & DS & DC).
  destruct dr as (U & D & K). destruct lo_up as (L0 & LU & L1 & LL & UU & _ & _). set (S := cnorm (csn (cval z))) in *. set (W := cnorm (ccs (cval z))) in *.
  assert (NC : ccs (cval z) <> c0) by (intros E; unfold W in LC; rewrite E, cnorm_c0 in LC; lra).
  destruct (tan_exists (cval z) NC) as [t Ht]. pose proof (tan_size t (cval z) Ht) as Sz. fold S W in Sz.
  assert (Up : forall X, 0 <= X -> X * X <= cosh (B2R (im z)) * cosh (B2R (im z)) -> X <= up).
  { intros X X0 H. apply sq_le; [lra|]. eapply Rle_trans; [exact H|]. pose proof (cosh_pos (B2R (im z))). apply Rmult_le_compat; lra. }
  pose proof (sc (fst (cval z))) as SC. pose proof (sq_hyp (snd (cval z))) as Hy. pose proof (csn_norm (cval z)) as QS. pose proof (ccs_norm (cval z)) as QC. fold S in QS. fold W in QC.
  change (snd (cval z)) with (B2R (im z)) in *. pose proof (Rle_0_sqr (sin (fst (cval z)))) as sq1. pose proof (Rle_0_sqr (cos (fst (cval z)))) as sq2. unfold Rsqr in sq1, sq2.
  assert (SU : S <= up) by (apply Up; [apply cnorm_nonneg|lra]). assert (WU : W <= up) by (apply Up; [apply cnorm_nonneg|lra]). clear Up sq1 sq2 SC Hy QS QC.
  assert (dS : d * S <= / 1600 * S) by (apply Rmult_le_compat_r; lra). assert (dW : d * W <= / 1600 * W) by (apply Rmult_le_compat_r; lra).
  set (s' := cval s) in *. set (c' := cval c) in *. set (S' := cnorm s'). set (W' := cnorm c').
  assert (W'b : 998 / 1000 * W <= W' <= 1002 / 1000 * W).
  { pose proof (cnorm_le_diff c' (ccs (cval z))) as M1. pose proof (cnorm_le_diff (ccs (cval z)) c') as M2. rewrite (csub_norm_sym (ccs (cval z))) in M2. fold W W' in M1, M2. lra. }
  assert (S'b : 998 / 1000 * S <= S' <= 1002 / 1000 * S).
  { pose proof (cnorm_le_diff s' (csn (cval z))) as M1. pose proof (cnorm_le_diff (csn (cval z)) s') as M2. rewrite (csub_norm_sym (csn (cval z))) in M2. fold S S' in M1, M2. lra. }
  assert (W0 : 0 < W) by lra. assert (S0 : 0 < S') by lra. assert (W'0 : 0 < W') by lra.
  assert (pr : forall x y : R, 998 / 1000 * lo <= x <= 1002 / 1000 * up -> 998 / 1000 * lo <= y <= 1002 / 1000 * up -> mid (x * y)).
  { intros x y Hx Hy. unfold ComplexUndo.mid. rewrite <- LL, <- UU. split.
    - apply Rle_trans with (998 / 1000 * lo * (998 / 1000 * lo)); [|apply Rmult_le_compat; lra]. assert (0 < lo * lo) by (apply Rmult_lt_0_compat; lra). lra.
    - apply Rle_trans with (1002 / 1000 * up * (1002 / 1000 * up)); [apply Rmult_le_compat; lra|]. assert (0 < up * up) by (apply Rmult_lt_0_compat; lra). lra. }
  assert (inv : forall x : R, 998 / 1000 * lo <= x <= 1002 / 1000 * up -> 997 / 1000 * lo <= / x <= 1003 / 1000 * up).
  { intros x Hx. assert (x0 : 0 < x) by lra. assert (EX : x * / x = 1) by (apply Rinv_r; lra). pose proof (Rinv_0_lt_compat x x0) as I0. split; apply Rnot_lt_le; intros N.
    - assert (x * / x <= 1002 / 1000 * up * (997 / 1000 * lo)) by (apply Rmult_le_compat; lra). lra.
    - assert (998 / 1000 * lo * (1003 / 1000 * up) <= x * / x) by (apply Rmult_le_compat; lra). lra. }
  assert (pr' : forall x y : R, 997 / 1000 * lo <= x <= 1003 / 1000 * up -> 997 / 1000 * lo <= y <= 1003 / 1000 * up -> mid (x * y)).
  { intros x y Hx Hy. unfold ComplexUndo.mid. rewrite <- LL, <- UU. split.
    - apply Rle_trans with (997 / 1000 * lo * (997 / 1000 * lo)); [|apply Rmult_le_compat; lra]. assert (0 < lo * lo) by (apply Rmult_lt_0_compat; lra). lra.
    - apply Rle_trans with (1003 / 1000 * up * (1003 / 1000 * up)); [apply Rmult_le_compat; lra|]. assert (0 < up * up) by (apply Rmult_lt_0_compat; lra). lra. }
  assert (RW : 998 / 1000 * lo <= W' <= 1002 / 1000 * up) by lra. assert (RS : 998 / 1000 * lo <= S' <= 1002 / 1000 * up) by lra. pose proof (inv _ RW) as IW.
  assert (B3 : mid (/ (W' * W'))) by (rewrite Rinv_mult; apply pr'; exact IW).
  assert (B4 : mid (S' * / W')) by (apply pr'; [lra|exact IW]).
  destruct (div_sized prec emax Hprec k Hk s c Fs Fc (pr _ _ RW RW) (pr _ _ RS RW) B3 B4 W'0 S0) as (q & Eq & Fq & Dq).
  exists q, t. rewrite Tan. repeat (split; [assumption|]). fold s' c' in Dq. set (q' := cval q) in *. set (T := cnorm t) in *. fold S' in Dq.
  set (e := cnorm (csub q' t)). assert (uS : u * S' <= d * (1002 / 1000 * S)) by (apply Rmult_le_compat; lra).
  assert (Main : e * W <= 632 / 100 * u * S' + 303 / 100 * d * S + (T + e) * (303 / 100 * d * W)).
  { replace (e * W) with (cnorm (cmul (csub q' t) (ccs (cval z)))) by (rewrite cnorm_mul; reflexivity). rewrite <- csub_mul. destruct Ht as [Et _]. rewrite Et.
    eapply Rle_trans; [apply (csub_triangle _ (cmul q' c'))|]. rewrite (csub_norm_sym (cmul q' (ccs (cval z)))).
    replace (csub (cmul q' c') (cmul q' (ccs (cval z)))) with (cmul q' (csub c' (ccs (cval z)))) by (unfold cmul, csub; cbn [fst snd]; f_equal; ring). rewrite cnorm_mul.
    assert (cnorm q' * cnorm (csub c' (ccs (cval z))) <= (T + e) * (303 / 100 * d * W)).
    { apply Rmult_le_compat; try apply cnorm_nonneg; [apply cnorm_le_diff|exact DC]. }
    pose proof (csub_triangle (cmul q' c') s' (csn (cval z))). lra. }
  apply Rmult_le_reg_r with W; [exact W0|]. assert (TW0 : 0 <= T * W) by (rewrite Sz; lra).
  assert (e0 : 0 <= e) by apply cnorm_nonneg. assert (eW0 : 0 <= e * W) by (apply Rmult_le_pos; lra).
  assert (deW : d * (e * W) <= / 1600 * (e * W)) by (apply Rmult_le_compat_r; lra). assert (dTW0 : 0 <= d * (T * W)) by (apply Rmult_le_pos; lra).
  assert (ddTW : d * (d * (T * W)) <= / 1600 * (d * (T * W))) by (apply Rmult_le_compat_r; lra).
  replace ((T + e) * (303 / 100 * d * W)) with (303 / 100 * (d * (T * W)) + 303 / 100 * (d * (e * W))) in Main by ring.
  replace (25 / 2 * d * T * W) with (25 / 2 * (d * (T * W))) by ring. rewrite <- Sz in *. 
  (* a first bound of e W, then the second-order term *)
  assert (First : e * W <= 13 * (d * (T * W))) by lra.
  assert (d * (e * W) <= d * (13 * (d * (T * W)))) by (apply Rmult_le_compat_l; lra). lra.
Qed.
End Near.

(** ** f32 and f64 *)
Lemma exp_nat n : exp (INR n) = exp 1 ^ n.
Proof. induction n; [apply exp_0|]. rewrite S_INR, Rplus_comm, exp_plus, IHn. reflexivity. Qed.

Lemma cosh_upto (n : nat) y (P : Z) : Rabs y <= INR n -> (272 ^ Z.of_nat n <= (2 * P - 1) * 100 ^ Z.of_nat n)%Z -> cosh y <= IZR P.
Proof.
  intros H HP. rewrite <- cosh_abs. unfold cosh. pose proof (exp_le _ _ H) as E. rewrite exp_nat in E. pose proof (Rabs_pos y) as A.
  assert (N : exp (- Rabs y) <= 1) by (rewrite <- exp_0; apply exp_le; lra). assert (E1 : exp 1 ^ n <= (272 / 100) ^ n) by (apply pow_incr; pose proof E_close; lra).
  assert (Q : (272 / 100) ^ n <= IZR (2 * P - 1)).
  { unfold Rdiv. rewrite Rpow_mult_distr, pow_inv. apply Rmult_le_reg_r with (100 ^ n); [apply pow_lt; lra|]. rewrite Rmult_assoc, Rinv_l, Rmult_1_r by (apply pow_nonzero; lra).
    rewrite !pow_IZR, <- mult_IZR. apply IZR_le. exact HP. }
  rewrite minus_IZR, mult_IZR in Q. lra.
Qed.

Lemma sinh_beyond (n : nat) y (P : Z) : INR (S n) <= Rabs y -> (26 * P * 1000 ^ (2 * Z.of_nat (S n)) <= 4 * 2718 ^ (2 * Z.of_nat (S n)))%Z -> 104 / 100 * IZR P <= sinh y * sinh y.
Proof.
  intros H HP. assert (N1 : 1 <= INR (S n)) by (apply (le_INR 1); lia). pose proof (sinh_lower (Rabs y) ltac:(lra)) as L. pose proof (exp_le _ _ H) as E. rewrite exp_nat in E.
  assert (E1 : (2718 / 1000) ^ S n <= exp 1 ^ S n) by (apply pow_incr; pose proof E_close; lra).
  assert (Q : sinh y * sinh y = sinh (Rabs y) * sinh (Rabs y)).
  { destruct (Rle_dec 0 y); [rewrite Rabs_pos_eq by lra; reflexivity|]. rewrite Rabs_left by lra. rewrite sinh_odd. ring. }
  rewrite Q. set (p := (2718 / 1000) ^ S n) in *. assert (p0 : 0 <= p) by (apply pow_le; lra).
  apply Rle_trans with (2 / 5 * p * (2 / 5 * p)); [|apply Rmult_le_compat; lra].
  assert (PP : p * p = IZR (2718 ^ (2 * Z.of_nat (S n))) / IZR (1000 ^ (2 * Z.of_nat (S n)))).
  { unfold p, Rdiv. rewrite <- Rpow_mult_distr. replace (2718 * / 1000 * (2718 * / 1000)) with (2718 ^ 2 * / 1000 ^ 2) by (simpl; lra). rewrite Rpow_mult_distr, pow_inv, <- !pow_mult, !pow_IZR.
    rewrite !Nat2Z.inj_mul. reflexivity. }
  replace (2 / 5 * p * (2 / 5 * p)) with (4 / 25 * (p * p)) by field. rewrite PP. apply IZR_le in HP. rewrite !mult_IZR in HP.
  set (D := IZR (1000 ^ (2 * Z.of_nat (S n)))) in *. assert (D0 : 0 < D) by (apply IZR_lt, Z.pow_pos_nonneg; lia).
  apply Rmult_le_reg_r with D; [exact D0|]. unfold Rdiv. replace (4 * / 25 * (IZR (2718 ^ (2 * Z.of_nat (S n))) * / D) * D) with (4 / 25 * IZR (2718 ^ (2 * Z.of_nat (S n)))) by (field; lra). lra.
Qed.

Lemma sinh_sq x : x * x <= sinh x * sinh x.
Proof.
  destruct (Rle_dec 0 x) as [P|P].
  - pose proof (sinh_ge x P). apply Rmult_le_compat; lra.
  - pose proof (sinh_ge (- x) ltac:(lra)) as K. rewrite sinh_odd in K. replace (x * x) with (- x * - x) by ring. replace (sinh x * sinh x) with (- sinh x * - sinh x) by ring.
    apply Rmult_le_compat; lra.
Qed.

(** Away from the real axis |sin z| and |cos z| are at least |Im z|. *)
Lemma off_axis z : Rabs (snd z) <= cnorm (csn z) /\ Rabs (snd z) <= cnorm (ccs z).
Proof.
  pose proof (sinh_sq (snd z)) as Q. pose proof (Rle_0_sqr (sin (fst z))) as A. pose proof (Rle_0_sqr (cos (fst z))) as B. unfold Rsqr in *.
  assert (E : Rabs (snd z) * Rabs (snd z) = snd z * snd z) by (rewrite <- Rabs_mult; apply Rabs_pos_eq, Rle_0_sqr).
  split; apply sq_le; try apply cnorm_nonneg; rewrite E; [rewrite csn_norm|rewrite ccs_norm]; lra.
Qed.

Corollary C108_f32 : forall (libm : FunOps f32) (d : R), unit_roundoff 24 <= d <= / 20000 -> libm_error 24 128 libm d ->
  let FE := float_fun 24 128 libm in
  (forall z, cfinite z -> Rabs (B2R (im z)) <= 35 -> / 2 ^ 50 <= cnorm (csn (cval z)) -> / 2 ^ 50 <= cnorm (ccs (cval z)) ->
     exists q t, complex_tan f32_f FE z = Ok q /\ cfinite q /\ is_tan t (cval z) /\ cnorm (csub (cval q) t) <= 25 / 2 * d * cnorm t)
  /\ (forall z, cfinite z -> / 2 ^ 50 <= Rabs (B2R (im z)) <= 35 ->
     exists q t, complex_tan f32_f FE z = Ok q /\ cfinite q /\ is_tan t (cval z) /\ cnorm (csub (cval q) t) <= 25 / 2 * d * cnorm t).
Proof.
  intros libm d Hd HL FE. assert (H3 : d * (IZR 25 + 3) <= / 400) by lra.
  assert (LO : bpow radix2 (- (2 * 25)) = / 2 ^ 50) by (rewrite (pow_IZR 2 50); reflexivity).
  assert (UP : forall y, Rabs y <= 35 -> cosh y <= bpow radix2 (2 * 25)).
  { intros y Hy. change (bpow radix2 (2 * 25)) with (IZR (2 ^ 50)). apply (cosh_upto 35); [simpl; lra|vm_compute; discriminate]. }
  assert (A : forall z, cfinite z -> Rabs (B2R (im z)) <= 35 -> / 2 ^ 50 <= cnorm (csn (cval z)) -> / 2 ^ 50 <= cnorm (ccs (cval z)) ->
     exists q t, complex_tan f32_f FE z = Ok q /\ cfinite q /\ is_tan t (cval z) /\ cnorm (csub (cval q) t) <= 25 / 2 * d * cnorm t).
  { intros z Fz Hy HS HC. apply (C108_tangent_accurate 24 128 libm ltac:(lia) 25 ltac:(lia) ltac:(lia) d (proj1 Hd) H3 HL z Fz (UP _ Hy)); rewrite LO; assumption. }
  split; [exact A|]. intros z Fz [Hl Hy]. destruct (off_axis (cval z)) as [O1 O2]. change (snd (cval z)) with (B2R (im z)) in *. apply A; try assumption; lra.
Qed.

Corollary C108_f64 : forall (libm : FunOps f64) (d : R), unit_roundoff 53 <= d <= / 200000 -> libm_error 53 1024 libm d ->
  let FE := float_fun 53 1024 libm in
  (forall z, cfinite z -> Rabs (B2R (im z)) <= 345 -> / 2 ^ 498 <= cnorm (csn (cval z)) -> / 2 ^ 498 <= cnorm (ccs (cval z)) ->
     exists q t, complex_tan f64_f FE z = Ok q /\ cfinite q /\ is_tan t (cval z) /\ cnorm (csub (cval q) t) <= 25 / 2 * d * cnorm t)
  /\ (forall z, cfinite z -> / 2 ^ 498 <= Rabs (B2R (im z)) <= 345 ->
     exists q t, complex_tan f64_f FE z = Ok q /\ cfinite q /\ is_tan t (cval z) /\ cnorm (csub (cval q) t) <= 25 / 2 * d * cnorm t).
Proof.
  intros libm d Hd HL FE. assert (H3 : d * (IZR 249 + 3) <= / 400) by lra.
  assert (LO : bpow radix2 (- (2 * 249)) = / 2 ^ 498) by (rewrite (pow_IZR 2 498); reflexivity).
  assert (UP : forall y, Rabs y <= 345 -> cosh y <= bpow radix2 (2 * 249)).
  { intros y Hy. change (bpow radix2 (2 * 249)) with (IZR (2 ^ 498)). apply (cosh_upto 345); [rewrite INR_IZR_INZ; exact Hy|vm_compute; discriminate]. }
  assert (A : forall z, cfinite z -> Rabs (B2R (im z)) <= 345 -> / 2 ^ 498 <= cnorm (csn (cval z)) -> / 2 ^ 498 <= cnorm (ccs (cval z)) ->
     exists q t, complex_tan f64_f FE z = Ok q /\ cfinite q /\ is_tan t (cval z) /\ cnorm (csub (cval q) t) <= 25 / 2 * d * cnorm t).
  { intros z Fz Hy HS HC. apply (C108_tangent_accurate 53 1024 libm ltac:(lia) 249 ltac:(lia) ltac:(lia) d (proj1 Hd) H3 HL z Fz (UP _ Hy)); rewrite LO; assumption. }
  split; [exact A|]. intros z Fz [Hl Hy]. destruct (off_axis (cval z)) as [O1 O2]. change (snd (cval z)) with (B2R (im z)) in *. apply A; try assumption; lra.
Qed.

Corollary C108_far_nan_f32_f64_refuted :
  (forall (libm : FunOps f32) (d : R), 0 <= d <= / 1600 -> libm_may_overflow 24 128 libm d -> forall z, cfinite z -> 46 <= Rabs (B2R (im z)) ->
     exists q, complex_tan f32_f (float_fun 24 128 libm) z = Ok q /\ is_nan (im q) = true)
  /\ (forall (libm : FunOps f64) (d : R), 0 <= d <= / 1600 -> libm_may_overflow 53 1024 libm d -> forall z, cfinite z -> 356 <= Rabs (B2R (im z)) ->
     exists q, complex_tan f64_f (float_fun 53 1024 libm) z = Ok q /\ is_nan (im q) = true).
Proof.
  split; intros libm d Hd HL z Fz Hy.
  - destruct (C108_far_nan_refuted 24 128 libm ltac:(lia) d Hd HL z Fz ltac:(lra)) as (q & E & N & _); [|exists q; split; assumption].
    change (bpow radix2 128) with (IZR (2 ^ 128)). apply (sinh_beyond 45); [rewrite INR_IZR_INZ; exact Hy|vm_compute; discriminate].
  - destruct (C108_far_nan_refuted 53 1024 libm ltac:(lia) d Hd HL z Fz ltac:(lra)) as (q & E & N & _); [|exists q; split; assumption].
    change (bpow radix2 1024) with (IZR (2 ^ 1024)). apply (sinh_beyond 355); [rewrite INR_IZR_INZ; exact Hy|vm_compute; discriminate].
Qed.

(** ** The hypotheses are met by a correctly rounded libm: the tangent of 1 + i is accurate, that of 1 + 50 i is NaN although
    the exact one is within 2^-100 of i. *)
Lemma nearest_if_finite (prec emax : Z) {Hp : Prec_gt_0 prec} {He : Prec_lt_emax prec emax} v : right_if_finite prec emax (unit_roundoff prec) (Ok (nearest prec emax v)) v.
Proof.
  exists (nearest prec emax v). split; [reflexivity|]. intros F. unfold nearest in *. set (n := ZnearestE _) in *. set (e := Generic_fmt.cexp _ _ v) in *.
  pose proof (binary_normalize_correct prec emax Hp He mode_NE n e false) as C. cbn zeta in C. change (F2R (Float radix2 n e)) with (round radix2 (SpecFloat.fexp prec emax) (round_mode mode_NE) v) in C.
  rewrite (round_generic radix2 (SpecFloat.fexp prec emax) (round_mode mode_NE)) in C by (apply generic_format_round; [apply fexp_valid; exact Hp|apply valid_rnd_round_mode]).
  destruct (Rlt_bool _ _).
  - destruct C as (E & _ & _). rewrite E. destruct (rnd_any prec emax v) as (x & h & H1 & H2 & ->). replace (v * (1 + x) + h - v) with (x * v + h) by ring.
    eapply Rle_trans; [apply Rabs_triang|]. rewrite Rabs_mult. apply Rplus_le_compat; [|exact H2]. apply Rmult_le_compat_r; [apply Rabs_pos|exact H1].
  - rewrite (overflow_not_finite prec emax mode_NE _ _ C eq_refl) in F. discriminate.
Qed.

Example C108_case :
  libm_may_overflow 24 128 (rounded_libm 24 128) (unit_roundoff 24) /\ libm_error 24 128 (rounded_libm 24 128) (11 / 10 * unit_roundoff 24)
  /\ (exists q t, complex_tan f32_f (float_fun 24 128 (rounded_libm 24 128)) (Cx (fl_int 24 128 1) (fl_int 24 128 1)) = Ok q /\ is_tan t (1, 1) /\ cnorm (csub (cval q) t) <= 14 * unit_roundoff 24 * cnorm t)
  /\ (exists q, complex_tan f32_f (float_fun 24 128 (rounded_libm 24 128)) (Cx (fl_int 24 128 1) (fl_int 24 128 50)) = Ok q /\ is_nan (im q) = true)
  /\ (forall t, is_tan t (1, 50) -> cnorm (csub t (0, 1)) <= / 2 ^ 100).
Proof.
  assert (U : unit_roundoff 24 = / 16777216) by (unfold unit_roundoff; simpl; lra).
  assert (A : libm_may_overflow 24 128 (rounded_libm 24 128) (unit_roundoff 24)).
  { intros x Fx. assert (H1 : 1 <= half_big 128) by (unfold half_big; change 1 with (bpow radix2 0); apply bpow_le; lia).
    split; [apply nearest_returns; [lra|pose proof (sin_le_1 (B2R x)); lra]|]. split; [apply nearest_returns; [lra|pose proof (cos_le_1 (B2R x)); lra]|].
    split; apply nearest_if_finite. }
  assert (B : libm_error 24 128 (rounded_libm 24 128) (11 / 10 * unit_roundoff 24)).
  { apply rounded_libm_error; [lia|lia|]. apply Rle_trans with (bpow radix2 10); [simpl; lra|apply bpow_le; lia]. }
  assert (V1 : B2R (fl_int 24 128 1) = 1) by (vm_compute; lra). assert (V50 : B2R (fl_int 24 128 50) = 50) by (vm_compute; lra).
  split; [exact A|]. split; [exact B|]. split; [|split].
  - destruct (proj2 (C108_f32 _ (11 / 10 * unit_roundoff 24) ltac:(lra) B) (Cx (fl_int 24 128 1) (fl_int 24 128 1))) as (q & t & E & _ & Ht & D).
    + split; reflexivity.
    + cbn [im]. rewrite V1, Rabs_R1. split; [|lra]. apply Rle_trans with (/ 1); [|lra]. apply Rinv_le; [lra|apply pow_R1_Rle; lra].
    + exists q, t. split; [exact E|]. unfold cval in Ht. cbn [re im] in Ht. rewrite V1 in Ht. split; [exact Ht|]. eapply Rle_trans; [exact D|].
      pose proof (cnorm_nonneg t). apply Rmult_le_compat_r; lra.
  - destruct C108_far_nan_f32_f64_refuted as [H _]. apply (H _ (unit_roundoff 24) ltac:(lra) A); [split; reflexivity|]. cbn [im]. rewrite V50, Rabs_pos_eq; lra.
  - intros t Ht. pose proof (C108_exact_tangent _ _ Ht) as H. cbn [snd] in H. rewrite (Rabs_pos_eq 50) in H by lra. specialize (H ltac:(lra)).
    unfold sign_i in H. destruct (Rle_dec 0 50) as [_|N]; [|lra]. eapply Rle_trans; [exact H|].
    replace (2 * 50) with (INR 100) by (simpl; lra). rewrite exp_Ropp, exp_nat.
    assert (L : 5 / 2 * 2 ^ 100 <= exp 1 ^ 100).
    { apply Rle_trans with ((2718 / 1000) ^ 100); [|apply pow_incr; pose proof E_close; lra]. unfold Rdiv. rewrite (Rpow_mult_distr 2718), pow_inv.
      apply Rmult_le_reg_r with (2 * 1000 ^ 100); [apply Rmult_lt_0_compat; [lra|apply pow_lt; lra]|].
      replace (5 * / 2 * 2 ^ 100 * (2 * 1000 ^ 100)) with (5 * 2 ^ 100 * 1000 ^ 100) by field. replace (2718 ^ 100 * / 1000 ^ 100 * (2 * 1000 ^ 100)) with (2 * 2718 ^ 100) by (field; apply pow_nonzero; lra).
      rewrite !pow_IZR, <- !mult_IZR. apply IZR_le. vm_compute. discriminate. }
    assert (P : 0 < 2 ^ 100) by (apply pow_lt; lra). assert (Q : 0 < exp 1 ^ 100) by (apply pow_lt, exp_pos).
    revert L P Q. generalize (2 ^ 100) (exp 1 ^ 100). intros v w L P Q. apply Rmult_le_reg_r with (v * w); [apply Rmult_lt_0_compat; assumption|].
    replace (5 / 2 * / w * (v * w)) with (5 / 2 * v) by (field; lra). replace (/ v * (v * w)) with w by (field; lra). exact L.
Qed.

Print Assumptions C108_exact_tangent.
Print Assumptions C108_far_nan_refuted.
Print Assumptions C108_tangent_accurate.
Print Assumptions C108_f32.
Print Assumptions C108_f64.
Print Assumptions C108_far_nan_f32_f64_refuted.
