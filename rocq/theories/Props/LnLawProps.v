(** Property C112: the laws of logarithms for Complex<f32> and Complex<f64>, up to rounding and full turns, given the
    accuracy of libm: ln(zw) = ln z + ln w, ln(z/w) = ln z - ln w, ln(sqrt z) = ln(z)/2. *)
From Coq Require Import List ZArith Reals Bool Lia Lra Psatz.
From Flocq Require Import Core.Core IEEE754.BinarySingleNaN.
From Verif Require Import Base.Outcome Model.Traits Model.Float Model.Complex Model.RealInstance Spec.FloatErr Spec.ComplexErr
  Proofs.FloatErr Proofs.FloatRound Proofs.FloatRange Proofs.PiE Proofs.ComplexReal Proofs.ComplexErr Props.ComplexErrProps Props.ComplexBranchProps
  Props.FloatSqrtProps Props.FloatFunProps Props.FloatProps Props.TrigTestProps Proofs.LnTest Proofs.ComplexUndo Props.ComplexUndoProps Proofs.ExpLn
  Props.ExpLnProps Props.PolarProps Props.SqrtAnyProps Props.SqrtLawProps.
Local Open Scope R_scope.

(** z = e^(ln |z| + it). *)
Lemma as_exp (z : cplx) t : is_argument t (fst z) (snd z) -> 0 < cnorm z -> z = cexp (ln (cnorm z), t).
Proof.
  intros (_ & X & Y) Z0. unfold cexp. cbn [fst snd]. rewrite exp_ln by exact Z0. unfold cnorm. rewrite <- X, <- Y. apply surjective_pairing.
Qed.

Section Fmt.
Context (prec emax : Z) {Hp : Prec_gt_0 prec} {He : Prec_lt_emax prec emax} (libm : FunOps (binary_float prec emax)).
Notation fl := (binary_float prec emax).
Notation FF := (float_field prec emax).
Notation FR := (float_ring prec emax).
Notation FE := (float_fun prec emax libm).
Notation u := (unit_roundoff prec).
Context (Hprec : (24 <= prec)%Z) (k : Z) (Hk0 : (1 <= k)%Z) (Hk : (4 * k + 26 <= emax)%Z).
Context (d : R) (Hd : u <= d) (Hdk : d * (IZR k + 3) <= / 400) (HL : libm_error prec emax libm d).
Notation mid := (mid k).
Notation win := (win k).

Lemma dr2 : 0 < u <= / 16777216 /\ u <= d <= / 1600.
Proof. destruct (d_range prec Hprec k Hk0 d Hd Hdk) as (A & B & _). auto. Qed.

Lemma win_0 c n x : 0 < c -> win c n x -> 0 < x.
Proof. apply win_pos. Qed.
Lemma mid_square (x : R) c n : 0 < c <= 4 -> (0 <= n <= 2)%Z -> win c n x -> mid (x * x).
Proof.
  intros Hc Hn W. apply (win_mid k ltac:(lia) (c * c) (n + n)); [|lia|apply win_mul; [lra|lra|exact W|exact W]].
  split; [apply Rmult_lt_0_compat; lra|]. replace 16 with (4 * 4) by ring. apply Rmult_le_compat; lra.
Qed.

(** The logarithm of a number near e^z. *)
Lemma ln_near (v : complex fl) (z : cplx) rho : cfinite v -> win 2 2 (cnorm (cval v)) -> 0 <= rho <= 1 / 1000 ->
  cnorm (csub (cval v) (cexp z)) <= rho * exp (fst z) ->
  exists l t (n : Z), complex_ln FF FE v = Ok l /\ cfinite l /\ is_argument t (B2R (re v)) (B2R (im v))
    /\ Rabs (B2R (re l) - fst z) <= 201 / 100 * d * Rabs (fst z) + 11 / 10 * d + 103 / 100 * rho
    /\ Rabs (B2R (im l) - t) <= 315 / 100 * d
    /\ Rabs (t - (snd z + 2 * PI * IZR n)) <= 102 / 100 * rho.
Proof.
  intros Fv W Hr H. destruct dr2 as [U D]. pose proof (win_0 2 2 _ ltac:(lra) W) as V0. pose proof (exp_pos (fst z)) as E0.
  destruct (full_ln prec emax libm Hprec k Hk0 Hk d Hd Hdk HL v Fv) as (l & t & El & Fl & Ht & H1 & H2); [|exact V0|].
  { apply (mid_square _ 2 2); [lra|lia|exact W]. }
  destruct (angle_near z (cval v) t rho) as [n Hn]; [exact Ht|lra|exact H|].
  exists l, t, n. split; [exact El|]. split; [exact Fl|]. split; [exact Ht|]. set (V := cnorm (cval v)) in *.
  assert (NV : Rabs (V - exp (fst z)) <= rho * exp (fst z)).
  { assert (N : cnorm (cexp z) = exp (fst z)) by apply cnorm_cexp. apply Rabs_le. pose proof (cnorm_le_diff (cval v) (cexp z)) as A. pose proof (cnorm_le_diff (cexp z) (cval v)) as B.
    rewrite csub_norm_sym in B. fold V in A, B. lra. }
  assert (LV : Rabs (ln V - fst z) <= 102 / 100 * rho).
  { destruct (ln_ratio V (exp (fst z)) rho) as [_ R]; [exact E0|lra|exact NV|]. rewrite ln_exp in R. lra. }
  split; [|split; [exact H2|]].
  - assert (Rabs (ln V) <= Rabs (fst z) + 102 / 100 * rho). { replace (ln V) with ((ln V - fst z) + fst z) by ring. eapply Rle_trans; [apply Rabs_triang|]. lra. }
    assert (d * Rabs (ln V) <= d * (Rabs (fst z) + 102 / 100 * rho)) by (apply Rmult_le_compat_l; lra). assert (d * rho <= / 1600 * rho) by (apply Rmult_le_compat_r; lra).
    replace (B2R (re l) - fst z) with ((B2R (re l) - ln V) + (ln V - fst z)) by ring. eapply Rle_trans; [apply Rabs_triang|]. lra.
  - replace (t - (snd z + 2 * PI * IZR n)) with (t - snd z - 2 * PI * IZR n) by ring. exact Hn.
Qed.

(** Its application to z itself. *)
Lemma ln_of (z : complex fl) : sized k z -> exists l t, complex_ln FF FE z = Ok l /\ cfinite l /\ is_argument t (B2R (re z)) (B2R (im z))
  /\ cval z = cexp (ln (cnorm (cval z)), t)
  /\ Rabs (B2R (re l) - ln (cnorm (cval z))) <= 201 / 100 * d * Rabs (ln (cnorm (cval z))) + 11 / 10 * d
  /\ Rabs (B2R (im l) - t) <= 315 / 100 * d.
Proof.
  intros Sz. pose proof (win_sized prec emax k z Sz) as W. pose proof (win_0 1 1 _ Rlt_0_1 W) as Z0.
  destruct (full_ln prec emax libm Hprec k Hk0 Hk d Hd Hdk HL z (proj1 Sz)) as (l & t & El & Fl & Ht & H1 & H2); [|exact Z0|].
  { apply (mid_square _ 1 1); [lra|lia|exact W]. }
  exists l, t. split; [exact El|]. split; [exact Fl|]. split; [exact Ht|]. split; [apply as_exp; [exact Ht|exact Z0]|]. split; [exact H1|exact H2].
Qed.

Lemma turns_small (n : Z) x : Rabs x < 2 * PI * 2 -> x = 2 * PI * IZR n -> (-1 <= n <= 1)%Z.
Proof.
  intros H ->. pose proof PI_close as P. apply Rabs_lt_inv in H.
  assert (Q1 : 2 * PI * IZR n < 2 * PI * 2) by lra. assert (Q2 : 2 * PI * -2 < 2 * PI * IZR n) by lra.
  apply Rmult_lt_reg_l in Q1; [|lra]. apply Rmult_lt_reg_l in Q2; [|lra]. apply lt_IZR in Q1. apply lt_IZR in Q2. lia.
Qed.

(** ln(zw) = ln z + ln w + 2 pi n i. *)
Theorem C112_ln_of_product : forall z w : complex fl, sized k z -> sized k w ->
  exists p lp lz lw (n : Z), complex_mul FR z w = Ok p /\ complex_ln FF FE p = Ok lp /\ complex_ln FF FE z = Ok lz /\ complex_ln FF FE w = Ok lw
  /\ cfinite lp /\ cfinite lz /\ cfinite lw /\ (-1 <= n <= 1)%Z
  /\ Rabs (B2R (re lp) - (B2R (re lz) + B2R (re lw))) <= (41 / 10 * (Rabs (ln (cnorm (cval z))) + Rabs (ln (cnorm (cval w)))) + 6) * d
  /\ Rabs (B2R (im lp) - (B2R (im lz) + B2R (im lw) + 2 * PI * IZR n)) <= 12 * d.
Proof.
  intros z w Sz Sw. destruct dr2 as [U D]. pose proof (win_sized prec emax k z Sz) as Wz. pose proof (win_0 1 1 _ Rlt_0_1 Wz) as Z0. pose proof (win_sized prec emax k w Sw) as Ww. pose proof (win_0 1 1 _ Rlt_0_1 Ww) as W0.
  pose proof (win_mul k _ _ _ _ _ _ Rlt_0_1 Rlt_0_1 Wz Ww) as WW.
  destruct (mul_sized prec emax Hprec k Hk z w (proj1 Sz) (proj1 Sw)) as (p & Ep & Fp & Hpp).
  { eapply (win_mid k); [| | |exact WW]; [lia|lra|lia]. }
  destruct (ln_of z Sz) as (lz & tz & Ez & Fz & Az & Xz & H1z & H2z). destruct (ln_of w Sw) as (lw & tw & Ew & Fw & Aw & Xw & H1w & H2w).
  set (Z := cnorm (cval z)) in *. set (W := cnorm (cval w)) in *. assert (ZW : 0 < Z * W) by (apply Rmult_lt_0_compat; lra).
  assert (EX : cmul (cval z) (cval w) = cexp (cadd (ln Z, tz) (ln W, tw))) by (rewrite cexp_add, <- Xz, <- Xw; reflexivity).
  assert (EN : Z * W = exp (fst (cadd (ln Z, tz) (ln W, tw)))). { cbn [cadd fst]. rewrite exp_plus, !exp_ln by assumption. reflexivity. }
  assert (uZZ : u * (Z * W) <= / 16777216 * (Z * W)) by (apply Rmult_le_compat_r; lra).
  assert (NE : cnorm (cmul (cval z) (cval w)) = Z * W) by apply cnorm_mul. pose proof Hpp as Hp2. rewrite <- NE in Hp2. destruct (near_norm prec _ _ (231 / 100) ltac:(lra) Hp2) as [N1 N2]. rewrite NE in N1, N2.
  rewrite EX, EN in Hpp.
  assert (RHO : 0 <= 231 / 100 * u <= 1 / 1000) by (split; [apply Rmult_le_pos|]; lra).
  assert (WP : win 2 2 (cnorm (cval p))). { replace 2 with (2 * (1 * 1)) at 1 by ring. apply (win_near k _ _ (Z * W)); [lra|exact WW|lra]. }
  destruct (ln_near p (cadd (ln Z, tz) (ln W, tw)) (231 / 100 * u) Fp WP RHO Hpp) as (lp & t & n & Elp & Flp & At & H1 & H2 & H3).
  cbn [cadd fst snd] in H1, H3. set (a := ln Z) in *. set (b := ln W) in *.
  assert (TR : Rabs (a + b) <= Rabs a + Rabs b) by apply Rabs_triang. assert (d * Rabs (a + b) <= d * (Rabs a + Rabs b)) by (apply Rmult_le_compat_l; lra).
  pose proof (Rabs_pos a) as a0. pose proof (Rabs_pos b) as b0. assert (0 <= d * (Rabs a + Rabs b)) by (apply Rmult_le_pos; lra).
  exists p, lp, lz, lw, n. repeat (split; [assumption|]). split; [|split].
  - destruct Az as [Az _]. destruct Aw as [Aw _]. destruct At as [At _]. pose proof PI_close as P. apply Rabs_le_inv in H3. apply (turns_small n (2 * PI * IZR n)); [|reflexivity]. apply Rabs_lt. split; lra.
  - replace (B2R (re lp) - (B2R (re lz) + B2R (re lw))) with ((B2R (re lp) - (a + b)) + (- (B2R (re lz) - a) + - (B2R (re lw) - b))) by ring.
    eapply Rle_trans; [apply Rabs_triang|]. eapply Rle_trans; [apply Rplus_le_compat_l; apply Rabs_triang|]. rewrite !Rabs_Ropp. lra.
  - apply Rabs_le_inv in H2. apply Rabs_le_inv in H3. apply Rabs_le_inv in H2z. apply Rabs_le_inv in H2w. apply Rabs_le. lra.
Qed.

(** ln(z/w) = ln z - ln w + 2 pi n i. *)
Theorem C112_ln_of_quotient : forall z w : complex fl, sized k z -> sized k w ->
  exists q lq lz lw (n : Z), complex_div FF z w = Ok q /\ complex_ln FF FE q = Ok lq /\ complex_ln FF FE z = Ok lz /\ complex_ln FF FE w = Ok lw
  /\ cfinite lq /\ cfinite lz /\ cfinite lw /\ (-1 <= n <= 1)%Z
  /\ Rabs (B2R (re lq) - (B2R (re lz) - B2R (re lw))) <= (41 / 10 * (Rabs (ln (cnorm (cval z))) + Rabs (ln (cnorm (cval w)))) + 10) * d
  /\ Rabs (B2R (im lq) - (B2R (im lz) - B2R (im lw) + 2 * PI * IZR n)) <= 16 * d.
Proof.
  intros z w Sz Sw. destruct dr2 as [U D]. pose proof (win_sized prec emax k z Sz) as Wz. pose proof (win_0 1 1 _ Rlt_0_1 Wz) as Z0. pose proof (win_sized prec emax k w Sw) as Ww. pose proof (win_0 1 1 _ Rlt_0_1 Ww) as W0.
  pose proof (win_mul k _ _ _ _ _ _ Rlt_0_1 Rlt_0_1 Wz (win_inv k _ _ _ Rlt_0_1 Ww)) as WQ.
  destruct (ln_of z Sz) as (lz & tz & Ez & Fz & Az & Xz & H1z & H2z). destruct (ln_of w Sw) as (lw & tw & Ew & Fw & Aw & Xw & H1w & H2w).
  set (Z := cnorm (cval z)) in *. set (W := cnorm (cval w)) in *. set (a := ln Z) in *. set (b := ln W) in *.
  set (e := (a - b, tz - tw) : cplx).
  assert (EX : cmul (cexp e) (cval w) = cval z). { rewrite Xw, <- cexp_add, Xz. unfold e, cadd. cbn [fst snd]. f_equal. f_equal; ring. }
  destruct (C73_div_normwise prec emax Hprec k ltac:(lia) Hk z w Sz Sw (cexp e) EX) as (q & Eq & Fq & Hq). rewrite cnorm_cexp in Hq.
  assert (EN : exp (fst e) = Z * / W). { cbn [e fst]. unfold Rminus. rewrite exp_plus, exp_Ropp. unfold a, b. rewrite !exp_ln by assumption. reflexivity. }
  assert (ZW : 0 < Z * / W) by (apply Rmult_lt_0_compat; [lra|apply Rinv_0_lt_compat; lra]).
  assert (uZZ : u * (Z * / W) <= / 16777216 * (Z * / W)) by (apply Rmult_le_compat_r; lra).
  pose proof Hq as Hp2. rewrite <- cnorm_cexp in Hp2. destruct (near_norm prec _ _ (632 / 100) ltac:(lra) Hp2) as [N1 N2]. rewrite cnorm_cexp, EN in N1, N2.
  assert (RHO : 0 <= 632 / 100 * u <= 1 / 1000) by (split; [apply Rmult_le_pos|]; lra).
  assert (WP : win 2 2 (cnorm (cval q))). { replace 2 with (2 * (1 * 1)) at 1 by ring. apply (win_near k _ _ (Z * / W)); [lra|exact WQ|lra]. }
  destruct (ln_near q e (632 / 100 * u) Fq WP RHO Hq) as (lq & t & n & Elp & Flp & At & H1 & H2 & H3).
  cbn [e fst snd] in H1, H3.
  assert (TR : Rabs (a - b) <= Rabs a + Rabs b) by (unfold Rminus; rewrite <- (Rabs_Ropp b); apply Rabs_triang). assert (d * Rabs (a - b) <= d * (Rabs a + Rabs b)) by (apply Rmult_le_compat_l; lra).
  pose proof (Rabs_pos a) as a0. pose proof (Rabs_pos b) as b0. assert (0 <= d * (Rabs a + Rabs b)) by (apply Rmult_le_pos; lra).
  exists q, lq, lz, lw, n. repeat (split; [assumption|]). split; [|split].
  - destruct Az as [Az _]. destruct Aw as [Aw _]. destruct At as [At _]. pose proof PI_close as P. apply Rabs_le_inv in H3. apply (turns_small n (2 * PI * IZR n)); [|reflexivity]. apply Rabs_lt. split; lra.
  - replace (B2R (re lq) - (B2R (re lz) - B2R (re lw))) with ((B2R (re lq) - (a - b)) + (- (B2R (re lz) - a) + (B2R (re lw) - b))) by ring.
    eapply Rle_trans; [apply Rabs_triang|]. eapply Rle_trans; [apply Rplus_le_compat_l; apply Rabs_triang|]. rewrite !Rabs_Ropp. lra.
  - apply Rabs_le_inv in H2. apply Rabs_le_inv in H3. apply Rabs_le_inv in H2z. apply Rabs_le_inv in H2w. apply Rabs_le. lra.
Qed.

(** ln(sqrt z) = ln(z)/2. *)
Lemma ln_of_root : forall z : complex fl, sized k z ->
  exists s ls lz (n : Z), complex_sqrt FF FE z = Ok s /\ complex_ln FF FE s = Ok ls /\ complex_ln FF FE z = Ok lz
  /\ cfinite ls /\ cfinite lz /\ (n = 0 \/ n = 1)%Z /\ (~ (B2R (im z) = 0 /\ B2R (re z) < 0) -> n = 0%Z)
  /\ Rabs (B2R (re ls) - B2R (re lz) / 2) <= (21 / 10 * Rabs (ln (cnorm (cval z))) + 15) * d
  /\ Rabs (B2R (im ls) - (B2R (im lz) / 2 + PI * IZR n)) <= 18 * d
  /\ (B2R (im z) = 0 /\ B2R (re z) < 0 -> Rabs (B2R (im ls) - PI / 2) <= 18 * d).
Proof.
  intros z Sz. destruct dr2 as [U D]. pose proof (win_sized prec emax k z Sz) as Wz. pose proof (win_0 1 1 _ Rlt_0_1 Wz) as Z0.
  destruct (ln_of z Sz) as (lz & t & Ez & Fz & At & Xz & H1z & H2z).
  destruct (C72_sqrt_normwise prec emax libm k z) as (s & p & q & Es & PR & Fs & H & NS); [lia|lia|lia|exact (proj1 Sz)|exact (proj2 Sz)|].
  pose proof (root_win prec emax k ltac:(lia) z Sz) as Vr. rewrite <- NS in Vr. pose proof (half_ln_root _ _ _ At Z0) as HR. cbv zeta in HR.
  change (sqrt (B2R (re z) * B2R (re z) + B2R (im z) * B2R (im z))) with (cnorm (cval z)) in HR.
  set (Z := cnorm (cval z)) in *. set (L := ln Z) in *. pose proof PI_close as PC.
  assert (ER : exists n, (n = 0 \/ n = 1)%Z /\ (~ (B2R (im z) = 0 /\ B2R (re z) < 0) -> n = 0%Z) /\ (B2R (im z) = 0 /\ B2R (re z) < 0 -> t / 2 + PI * IZR n = PI / 2) /\ - PI / 2 <= t / 2 + PI * IZR n <= PI / 2 /\ (p, q) = cexp (L / 2, t / 2 + PI * IZR n)).
  { pose proof At as (Rt & X & Y). destruct (Req_dec t (- PI)) as [Et|Nt].
    - exists 1%Z. split; [right; reflexivity|]. split; [|split; [lra|split]].
      + intros N. exfalso. apply N. rewrite Et in X, Y. rewrite cos_neg, cos_PI in X. rewrite sin_neg, sin_PI in Y.
        change (sqrt (B2R (re z) * B2R (re z) + B2R (im z) * B2R (im z))) with Z in X, Y. lra.
      + lra.
      + destruct (root_unique _ _ _ _ _ _ PR (proj2 HR Et)) as [Ep Eq]. rewrite Ep, Eq. unfold cexp. cbn [fst snd]. rewrite !Rmult_1_r, neg_cos, neg_sin. f_equal; ring.
    - exists 0%Z. split; [left; reflexivity|]. split; [reflexivity|]. split; [|split; [lra|]].
      { intros [I0 R0]. assert (M0 : Z <> 0) by lra. change (sqrt (B2R (re z) * B2R (re z) + B2R (im z) * B2R (im z))) with Z in X, Y. rewrite I0 in Y.
        assert (S0 : sin t = 0) by (destruct (Rmult_integral Z (sin t)); [symmetry; exact Y|contradiction|assumption]).
        assert (C0 : cos t < 0) by (apply (Rmult_lt_reg_l Z); [exact Z0|rewrite Rmult_0_r, <- X; exact R0]).
        assert (T : t = PI).
        { destruct (Rtotal_order t 0) as [T|[T|T]].
          - assert (0 < sin (- t)) by (apply sin_gt_0; lra). rewrite sin_neg in *. lra.
          - rewrite T, cos_0 in C0. lra.
          - destruct (Rle_lt_or_eq_dec t PI ltac:(lra)) as [T'|T']; [|exact T']. assert (0 < sin t) by (apply sin_gt_0; lra). lra. }
        rewrite T. lra. }
      destruct (root_unique _ _ _ _ _ _ PR (proj1 HR ltac:(lra))) as [Ep Eq]. rewrite Ep, Eq, Rmult_0_r, Rplus_0_r. symmetry. apply surjective_pairing. }
  destruct ER as (n & Hn & Hn0 & HP & Rn & ER). set (e := (L / 2, t / 2 + PI * IZR n) : cplx) in *.
  rewrite ER, cnorm_cexp in H. assert (NE : cnorm (p, q) = exp (fst e)) by (rewrite ER; apply cnorm_cexp). rewrite NE in Vr.
  pose proof H as H0. rewrite <- cnorm_cexp in H0. destruct (near_norm prec _ _ (121 / 10) ltac:(lra) H0) as [N1 N2]. rewrite cnorm_cexp in N1, N2.
  assert (E0 : 0 < exp (fst e)) by apply exp_pos. assert (uE : u * exp (fst e) <= / 16777216 * exp (fst e)) by (apply Rmult_le_compat_r; lra).
  assert (RHO : 0 <= 121 / 10 * u <= 1 / 1000) by (split; [apply Rmult_le_pos|]; lra).
  assert (WP : win 2 2 (cnorm (cval s))). { apply (win_weaken k ltac:(lia) 2 1); [lra|lia|]. replace 2 with (2 * 1) by ring. apply (win_near k _ _ (exp (fst e))); [lra|exact Vr|lra]. }
  destruct (ln_near s e (121 / 10 * u) Fs WP RHO H) as (ls & t' & m & Els & Fls & At' & H1 & H2 & H3).
  cbn [e fst snd] in H1, H3. apply Rabs_le_inv in H3.
  assert (M0 : m = 0%Z).
  { destruct At' as [At' _]. assert (Q1 : 2 * PI * IZR m < 2 * PI * 1) by lra. assert (Q2 : 2 * PI * -1 < 2 * PI * IZR m) by lra.
    apply Rmult_lt_reg_l in Q1; [|lra]. apply Rmult_lt_reg_l in Q2; [|lra]. apply lt_IZR in Q1. apply lt_IZR in Q2. lia. }
  subst m. rewrite Rmult_0_r, Rplus_0_r in H3.
  assert (AL : Rabs (L / 2) = Rabs L / 2) by (unfold Rdiv; rewrite Rabs_mult, (Rabs_pos_eq (/ 2)) by lra; reflexivity). rewrite AL in H1.
  pose proof (Rabs_pos L) as L0. assert (0 <= d * Rabs L) by (apply Rmult_le_pos; lra).
  exists s, ls, lz, n. repeat (split; [assumption|]). split.
  - apply Rabs_le_inv in H1. apply Rabs_le_inv in H1z. apply Rabs_le. lra.
  - split; [apply Rabs_le_inv in H2; apply Rabs_le_inv in H2z; apply Rabs_le; lra|].
    intros NR. rewrite (HP NR) in H3. apply Rabs_le_inv in H2. apply Rabs_le. lra.
Qed.

(** ln(sqrt z) = ln(z)/2; on the negative real axis, where atan2 may return -pi, possibly plus pi i. *)
Theorem C112_ln_of_root : forall z : complex fl, sized k z ->
  exists s ls lz (n : Z), complex_sqrt FF FE z = Ok s /\ complex_ln FF FE s = Ok ls /\ complex_ln FF FE z = Ok lz
  /\ cfinite ls /\ cfinite lz /\ (n = 0 \/ n = 1)%Z /\ (~ (B2R (im z) = 0 /\ B2R (re z) < 0) -> n = 0%Z)
  /\ Rabs (B2R (re ls) - B2R (re lz) / 2) <= (21 / 10 * Rabs (ln (cnorm (cval z))) + 15) * d
  /\ Rabs (B2R (im ls) - (B2R (im lz) / 2 + PI * IZR n)) <= 18 * d.
Proof.
  intros z Sz. destruct (ln_of_root z Sz) as (s & ls & lz & n & E1 & E2 & E3 & F2 & F3 & N & N0 & A & B & _). exists s, ls, lz, n. repeat (split; [assumption|]). exact B.
Qed.

(** On the negative real axis the root is on the positive imaginary axis, so where atan2 returns -pi (as IEEE 754's does for an
    imaginary part of minus zero), ln(sqrt z) = ln(z)/2 fails by pi i. *)
Theorem C112_negative_axis_refuted : forall z : complex fl, sized k z -> B2R (im z) = 0 -> B2R (re z) < 0 ->
  exists s ls lz, complex_sqrt FF FE z = Ok s /\ complex_ln FF FE s = Ok ls /\ complex_ln FF FE z = Ok lz
  /\ Rabs (B2R (im ls) - PI / 2) <= 18 * d /\ (B2R (im lz) < 0 -> 3 < B2R (im ls) - B2R (im lz) / 2).
Proof.
  intros z Sz I0 R0. destruct (ln_of_root z Sz) as (s & ls & lz & n & E1 & E2 & E3 & F2 & F3 & N & N0 & A & B & C).
  specialize (C (conj I0 R0)). exists s, ls, lz. repeat (split; [assumption|]). intros L. destruct dr2 as [U D]. pose proof PI_close as PC.
  apply Rabs_le_inv in B. apply Rabs_le_inv in C. destruct N as [->| ->]; lra.
Qed.

(** The same for the arguments: arg(zw), arg(z/w) and arg(sqrt z). *)
Lemma ln_arg (v l : complex fl) : complex_ln FF FE v = Ok l -> complex_arg FE v = Ok (im l).
Proof.
  unfold complex_ln, complex_arg. cbn [bind r_add r_one f_ring float_field float_ring complex_sqr_norm].
  intros H. repeat (match type of H with bind ?o _ = Ok _ => destruct o eqn:?; cbn [bind] in H; try discriminate H end). injection H as <-. reflexivity.
Qed.
Theorem C112_arg_laws :
  (forall z w : complex fl, sized k z -> sized k w ->
     exists p q ap aq az aw (n m : Z), complex_mul FR z w = Ok p /\ complex_div FF z w = Ok q
     /\ complex_arg FE p = Ok ap /\ complex_arg FE q = Ok aq /\ complex_arg FE z = Ok az /\ complex_arg FE w = Ok aw
     /\ is_finite ap = true /\ is_finite aq = true /\ is_finite az = true /\ is_finite aw = true /\ (-1 <= n <= 1)%Z /\ (-1 <= m <= 1)%Z
     /\ Rabs (B2R ap - (B2R az + B2R aw + 2 * PI * IZR n)) <= 12 * d /\ Rabs (B2R aq - (B2R az - B2R aw + 2 * PI * IZR m)) <= 16 * d)
  /\ (forall z : complex fl, sized k z ->
     exists s a az (n : Z), complex_sqrt FF FE z = Ok s /\ complex_arg FE s = Ok a /\ complex_arg FE z = Ok az /\ is_finite a = true /\ is_finite az = true
     /\ (n = 0 \/ n = 1)%Z /\ (~ (B2R (im z) = 0 /\ B2R (re z) < 0) -> n = 0%Z) /\ Rabs (B2R a - (B2R az / 2 + PI * IZR n)) <= 18 * d).
Proof.
  split.
  - intros z w Sz Sw. destruct (C112_ln_of_product z w Sz Sw) as (p & lp & lz & lw & n & E1 & E2 & E3 & E4 & F2 & F3 & F4 & N & _ & B).
    destruct (C112_ln_of_quotient z w Sz Sw) as (q & lq & lz' & lw' & m & E1' & E2' & E3' & E4' & F2' & _ & _ & M & _ & B').
    rewrite E3 in E3'. injection E3' as <-. rewrite E4 in E4'. injection E4' as <-.
    exists p, q, (im lp), (im lq), (im lz), (im lw), n, m. split; [exact E1|]. split; [exact E1'|]. do 4 (split; [apply ln_arg; assumption|]).
    split; [apply F2|]. split; [apply F2'|]. split; [apply F3|]. split; [apply F4|]. repeat (split; [assumption|]). assumption.
  - intros z Sz. destruct (C112_ln_of_root z Sz) as (s & ls & lz & n & E1 & E2 & E3 & F2 & F3 & N & N0 & _ & B).
    exists s, (im ls), (im lz), n. split; [exact E1|]. do 2 (split; [apply ln_arg; assumption|]). split; [apply F2|]. split; [apply F3|]. split; [exact N|]. split; [exact N0|exact B].
Qed.
End Fmt.

(** ** f32: 2^-25 <= |z|, |w| <= 2^25 *)
Corollary C112_f32 : forall (libm : FunOps f32) (d : R), unit_roundoff 24 <= d <= / 20000 -> libm_error 24 128 libm d ->
  let FE := float_fun 24 128 libm in
  (forall z w, sized 25 z -> sized 25 w ->
     exists p lp lz lw (n : Z), complex_mul (float_ring 24 128) z w = Ok p /\ complex_ln f32_f FE p = Ok lp /\ complex_ln f32_f FE z = Ok lz /\ complex_ln f32_f FE w = Ok lw
     /\ cfinite lp /\ cfinite lz /\ cfinite lw /\ (-1 <= n <= 1)%Z
     /\ Rabs (B2R (re lp) - (B2R (re lz) + B2R (re lw))) <= (41 / 10 * (Rabs (ln (cnorm (cval z))) + Rabs (ln (cnorm (cval w)))) + 6) * d
     /\ Rabs (B2R (im lp) - (B2R (im lz) + B2R (im lw) + 2 * PI * IZR n)) <= 12 * d)
  /\ (forall z, sized 25 z ->
     exists s ls lz (n : Z), complex_sqrt f32_f FE z = Ok s /\ complex_ln f32_f FE s = Ok ls /\ complex_ln f32_f FE z = Ok lz
     /\ cfinite ls /\ cfinite lz /\ (n = 0 \/ n = 1)%Z /\ (~ (B2R (im z) = 0 /\ B2R (re z) < 0) -> n = 0%Z)
     /\ Rabs (B2R (re ls) - B2R (re lz) / 2) <= (21 / 10 * Rabs (ln (cnorm (cval z))) + 15) * d
     /\ Rabs (B2R (im ls) - (B2R (im lz) / 2 + PI * IZR n)) <= 18 * d).
Proof.
  intros libm d Hd HL FE. assert (H3 : d * (IZR 25 + 3) <= / 400) by lra. split.
  - intros z w. exact (C112_ln_of_product 24 128 libm ltac:(lia) 25 ltac:(lia) ltac:(lia) d (proj1 Hd) H3 HL z w).
  - intros z. exact (C112_ln_of_root 24 128 libm ltac:(lia) 25 ltac:(lia) ltac:(lia) d (proj1 Hd) H3 HL z).
Qed.

(** ** f64: 2^-249 <= |z|, |w| <= 2^249 *)
Corollary C112_f64 : forall (libm : FunOps f64) (d : R), unit_roundoff 53 <= d <= / 200000 -> libm_error 53 1024 libm d ->
  let FE := float_fun 53 1024 libm in
  (forall z w, sized 249 z -> sized 249 w ->
     exists p lp lz lw (n : Z), complex_mul (float_ring 53 1024) z w = Ok p /\ complex_ln f64_f FE p = Ok lp /\ complex_ln f64_f FE z = Ok lz /\ complex_ln f64_f FE w = Ok lw
     /\ cfinite lp /\ cfinite lz /\ cfinite lw /\ (-1 <= n <= 1)%Z
     /\ Rabs (B2R (re lp) - (B2R (re lz) + B2R (re lw))) <= (41 / 10 * (Rabs (ln (cnorm (cval z))) + Rabs (ln (cnorm (cval w)))) + 6) * d
     /\ Rabs (B2R (im lp) - (B2R (im lz) + B2R (im lw) + 2 * PI * IZR n)) <= 12 * d)
  /\ (forall z, sized 249 z ->
     exists s ls lz (n : Z), complex_sqrt f64_f FE z = Ok s /\ complex_ln f64_f FE s = Ok ls /\ complex_ln f64_f FE z = Ok lz
     /\ cfinite ls /\ cfinite lz /\ (n = 0 \/ n = 1)%Z /\ (~ (B2R (im z) = 0 /\ B2R (re z) < 0) -> n = 0%Z)
     /\ Rabs (B2R (re ls) - B2R (re lz) / 2) <= (21 / 10 * Rabs (ln (cnorm (cval z))) + 15) * d
     /\ Rabs (B2R (im ls) - (B2R (im lz) / 2 + PI * IZR n)) <= 18 * d).
Proof.
  intros libm d Hd HL FE. assert (H3 : d * (IZR 249 + 3) <= / 400) by lra. split.
  - intros z w. exact (C112_ln_of_product 53 1024 libm ltac:(lia) 249 ltac:(lia) ltac:(lia) d (proj1 Hd) H3 HL z w).
  - intros z. exact (C112_ln_of_root 53 1024 libm ltac:(lia) 249 ltac:(lia) ltac:(lia) d (proj1 Hd) H3 HL z).
Qed.

(** A correctly rounded libm whose atan2 returns -pi on the negative real axis for an imaginary part of minus zero. *)
Definition ieee64 : FunOps f64 := {|
  fn_exp := fn_exp round64; fn_sin := fn_sin round64; fn_cos := fn_cos round64; fn_sinh := fn_sinh round64; fn_cosh := fn_cosh round64; fn_ln := fn_ln round64;
  fn_atan2 := fun y x => match y with B754_zero true => r <- fn_atan2 round64 y x ;; Ok (Bopp r) | _ => fn_atan2 round64 y x end;
  fn_sqrt := fn_sqrt round64; fn_abs := fn_abs round64; fn_leb := fn_leb round64; fn_ltb := fn_ltb round64 |}.
Lemma ieee64_error : libm_error 53 1024 ieee64 (11 / 10 * unit_roundoff 53).
Proof.
  destruct C96_case as (_ & (H1 & H2 & H3) & _). split; [exact H1|]. split; [exact H2|].
  intros y x Fy Fx NZ. destruct (H3 y x Fy Fx NZ) as (t & At & r & E & Fr & B). destruct y as [[|]| | |]; try (exists t; split; [exact At|exists r; split; [exact E|split; [exact Fr|exact B]]]).
  destruct At as (Rt & X & Y). cbn [B2R] in *. exists (- t). split.
  - split; [lra|]. rewrite cos_neg, sin_neg. split; [exact X|]. rewrite Ropp_mult_distr_r_reverse, <- Y. ring.
  - exists (Bopp r). cbn [fn_atan2 ieee64]. rewrite E. cbn [bind]. split; [reflexivity|]. split; [rewrite is_finite_Bopp; exact Fr|].
    rewrite B2R_Bopp. replace (- B2R r - - t) with (- (B2R r - t)) by ring. rewrite !Rabs_Ropp. exact B.
Qed.
(** ln(sqrt(-1 - 0i)) = pi/2 i whereas ln(-1 - 0i)/2 = -pi/2 i. *)
Example C112_negative_axis_case : let FE := float_fun 53 1024 ieee64 in let z := Cx (fint (-1)) (B754_zero true) : complex f64 in
  exists s ls lz, complex_sqrt f64_f FE z = Ok s /\ complex_ln f64_f FE s = Ok ls /\ complex_ln f64_f FE z = Ok lz
  /\ Rabs (B2R (im ls) - PI / 2) <= / 1000000000 /\ B2R (im lz) < -3 /\ 3 < B2R (im ls) - B2R (im lz) / 2.
Proof.
  intros FE z. set (d := 11 / 10 * unit_roundoff 53). assert (U : unit_roundoff 53 <= / 9007199254740992 /\ 0 < unit_roundoff 53) by (unfold unit_roundoff; simpl; lra).
  assert (V1 : B2R (fint (-1)) = -1) by (vm_compute; lra). assert (H1 : unit_roundoff 53 <= d) by (unfold d; lra). assert (H3 : d * (IZR 249 + 3) <= / 400) by (unfold d; lra).
  assert (N1 : cnorm (cval z) = 1). { unfold cnorm, cval, z. cbn [re im fst snd B2R]. rewrite V1. replace (-1 * -1 + 0 * 0) with 1 by ring. apply sqrt_1. }
  assert (S : sized 249 z). { split; [split; reflexivity|]. rewrite N1. change 1 with (bpow radix2 0). split; apply bpow_le; lia. }
  destruct (C112_negative_axis_refuted 53 1024 ieee64 ltac:(lia) 249 ltac:(lia) ltac:(lia) d H1 H3 ieee64_error z S eq_refl ltac:(cbn [z re]; lra)) as (s & ls & lz & E1 & E2 & E3 & A & B).
  assert (L : B2R (im lz) < -3).
  { pose proof (ln_arg 53 1024 ieee64 _ _ E3) as E. unfold complex_arg in E. cbn [fn_atan2 float_fun ieee64 z re im round64 rounded_libm bind] in E. injection E as <-. rewrite B2R_Bopp.
    assert (T : atan2 (B2R (B754_zero true : f64)) (B2R (fint (-1))) = PI).
    { unfold atan2. rewrite V1. cbn [B2R]. destruct (Rlt_dec 0 (-1)) as [L0|_]; [lra|]. destruct (Rlt_dec (-1) 0) as [_|L0]; [|lra].
      destruct (Rle_dec 0 0) as [_|L0]; [|lra]. unfold Rdiv. rewrite Rmult_0_l, atan_0. ring. }
    change (- B2R (nearest 53 1024 (atan2 (B2R (B754_zero true : f64)) (B2R (fint (-1))))) < -3). rewrite T. pose proof PI_close as PC. destruct (nearest_returns 53 1024 d PI H1) as (y & Ey & _ & By).
    { rewrite Rabs_pos_eq by lra. apply Rle_trans with (bpow radix2 2); [simpl; lra|apply bpow_le; lia]. }
    injection Ey as <-. assert (ET : underflow_unit 53 1024 <= / 1048576) by (replace (/ 1048576) with (bpow radix2 (-20)) by (simpl; lra); apply bpow_le; lia).
    rewrite (Rabs_pos_eq PI) in By by lra. apply Rabs_le_inv in By. assert (d * PI <= / 1000000) by (unfold d; nra). lra. }
  exists s, ls, lz. repeat (split; [assumption|]). split; [eapply Rle_trans; [exact A|unfold d; lra]|]. split; [exact L|apply B; lra].
Qed.

(** f64, a correctly rounded libm and z = w = 1 + 4i: every hypothesis is met. *)
Example C112_case : let FE := float_fun 53 1024 round64 in let d := 11 / 10 * unit_roundoff 53 in
  (exists p lp lz (n : Z), complex_mul (float_ring 53 1024) z14 z14 = Ok p /\ complex_ln f64_f FE p = Ok lp /\ complex_ln f64_f FE z14 = Ok lz /\ cfinite lp /\ cfinite lz /\ (-1 <= n <= 1)%Z
     /\ Rabs (B2R (re lp) - (B2R (re lz) + B2R (re lz))) <= (41 / 10 * (Rabs (ln (cnorm (1, 4))) + Rabs (ln (cnorm (1, 4)))) + 6) * d
     /\ Rabs (B2R (im lp) - (B2R (im lz) + B2R (im lz) + 2 * PI * IZR n)) <= 12 * d)
  /\ (exists s ls lz, complex_sqrt f64_f FE z14 = Ok s /\ complex_ln f64_f FE s = Ok ls /\ complex_ln f64_f FE z14 = Ok lz
     /\ Rabs (B2R (re ls) - B2R (re lz) / 2) <= (21 / 10 * Rabs (ln (cnorm (1, 4))) + 15) * d
     /\ Rabs (B2R (im ls) - B2R (im lz) / 2) <= 18 * d).
Proof.
  intros FE d. destruct C96_case as (_ & HL & _). assert (U : unit_roundoff 53 <= / 9007199254740992 /\ 0 < unit_roundoff 53) by (unfold unit_roundoff; simpl; lra).
  assert (V1 : B2R (fint 1) = 1) by (vm_compute; lra). assert (V4 : B2R (fint 4) = 4) by (vm_compute; lra).
  assert (CV : cval z14 = (1, 4)) by (unfold cval; cbn [z14 re im]; rewrite V1, V4; reflexivity).
  assert (H1 : unit_roundoff 53 <= d) by (unfold d; lra). assert (H3 : d * (IZR 249 + 3) <= / 400) by (unfold d; lra). pose proof (proj1 C95_case) as S.
  split.
  - destruct (C112_ln_of_product 53 1024 round64 ltac:(lia) 249 ltac:(lia) ltac:(lia) d H1 H3 HL z14 z14 S S) as (p & lp & lz & lw & n & E1 & E2 & E3 & E4 & F1 & F2 & _ & N & A & B).
    assert (E5 : Ok lw = Ok lz) by (rewrite <- E3, <- E4; reflexivity). injection E5 as ->. rewrite CV in A. exists p, lp, lz, n. repeat split; try assumption; try apply F1; try apply F2; apply N.
  - destruct (C112_ln_of_root 53 1024 round64 ltac:(lia) 249 ltac:(lia) ltac:(lia) d H1 H3 HL z14 S) as (s & ls & lz & n & E1 & E2 & E3 & _ & _ & _ & N & A & B).
    assert (N0 : n = 0%Z) by (apply N; cbn [z14 re im]; rewrite V4; lra). rewrite N0, Rmult_0_r, Rplus_0_r in B. rewrite CV in A. exists s, ls, lz. repeat split; assumption.
Qed.

Print Assumptions C112_ln_of_product.
Print Assumptions C112_ln_of_quotient.
Print Assumptions C112_ln_of_root.
Print Assumptions C112_negative_axis_refuted.
Print Assumptions C112_arg_laws.
Print Assumptions C112_f32.
Print Assumptions C112_f64.
