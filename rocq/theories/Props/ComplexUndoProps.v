(** Property C95: undoing a complex multiplication, division or reciprocal, and |zw| = |z||w|, for Complex<f32> and
    Complex<f64>, up to stated relative errors. *)
From Coq Require Import List ZArith Reals Bool Lia Lra Psatz.
From Flocq Require Import Core.Core IEEE754.BinarySingleNaN.
From Verif Require Import Base.Outcome Model.Traits Model.Float Model.Complex Spec.FloatErr Spec.ComplexErr
  Proofs.FloatErr Proofs.FloatRound Proofs.FloatRange Proofs.ComplexErr Props.ComplexErrProps Props.FloatProps Props.TrigTestProps Proofs.ComplexUndo.
Local Open Scope R_scope.

(** Both parts finite and 2^-k <= |z| <= 2^k. *)
Definition sized {prec emax} (k : Z) (z : complex (binary_float prec emax)) : Prop :=
  cfinite z /\ bpow radix2 (- k) <= cnorm (cval z) <= bpow radix2 k.

(** The computed value [p] exists, is finite and within [r |e|] of the complex number [e]. *)
Definition yields {prec emax} (o : outcome (complex (binary_float prec emax))) (e : cplx) (r : R) : Prop :=
  exists p, o = Ok p /\ cfinite p /\ cnorm (csub (cval p) e) <= r * cnorm e.

(** Two computed floats exist, are finite and differ by at most [d]. *)
Definition nearly_equal {prec emax} (o1 o2 : outcome (binary_float prec emax)) (d : R) : Prop :=
  exists x y, o1 = Ok x /\ o2 = Ok y /\ is_finite x = true /\ is_finite y = true /\ Rabs (B2R x - B2R y) <= d.

Section Fmt.
Context (prec emax : Z) {Hp : Prec_gt_0 prec} {He : Prec_lt_emax prec emax} (libm : FunOps (binary_float prec emax)).
Notation fl := (binary_float prec emax).
Notation FF := (float_field prec emax).
Notation FR := (float_ring prec emax).
Notation FE := (float_fun prec emax libm).
Notation u := (unit_roundoff prec).
Notation eta := (underflow_unit prec emax).
Notation rnd := (round radix2 (SpecFloat.fexp prec emax) (round_mode mode_NE)).
Notation mul := (fl_mul prec emax). Notation div := (fl_div prec emax).
Notation hi := (half_big emax).
Context (Hprec : (24 <= prec)%Z) (k : Z) (Hk0 : (0 <= k)%Z) (Hk : (4 * k + 26 <= emax)%Z).
Notation mid := (mid k).

Definition win (c : R) (n : Z) (x : R) : Prop := / c * bpow radix2 (- (n * k)) <= x <= c * bpow radix2 (n * k).

Lemma win_sized (z : complex fl) : sized k z -> win 1 1 (cnorm (cval z)).
Proof. intros [_ H]. unfold win. rewrite Rinv_1, !Rmult_1_l, Z.mul_1_l. exact H. Qed.
Lemma win_pos c n x : 0 < c -> win c n x -> 0 < x.
Proof. intros Hc [H _]. eapply Rlt_le_trans; [|exact H]. apply Rmult_lt_0_compat; [apply Rinv_0_lt_compat; exact Hc|apply bpow_gt_0]. Qed.
Lemma win_mul c1 c2 n1 n2 x y : 0 < c1 -> 0 < c2 -> win c1 n1 x -> win c2 n2 y -> win (c1 * c2) (n1 + n2) (x * y).
Proof.
  intros H1 H2 X Y. pose proof (win_pos _ _ _ H1 X). pose proof (win_pos _ _ _ H2 Y). destruct X as [X1 X2]. destruct Y as [Y1 Y2]. unfold win.
  replace (- ((n1 + n2) * k))%Z with (- (n1 * k) + - (n2 * k))%Z by lia. replace ((n1 + n2) * k)%Z with (n1 * k + n2 * k)%Z by lia. rewrite !bpow_plus.
  pose proof (bpow_gt_0 radix2 (- (n1 * k))). pose proof (bpow_gt_0 radix2 (- (n2 * k))). pose proof (Rinv_0_lt_compat _ H1). pose proof (Rinv_0_lt_compat _ H2). split.
  - replace (/ (c1 * c2) * (bpow radix2 (- (n1 * k)) * bpow radix2 (- (n2 * k)))) with ((/ c1 * bpow radix2 (- (n1 * k))) * (/ c2 * bpow radix2 (- (n2 * k)))) by (field; split; apply Rgt_not_eq; lra).
    apply Rmult_le_compat; try assumption; apply Rmult_le_pos; lra.
  - replace (c1 * c2 * (bpow radix2 (n1 * k) * bpow radix2 (n2 * k))) with ((c1 * bpow radix2 (n1 * k)) * (c2 * bpow radix2 (n2 * k))) by ring. apply Rmult_le_compat; lra.
Qed.
Lemma win_inv c n x : 0 < c -> win c n x -> win c n (/ x).
Proof.
  intros Hc X. pose proof (win_pos _ _ _ Hc X) as P. destruct X as [X1 X2]. pose proof (Rinv_0_lt_compat _ Hc) as C. pose proof (bpow_gt_0 radix2 (n * k)) as B. unfold win. rewrite bpow_opp in *. split.
  - rewrite <- Rinv_mult. apply Rinv_le; [exact P|exact X2].
  - replace (c * bpow radix2 (n * k)) with (/ (/ c * / bpow radix2 (n * k))) by (field; split; apply Rgt_not_eq; lra).
    apply Rinv_le; [|exact X1]. apply Rmult_lt_0_compat; [exact C|apply Rinv_0_lt_compat; exact B].
Qed.
Lemma win_near c n x y : 0 < c -> win c n x -> x / 2 <= y <= 2 * x -> win (2 * c) n y.
Proof. intros Hc [X1 X2] H. unfold win. rewrite Rinv_mult. split; lra. Qed.
Lemma win_mid c n x : 0 < c <= 16 -> (0 <= n <= 4)%Z -> win c n x -> mid x.
Proof.
  intros Hc Hn [X1 X2]. unfold ComplexUndo.mid. assert (P : (n * k <= 4 * k)%Z) by (apply Z.mul_le_mono_nonneg_r; lia). split.
  - eapply Rle_trans; [|exact X1]. apply Rmult_le_compat; [lra|apply bpow_ge_0|apply Rinv_le; lra|apply bpow_le; lia].
  - eapply Rle_trans; [exact X2|]. apply Rmult_le_compat; [lra|apply bpow_ge_0|lra|apply bpow_le; exact P].
Qed.

Lemma u_rng : 0 < u <= / 16777216. Proof. apply (u_range prec Hprec). Qed.

Lemma near_norm p e r : 0 <= r -> cnorm (csub p e) <= r * u * cnorm e -> (1 - r * u) * cnorm e <= cnorm p <= (1 + r * u) * cnorm e.
Proof.
  intros Hr H. pose proof (cnorm_le_diff p e) as A. pose proof (cnorm_le_diff e p) as B. rewrite csub_norm_sym in B. lra.
Qed.

(** The computed quotient is within 6.32 u of the exact one, relative to its absolute value: [e] is the
    complex number with e w = z. *)
Theorem C73_div_normwise : forall z w : complex fl, sized k z -> sized k w -> forall e : cplx, cmul e (cval w) = cval z ->
  yields (complex_div FF z w) e (632 / 100 * u).
Proof.
  intros z w Sz Sw e Hexact. pose proof (win_sized z Sz) as Wz. pose proof (win_sized w Sw) as Ww.
  set (Z := cnorm (cval z)) in *. set (W := cnorm (cval w)) in *. pose proof (win_pos _ _ _ Rlt_0_1 Wz) as Z0. pose proof (win_pos _ _ _ Rlt_0_1 Ww) as W0.
  pose proof (win_mul _ _ _ _ _ _ Rlt_0_1 Rlt_0_1 Ww Ww) as WWW. pose proof (win_mul _ _ _ _ _ _ Rlt_0_1 Rlt_0_1 Wz Ww) as WZW.
  destruct (div_sized prec emax Hprec k Hk z w (proj1 Sz) (proj1 Sw)) as (q & Eq & Fq & Hq); fold Z W; try assumption.
  1,2: eapply win_mid; [| |eassumption]; [lra|lia].
  1: eapply win_mid; [| |eapply win_inv; [|exact WWW]]; [lra|lia|lra].
  1: eapply win_mid; [| |eapply win_mul; [| |exact Wz|eapply win_inv; [|exact Ww]]]; [lra|lia|lra|lra|lra].
  exists q. split; [exact Eq|]. split; [exact Fq|]. rewrite <- Hexact in Hq. rewrite csub_mul, !cnorm_mul in Hq. fold W in Hq.
  apply Rmult_le_reg_r with W; [exact W0|]. lra.
Qed.

(** (z / w) * w is z, up to 9 u |z|. *)
Theorem C95_divide_then_multiply : forall z w : complex fl, sized k z -> sized k w ->
  exists q, complex_div FF z w = Ok q /\ yields (complex_mul FR q w) (cval z) (9 * u).
Proof.
  intros z w Sz Sw. pose proof (win_sized z Sz) as Wz. pose proof (win_sized w Sw) as Ww. pose proof u_rng as U.
  set (Z := cnorm (cval z)) in *. set (W := cnorm (cval w)) in *. pose proof (win_pos _ _ _ Rlt_0_1 Wz) as Z0. pose proof (win_pos _ _ _ Rlt_0_1 Ww) as W0.
  pose proof (win_mul _ _ _ _ _ _ Rlt_0_1 Rlt_0_1 Ww Ww) as WWW. pose proof (win_mul _ _ _ _ _ _ Rlt_0_1 Rlt_0_1 Wz Ww) as WZW.
  destruct (div_sized prec emax Hprec k Hk z w (proj1 Sz) (proj1 Sw)) as (q & Eq & Fq & Hq); fold Z W; try assumption.
  1,2: eapply win_mid; [| |eassumption]; [lra|lia].
  1: eapply win_mid; [| |eapply win_inv; [|exact WWW]]; [lra|lia|lra].
  1: eapply win_mid; [| |eapply win_mul; [| |exact Wz|eapply win_inv; [|exact Ww]]]; [lra|lia|lra|lra|lra].
  fold Z in Hq. exists q. split; [exact Eq|].
  destruct (near_norm _ _ (632 / 100) ltac:(lra) Hq) as [N1 N2]. fold Z in N1, N2. rewrite cnorm_mul in N1, N2. fold W in N1, N2. set (Q := cnorm (cval q)) in *.
  assert (uZ : u * Z <= / 16777216 * Z) by (apply Rmult_le_compat_r; lra). assert (uZ0 : 0 < u * Z) by (apply Rmult_lt_0_compat; lra).
  destruct (mul_sized prec emax Hprec k Hk q w Fq (proj1 Sw)) as (p & Ep & Fp & Hpp); try fold Q W in Hpp; fold Q W.
  { eapply win_mid; [| |apply (win_near 1 1 Z); [|exact Wz|]]; [lra|lia|lra|lra]. }
  exists p. split; [exact Ep|]. split; [exact Fp|]. fold Z. eapply Rle_trans; [apply (csub_triangle _ (cmul (cval q) (cval w)))|].
  assert (u * (Q * W) <= u * (100001 / 100000 * Z)) by (apply Rmult_le_compat_l; lra). lra.
Qed.

(** (z * w) / w is z, up to 9 u |z|. *)
Theorem C95_multiply_then_divide : forall z w : complex fl, sized k z -> sized k w ->
  exists p, complex_mul FR z w = Ok p /\ yields (complex_div FF p w) (cval z) (9 * u).
Proof.
  intros z w Sz Sw. pose proof (win_sized z Sz) as Wz. pose proof (win_sized w Sw) as Ww. pose proof u_rng as U.
  set (Z := cnorm (cval z)) in *. set (W := cnorm (cval w)) in *. pose proof (win_pos _ _ _ Rlt_0_1 Wz) as Z0. pose proof (win_pos _ _ _ Rlt_0_1 Ww) as W0.
  pose proof (win_mul _ _ _ _ _ _ Rlt_0_1 Rlt_0_1 Ww Ww) as WWW. pose proof (win_mul _ _ _ _ _ _ Rlt_0_1 Rlt_0_1 Wz Ww) as WZW.
  destruct (mul_sized prec emax Hprec k Hk z w (proj1 Sz) (proj1 Sw)) as (p & Ep & Fp & Hpp); try fold Z W in Hpp; fold Z W.
  { eapply win_mid; [| |exact WZW]; [lra|lia]. }
  exists p. split; [exact Ep|].
  assert (NE : cnorm (cmul (cval z) (cval w)) = Z * W) by apply cnorm_mul.
  rewrite <- NE in Hpp. destruct (near_norm _ _ (231 / 100) ltac:(lra) Hpp) as [N1 N2]. rewrite NE in N1, N2, Hpp.
  set (M := Z * W) in *. assert (M0 : 0 < M) by (apply Rmult_lt_0_compat; lra). set (P := cnorm (cval p)) in *.
  assert (uM : u * M <= / 16777216 * M) by (apply Rmult_le_compat_r; lra). assert (uM0 : 0 < u * M) by (apply Rmult_lt_0_compat; lra).
  assert (WP : win 2 2 P). { replace 2 with (2 * (1 * 1)) by ring. apply (win_near _ _ M); [lra|exact WZW|lra]. }
  destruct (div_sized prec emax Hprec k Hk p w Fp (proj1 Sw)) as (q & Eq & Fq & Hq); fold P W; try assumption; try lra.
  1: eapply win_mid; [| |exact WWW]; [lra|lia].
  1: eapply win_mid; [| |eapply win_mul; [| |exact WP|exact Ww]]; [lra|lia|lra|lra].
  1: eapply win_mid; [| |eapply win_inv; [|exact WWW]]; [lra|lia|lra].
  1: eapply win_mid; [| |eapply win_mul; [| |exact WP|eapply win_inv; [|exact Ww]]]; [lra|lia|lra|lra|lra].
  fold P in Hq. exists q. split; [exact Eq|]. split; [exact Fq|]. fold Z.
  apply Rmult_le_reg_r with W; [exact W0|]. unfold W at 1. rewrite <- cnorm_mul, <- csub_mul.
  eapply Rle_trans; [apply (csub_triangle _ (cval p))|].
  assert (u * P <= u * (100001 / 100000 * M)) by (apply Rmult_le_compat_l; lra).
  replace (9 * u * Z * W) with (9 * (u * M)) by (unfold M; ring). lra.
Qed.

Lemma one_value : cfinite (complex_one FR) /\ cval (complex_one FR) = c1.
Proof.
  destruct (small_int prec emax Hprec 1) as [F1 V1]; [lia|]. destruct (small_int prec emax Hprec 0) as [F0 V0]; [lia|].
  split; [split; assumption|]. unfold cval, c1. f_equal; assumption.
Qed.
Lemma cnorm_one : cnorm c1 = 1.
Proof. unfold cnorm, c1. cbn [fst snd]. replace (1 * 1 + 0 * 0) with 1 by ring. apply sqrt_1. Qed.
Lemma win_one : win 1 1 1.
Proof. unfold win. rewrite Rinv_1, !Rmult_1_l, Z.mul_1_l. change 1 with (bpow radix2 0). split; apply bpow_le; lia. Qed.
Lemma cmul_one_l z : cmul c1 z = z.
Proof. unfold cmul, c1. apply injective_projections; cbn [fst snd]; ring. Qed.

(** 1 / (1 / z) is z, up to 13 u |z|. *)
Theorem C95_reciprocal_twice : forall z : complex fl, sized k z ->
  exists q, complex_div FF (complex_one FR) z = Ok q /\ yields (complex_div FF (complex_one FR) q) (cval z) (13 * u).
Proof.
  intros z Sz. pose proof (win_sized z Sz) as Wz. pose proof u_rng as U. destruct one_value as [F1 V1].
  set (Z := cnorm (cval z)) in *. pose proof (win_pos _ _ _ Rlt_0_1 Wz) as Z0. pose proof (win_mul _ _ _ _ _ _ Rlt_0_1 Rlt_0_1 Wz Wz) as WZZ.
  destruct (div_sized prec emax Hprec k Hk (complex_one FR) z F1 (proj1 Sz)) as (q & Eq & Fq & Hq); rewrite ?V1, ?cnorm_one in *; fold Z; try assumption; try lra.
  1: eapply win_mid; [| |exact WZZ]; [lra|lia].
  1: rewrite Rmult_1_l; eapply win_mid; [| |exact Wz]; [lra|lia].
  1: eapply win_mid; [| |eapply win_inv; [|exact WZZ]]; [lra|lia|lra].
  1: rewrite Rmult_1_l; eapply win_mid; [| |eapply win_inv; [|exact Wz]]; [lra|lia|lra].
  exists q. split; [exact Eq|]. set (Q := cnorm (cval q)) in *.
  assert (Hq' : cnorm (csub (cmul (cval q) (cval z)) c1) <= 632 / 100 * u * cnorm c1) by (rewrite cnorm_one; exact Hq).
  destruct (near_norm _ _ (632 / 100) ltac:(lra) Hq') as [N1 N2]. rewrite cnorm_one, cnorm_mul, !Rmult_1_r in N1, N2. fold Z Q in N1, N2.
  assert (WQ : win 2 1 Q).
  { replace 2 with (2 * 1) by ring. apply (win_near _ _ (/ Z)); [lra|apply win_inv; [lra|exact Wz]|].
    pose proof (Rinv_0_lt_compat _ Z0) as IZ. split; apply Rmult_le_reg_r with Z; try exact Z0.
    - unfold Rdiv. replace (/ Z * / 2 * Z) with (/ 2) by (field; apply Rgt_not_eq; lra). lra.
    - replace (2 * / Z * Z) with 2 by (field; apply Rgt_not_eq; lra). lra. }
  assert (Q0 : 0 < Q) by (apply (win_pos 2 1); [lra|exact WQ]).
  assert (P2 : 0 < 2) by lra. pose proof (win_mul _ _ _ _ _ _ P2 P2 WQ WQ) as WQQ.
  destruct (div_sized prec emax Hprec k Hk (complex_one FR) q F1 Fq) as (r & Er & Fr & Hr); rewrite ?V1, ?cnorm_one in *; fold Q; try assumption; try lra.
  1: eapply win_mid; [| |exact WQQ]; [lra|lia].
  1: rewrite Rmult_1_l; eapply win_mid; [| |exact WQ]; [lra|lia].
  1: eapply win_mid; [| |eapply win_inv; [|exact WQQ]]; [lra|lia|lra].
  1: rewrite Rmult_1_l; eapply win_mid; [| |eapply win_inv; [|exact WQ]]; [lra|lia|lra].
  exists r. split; [exact Er|]. split; [exact Fr|]. fold Z.
  assert (Hr' : cnorm (csub (cmul (cval r) (cval q)) c1) <= 632 / 100 * u * cnorm c1) by (rewrite cnorm_one; exact Hr).
  destruct (near_norm _ _ (632 / 100) ltac:(lra) Hr') as [M1 M2]. rewrite cnorm_one, cnorm_mul, !Rmult_1_r in M1, M2. fold Q in M1, M2. set (R := cnorm (cval r)) in *.
  assert (RZ : R <= 10001 / 10000 * Z).
  { apply Rmult_le_reg_r with Q; [exact Q0|]. assert (99999 / 100000 <= Z * Q) by lra. lra. }
  apply Rle_trans with (R * (632 / 100 * u * 1) + (632 / 100 * u * 1) * Z).
  - apply Rle_trans with (cnorm (cmul (cval r) (csub c1 (cmul (cval q) (cval z)))) + cnorm (cmul (csub (cmul (cval r) (cval q)) c1) (cval z))).
    + eapply Rle_trans; [|apply cnorm_triangle]. right. f_equal. unfold cadd, csub, cmul, c1. apply injective_projections; cbn [fst snd]; ring.
    + rewrite !cnorm_mul. fold R Z. rewrite csub_norm_sym. apply Rplus_le_compat; [apply Rmult_le_compat_l; [apply cnorm_nonneg|exact Hq]|apply Rmult_le_compat_r; [apply cnorm_nonneg|exact Hr]].
  - assert (u * R <= u * (10001 / 10000 * Z)) by (apply Rmult_le_compat_l; lra). assert (0 < u * Z) by (apply Rmult_lt_0_compat; lra). lra.
Qed.

Lemma abs_win c n (z : complex fl) : cfinite z -> 0 < c -> c * c <= 16 -> (1 <= n <= 2)%Z -> win c n (cnorm (cval z)) ->
  exists m, complex_abs FF FE z = Ok m /\ is_finite m = true /\ Rabs (B2R m - cnorm (cval z)) <= 201 / 100 * u * cnorm (cval z).
Proof.
  intros Fz Hc Hc2 Hn W. pose proof (win_mul _ _ _ _ _ _ Hc Hc W W) as WW. apply (abs_sized prec emax libm Hprec k Hk z Fz).
  - eapply win_mid; [| |exact WW]; [split; [apply Rmult_lt_0_compat; exact Hc|exact Hc2]|lia].
  - eapply win_mid; [| |exact W]; [split; [exact Hc|]|lia]. apply sq_le; [lra|lra].
Qed.

(** |zw| and |z||w| agree, up to 10 u |z||w|. *)
Theorem C95_abs_of_product : forall z w : complex fl, sized k z -> sized k w ->
  nearly_equal (p <- complex_mul FR z w ;; complex_abs FF FE p)
    (a <- complex_abs FF FE z ;; b <- complex_abs FF FE w ;; r_mul FR a b) (10 * u * (cnorm (cval z) * cnorm (cval w))).
Proof.
  intros z w Sz Sw. pose proof (win_sized z Sz) as Wz. pose proof (win_sized w Sw) as Ww. pose proof u_rng as U. pose proof (eta_pos prec emax) as E0.
  set (Z := cnorm (cval z)) in *. set (W := cnorm (cval w)) in *. pose proof (win_pos _ _ _ Rlt_0_1 Wz) as Z0. pose proof (win_pos _ _ _ Rlt_0_1 Ww) as W0.
  pose proof (win_mul _ _ _ _ _ _ Rlt_0_1 Rlt_0_1 Wz Ww) as WZW.
  assert (MZW : mid (Z * W)) by (eapply win_mid; [| |exact WZW]; [lra|lia]).
  destruct (mul_sized prec emax Hprec k Hk z w (proj1 Sz) (proj1 Sw)) as (p & Ep & Fp & Hpp); try fold Z W in Hpp; fold Z W; [exact MZW|].
  assert (NE : cnorm (cmul (cval z) (cval w)) = Z * W) by apply cnorm_mul.
  rewrite <- NE in Hpp. destruct (near_norm _ _ (231 / 100) ltac:(lra) Hpp) as [N1 N2]. rewrite NE in N1, N2, Hpp.
  pose proof (mid_eta prec emax Hprec k Hk _ MZW) as EM. pose proof (mid_hi emax k Hk _ MZW) as HM.
  set (M := Z * W) in *. assert (M0 : 0 < M) by (apply Rmult_lt_0_compat; lra). set (P := cnorm (cval p)) in *.
  assert (uM : u * M <= / 16777216 * M) by (apply Rmult_le_compat_r; lra). assert (uM0 : 0 < u * M) by (apply Rmult_lt_0_compat; lra).
  destruct (abs_win 2 2 p) as (m & Em & Fm & Hm); [exact Fp|lra|lra|lia| |].
  { replace 2 with (2 * (1 * 1)) by ring. apply (win_near _ _ M); [lra|exact WZW|fold P; lra]. }
  destruct (abs_win 1 1 z) as (a & Ea & Fa & Ha); [exact (proj1 Sz)|lra|lra|lia|exact Wz|].
  destruct (abs_win 1 1 w) as (b & Eb & Fb & Hb); [exact (proj1 Sw)|lra|lra|lia|exact Ww|]. fold P in Hm. fold Z in Ha. fold W in Hb.
  pose proof (Rabs_le_inv _ _ Ha) as Ha'. pose proof (Rabs_le_inv _ _ Hb) as Hb'.
  assert (AB : Rabs (B2R a * B2R b - M) <= 40201 / 10000 * (u * M)).
  { replace (B2R a * B2R b - M) with ((B2R a - Z) * B2R b + Z * (B2R b - W)) by (unfold M; ring). eapply Rle_trans; [apply Rabs_triang|]. rewrite !Rabs_mult.
    assert (uW : u * W <= / 16777216 * W) by (apply Rmult_le_compat_r; lra). assert (uW0 : 0 < u * W) by (apply Rmult_lt_0_compat; lra).
    rewrite (Rabs_pos_eq (B2R b)), (Rabs_pos_eq Z) by lra.
    apply Rle_trans with (201 / 100 * u * Z * (100001 / 100000 * W) + Z * (201 / 100 * u * W)).
    - apply Rplus_le_compat; [apply Rmult_le_compat; [apply Rabs_pos|lra|exact Ha|lra]|apply Rmult_le_compat_l; lra].
    - replace (201 / 100 * u * Z * (100001 / 100000 * W) + Z * (201 / 100 * u * W)) with ((201 / 100 * (100001 / 100000) + 201 / 100) * (u * M)) by (unfold M; ring). lra. }
  pose proof (Rabs_le_inv _ _ AB) as AB'.
  destruct (mul_round prec emax a b Fa Fb) as [Fc Vc]; [apply Rabs_le; lra|].
  pose proof (rnd_err prec emax (B2R a * B2R b)) as Rc. rewrite <- Vc in Rc. rewrite (Rabs_pos_eq (B2R a * B2R b)) in Rc by lra.
  exists m, (mul a b). rewrite Ep, Ea, Eb. cbn [bind]. repeat split; try assumption.
  assert (u * (B2R a * B2R b) <= u * (10001 / 10000 * M)) by (apply Rmult_le_compat_l; lra).
  assert (u * P <= u * (10001 / 10000 * M)) by (apply Rmult_le_compat_l; lra).
  apply Rabs_le_inv in Rc. apply Rabs_le_inv in Hm. apply Rabs_le. lra.
Qed.

(** |z/w| and |z|/|w| agree, up to 14 u |z|/|w|. *)
Theorem C95_abs_of_quotient : forall z w : complex fl, sized k z -> sized k w ->
  nearly_equal (q <- complex_div FF z w ;; complex_abs FF FE q)
    (a <- complex_abs FF FE z ;; b <- complex_abs FF FE w ;; f_div FF a b) (14 * u * (cnorm (cval z) / cnorm (cval w))).
Proof.
  intros z w Sz Sw. pose proof (win_sized z Sz) as Wz. pose proof (win_sized w Sw) as Ww. pose proof u_rng as U. pose proof (eta_pos prec emax) as E0.
  set (Z := cnorm (cval z)) in *. set (W := cnorm (cval w)) in *. pose proof (win_pos _ _ _ Rlt_0_1 Wz) as Z0. pose proof (win_pos _ _ _ Rlt_0_1 Ww) as W0.
  pose proof (win_mul _ _ _ _ _ _ Rlt_0_1 Rlt_0_1 Ww Ww) as WWW. pose proof (win_mul _ _ _ _ _ _ Rlt_0_1 Rlt_0_1 Wz Ww) as WZW.
  pose proof (win_mul _ _ _ _ _ _ Rlt_0_1 Rlt_0_1 Wz (win_inv _ _ _ Rlt_0_1 Ww)) as WQ.
  assert (MQ : mid (Z * / W)) by (eapply win_mid; [| |exact WQ]; [lra|lia]).
  destruct (div_sized prec emax Hprec k Hk z w (proj1 Sz) (proj1 Sw)) as (q & Eq & Fq & Hq); fold Z W; try assumption.
  1,2: eapply win_mid; [| |eassumption]; [lra|lia].
  1: eapply win_mid; [| |eapply win_inv; [|exact WWW]]; [lra|lia|lra].
  fold Z in Hq. destruct (near_norm _ _ (632 / 100) ltac:(lra) Hq) as [N1 N2]. fold Z in N1, N2. rewrite cnorm_mul in N1, N2. fold W in N1, N2. set (P := cnorm (cval q)) in *.
  pose proof (mid_eta prec emax Hprec k Hk _ MQ) as EM. pose proof (mid_hi emax k Hk _ MQ) as HM. unfold Rdiv.
  assert (ZQ : Z = Z * / W * W) by (field; apply Rgt_not_eq; lra). set (Q := Z * / W) in *. assert (Q0 : 0 < Q) by (apply (win_pos (1 * 1) (1 + 1)); [lra|exact WQ]).
  assert (uQ : u * Q <= / 16777216 * Q) by (apply Rmult_le_compat_r; lra). assert (uQ0 : 0 < u * Q) by (apply Rmult_lt_0_compat; lra).
  assert (P1 : (1 - 632 / 100 * u) * Q <= P) by (apply Rmult_le_reg_r with W; [exact W0|rewrite Rmult_assoc, <- ZQ; lra]).
  assert (P2 : P <= (1 + 632 / 100 * u) * Q) by (apply Rmult_le_reg_r with W; [exact W0|rewrite Rmult_assoc, <- ZQ; lra]).
  destruct (abs_win 2 2 q) as (m & Em & Fm & Hm); [exact Fq|lra|lra|lia| |].
  { replace 2 with (2 * (1 * 1)) by ring. apply (win_near _ _ Q); [lra|exact WQ|fold P; lra]. }
  destruct (abs_win 1 1 z) as (a & Ea & Fa & Ha); [exact (proj1 Sz)|lra|lra|lia|exact Wz|].
  destruct (abs_win 1 1 w) as (b & Eb & Fb & Hb); [exact (proj1 Sw)|lra|lra|lia|exact Ww|]. fold P in Hm. fold Z in Ha. fold W in Hb.
  pose proof (Rabs_le_inv _ _ Ha) as Ha'. pose proof (Rabs_le_inv _ _ Hb) as Hb'.
  assert (uW : u * W <= / 16777216 * W) by (apply Rmult_le_compat_r; lra). assert (uW0 : 0 < u * W) by (apply Rmult_lt_0_compat; lra).
  assert (b0 : 0 < B2R b) by lra. assert (bW : W * / B2R b <= 100001 / 100000).
  { apply Rmult_le_reg_r with (B2R b); [exact b0|]. rewrite Rmult_assoc, Rinv_l, Rmult_1_r; [|apply Rgt_not_eq; lra]. lra. }
  pose proof (Rinv_0_lt_compat _ b0) as ib0.
  assert (AB : Rabs (B2R a / B2R b - Q) <= 4021 / 1000 * (u * Q)).
  { replace (B2R a / B2R b - Q) with (((B2R a - Z) + Q * (W - B2R b)) * / B2R b).
    2:{ replace (B2R a - Z + Q * (W - B2R b)) with (B2R a - Q * B2R b) by lra. field. apply Rgt_not_eq; exact b0. }
    rewrite Rabs_mult, (Rabs_pos_eq (/ B2R b)) by lra.
    apply Rle_trans with (402 / 100 * u * (Q * W) * / B2R b).
    - apply Rmult_le_compat_r; [lra|]. eapply Rle_trans; [apply Rabs_triang|]. rewrite Rabs_mult, (Rabs_pos_eq Q), (Rabs_minus_sym W) by lra.
      assert (Q * Rabs (B2R b - W) <= Q * (201 / 100 * u * W)) by (apply Rmult_le_compat_l; [lra|exact Hb]). assert (u * Z = u * (Q * W)) by (rewrite <- ZQ; reflexivity). lra.
    - replace (402 / 100 * u * (Q * W) * / B2R b) with (402 / 100 * (u * Q) * (W * / B2R b)) by ring. apply Rle_trans with (402 / 100 * (u * Q) * (100001 / 100000)); [apply Rmult_le_compat_l; lra|lra]. }
  pose proof (Rabs_le_inv _ _ AB) as AB'.
  destruct (div_round prec emax a b Fa (Rgt_not_eq _ _ b0)) as [Fc Vc]; [apply Rabs_le; lra|].
  pose proof (rnd_err prec emax (B2R a / B2R b)) as Rc. rewrite <- Vc in Rc. rewrite (Rabs_pos_eq (B2R a / B2R b)) in Rc by lra.
  exists m, (div a b). rewrite Eq, Ea, Eb. cbn [bind]. repeat split; try assumption.
  assert (u * (B2R a / B2R b) <= u * (10001 / 10000 * Q)) by (apply Rmult_le_compat_l; lra).
  assert (u * P <= u * (10001 / 10000 * Q)) by (apply Rmult_le_compat_l; lra).
  apply Rabs_le_inv in Rc. apply Rabs_le_inv in Hm. apply Rabs_le. lra.
Qed.
End Fmt.

(** The two types of the library: f32 with 2^-25 <= |z| <= 2^25 and f64 with 2^-249 <= |z| <= 2^249. *)
Notation f32_f := (float_field 24 128).
Notation f64_f := (float_field 53 1024).

Corollary C95_f32_undo : forall (libm : FunOps f32) (z w : complex f32), sized 25 z -> sized 25 w ->
  (exists q, complex_div f32_f z w = Ok q /\ yields (complex_mul f32_ring q w) (cval z) (9 * unit_roundoff 24))
  /\ (exists p, complex_mul f32_ring z w = Ok p /\ yields (complex_div f32_f p w) (cval z) (9 * unit_roundoff 24))
  /\ (exists q, complex_div f32_f (complex_one f32_ring) z = Ok q
       /\ yields (complex_div f32_f (complex_one f32_ring) q) (cval z) (13 * unit_roundoff 24))
  /\ nearly_equal (p <- complex_mul f32_ring z w ;; complex_abs f32_f (float_fun 24 128 libm) p)
       (a <- complex_abs f32_f (float_fun 24 128 libm) z ;; b <- complex_abs f32_f (float_fun 24 128 libm) w ;; r_mul f32_ring a b)
       (10 * unit_roundoff 24 * (cnorm (cval z) * cnorm (cval w)))
  /\ nearly_equal (q <- complex_div f32_f z w ;; complex_abs f32_f (float_fun 24 128 libm) q)
       (a <- complex_abs f32_f (float_fun 24 128 libm) z ;; b <- complex_abs f32_f (float_fun 24 128 libm) w ;; f_div f32_f a b)
       (14 * unit_roundoff 24 * (cnorm (cval z) / cnorm (cval w))).
Proof.
  intros libm z w Sz Sw. repeat split.
  - apply (C95_divide_then_multiply 24 128 ltac:(lia) 25 ltac:(lia) ltac:(lia)); assumption.
  - apply (C95_multiply_then_divide 24 128 ltac:(lia) 25 ltac:(lia) ltac:(lia)); assumption.
  - apply (C95_reciprocal_twice 24 128 ltac:(lia) 25 ltac:(lia) ltac:(lia)); assumption.
  - apply (C95_abs_of_product 24 128 libm ltac:(lia) 25 ltac:(lia) ltac:(lia)); assumption.
  - apply (C95_abs_of_quotient 24 128 libm ltac:(lia) 25 ltac:(lia) ltac:(lia)); assumption.
Qed.

Corollary C73_normwise : 
  (forall z w : complex f32, sized 25 z -> sized 25 w -> forall e : cplx, cmul e (cval w) = cval z ->
     yields (complex_div f32_f z w) e (632 / 100 * unit_roundoff 24))
  /\ (forall z w : complex f64, sized 249 z -> sized 249 w -> forall e : cplx, cmul e (cval w) = cval z ->
     yields (complex_div f64_f z w) e (632 / 100 * unit_roundoff 53)).
Proof.
  split; [apply (C73_div_normwise 24 128 ltac:(lia) 25 ltac:(lia) ltac:(lia))|apply (C73_div_normwise 53 1024 ltac:(lia) 249 ltac:(lia) ltac:(lia))].
Qed.

(** An error of 4.71 u does occur: z = (11919191 * 2 + 2476403 i * 2) / 2^24 and w = (11960617 * 2 + 4436983 i) / 2^24 in f32. *)
Theorem C73_error_reached : exists (z w q : complex f32) (e : cplx),
  sized 25 z /\ sized 25 w /\ cmul e (cval w) = cval z
  /\ complex_div f32_f z w = Ok q /\ cfinite q
  /\ 471 / 100 * unit_roundoff 24 * cnorm e < cnorm (csub (cval q) e).
Proof.
  set (lit n := fl_div 24 128 (fl_int 24 128 n) (fl_int 24 128 16777216)).
  set (two := fl_int 24 128 2).
  set (a := fl_mul 24 128 two (lit 11919191%Z)). set (b := fl_mul 24 128 two (lit 2476403%Z)).
  set (c := fl_mul 24 128 two (lit 11960617%Z)). set (d := lit 4436983%Z).
  set (n := fl_add 24 128 (fl_mul 24 128 c c) (fl_mul 24 128 d d)). set (r := fl_div 24 128 (fl_int 24 128 1) n).
  set (x := fl_mul 24 128 (fl_add 24 128 (fl_mul 24 128 a c) (fl_mul 24 128 b d)) r).
  set (y := fl_mul 24 128 (fl_sub 24 128 (fl_mul 24 128 b c) (fl_mul 24 128 a d)) r).
  assert (Ea : B2R a = 11919191 / 8388608) by (vm_compute; lra). assert (Eb : B2R b = 2476403 / 8388608) by (vm_compute; lra).
  assert (Ec : B2R c = 11960617 / 8388608) by (vm_compute; lra). assert (Ed : B2R d = 4436983 / 16777216) by (vm_compute; lra).
  assert (Ex : B2R x = 4196479 / 4194304) by (vm_compute; lra). assert (Ey : B2R y = 11525151 / 536870912) by (vm_compute; lra).
  assert (Eu : unit_roundoff 24 = / 16777216) by (unfold unit_roundoff; simpl; lra).
  set (N := (11960617 / 8388608) * (11960617 / 8388608) + (4436983 / 16777216) * (4436983 / 16777216)).
  set (e1 := (11919191 / 8388608 * (11960617 / 8388608) + 2476403 / 8388608 * (4436983 / 16777216)) / N).
  set (e2 := (2476403 / 8388608 * (11960617 / 8388608) - 11919191 / 8388608 * (4436983 / 16777216)) / N).
  exists (Cx a b), (Cx c d), (Cx x y), (e1, e2).
  assert (N0 : N <> 0) by (unfold N; lra).
  assert (S : forall p q : f32, is_finite p = true -> is_finite q = true -> 1 <= B2R p * B2R p + B2R q * B2R q <= 100 -> sized 25 (Cx p q)).
  { intros p q Fp Fq H. split; [split; assumption|]. assert (B : bpow radix2 (-25) <= 1 /\ 10 <= bpow radix2 25).
    { split; [change 1 with (bpow radix2 0); apply bpow_le; lia|]. apply Rle_trans with (bpow radix2 4); [simpl; lra|apply bpow_le; lia]. }
    pose proof (cnorm_sq (cval (Cx p q))) as Q. unfold cval in *. cbn [re im fst snd] in Q |- *. pose proof (cnorm_nonneg (B2R p, B2R q)). change (- (25))%Z with (-25)%Z. split.
    - apply Rle_trans with 1; [lra|]. apply sq_le; [exact H0|lra].
    - apply Rle_trans with 10; [|lra]. apply sq_le; lra. }
  split; [apply S; [vm_compute; reflexivity..|rewrite Ea, Eb; lra]|].
  split; [apply S; [vm_compute; reflexivity..|rewrite Ec, Ed; lra]|].
  split.
  { unfold cmul, cval. cbn [re im fst snd]. rewrite Ea, Eb, Ec, Ed. unfold e1, e2. apply injective_projections; cbn [fst snd].
    - replace (11919191 / 8388608) with (11919191 / 8388608 * N / N) at 3 by (field; exact N0). unfold N at 3. field. exact N0.
    - replace (2476403 / 8388608) with (2476403 / 8388608 * N / N) at 3 by (field; exact N0). unfold N at 3. field. exact N0. }
  split; [reflexivity|]. split; [split; vm_compute; reflexivity|].
  apply Rnot_le_lt. intros L. set (l := cnorm (csub _ _)) in L. set (m := cnorm (e1, e2)) in L.
  assert (L0 : 0 <= l) by apply cnorm_nonneg. assert (M0 : 0 <= m) by apply cnorm_nonneg.
  assert (L2 : l * l = (B2R x - e1) * (B2R x - e1) + (B2R y - e2) * (B2R y - e2)) by (unfold l; rewrite cnorm_sq; reflexivity).
  assert (M2 : m * m = e1 * e1 + e2 * e2) by (unfold m; rewrite cnorm_sq; reflexivity).
  assert (Q : l * l <= (471 / 100 * unit_roundoff 24 * m) * (471 / 100 * unit_roundoff 24 * m)) by (apply Rmult_le_compat; assumption).
  replace (471 / 100 * unit_roundoff 24 * m * (471 / 100 * unit_roundoff 24 * m))
    with (471 / 100 * unit_roundoff 24 * (471 / 100 * unit_roundoff 24) * (m * m)) in Q by ring.
  rewrite L2, M2, Ex, Ey, Eu in Q. unfold e1, e2, N in Q. lra.
Qed.

Corollary C95_f64_undo : forall (libm : FunOps f64) (z w : complex f64), sized 249 z -> sized 249 w ->
  (exists q, complex_div f64_f z w = Ok q /\ yields (complex_mul f64_ring q w) (cval z) (9 * unit_roundoff 53))
  /\ (exists p, complex_mul f64_ring z w = Ok p /\ yields (complex_div f64_f p w) (cval z) (9 * unit_roundoff 53))
  /\ (exists q, complex_div f64_f (complex_one f64_ring) z = Ok q
       /\ yields (complex_div f64_f (complex_one f64_ring) q) (cval z) (13 * unit_roundoff 53))
  /\ nearly_equal (p <- complex_mul f64_ring z w ;; complex_abs f64_f (float_fun 53 1024 libm) p)
       (a <- complex_abs f64_f (float_fun 53 1024 libm) z ;; b <- complex_abs f64_f (float_fun 53 1024 libm) w ;; r_mul f64_ring a b)
       (10 * unit_roundoff 53 * (cnorm (cval z) * cnorm (cval w)))
  /\ nearly_equal (q <- complex_div f64_f z w ;; complex_abs f64_f (float_fun 53 1024 libm) q)
       (a <- complex_abs f64_f (float_fun 53 1024 libm) z ;; b <- complex_abs f64_f (float_fun 53 1024 libm) w ;; f_div f64_f a b)
       (14 * unit_roundoff 53 * (cnorm (cval z) / cnorm (cval w))).
Proof.
  intros libm z w Sz Sw. repeat split.
  - apply (C95_divide_then_multiply 53 1024 ltac:(lia) 249 ltac:(lia) ltac:(lia)); assumption.
  - apply (C95_multiply_then_divide 53 1024 ltac:(lia) 249 ltac:(lia) ltac:(lia)); assumption.
  - apply (C95_reciprocal_twice 53 1024 ltac:(lia) 249 ltac:(lia) ltac:(lia)); assumption.
  - apply (C95_abs_of_product 53 1024 libm ltac:(lia) 249 ltac:(lia) ltac:(lia)); assumption.
  - apply (C95_abs_of_quotient 53 1024 libm ltac:(lia) 249 ltac:(lia) ltac:(lia)); assumption.
Qed.

(** z = 1 + 4i and w = 7 + 7i are in range, and neither round trip is exact. *)
Notation fint := (fl_int 53 1024).
Definition z14 : complex f64 := Cx (fint 1) (fint 4).
Definition w77 : complex f64 := Cx (fint 7) (fint 7).
Example C95_case :
  sized 249 z14 /\ sized 249 w77
  /\ on_ok (complex_div f64_f z14 w77) (fun q => on_ok (complex_mul f64_ring q w77) (fun p => negb (complex_eqb f64_ring p z14))) = true
  /\ on_ok (complex_mul f64_ring z14 w77) (fun p => on_ok (complex_div f64_f p w77) (fun q => negb (complex_eqb f64_ring q z14))) = true.
Proof.
  assert (B : bpow radix2 (-249) <= 1 /\ 10 <= bpow radix2 249).
  { split; [change 1 with (bpow radix2 0); apply bpow_le; lia|]. apply Rle_trans with (bpow radix2 4); [simpl; lra|apply bpow_le; lia]. }
  assert (V : B2R (fint 1) = 1 /\ B2R (fint 4) = 4 /\ B2R (fint 7) = 7) by (repeat split; vm_compute; lra). destruct V as (V1 & V4 & V7).
  assert (S : forall z : complex f64, cfinite z -> 1 <= cnorm (cval z) * cnorm (cval z) <= 100 -> sized 249 z).
  { intros z F H. split; [exact F|]. pose proof (cnorm_nonneg (cval z)). change (- (249))%Z with (-249)%Z. split.
    - apply Rle_trans with 1; [lra|]. apply sq_le; lra.
    - apply Rle_trans with 10; [|lra]. apply sq_le; lra. }
  split; [|split; [|split; reflexivity]]; apply S; try (split; reflexivity); rewrite cnorm_sq; unfold cval; cbn [z14 w77 re im fst snd]; rewrite ?V1, ?V4, ?V7; lra.
Qed.

Print Assumptions C95_divide_then_multiply.
Print Assumptions C95_multiply_then_divide.
Print Assumptions C95_reciprocal_twice.
Print Assumptions C95_abs_of_product.
Print Assumptions C95_abs_of_quotient.
Print Assumptions C95_f32_undo.
Print Assumptions C95_f64_undo.
Print Assumptions C73_div_normwise.
Print Assumptions C73_normwise.
Print Assumptions C73_error_reached.
