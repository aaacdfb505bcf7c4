(** Property C46: the Ackley function. *)
From Coq Require Import List Reals Lra ZArith.
From Flocq Require Import IEEE754.BinarySingleNaN.
From Verif Require Import Base.Outcome Model.Float Model.Ackley Proofs.FloatComm.
Open Scope R_scope.

(** The formula of https://en.wikipedia.org/wiki/Ackley_function, the reference given in the
    documentation. *)
Definition ackley_formula (x y : R) : R :=
  -20 * exp (- (2 / 10) * sqrt (5 / 10 * (x ^ 2 + y ^ 2)))
  - exp (5 / 10 * (cos (2 * PI * x) + cos (2 * PI * y))) + exp 1 + 20.

Lemma sum_nonneg x y : 0 <= 5 / 10 * (x * x + y * y).
Proof. pose proof (Rle_0_sqr x) as Hx. pose proof (Rle_0_sqr y) as Hy. unfold Rsqr in *. lra. Qed.

(** The computation never leaves the domain of sqrt and is the textbook formula. *)
Theorem C46_formula : forall x y, ackley real_ackley_ops x y = Ok (ackley_formula x y).
Proof.
  intros x y. unfold ackley. cbn [a_sqrt a_exp_m1 a_cos a_exp a_mul a_add a_sub a_neg a_20 a_0_2 a_0_5 a_2 a_pi a_e real_ackley_ops].
  destruct (Rle_dec 0 (5 / 10 * (x * x + y * y))) as [_|H]; [|exfalso; exact (H (sum_nonneg x y))].
  cbn [bind]. f_equal. unfold ackley_formula.
  replace (x ^ 2 + y ^ 2) with (x * x + y * y) by ring.
  lra.
Qed.

Lemma exp_le_1 t : 0 <= t -> exp (- (2 / 10) * t) <= 1.
Proof.
  intros Ht. rewrite <- exp_0. destruct (Req_dec t 0) as [->|Hn].
  - rewrite Rmult_0_r. lra.
  - left. apply exp_increasing. lra.
Qed.

Lemma exp_mono a b : a <= b -> exp a <= exp b.
Proof. intros [H|E]; [left; apply exp_increasing; exact H|rewrite E; right; reflexivity]. Qed.

Lemma waves x y : exp (-1) <= exp (5 / 10 * (cos (2 * PI * x) + cos (2 * PI * y))) <= exp 1.
Proof.
  pose proof (COS_bound (2 * PI * x)). pose proof (COS_bound (2 * PI * y)).
  split; apply exp_mono; lra.
Qed.

(** Global minimum 0, only at the origin. *)
Theorem C46_minimum : forall x y, exists v, ackley real_ackley_ops x y = Ok v /\
  0 <= v /\ (v = 0 <-> x = 0 /\ y = 0).
Proof.
  intros x y. exists (ackley_formula x y). split; [apply C46_formula|].
  unfold ackley_formula. pose proof (waves x y) as [_ Hw].
  replace (x ^ 2 + y ^ 2) with (x * x + y * y) by ring.
  pose proof (sum_nonneg x y) as Hs.
  pose proof (exp_le_1 _ (sqrt_pos (5 / 10 * (x * x + y * y)))) as He.
  split; [lra|]. split.
  - intros H.
    assert (E : exp (- (2 / 10) * sqrt (5 / 10 * (x * x + y * y))) = 1) by lra.
    assert (S0 : sqrt (5 / 10 * (x * x + y * y)) = 0).
    { rewrite <- exp_0 in E. apply exp_inv in E. lra. }
    apply sqrt_eq_0 in S0; [|exact Hs].
    pose proof (Rle_0_sqr x) as Hx. pose proof (Rle_0_sqr y) as Hy. unfold Rsqr in *.
    split; apply Rsqr_0_uniq; unfold Rsqr; lra.
  - intros [-> ->]. rewrite !Rmult_0_r, Rplus_0_r, Rmult_0_r, sqrt_0, Rmult_0_r, exp_0, cos_0.
    replace (5 / 10 * (1 + 1)) with 1 by lra. lra.
Qed.

(** Bounded above. *)
Theorem C46_upper_bound : forall x y, exists v, ackley real_ackley_ops x y = Ok v /\
  v < 20 + exp 1 - exp (-1).
Proof.
  intros x y. exists (ackley_formula x y). split; [apply C46_formula|].
  unfold ackley_formula. pose proof (waves x y) as [Hw _].
  pose proof (exp_pos (- (2 / 10) * sqrt (5 / 10 * (x ^ 2 + y ^ 2)))). lra.
Qed.

(** Even in each argument and symmetric. *)
Theorem C46_symmetries : forall x y,
  ackley real_ackley_ops (- x) y = ackley real_ackley_ops x y /\
  ackley real_ackley_ops x (- y) = ackley real_ackley_ops x y /\
  ackley real_ackley_ops y x = ackley real_ackley_ops x y.
Proof.
  intros x y. rewrite !C46_formula. unfold ackley_formula.
  replace (2 * PI * - x) with (- (2 * PI * x)) by ring.
  replace (2 * PI * - y) with (- (2 * PI * y)) by ring. rewrite !cos_neg.
  replace ((- x) ^ 2) with (x ^ 2) by ring. replace ((- y) ^ 2) with (y ^ 2) by ring.
  rewrite (Rplus_comm (y ^ 2)), (Rplus_comm (cos (2 * PI * y))). repeat split.
Qed.

(** The symmetry also holds exactly for the f32 computation, bit for bit, including
    infinities and NaN, whatever libm computes; evenness needs only an even cosine. *)
Theorem C46_f32_symmetries :
  forall libm_exp libm_exp_m1 libm_cos x y,
  let f := ackley (f32_ackley_ops libm_exp libm_exp_m1 libm_cos) in
  f y x = f x y /\
  ((forall t, libm_cos (Bopp t) = libm_cos t) -> f (Bopp x) y = f x y /\ f x (Bopp y) = f x y).
Proof.
  intros libm_exp libm_exp_m1 libm_cos x y f.
  unfold f, ackley. cbn [a_sqrt a_exp_m1 a_cos a_exp a_mul a_add a_sub a_neg a_20 a_0_2 a_0_5 a_2 a_pi a_e f32_ackley_ops bind].
  split.
  - rewrite (fl_add_comm 24 128 (fl_mul 24 128 y y)).
    rewrite (fl_add_comm 24 128 (libm_cos (fl_mul 24 128 (fl_mul 24 128 (f32_of_Z 2) f32_PI) y))). reflexivity.
  - intros Hc. rewrite !fl_mul_opp_r, !fl_mul_opp_l, !fl_opp_opp, !Hc. auto.
Qed.

Example C46_case : exists v, ackley real_ackley_ops 0 0 = Ok v /\ v = 0.
Proof. destruct (C46_minimum 0 0) as (v & E & _ & H). exists v. split; [exact E|]. apply H. auto. Qed.
Print Assumptions C46_formula.
Print Assumptions C46_minimum.
Print Assumptions C46_upper_bound.
Print Assumptions C46_symmetries.
Print Assumptions C46_f32_symmetries.
