(** Property C88: the elementary functions, polynomials and arithmetic of Complex are complex
    differentiable with the textbook derivatives, in exact real arithmetic.  [has_derivative f z d]
    (Spec/Calculus.v): f succeeds in a neighbourhood of z and f(z + h) = f(z) + d h + o(h). *)
From Coq Require Import List Reals Lra Psatz.
From Verif Require Import Base.Outcome Model.Traits Model.Complex Model.Polynomial Model.RealInstance
  Spec.Ring Spec.Complex Spec.Calculus Proofs.ComplexProofs Proofs.RealRing Proofs.ComplexReal
  Proofs.Calculus Proofs.CalculusPoly.
Import ListNotations.
Open Scope R_scope.

Notation Exp := (complex_exp real_field real_fun).
Notation Ln := (complex_ln real_field real_fun).
Notation Sqrt := (complex_sqrt real_field real_fun).
Notation Sin := (complex_sin real_field real_fun).
Notation Cos := (complex_cos real_field real_fun).
Notation Sinh := (complex_sinh real_field real_fun).
Notation Cosh := (complex_cosh real_field real_fun).
Notation Tan := (complex_tan real_field real_fun).
Notation Conj := (complex_conj (r_neg real_ring)).
Notation Add := (r_add (complex_ops real_ring)).
Notation Sub := (r_sub (complex_ops real_ring)).
Notation Mul := (r_mul (complex_ops real_ring)).
Notation Div := (complex_div real_field).
Notation Eval := (poly_eval (complex_ops real_ring)).

Add Field c_field3 : c_field.

(** exp' = exp, sinh' = cosh, cosh' = sinh, sin' = cos, cos' = - sin, everywhere. *)
Theorem C88_entire_functions :
  forall z : complex R,
    (exists e, Exp z = Ok e /\ has_derivative Exp z e)
    /\ (exists c, Cosh z = Ok c /\ has_derivative Sinh z c)
    /\ (exists s, Sinh z = Ok s /\ has_derivative Cosh z s)
    /\ (exists c, Cos z = Ok c /\ has_derivative Sin z c)
    /\ (exists s, Sin z = Ok s /\ has_derivative Cos z (Cx (- re s) (- im s))).
Proof.
  intros z. repeat split; eexists.
  - split; [apply exp_ok|apply D_has_derivative, D_exp].
  - split; [apply cosh_ok|apply D_has_derivative, D_sinh].
  - split; [apply sinh_ok|apply D_has_derivative, D_cosh].
  - split; [apply cos_ok|apply D_has_derivative, D_sin].
  - split; [apply sin_ok|apply D_has_derivative, D_cos].
Qed.

(** tan' = 1 / cos^2 wherever the cosine is not zero. *)
Theorem C88_tangent :
  forall z c, Cos z = Ok c -> c <> Cx 0 0 ->
  exists d, has_derivative Tan z d /\ cmult d (cmult c c) = Cx 1 0.
Proof.
  intros z c Ec N. rewrite cos_ok in Ec. injection Ec as <-.
  eexists. split; [apply D_has_derivative; apply (D_div _ _ z _ _ _ _ (D_sin z) (D_cos z) (sin_ok z) (cos_ok z) N)|].
  transitivity (cplus (cmult (csin z) (csin z)) (cmult (ccos z) (ccos z))).
  - field. exact N.
  - exact (csin2_ccos2 z).
Qed.

(** ln' = 1 / z and sqrt' = 1 / (2 sqrt z) off the negative real axis. *)
Theorem C88_logarithm :
  forall z, off_the_cut z -> exists d, has_derivative Ln z d /\ cmult d z = Cx 1 0.
Proof.
  intros z Hz. exists (cinv z). split; [apply D_has_derivative, D_ln, Hz|]. apply cinv_l.
  intros ->. destruct Hz as [H|H]; cbn in H; lra.
Qed.

Theorem C88_square_root :
  forall z s, off_the_cut z -> Sqrt z = Ok s ->
  exists d, has_derivative Sqrt z d /\ cmult (cmult (Cx 2 0) d) s = Cx 1 0.
Proof.
  intros z s Hz Es. exists (cinv (cmult (Cx 2 0) s)). split; [apply D_has_derivative, D_sqrt; assumption|].
  destruct (csqrt_ex z) as (s' & Es' & Q & P). rewrite Es in Es'. injection Es' as <-.
  pose proof (sqrt_re_pos z s Hz Q P) as Hm.
  assert (N : s <> Cx 0 0) by (intros ->; simpl in Hm; lra).
  field. split; [exact N|exact c2_neq].
Qed.

(** Ln is continuous exactly off the negative real axis and 0, Sqrt exactly off the negative
    real axis: the branch cut is where the documentation of the principal branch puts it. *)
Lemma arg_below a t : a < 0 -> 0 < t -> atan2 (- t) a < 0.
Proof.
  intros Ha Ht. apply Rnot_le_lt. intros H. destruct (polar (- t) a) as [_ P]. destruct (atan2_range (- t) a) as [_ B].
  pose proof (sqrt_pos (a * a + - t * - t)). pose proof (sin_ge_0 _ H B). nra.
Qed.

Theorem C88_logarithm_branch_cut :
  forall z, continuous_at Ln z <-> off_the_cut z.
Proof.
  intros z. split.
  - intros (l & El & Hc). destruct (Req_dec (im z) 0) as [Hi|Hi]; [|right; exact Hi].
    destruct (Rlt_dec 0 (re z)) as [Hp|Hp]; [left; exact Hp|]. exfalso.
    destruct (Req_dec (re z) 0) as [H0|H0].
    { replace z with (Cx 0 0) in El by (destruct z; cbn in *; congruence).
      unfold complex_ln in El. cbn -[ln] in El.
      destruct (Rlt_dec 0 (0 * 0 + 0 * 0)) as [X|X]; [lra|]. discriminate El. }
    assert (Hn : re z < 0) by lra.
    assert (Nz : z <> Cx 0 0) by (intros ->; cbn in *; lra).
    rewrite ln_ok in El by exact Nz. injection El as <-. pose proof PI_RGT_0.
    destruct (Hc PI PI_RGT_0) as (d & Hd & B).
    destruct (B (Cx 0 (- (d / 2)))) as (w & W & Q).
    { unfold modulus. cbn [re im]. replace (0 * 0 + - (d / 2) * - (d / 2)) with ((d / 2) * (d / 2)) by ring.
      rewrite sqrt_square by lra. lra. }
    rewrite ln_ok in W.
    2:{ intros E. apply (f_equal im) in E. cbn in E. lra. }
    injection W as <-. apply Rlt_not_le in Q. apply Q. clear Q.
    eapply Rle_trans; [|apply im_le]. cbn [cminus cln im re cplus].
    rewrite Hi, Rplus_0_l, Rplus_0_r. pose proof (arg_below (re z) (d / 2) Hn ltac:(lra)) as A.
    assert (H0' : atan2 0 (re z) = PI).
    { destruct (atan2_range 0 (re z)) as [R1 R2]. destruct (polar 0 (re z)) as [P1 P2].
      assert (Hs : 0 < sqrt (re z * re z + 0 * 0)) by (apply sqrt_lt_R0; nra).
      assert (S0 : sin (atan2 0 (re z)) = 0) by nra.
      assert (C0 : cos (atan2 0 (re z)) < 0) by nra.
      destruct R2 as [R2|R2]; [|exact R2]. exfalso.
      destruct (Rle_dec 0 (atan2 0 (re z))) as [K|K].
      - destruct K as [K|K]; [pose proof (sin_gt_0 _ K R2); lra|rewrite <- K, cos_0 in C0; lra].
      - pose proof (sin_lt_0_var _ R1 ltac:(lra)). lra. }
    rewrite H0', Rabs_left by lra. lra.
  - intros Hz. exact (has_derivative_continuous _ _ _ (D_has_derivative _ _ _ (D_ln z Hz))).
Qed.

Theorem C88_square_root_branch_cut :
  forall z, continuous_at Sqrt z <-> ~ (re z < 0 /\ im z = 0).
Proof.
  intros z. split.
  - intros (s & Es & Hc) [Hn Hi]. destruct (csqrt_ex z) as (s' & Es' & Q & P). rewrite Es in Es'. injection Es' as <-.
    pose proof (f_equal re Q) as Q1. pose proof (f_equal im Q) as Q2. cbn [cmult re im] in Q1, Q2.
    assert (R0 : re s = 0) by (destruct (Req_dec (re s) 0); [assumption|]; assert (im s = 0) by nra; nra).
    assert (I0 : 0 < im s) by (destruct P as [P|[_ P]]; [lra|]; destruct P as [P|P]; [exact P|rewrite <- P, R0 in Q1; lra]).
    destruct (Hc (im s) I0) as (d & Hd & B).
    destruct (B (Cx 0 (- (d / 2)))) as (w & W & K).
    { unfold modulus. cbn [re im]. replace (0 * 0 + - (d / 2) * - (d / 2)) with ((d / 2) * (d / 2)) by ring.
      rewrite sqrt_square by lra. lra. }
    destruct (csqrt_ex (cplus z (Cx 0 (- (d / 2))))) as (w' & W' & Qw & Pw). rewrite W in W'. injection W' as <-.
    pose proof (f_equal im Qw) as Q3. cbn [cmult cplus re im] in Q3.
    assert (im w < 0) by (destruct Pw as [Pw|[Pw Pw']]; nra).
    apply Rlt_not_le in K. apply K. eapply Rle_trans; [|apply im_le]. cbn [cminus im].
    rewrite Rabs_left by lra. lra.
  - intros N. destruct (Req_dec (im z) 0) as [Hi|Hi].
    + destruct (Req_dec (re z) 0) as [Hr|Hr].
      * destruct (csqrt_ex z) as (s & Es & Q & _). exists s. split; [exact Es|]. intros eps He.
        assert (Z : z = Cx 0 0) by (destruct z; cbn in *; congruence).
        assert (S0 : s = Cx 0 0).
        { apply modulus_0. pose proof (modulus_mul s s) as M. rewrite Q, Z, modulus_zero in M. pose proof (modulus_pos s). nra. }
        exists (eps * eps). split; [nra|]. intros h Hh. destruct (csqrt_ex (cplus z h)) as (w & W & Qw & _).
        exists w. split; [exact W|]. rewrite S0. replace (cminus w (Cx 0 0)) with w by ring.
        rewrite Z in Qw.
        replace (cplus (Cx 0 0) h) with h in Qw by ring. rewrite <- Qw, modulus_mul in Hh. pose proof (modulus_pos w). nra.
      * assert (Hz : off_the_cut z) by (left; lra). destruct (csqrt_ex z) as (s & Es & _).
        exact (has_derivative_continuous _ _ _ (D_has_derivative _ _ _ (D_sqrt z s Hz Es))).
    + assert (Hz : off_the_cut z) by (right; exact Hi). destruct (csqrt_ex z) as (s & Es & _).
      exact (has_derivative_continuous _ _ _ (D_has_derivative _ _ _ (D_sqrt z s Hz Es))).
Qed.

(** The derivative of x -> p(x) is a_1 + 2 a_2 x + 3 a_3 x^2 + ..., evaluated by the same code. *)
Theorem C88_polynomials :
  forall (p : poly (complex R)) z,
  exists d, Eval (derived p) z = Ok d /\ has_derivative (Eval p) z d.
Proof.
  intros p z. exists (heval (derived p) z). split; [apply eval_ok|apply D_has_derivative, D_poly].
Qed.

(** Sum, difference, product, quotient and chain rule for programs built from the operators. *)
Theorem C88_rules :
  forall (f g : complex R -> outcome (complex R)) z a b d e,
  f z = Ok a -> g z = Ok b -> has_derivative f z d -> has_derivative g z e ->
    has_derivative (fun x => u <- f x ;; v <- g x ;; Add u v) z (cplus d e)
    /\ has_derivative (fun x => u <- f x ;; v <- g x ;; Sub u v) z (cminus d e)
    /\ has_derivative (fun x => u <- f x ;; v <- g x ;; Mul u v) z (cplus (cmult d b) (cmult a e))
    /\ (b <> Cx 0 0 -> exists q, cmult q (cmult b b) = cminus (cmult d b) (cmult a e)
          /\ has_derivative (fun x => u <- f x ;; v <- g x ;; Div u v) z q)
    /\ (forall k m, has_derivative k a m -> has_derivative (fun x => u <- f x ;; k u) z (cmult m d)).
Proof.
  intros f g z a b d e Ea Eb Hf Hg. apply has_derivative_D in Hf, Hg.
  split; [|split; [|split; [|split]]].
  - apply D_has_derivative. exact (D_add f g z d e Hf Hg).
  - apply D_has_derivative. exact (D_sub f g z d e Hf Hg).
  - apply D_has_derivative. exact (D_mul f g z d e a b Hf Hg Ea Eb).
  - intros N. eexists. split; [|apply D_has_derivative; exact (D_div f g z d e a b Hf Hg Ea Eb N)]. field. exact N.
  - intros k m Hk. apply has_derivative_D in Hk. apply D_has_derivative. exact (D_chain f k z d m a Hf Ea Hk).
Qed.

(** The derivative is unique, and a differentiable function is continuous. *)
Theorem C88_derivative_is_unique :
  forall f z d e, has_derivative f z d -> has_derivative f z e -> d = e /\ continuous_at f z.
Proof. intros f z d e H K. split; [exact (has_derivative_unique f z d e H K)|exact (has_derivative_continuous f z d H)]. Qed.

(** Conjugation has no derivative anywhere. *)
Theorem C88_conjugation_is_not_holomorphic :
  forall z d, ~ has_derivative Conj z d.
Proof.
  intros z d (fz & E & H). injection E as <-.
  destruct (H (1/2)) as (dl & Hd & B); [lra|].
  set (t := dl / 2). assert (0 < t) by (unfold t; lra).
  assert (M1 : modulus (Cx t 0) = t).
  { unfold modulus. cbn [re im]. replace (t * t + 0 * 0) with (t * t) by ring. apply sqrt_square. lra. }
  assert (M2 : modulus (Cx 0 t) = t).
  { unfold modulus. cbn [re im]. replace (0 * 0 + t * t) with (t * t) by ring. apply sqrt_square. lra. }
  destruct (B (Cx t 0)) as (w1 & W1 & Q1); [rewrite M1; unfold t; lra|].
  destruct (B (Cx 0 t)) as (w2 & W2 & Q2); [rewrite M2; unfold t; lra|].
  injection W1 as <-. injection W2 as <-. rewrite M1 in Q1. rewrite M2 in Q2.
  pose proof (re_le (cminus (cminus (Cx (re z + t) (- (im z + 0))) (Cx (re z) (- im z))) (cmult d (Cx t 0)))) as R1.
  pose proof (im_le (cminus (cminus (Cx (re z + 0) (- (im z + t))) (Cx (re z) (- im z))) (cmult d (Cx 0 t)))) as R2.
  cbn [cminus cmult cplus re im] in R1, R2.
  apply (Rle_trans _ _ _ R1) in Q1. apply (Rle_trans _ _ _ R2) in Q2.
  replace (re z + t - re z - (re d * t - im d * 0)) with ((1 - re d) * t) in Q1 by ring.
  replace (- (im z + t) - - im z - (re d * t + im d * 0)) with ((-1 - re d) * t) in Q2 by ring.
  rewrite Rabs_mult, (Rabs_pos_eq t) in Q1, Q2 by lra.
  apply Rmult_le_reg_r in Q1; [|lra]. apply Rmult_le_reg_r in Q2; [|lra].
  pose proof (Rle_abs (1 - re d)). pose proof (Rle_abs (- (-1 - re d))) as K. rewrite Rabs_Ropp in K. lra.
Qed.

(** The hypotheses are met: i is off the cut, cos 0 = 1, and 1 + 2x + 3x^2 has derivative 2 + 6x. *)
Example C88_case_cut : off_the_cut (Cx (-1) 1) /\ ~ off_the_cut (Cx (-1) 0) /\ off_the_cut (Cx 1 0).
Proof. unfold off_the_cut. cbn. repeat split; try (left; lra); try (right; lra). intros [H|H]; lra. Qed.
Example C88_case_derived :
  derived [Cx 1 0; Cx 2 0; Cx 3 1] = [Cx 2 0; Cx 6 2].
Proof. cbn. repeat f_equal; ring. Qed.
Example C88_case_exp : has_derivative Exp (Cx 0 0) (Cx 1 0).
Proof.
  destruct (C88_entire_functions (Cx 0 0)) as ((e & E & H) & _). rewrite exp_ok in E. injection E as <-.
  replace (Cx 1 0) with (cexp (Cx 0 0)); [exact H|]. unfold cexp. cbn [re im]. rewrite exp_0, cos_0, sin_0. f_equal; ring.
Qed.
Example C88_case_tan : exists c, Cos (Cx 0 0) = Ok c /\ c <> Cx 0 0.
Proof. eexists. split; [apply cos_ok|]. intros E. injection E as E _. cbn in E. rewrite cos_0, cosh_0 in E. lra. Qed.

Print Assumptions C88_entire_functions.
Print Assumptions C88_tangent.
Print Assumptions C88_logarithm.
Print Assumptions C88_square_root.
Print Assumptions C88_logarithm_branch_cut.
Print Assumptions C88_square_root_branch_cut.
Print Assumptions C88_polynomials.
Print Assumptions C88_rules.
Print Assumptions C88_derivative_is_unique.
Print Assumptions C88_conjugation_is_not_holomorphic.
