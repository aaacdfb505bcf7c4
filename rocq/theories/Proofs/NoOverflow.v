(** Sufficient conditions for the absence of overflow in complex computations and in the sums of
    products of DMatrix. *)
From Coq Require Import List ZArith Reals Bool Lia Lra Psatz.
From Flocq Require Import Core.Core IEEE754.BinarySingleNaN.
From Verif Require Import Base.Outcome Model.Traits Model.Float Model.Polynomial Model.Complex
  Spec.Ring Spec.Sums Spec.Complex Spec.FloatErr Spec.ComplexErr Proofs.FloatErr Proofs.ComplexErr.
Import ListNotations.
Local Open Scope R_scope.

Lemma re_le_norm z : Rabs (fst z) <= cnorm z.
Proof.
  apply sq_le; [apply cnorm_nonneg|]. rewrite cnorm_sq, <- Rabs_mult, Rabs_pos_eq by apply sq_nonneg.
  pose proof (sq_nonneg (snd z)). lra.
Qed.
Lemma im_le_norm z : Rabs (snd z) <= cnorm z.
Proof.
  apply sq_le; [apply cnorm_nonneg|]. rewrite cnorm_sq, <- Rabs_mult, Rabs_pos_eq by apply sq_nonneg.
  pose proof (sq_nonneg (fst z)). lra.
Qed.

Section Fmt.
Context (prec emax : Z) {Hp : Prec_gt_0 prec} {He : Prec_lt_emax prec emax}.
Notation fl := (binary_float prec emax).
Notation FO := (float_ring prec emax).
Notation FS := (float_sig prec emax).
Notation CS := (complex_sig FS).
Notation u := (unit_roundoff prec).
Notation eta := (underflow_unit prec emax).
Notation k := (mul_roundoff prec).
Notation t := (mul_underflow prec emax).
Notation big := (too_big emax).
Notation g := ((1 + k) * (1 + u)).

Lemma sub_finite (x y : fl) : is_finite x = true -> is_finite y = true ->
  (1 + u) * Rabs (B2R x - B2R y) < big -> is_finite (fl_sub prec emax x y) = true.
Proof.
  intros Fx Fy H. rewrite (sub_add prec emax). apply add_finite; [exact Fx|rewrite opp_finite; exact Fy|].
  rewrite B2R_Bopp. exact H.
Qed.

Lemma cadd_fin (z w : complex fl) : cfinite z -> cfinite w -> (1 + u) * cnorm (cadd (cval z) (cval w)) < big ->
  cfinite (sadd CS z w).
Proof.
  intros [F1 F2] [F3 F4] H. pose proof (u_pos prec) as UP. destruct z as [a b], w as [c d].
  pose proof (re_le_norm (cadd (cval (Cx a b)) (cval (Cx c d)))) as H1.
  pose proof (im_le_norm (cadd (cval (Cx a b)) (cval (Cx c d)))) as H2. cbn [cval cadd fst snd re im] in H1, H2.
  split; cbn [re im sadd complex_sig]; change (sadd FS) with (fl_add prec emax); apply add_finite; try assumption;
    (eapply Rle_lt_trans; [apply Rmult_le_compat_l; [lra|eassumption]|exact H]).
Qed.
Lemma csub_fin (z w : complex fl) : cfinite z -> cfinite w -> (1 + u) * cnorm (csub (cval z) (cval w)) < big ->
  cfinite (ssub CS z w).
Proof.
  intros [F1 F2] [F3 F4] H. pose proof (u_pos prec) as UP. destruct z as [a b], w as [c d].
  pose proof (re_le_norm (csub (cval (Cx a b)) (cval (Cx c d)))) as H1.
  pose proof (im_le_norm (csub (cval (Cx a b)) (cval (Cx c d)))) as H2. cbn [cval csub fst snd re im] in H1, H2.
  split; cbn [re im ssub complex_sig]; change (ssub FS) with (fl_sub prec emax); apply sub_finite; try assumption;
    (eapply Rle_lt_trans; [apply Rmult_le_compat_l; [lra|eassumption]|exact H]).
Qed.

(** Products of two floats inside a complex product. *)
Lemma prod_bound (x y : fl) : is_finite (fl_mul prec emax x y) = true ->
  Rabs (B2R (fl_mul prec emax x y)) <= (1 + u) * Rabs (B2R x * B2R y) + eta.
Proof.
  intros F. destruct (mul_model prec emax _ _ F) as (_ & _ & e & h & He' & Hh & ->). pose proof (u_pos prec).
  eapply Rle_trans; [apply Rabs_triang|]. apply Rplus_le_compat; [|exact Hh]. rewrite Rabs_mult, Rmult_comm.
  apply Rmult_le_compat_r; [apply Rabs_pos|]. eapply Rle_trans; [apply Rabs_triang|]. rewrite Rabs_R1. lra.
Qed.

Lemma sqrt2_ge1 : 1 <= sqrt 2.
Proof. rewrite <- sqrt_1 at 1. apply sqrt_le_1; lra. Qed.

Lemma cmul_fin (z w : complex fl) : cfinite z -> cfinite w ->
  (1 + k) * (cnorm (cval z) * cnorm (cval w)) + t < big -> cfinite (smul CS z w).
Proof.
  intros [F1 F2] [F3 F4] H. pose proof (u_pos prec) as UP. pose proof (eta_pos prec emax) as EP.
  destruct z as [a b], w as [c d]. cbn [re im] in F1, F2, F3, F4. unfold cval in H. cbn [re im] in H.
  set (A := B2R a) in *. set (B := B2R b) in *. set (C := B2R c) in *. set (D := B2R d) in *.
  pose proof (cauchy (Rabs A) (Rabs B) (Rabs C) (Rabs D)) as Q1.
  pose proof (cauchy (Rabs A) (Rabs B) (Rabs D) (Rabs C)) as Q2.
  rewrite !cnorm_abs in Q1, Q2. rewrite (cnorm_swap C D) in Q2. rewrite <- !Rabs_mult in Q1, Q2.
  set (M := cnorm (A, B) * cnorm (C, D)) in *.
  assert (HM : 0 <= M) by (apply Rmult_le_pos; apply cnorm_nonneg).
  assert (HK : (1 + u) * ((1 + u) * M + 2 * eta) <= (1 + k) * M + t).
  { unfold mul_roundoff, mul_underflow. set (v := 2 * u + u ^ 2). set (v' := 2 * (u + u ^ 2)).
    assert (Hv : 0 <= v <= v') by (unfold v, v'; pose proof (pow2_ge_0 u); lra).
    pose proof sqrt2_ge1 as S2.
    assert (S3 : 1 <= sqrt (4 / 3)) by (rewrite <- sqrt_1 at 1; apply sqrt_le_1; lra).
    assert (1 * v' <= sqrt (4 / 3) * v') by (apply Rmult_le_compat_r; lra).
    assert (v * M <= sqrt (4 / 3) * v' * M) by (apply Rmult_le_compat_r; lra).
    assert (HX : 0 <= 2 * (1 + u) * eta) by (apply Rmult_le_pos; lra).
    assert (1 * (2 * (1 + u) * eta) <= sqrt 2 * (2 * (1 + u) * eta)) by (apply Rmult_le_compat_r; assumption).
    replace ((1 + u) * ((1 + u) * M + 2 * eta)) with (M + v * M + 2 * (1 + u) * eta) by (unfold v; ring). lra. }
  assert (HS : (1 + u) * ((1 + u) * M + 2 * eta) < big) by lra.
  assert (HN : 0 <= (1 + u) * M) by (apply Rmult_le_pos; lra).
  assert (HL : (1 + u) * M + 2 * eta <= (1 + u) * ((1 + u) * M + 2 * eta)).
  { rewrite <- (Rmult_1_l ((1 + u) * M + 2 * eta)) at 1. apply Rmult_le_compat_r; lra. }
  assert (Each : forall x y, is_finite x = true -> is_finite y = true -> Rabs (B2R x * B2R y) <= M ->
            is_finite (fl_mul prec emax x y) = true).
  { intros x y Fx Fy Hxy. apply mul_finite; [exact Fx|exact Fy|].
    assert ((1 + u) * Rabs (B2R x * B2R y) <= (1 + u) * M) by (apply Rmult_le_compat_l; lra). lra. }
  pose proof (Rabs_pos (A * C)). pose proof (Rabs_pos (B * D)). pose proof (Rabs_pos (A * D)). pose proof (Rabs_pos (B * C)).
  assert (G1 : is_finite (fl_mul prec emax a c) = true) by (apply Each; auto; fold A C; lra).
  assert (G2 : is_finite (fl_mul prec emax b d) = true) by (apply Each; auto; fold B D; lra).
  assert (G3 : is_finite (fl_mul prec emax a d) = true) by (apply Each; auto; fold A D; lra).
  assert (G4 : is_finite (fl_mul prec emax b c) = true) by (apply Each; auto; fold B C; lra).
  assert (Sum : forall x1 y1 x2 y2 : fl, is_finite (fl_mul prec emax x1 y1) = true -> is_finite (fl_mul prec emax x2 y2) = true ->
            Rabs (B2R x1 * B2R y1) + Rabs (B2R x2 * B2R y2) <= M ->
            Rabs (B2R (fl_mul prec emax x1 y1)) + Rabs (B2R (fl_mul prec emax x2 y2)) <= (1 + u) * M + 2 * eta).
  { intros x1 y1 x2 y2 H1' H2' H3'. pose proof (prod_bound _ _ H1') as P1. pose proof (prod_bound _ _ H2') as P2.
    assert ((1 + u) * (Rabs (B2R x1 * B2R y1) + Rabs (B2R x2 * B2R y2)) <= (1 + u) * M) by (apply Rmult_le_compat_l; lra). lra. }
  split; cbn [re im smul complex_sig]; change (sadd FS) with (fl_add prec emax) in *;
    change (ssub FS) with (fl_sub prec emax) in *; change (smul FS) with (fl_mul prec emax) in *.
  - apply sub_finite; [assumption|assumption|]. eapply Rle_lt_trans; [|exact HS]. apply Rmult_le_compat_l; [lra|].
    eapply Rle_trans; [apply Rabs_triang|]. rewrite Rabs_Ropp. apply Sum; assumption.
  - apply add_finite; [assumption|assumption|]. eapply Rle_lt_trans; [|exact HS]. apply Rmult_le_compat_l; [lra|].
    eapply Rle_trans; [apply Rabs_triang|]. apply Sum; assumption.
Qed.

(** ** Sums of products *)
Section Dot.
Context (a b : nat -> complex fl).
Notation exact n := (csum n (fun i => cmul (cval (a i)) (cval (b i)))).
Notation mags n := (rsum n (fun i => cnorm (cval (a i)) * cnorm (cval (b i)))).
Definition W (n : nat) : R := mags n + cdot_bound prec emax n (mags n).

Lemma W_eq n : W n = (1 + k) * (1 + u) ^ (n - 1) * mags n + INR n * (1 + u) ^ (n - 1) * t.
Proof. unfold W, cdot_bound. ring. Qed.

Lemma W_S n : (1 + u) * (W (S n) + ((1 + k) * (cnorm (cval (a (S n))) * cnorm (cval (b (S n)))) + t)) <= W (S (S n)).
Proof.
  pose proof (u_pos prec) as UP. pose proof (k_nonneg prec) as KP. pose proof (t_nonneg prec emax) as TP.
  rewrite !W_eq. replace (S (S n) - 1)%nat with (S n) by lia. replace (S n - 1)%nat with n by lia.
  cbn [rsum]. set (P := cnorm (cval (a (S n))) * cnorm (cval (b (S n)))).
  set (m := rsum n _ + _).
  assert (HP : 0 <= P) by (apply Rmult_le_pos; apply cnorm_nonneg).
  assert (G : 1 <= (1 + u) ^ n) by (apply pow_ge_1; lra).
  rewrite (S_INR (S n)). set (N := INR (S n)). set (G0 := (1 + u) ^ n) in *.
  replace ((1 + u) ^ S n) with ((1 + u) * G0) by reflexivity.
  assert (H1 : (1 + u) * (1 + k) * P <= (1 + u) * (1 + k) * P * G0).
  { rewrite <- (Rmult_1_r ((1 + u) * (1 + k) * P)) at 1. apply Rmult_le_compat_l; [|exact G].
    apply Rmult_le_pos; [apply Rmult_le_pos; lra|exact HP]. }
  assert (H2 : (1 + u) * t <= (1 + u) * t * G0).
  { rewrite <- (Rmult_1_r ((1 + u) * t)) at 1. apply Rmult_le_compat_l; [|exact G]. apply Rmult_le_pos; lra. }
  replace ((1 + k) * ((1 + u) * G0) * (m + P) + (N + 1) * ((1 + u) * G0) * t)
    with ((1 + u) * ((1 + k) * G0 * m + N * G0 * t) + ((1 + u) * (1 + k) * P * G0 + (1 + u) * t * G0)) by ring.
  lra.
Qed.
Lemma W_nonneg n : 0 <= W n.
Proof.
  pose proof (u_pos prec) as UP. pose proof (k_nonneg prec) as KP. pose proof (t_nonneg prec emax) as TP.
  rewrite W_eq. assert (1 <= (1 + u) ^ (n - 1)) by (apply pow_ge_1; lra).
  pose proof (cmags_nonneg prec emax a b n). pose proof (pos_INR n).
  assert (0 <= (1 + k) * (1 + u) ^ (n - 1)) by (apply Rmult_le_pos; lra).
  assert (0 <= INR n * (1 + u) ^ (n - 1)) by (apply Rmult_le_pos; lra).
  apply Rplus_le_le_0_compat; apply Rmult_le_pos; assumption.
Qed.
Lemma W_mono n : W (S n) <= W (S (S n)).
Proof.
  pose proof (W_S n) as H. pose proof (W_nonneg (S n)) as H0.
  pose proof (u_pos prec) as UP. pose proof (k_nonneg prec) as KP. pose proof (t_nonneg prec emax) as TP.
  set (Q := (1 + k) * (cnorm (cval (a (S n))) * cnorm (cval (b (S n)))) + t) in *.
  assert (HQ : 0 <= Q).
  { apply Rplus_le_le_0_compat; [|exact TP]. apply Rmult_le_pos; [lra|]. apply Rmult_le_pos; apply cnorm_nonneg. }
  eapply Rle_trans; [|exact H]. rewrite <- (Rmult_1_l (W (S n))) at 1. apply Rmult_le_compat; lra.
Qed.
Lemma W_term n : (1 + k) * (cnorm (cval (a (S n))) * cnorm (cval (b (S n)))) + t <= W (S (S n)).
Proof.
  pose proof (W_S n) as H. pose proof (W_nonneg (S n)) as H0.
  pose proof (u_pos prec) as UP. pose proof (k_nonneg prec) as KP. pose proof (t_nonneg prec emax) as TP.
  set (Q := (1 + k) * (cnorm (cval (a (S n))) * cnorm (cval (b (S n)))) + t) in *.
  assert (HQ : 0 <= Q).
  { apply Rplus_le_le_0_compat; [|exact TP]. apply Rmult_le_pos; [lra|]. apply Rmult_le_pos; apply cnorm_nonneg. }
  eapply Rle_trans; [|exact H]. rewrite <- (Rmult_1_l Q) at 1. apply Rmult_le_compat; lra.
Qed.

Lemma cdot_fin_step n s : cfinite (a (S n)) -> cfinite (b (S n)) -> cfinite s -> cnorm (cval s) <= W (S n) ->
  W (S (S n)) < big -> cfinite (sadd CS s (smul CS (a (S n)) (b (S n)))).
Proof.
  intros Fa Fb Fs Hs HB.
  assert (Fm : cfinite (smul CS (a (S n)) (b (S n)))).
  { apply cmul_fin; [exact Fa|exact Fb|]. eapply Rle_lt_trans; [apply W_term|exact HB]. }
  apply cadd_fin; [exact Fs|exact Fm|]. eapply Rle_lt_trans; [|exact HB]. eapply Rle_trans; [|apply W_S].
  pose proof (u_pos prec) as UP. apply Rmult_le_compat_l; [lra|]. eapply Rle_trans; [apply cnorm_triangle|].
  apply Rplus_le_compat; [exact Hs|].
  pose proof (cmul_error prec emax _ _ Fm) as E. pose proof (cnorm_le_diff (cval (smul CS (a (S n)) (b (S n)))) (cmul (cval (a (S n))) (cval (b (S n))))) as D.
  rewrite cnorm_mul in D. lra.
Qed.

Lemma norm_from_error z n : cnorm (csub z (exact n)) <= cdot_bound prec emax n (mags n) -> cnorm z <= W n.
Proof.
  intros E. unfold W. pose proof (cnorm_le_diff z (exact n)) as D. pose proof (cexact_le prec emax a b n). lra.
Qed.

Lemma cdot_one_fin : cfinite (a 0%nat) -> cfinite (b 0%nat) -> W 1 < big -> cfinite (smul CS (a 0%nat) (b 0%nat)).
Proof.
  intros Fa Fb HB. apply cmul_fin; [exact Fa|exact Fb|]. rewrite W_eq in HB. cbn [Nat.sub Rpow_def.pow rsum INR] in HB. lra.
Qed.

Lemma cdot1_no_overflow n : (forall i, (i < S n)%nat -> cfinite (a i) /\ cfinite (b i)) -> W (S n) < big ->
  cfinite (cdot1 prec emax a b n).
Proof.
  induction n as [|n IH]; intros Hf HB; [apply cdot_one_fin; try exact HB; apply (Hf 0%nat); lia|].
  assert (F1 : cfinite (cdot1 prec emax a b n)).
  { apply IH; [intros; apply Hf; lia|]. eapply Rle_lt_trans; [apply W_mono|exact HB]. }
  apply cdot_fin_step; [apply Hf; lia|apply Hf; lia|exact F1| |exact HB].
  apply norm_from_error, cdot1_error, F1.
Qed.
Lemma cdot_no_overflow n : (forall i, (i < n)%nat -> cfinite (a i) /\ cfinite (b i)) -> W n < big ->
  cfinite (cdot prec emax a b n).
Proof.
  assert (Z : cfinite (sz CS)) by (split; apply (zero_value prec emax)).
  induction n as [|n IH]; intros Hf HB; [exact Z|]. destruct n as [|n].
  - change (cdot prec emax a b 1) with (sadd CS (sz CS) (smul CS (a 0%nat) (b 0%nat))).
    assert (F : cfinite (smul CS (a 0%nat) (b 0%nat))) by (apply cdot_one_fin; try exact HB; apply (Hf 0%nat); lia).
    destruct F as [F1 F2]. split; cbn [re im sadd sz complex_sig]; apply (add_0_l prec emax); try apply (zero_value prec emax); assumption.
  - assert (F1 : cfinite (cdot prec emax a b (S n))).
    { apply IH; [intros; apply Hf; lia|]. eapply Rle_lt_trans; [apply W_mono|exact HB]. }
    apply cdot_fin_step; [apply Hf; lia|apply Hf; lia|exact F1| |exact HB].
    apply norm_from_error. apply (cdot_error prec emax a b (S n) F1).
Qed.
End Dot.

(** ** Horner's rule *)
Definition chorner_bound (p : list (complex fl)) (X : R) : R :=
  g ^ (length p - 1) * cabs_eval prec emax p X + cufl prec emax X (length p - 1).

Lemma chorner_bound_cons a b p X :
  chorner_bound (a :: b :: p) X
  = g * X * chorner_bound (b :: p) X + g ^ S (length p) * cnorm (cval a) + (1 + u) * t.
Proof.
  unfold chorner_bound. cbn [length Nat.sub]. rewrite Nat.sub_0_r, cufl_S, (cabs_cons prec emax a). cbn [Rpow_def.pow]. ring.
Qed.
Lemma cabs_nonneg p X : 0 <= X -> 0 <= cabs_eval prec emax p X.
Proof. intros H. apply rsum_nonneg. intros i _. apply Rmult_le_pos; [apply cnorm_nonneg|apply pow_le, H]. Qed.
Lemma chorner_bound_nonneg p X : 0 <= X -> 0 <= chorner_bound p X.
Proof.
  intros H. apply Rplus_le_le_0_compat; [|apply cufl_nonneg, H]. apply Rmult_le_pos; [|apply cabs_nonneg, H].
  apply pow_le. pose proof (g_ge_1 prec). lra.
Qed.

Lemma chorner_no_overflow p x X : Forall cfinite p -> cfinite x ->
  1 <= X -> cnorm (cval x) <= X -> chorner_bound p X < big ->
  cfinite (c_horner prec emax p x) /\ cnorm (cval (c_horner prec emax p x)) <= chorner_bound p X.
Proof.
  intros Hf Fx HX HxX. pose proof (u_pos prec) as UP. pose proof (k_nonneg prec) as KP. pose proof (t_nonneg prec emax) as TP.
  assert (HX0 : 0 <= X) by lra.
  induction p as [|a p IH]; intros HB.
  - assert (Z : cval (sz CS) = c0).
    { unfold cval. cbn [re im sz complex_sig]. change (sz FS) with (fl_int prec emax 0). rewrite (proj1 (zero_value prec emax)). reflexivity. }
    cbn [c_horner]. split; [split; apply (zero_value prec emax)|]. rewrite Z, cnorm_c0. apply chorner_bound_nonneg, HX0.
  - inversion Hf as [|? ? Fa Hf']; subst. specialize (IH Hf'). destruct p as [|b p].
    + destruct (czero_mul prec emax x Fx) as [Fm Em].
      change (c_horner prec emax [a] x) with (sadd CS (smul CS (sz CS) x) a).
      assert (Er : B2R (re (smul CS (sz CS) x)) = 0) by (apply (f_equal fst) in Em; exact Em).
      assert (Ei : B2R (im (smul CS (sz CS) x)) = 0) by (apply (f_equal snd) in Em; exact Em).
      split.
      * destruct Fm as [Fm1 Fm2], Fa as [Fa1 Fa2].
        split; [exact (proj1 (add_0_l prec emax _ _ Er Fm1 Fa1))|exact (proj1 (add_0_l prec emax _ _ Ei Fm2 Fa2))].
      * rewrite (cadd_zero_l prec emax _ a Em Fm Fa). unfold chorner_bound. rewrite (cabs_cons prec emax).
        unfold cabs_eval, cufl. cbn [length Nat.sub rsum Rpow_def.pow]. lra.
    + rewrite chorner_bound_cons in *.
      pose proof (chorner_bound_nonneg (b :: p) X HX0) as HM. set (M := chorner_bound (b :: p) X) in *.
      set (y := c_horner prec emax (b :: p) x) in *.
      set (G := g ^ S (length p)) in *.
      assert (HG : 1 + u <= G).
      { unfold G. cbn [Rpow_def.pow]. pose proof (pow_ge_1 g (length p) (g_ge_1 prec)) as G1.
        assert (0 <= k * (1 + u)) by (apply Rmult_le_pos; lra).
        apply Rle_trans with (g * 1); [lra|]. apply Rmult_le_compat_l; lra. }
      pose proof (cnorm_nonneg (cval a)) as Ha.
      assert (HGa : (1 + u) * cnorm (cval a) <= G * cnorm (cval a)) by (apply Rmult_le_compat_r; assumption).
      assert (HMX : 0 <= M * X) by (apply Rmult_le_pos; assumption).
      assert (HM1 : M <= M * X) by (rewrite <- (Rmult_1_r M) at 1; apply Rmult_le_compat_l; assumption).
      assert (E : g * X * M = (1 + u) * ((1 + k) * (M * X))) by ring.
      assert (HK0 : 0 <= k * (M * X)) by (apply Rmult_le_pos; assumption).
      assert (HK : M * X <= (1 + k) * (M * X)) by lra.
      assert (HU0 : 0 <= u * ((1 + k) * (M * X))) by (apply Rmult_le_pos; lra).
      assert (HUt : 0 <= u * t) by (apply Rmult_le_pos; lra).
      assert (HGa0 : 0 <= G * cnorm (cval a)) by (apply Rmult_le_pos; lra).
      destruct IH as [Fy Hy]; [lra|].
      assert (Hyx : cnorm (cval y) * cnorm (cval x) <= M * X)
        by (apply Rmult_le_compat; try apply cnorm_nonneg; assumption).
      assert (HKyx : (1 + k) * (cnorm (cval y) * cnorm (cval x)) <= (1 + k) * (M * X)) by (apply Rmult_le_compat_l; lra).
      assert (Fm : cfinite (smul CS y x)) by (apply cmul_fin; auto; lra).
      assert (Hm : cnorm (cval (smul CS y x)) <= (1 + k) * (M * X) + t).
      { pose proof (cmul_error prec emax _ _ Fm) as Er. pose proof (cnorm_le_diff (cval (smul CS y x)) (cmul (cval y) (cval x))) as D.
        rewrite cnorm_mul in D. lra. }
      change (c_horner prec emax (a :: b :: p) x) with (sadd CS (smul CS y x) a).
      assert (Hs : cnorm (cadd (cval (smul CS y x)) (cval a)) <= (1 + k) * (M * X) + t + cnorm (cval a))
        by (eapply Rle_trans; [apply cnorm_triangle|]; lra).
      assert (Hs' : (1 + u) * cnorm (cadd (cval (smul CS y x)) (cval a)) <= g * X * M + G * cnorm (cval a) + (1 + u) * t).
      { eapply Rle_trans; [apply Rmult_le_compat_l; [lra|exact Hs]|]. lra. }
      assert (F : cfinite (sadd CS (smul CS y x) a)) by (apply cadd_fin; auto; lra).
      split; [exact F|]. destruct (cadd_error prec emax _ _ F) as (_ & _ & Er).
      pose proof (cnorm_le_diff (cval (sadd CS (smul CS y x) a)) (cadd (cval (smul CS y x)) (cval a))) as D. lra.
Qed.

(** ** Real sums of products without the leading zero *)
Section RDot.
Context (a b : nat -> fl).
Notation mags n := (rsum n (fun i => Rabs (B2R (a i)) * Rabs (B2R (b i)))).
Lemma dot1_dot n : (forall i, (i < S n)%nat -> is_finite (a i) = true /\ is_finite (b i) = true) ->
  is_finite (fdot prec emax a b (S n)) = true ->
  is_finite (fdot1 prec emax a b n) = true /\ B2R (fdot1 prec emax a b n) = B2R (fdot prec emax a b (S n)).
Proof.
  intros Hf. induction n as [|n IH]; intros F.
  - change (fdot prec emax a b 1) with (fl_add prec emax (fl_int prec emax 0) (fl_mul prec emax (a 0%nat) (b 0%nat))) in *.
    destruct (add_model prec emax _ _ F) as (_ & F2 & _).
    destruct (add_0_l prec emax _ _ (proj1 (zero_value prec emax)) (proj2 (zero_value prec emax)) F2) as [_ ->].
    split; [exact F2|reflexivity].
  - change (fdot prec emax a b (S (S n))) with (fl_add prec emax (fdot prec emax a b (S n)) (fl_mul prec emax (a (S n)) (b (S n)))) in *.
    destruct (add_model prec emax _ _ F) as (F1 & F2 & _).
    destruct IH as [F3 E]; [intros; apply Hf; lia|exact F1|].
    change (fdot1 prec emax a b (S n)) with (fl_add prec emax (fdot1 prec emax a b n) (fl_mul prec emax (a (S n)) (b (S n)))).
    pose proof (Bplus_correct prec emax Hp He mode_NE _ _ F1 F2) as C1.
    pose proof (Bplus_correct prec emax Hp He mode_NE _ _ F3 F2) as C2.
    rewrite E in C2. destruct (Rlt_bool _ _).
    + destruct C1 as (E1 & F1' & _), C2 as (E2 & F2' & _). unfold fl_add. split; [exact F2'|]. rewrite E1, E2. reflexivity.
    + destruct C1 as [C1 _]. apply (overflow_not_finite prec emax) in C1; [|reflexivity]. unfold fl_add in F. congruence.
Qed.
Lemma dot1_no_overflow n : (forall i, (i < S n)%nat -> is_finite (a i) = true /\ is_finite (b i) = true) ->
  mags (S n) + dot_bound prec emax (S n) (mags (S n)) < big -> is_finite (fdot1 prec emax a b n) = true.
Proof.
  intros Hf HB. apply (dot1_dot n Hf). apply dot_no_overflow; [exact Hf|].
  eapply Rle_lt_trans; [|exact HB]. unfold dot_bound. lra.
Qed.
End RDot.
End Fmt.
