(** Enclosures of pi and e by rationals, from the alternating series of the standard library. *)
From Coq Require Import Reals Lra Lia Machin SeqProp AltSeries Rseries Factorial.
Open Scope R_scope.

Lemma PI_close : 3141592652 / 1000000000 <= PI <= 3141592655 / 1000000000.
Proof.
  destruct (PI_2_3_7_ineq 4) as [L U].
  cbn [Nat.mul Nat.add sum_f_R0] in L, U. unfold tg_alt, PI_2_3_7_tg, Ratan_seq in L, U.
  cbn [Nat.mul Nat.add pow INR] in L, U. lra.
Qed.

Lemma exp_m1_series : Un_cv (fun N => sum_f_R0 (tg_alt (fun n => / INR (fact n))) N) (exp (-1)).
Proof.
  unfold exp. destruct (exist_exp (-1)) as (l & H). cbn [proj1_sig].
  intros eps He. destruct (H eps He) as (N & HN). exists N. intros n Hn. specialize (HN n Hn).
  erewrite sum_eq; [exact HN|]. intros i _. unfold tg_alt. ring.
Qed.

Lemma fact_R n z : INR (fact n) = IZR z -> INR (fact (S n)) = IZR (Z.of_nat (S n) * z).
Proof. intros H. rewrite fact_simpl, mult_INR, H, mult_IZR, <- INR_IZR_INZ. reflexivity. Qed.

Lemma exp_m1_bounds :
  3678794411 / 10000000000 <= exp (-1) <= 3678794415 / 10000000000.
Proof.
  destruct (alternated_series_ineq (fun n => / INR (fact n)) (exp (-1)) 6) as [L U].
  - intros n. apply Rinv_le_contravar; [apply INR_fact_lt_0|]. apply le_INR. apply fact_le. lia.
  - pose proof (cv_speed_pow_fact 1) as H. intros eps He. destruct (H eps He) as (N & HN). exists N.
    intros n Hn. specialize (HN n Hn). rewrite pow1 in HN. unfold Rdiv in HN. rewrite Rmult_1_l in HN. exact HN.
  - exact exp_m1_series.
  - clear -L U.
    assert (F0 : INR (fact 0) = IZR 1) by reflexivity.
    assert (F1 : INR (fact 1) = IZR 1) by (rewrite (fact_R _ _ F0); f_equal; reflexivity).
    assert (F2 : INR (fact 2) = IZR 2) by (rewrite (fact_R _ _ F1); f_equal; reflexivity).
    assert (F3 : INR (fact 3) = IZR 6) by (rewrite (fact_R _ _ F2); f_equal; reflexivity).
    assert (F4 : INR (fact 4) = IZR 24) by (rewrite (fact_R _ _ F3); f_equal; reflexivity).
    assert (F5 : INR (fact 5) = IZR 120) by (rewrite (fact_R _ _ F4); f_equal; reflexivity).
    assert (F6 : INR (fact 6) = IZR 720) by (rewrite (fact_R _ _ F5); f_equal; reflexivity).
    assert (F7 : INR (fact 7) = IZR 5040) by (rewrite (fact_R _ _ F6); f_equal; reflexivity).
    assert (F8 : INR (fact 8) = IZR 40320) by (rewrite (fact_R _ _ F7); f_equal; reflexivity).
    assert (F9 : INR (fact 9) = IZR 362880) by (rewrite (fact_R _ _ F8); f_equal; reflexivity).
    assert (F10 : INR (fact 10) = IZR 3628800) by (rewrite (fact_R _ _ F9); f_equal; reflexivity).
    assert (F11 : INR (fact 11) = IZR 39916800) by (rewrite (fact_R _ _ F10); f_equal; reflexivity).
    assert (F12 : INR (fact 12) = IZR 479001600) by (rewrite (fact_R _ _ F11); f_equal; reflexivity).
    assert (F13 : INR (fact 13) = IZR 6227020800) by (rewrite (fact_R _ _ F12); f_equal; reflexivity).
    cbn [Nat.mul Nat.add sum_f_R0] in L, U. unfold tg_alt in L, U.
    rewrite F0, F1, F2, F3, F4, F5, F6, F7, F8, F9, F10, F11, F12 in U.
    rewrite F0, F1, F2, F3, F4, F5, F6, F7, F8, F9, F10, F11, F12, F13 in L.
    cbn [pow] in L, U. lra.
Qed.

Lemma E_close : 2718281820 / 1000000000 <= exp 1 <= 2718281835 / 1000000000.
Proof.
  pose proof exp_m1_bounds as [L U]. pose proof (exp_pos 1) as P.
  assert (M : exp 1 * exp (-1) = 1).
  { rewrite <- exp_plus. replace (1 + -1) with 0 by ring. apply exp_0. }
  split; apply Rnot_lt_le; intros H; nra.
Qed.
