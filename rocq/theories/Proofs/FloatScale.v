(** Multiplying floats by powers of two: rounding commutes with it, except near underflow. *)
From Coq Require Import List ZArith Reals Bool Lia Lra.
From Flocq Require Import Core.Core IEEE754.BinarySingleNaN Plus_error Mult_error.
From Verif Require Import Base.Outcome Model.Float Spec.Ring Spec.Sums Spec.FloatErr Spec.FloatScale Proofs.FloatErr Proofs.FloatRound.
Import ListNotations.
Local Open Scope R_scope.

Section Fmt.
Context (prec emax : Z) {Hp : Prec_gt_0 prec} {He : Prec_lt_emax prec emax}.
Notation fl := (binary_float prec emax).
Notation rnd := (round radix2 (SpecFloat.fexp prec emax) (round_mode mode_NE)).
Notation fexp := (SpecFloat.fexp prec emax).
Notation two k := (bpow radix2 k).
Notation safe := (no_underflow emax).

#[local] Instance fexp_valid : Valid_exp fexp := fexp_correct prec emax Hp.

Lemma cexp_normal v : smallest_normal emax <= Rabs v -> cexp radix2 fexp v = (mag radix2 v - prec)%Z.
Proof.
  intros H. unfold cexp, SpecFloat.fexp, SpecFloat.emin. apply Z.max_l.
  assert (2 - emax < mag radix2 v)%Z; [|lia]. apply lt_bpow with radix2.
  apply Rle_lt_trans with (1 := H). apply bpow_mag_gt.
Qed.

Lemma round_scale v k : safe v -> safe (two k * v) -> rnd (two k * v) = two k * rnd v.
Proof.
  intros [->|H] H'; [rewrite !Rmult_0_r, rnd_0 by exact Hp; ring|].
  assert (N : v <> 0).
  { intros ->. rewrite Rabs_R0 in H. pose proof (bpow_gt_0 radix2 (2 - emax)). unfold smallest_normal in H. lra. }
  destruct H' as [E|H'].
  { apply Rmult_integral in E. destruct E as [E|E]; [|contradiction]. pose proof (bpow_gt_0 radix2 k). lra. }
  unfold round, F2R, scaled_mantissa. cbn [Fnum Fexp].
  rewrite !cexp_normal by assumption. rewrite (Rmult_comm (two k) v), mag_mult_bpow by exact N.
  replace (v * two k * two (- (mag radix2 v + k - prec))) with (v * two (- (mag radix2 v - prec))).
  2:{ rewrite Rmult_assoc, <- bpow_plus. f_equal. f_equal. ring. }
  replace (mag radix2 v + k - prec)%Z with (k + (mag radix2 v - prec))%Z by ring. rewrite bpow_plus. ring.
Qed.

Lemma add_value (x y : fl) : is_finite (fl_add prec emax x y) = true ->
  B2R (fl_add prec emax x y) = rnd (B2R x + B2R y).
Proof.
  intros H. destruct (add_finite_args prec emax x y H) as [Fx Fy].
  pose proof (Bplus_correct prec emax Hp He mode_NE x y Fx Fy) as C. destruct (Rlt_bool _ _).
  - destruct C as (E & _ & _). exact E.
  - destruct C as (C & _). apply overflow_not_finite in C; [|reflexivity]. unfold fl_add in H. congruence.
Qed.
Lemma mul_value (x y : fl) : is_finite (fl_mul prec emax x y) = true ->
  B2R (fl_mul prec emax x y) = rnd (B2R x * B2R y).
Proof.
  intros H. pose proof (Bmult_correct prec emax Hp He mode_NE x y) as C. destruct (Rlt_bool _ _).
  - exact (proj1 C).
  - apply overflow_not_finite in C; [|reflexivity]. unfold fl_mul in H. congruence.
Qed.
Lemma div_value (x y : fl) : is_finite (fl_div prec emax x y) = true -> B2R y <> 0 ->
  B2R (fl_div prec emax x y) = rnd (B2R x / B2R y).
Proof.
  intros H N. pose proof (Bdiv_correct prec emax Hp He mode_NE x y N) as C. destruct (Rlt_bool _ _).
  - exact (proj1 C).
  - apply overflow_not_finite in C; [|reflexivity]. unfold fl_div in H. congruence.
Qed.

(** A sum of two floats scales up exactly: where it is tiny, it is exact. *)
Lemma round_sum_up x y k : (0 <= k)%Z ->
  generic_format radix2 fexp x -> generic_format radix2 fexp y ->
  rnd (two k * x + two k * y) = two k * rnd (x + y).
Proof.
  intros Hk Fx Fy. rewrite <- Rmult_plus_distr_l.
  destruct (Rle_or_lt (smallest_normal emax) (Rabs (x + y))) as [H|H].
  - apply round_scale; right; [exact H|]. rewrite Rabs_mult, (Rabs_pos_eq (two k)) by apply bpow_ge_0.
    assert (1 <= two k) by (change 1 with (two 0); apply bpow_le; lia).
    pose proof (Rabs_pos (x + y)). nra.
  - assert (F : generic_format radix2 fexp (x + y)).
    { refine (FLT_format_plus_small radix2 (SpecFloat.emin prec emax) prec x y Fx Fy _).
      apply Rlt_le, Rlt_le_trans with (1 := H). apply bpow_le. unfold SpecFloat.emin. lia. }
    rewrite (round_generic radix2 fexp _ (x + y) F), Rmult_comm. apply round_generic; [apply valid_rnd_round_mode|].
    exact (mult_bpow_pos_exact_FLT radix2 (SpecFloat.emin prec emax) prec (x + y) k F Hk).
Qed.

Lemma add_scale k (x y x' y' : fl) : scaled k x x' -> scaled k y y' ->
  is_finite (fl_add prec emax x y) = true -> is_finite (fl_add prec emax x' y') = true ->
  scaled k (fl_add prec emax x y) (fl_add prec emax x' y').
Proof.
  unfold scaled. intros Hx Hy F F'. rewrite (add_value _ _ F), (add_value _ _ F'). rewrite Hx, Hy.
  destruct (Z_le_gt_dec 0 k) as [Hk|Hk].
  - apply round_sum_up; [exact Hk|apply generic_format_B2R|apply generic_format_B2R].
  - assert (E : forall v w, w = two k * v -> v = two (- k) * w).
    { intros v w ->. rewrite <- Rmult_assoc, <- bpow_plus. replace (- k + k)%Z with 0%Z by ring. simpl. ring. }
    rewrite <- Hx, <- Hy. rewrite (E _ _ Hx), (E _ _ Hy).
    rewrite round_sum_up; [|lia|apply generic_format_B2R|apply generic_format_B2R].
    rewrite <- Rmult_assoc, <- bpow_plus. replace (k + - k)%Z with 0%Z by ring. simpl. ring.
Qed.

Lemma opp_scale k (x x' : fl) : scaled k x x' -> scaled k (Bopp x) (Bopp x').
Proof. unfold scaled. intros H. rewrite !B2R_Bopp, H. ring. Qed.

Lemma sub_scale k (x y x' y' : fl) : scaled k x x' -> scaled k y y' ->
  is_finite (fl_sub prec emax x y) = true -> is_finite (fl_sub prec emax x' y') = true ->
  scaled k (fl_sub prec emax x y) (fl_sub prec emax x' y').
Proof.
  intros Hx Hy. rewrite !sub_add. intros F F'. apply add_scale; auto using opp_scale.
Qed.

Lemma mul_scale j k (x y x' y' : fl) : scaled j x x' -> scaled k y y' ->
  safe (B2R x * B2R y) -> safe (B2R x' * B2R y') ->
  is_finite (fl_mul prec emax x y) = true -> is_finite (fl_mul prec emax x' y') = true ->
  scaled (j + k) (fl_mul prec emax x y) (fl_mul prec emax x' y').
Proof.
  unfold scaled. intros Hx Hy S S' F F'. rewrite (mul_value _ _ F), (mul_value _ _ F').
  rewrite <- round_scale; [|exact S|].
  - f_equal. rewrite Hx, Hy, bpow_plus. ring.
  - rewrite bpow_plus. replace (two j * two k * (B2R x * B2R y)) with (B2R x' * B2R y'); [exact S'|]. rewrite Hx, Hy. ring.
Qed.

Lemma div_scale j k (x y x' y' : fl) : scaled j x x' -> scaled k y y' -> B2R y <> 0 ->
  safe (B2R x / B2R y) -> safe (B2R x' / B2R y') ->
  is_finite (fl_div prec emax x y) = true -> is_finite (fl_div prec emax x' y') = true ->
  scaled (j - k) (fl_div prec emax x y) (fl_div prec emax x' y').
Proof.
  unfold scaled. intros Hx Hy N S S' F F'. pose proof (bpow_gt_0 radix2 k) as P.
  assert (N' : B2R y' <> 0) by (rewrite Hy; apply Rmult_integral_contrapositive_currified; lra).
  rewrite (div_value _ _ F N), (div_value _ _ F' N').
  assert (E : B2R x' / B2R y' = two (j - k) * (B2R x / B2R y)).
  { rewrite Hx, Hy. unfold Z.sub. rewrite bpow_plus, bpow_opp. field. split; [exact N|lra]. }
  rewrite E in S' |- *. apply round_scale; assumption.
Qed.

(** Square roots never underflow. *)
Lemma sqrt_safe (x : fl) : 0 <= B2R x -> safe (sqrt (B2R x)).
Proof.
  intros H. destruct (Req_dec (B2R x) 0) as [E|E]; [left; rewrite E; apply sqrt_0|right].
  rewrite Rabs_pos_eq by apply sqrt_pos.
  assert (L : two (SpecFloat.emin prec emax) <= B2R x).
  { pose proof (generic_format_ge_bpow radix2 fexp (SpecFloat.emin prec emax)) as G.
    apply G; [|lra|apply generic_format_B2R]. intros e. unfold SpecFloat.fexp. lia. }
  unfold smallest_normal. rewrite <- (sqrt_Rsqr (two (2 - emax))) by apply bpow_ge_0.
  apply sqrt_le_1_alt. apply Rle_trans with (2 := L). unfold Rsqr. rewrite <- bpow_plus. apply bpow_le.
  unfold SpecFloat.emin. unfold Prec_lt_emax in He. lia.
Qed.

Lemma sqrt_scale k (x x' : fl) : scaled (k + k) x x' -> is_finite x = true -> is_finite x' = true -> 0 <= B2R x ->
  scaled k (Bsqrt mode_NE x) (Bsqrt mode_NE x').
Proof.
  intros Hx F F' H. pose proof (bpow_gt_0 radix2 (k + k)) as P. pose proof (bpow_ge_0 radix2 k) as Pk.
  assert (H' : 0 <= B2R x') by (rewrite Hx; nra).
  unfold scaled. rewrite (proj2 (sqrt_round prec emax x F H)), (proj2 (sqrt_round prec emax x' F' H')).
  assert (E : sqrt (B2R x') = two k * sqrt (B2R x)).
  { rewrite Hx, bpow_plus, sqrt_mult by nra. rewrite sqrt_square by exact Pk. reflexivity. }
  pose proof (sqrt_safe x' H') as S'. rewrite E in S' |- *. apply round_scale; [apply sqrt_safe, H|exact S'].
Qed.

Lemma scaled_zero k : scaled k (fl_int prec emax 0) (fl_int prec emax 0).
Proof. unfold scaled. rewrite (proj1 (zero_value prec emax)). ring. Qed.

(** ** Sums of products *)
Section Dot.
Context (a b a' b' : nat -> fl) (m : Z) (s t : nat -> Z) (n : nat)
  (Ha : forall i, (i < n)%nat -> scaled (s i) (a i) (a' i))
  (Hb : forall i, (i < n)%nat -> scaled (t i) (b i) (b' i))
  (Hm : forall i, (i < n)%nat -> (s i + t i = m)%Z)
  (S : forall i, (i < n)%nat -> safe (B2R (a i) * B2R (b i)))
  (S' : forall i, (i < n)%nat -> safe (B2R (a' i) * B2R (b' i))).

Lemma product_scale i : (i < n)%nat -> is_finite (fl_mul prec emax (a i) (b i)) = true ->
  is_finite (fl_mul prec emax (a' i) (b' i)) = true ->
  scaled m (fl_mul prec emax (a i) (b i)) (fl_mul prec emax (a' i) (b' i)).
Proof. intros Hi F F'. rewrite <- (Hm i Hi). apply mul_scale; auto. Qed.

Lemma fdot_scale k : (k <= n)%nat -> is_finite (fdot prec emax a b k) = true -> is_finite (fdot prec emax a' b' k) = true ->
  scaled m (fdot prec emax a b k) (fdot prec emax a' b' k).
Proof.
  induction k as [|k IH]; [intros; apply scaled_zero|].
  unfold fdot in *. cbn [sum_n]. change (sadd (float_sig prec emax)) with (fl_add prec emax). intros Hk F F'.
  destruct (add_finite_args _ _ _ _ F) as [F1 F2]. destruct (add_finite_args _ _ _ _ F') as [F1' F2'].
  apply add_scale; [apply IH|apply product_scale| |]; auto; lia.
Qed.
Lemma fdot1_scale k : (k < n)%nat -> is_finite (fdot1 prec emax a b k) = true -> is_finite (fdot1 prec emax a' b' k) = true ->
  scaled m (fdot1 prec emax a b k) (fdot1 prec emax a' b' k).
Proof.
  induction k as [|k IH]; [intros; apply product_scale; auto|].
  cbn [fdot1]. intros Hk F F'.
  destruct (add_finite_args _ _ _ _ F) as [F1 F2]. destruct (add_finite_args _ _ _ _ F') as [F1' F2'].
  apply add_scale; [apply IH|apply product_scale| |]; auto; lia.
Qed.
End Dot.

(** ** Horner's rule *)
Lemma horner_scale k : forall (p p' : list fl) x x' m, scaled k x x' -> length p' = length p ->
  (forall j, (j < length p)%nat -> scaled (m - k * Z.of_nat j) (nth j p (fl_int prec emax 0)) (nth j p' (fl_int prec emax 0))) ->
  (forall j, (0 < j <= length p)%nat -> safe (B2R (fl_horner prec emax (skipn j p) x) * B2R x)
                              /\ safe (B2R (fl_horner prec emax (skipn j p') x') * B2R x')) ->
  is_finite (fl_horner prec emax p x) = true -> is_finite (fl_horner prec emax p' x') = true ->
  scaled m (fl_horner prec emax p x) (fl_horner prec emax p' x').
Proof.
  intros p. induction p as [|a p IH]; intros [|a' p'] x x' m Hx L H S F F'; try discriminate L; [apply scaled_zero|].
  cbn [fl_horner] in *. destruct (add_finite_args _ _ _ _ F) as [F1 F2]. destruct (add_finite_args _ _ _ _ F') as [F1' F2'].
  destruct (mul_model _ _ _ _ F1) as (G & _). destruct (mul_model _ _ _ _ F1') as (G' & _).
  apply add_scale; [| |exact F|exact F'].
  - replace m with (m - k + k)%Z by ring. destruct (S 1%nat ltac:(cbn [length]; lia)) as [S1 S1']. cbn [skipn] in S1, S1'.
    apply mul_scale; try assumption. apply IH; try assumption.
    + cbn [length] in L. lia.
    + intros j Hj. specialize (H (Datatypes.S j) ltac:(cbn [length]; lia)). cbn [nth] in H.
      replace (m - k - k * Z.of_nat j)%Z with (m - k * Z.of_nat (Datatypes.S j))%Z by lia. exact H.
    + intros j Hj. specialize (S (Datatypes.S j) ltac:(cbn [length]; lia)). exact S.
  - specialize (H 0%nat ltac:(cbn [length]; lia)). cbn [nth] in H. replace (m - k * Z.of_nat 0)%Z with m in H by lia. exact H.
Qed.
End Fmt.
