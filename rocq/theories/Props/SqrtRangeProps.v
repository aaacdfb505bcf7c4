(** Property C109: square root and logarithm of complex floats whose squared absolute value over- or underflows: infinite,
    NaN or wrong by a factor of sqrt 2, although the exact results are of moderate size. *)
From Coq Require Import List ZArith Reals Bool Lia Lra Psatz.
From Flocq Require Import Core.Core IEEE754.BinarySingleNaN Mult_error.
From Verif Require Import Base.Outcome Model.Traits Model.Float Model.Complex Spec.FloatErr Spec.ComplexErr
  Proofs.FloatErr Proofs.FloatRound Proofs.FloatRange Proofs.FloatSqrt Props.FloatRangeProps Props.FloatSqrtProps.
Local Open Scope R_scope.

Lemma sq_le x y : 0 <= y -> x * x <= y * y -> x <= y.
Proof. intros H E. apply Rnot_lt_le. intros C. assert (y * y < x * x) by (apply Rmult_le_0_lt_compat; lra). lra. Qed.
Lemma abs_sq x : Rabs x * Rabs x = x * x.
Proof. rewrite <- Rabs_mult. apply Rabs_pos_eq. nra. Qed.
Lemma ratio_ge_1 x r : 0 < r -> r <= x -> 1 <= x / r.
Proof. intros R H. apply Rmult_le_reg_r with r; [exact R|]. unfold Rdiv. rewrite Rmult_assoc, Rinv_l by lra. lra. Qed.
Lemma scaled_up q k v : 0 <= q -> 1 <= k -> 14 / 10 * (q * k) <= v -> 7 / 5 * q <= v.
Proof. intros Q K H. assert (q * 1 <= q * k) by (apply Rmult_le_compat_l; assumption). lra. Qed.

Lemma ln_mono x y : 0 < x -> x <= y -> ln x <= ln y.
Proof. intros H [L|L]; [left; apply ln_increasing; assumption|right; f_equal; exact L]. Qed.

Section Fmt.
Context (prec emax : Z) {Hp : Prec_gt_0 prec} {He : Prec_lt_emax prec emax} (libm : FunOps (binary_float prec emax)).
Notation fl := (binary_float prec emax).
Notation FF := (float_field prec emax).
Notation FE := (float_fun prec emax libm).
Notation u := (unit_roundoff prec).
Notation eta := (underflow_unit prec emax).
Notation rnd := (round radix2 (SpecFloat.fexp prec emax) (round_mode mode_NE)).
Notation add := (fl_add prec emax). Notation sub := (fl_sub prec emax).
Notation mul := (fl_mul prec emax). Notation div := (fl_div prec emax).
Notation one := (fl_int prec emax 1). Notation zero := (fl_int prec emax 0).
Notation two := (add one one). Notation half := (div one two).
Notation big := (bpow radix2 emax).
Context (Hprec : (11 <= prec)%Z).

(** A component whose square is beyond the range; both squares below half the smallest positive number. *)
Definition too_large (z : complex fl) : Prop := big <= B2R (re z) ^ 2 \/ big <= B2R (im z) ^ 2.
Definition too_small (z : complex fl) : Prop := B2R (re z) ^ 2 <= eta /\ B2R (im z) ^ 2 <= eta.

Lemma emax_big : (12 <= emax)%Z.
Proof. pose proof He as Q. unfold Prec_lt_emax in Q. lia. Qed.

Lemma positive_form (x : fl) : is_finite x = true -> 0 < B2R x -> exists m e B, x = B754_finite false m e B.
Proof.
  intros F H. destruct x as [s|s| |s m e B]; try discriminate; [simpl in H; lra|]. destruct s; [|eauto].
  exfalso. simpl in H. pose proof (F2R_lt_0 radix2 {| Fnum := Z.neg m; Fexp := e |} eq_refl). lra.
Qed.
Lemma negative_root (x : fl) : is_finite x = true -> B2R x < 0 -> Bsqrt mode_NE x = B754_nan.
Proof.
  intros F H. destruct x as [s|s| |s m e B]; try discriminate; [simpl in H; lra|]. destruct s; [reflexivity|].
  exfalso. simpl in H. pose proof (F2R_gt_0 radix2 {| Fnum := Z.pos m; Fexp := e |} eq_refl). lra.
Qed.
Lemma two_v : is_finite two = true /\ B2R two = 2.
Proof. exact (two_value prec emax Hprec 0%Z ltac:(lia) ltac:(pose proof emax_big; lia)). Qed.
Lemma half_v : is_finite half = true /\ B2R half = / 2.
Proof. exact (half_value prec emax Hprec 0%Z ltac:(lia) ltac:(pose proof emax_big; lia)). Qed.

Lemma norm2_infinite (z : complex fl) : cfinite z -> too_large z -> fl_norm2 prec emax (re z) (im z) = B754_infinity false.
Proof.
  intros F H. pose proof (C54_abs_overflow_refuted prec emax libm z F H) as A. rewrite abs_def in A. injection A as A.
  destruct (fl_norm2 prec emax (re z) (im z)) as [s|s| |s m e B] eqn:E; try discriminate A.
  - destruct s; [discriminate|reflexivity].
  - exfalso. pose proof (Bsqrt_correct prec emax Hp He mode_NE (B754_finite s m e B)) as (_ & Q & _).
    rewrite A in Q. destruct s; [|discriminate]. cbn in A. discriminate.
Qed.

Lemma sqrt_def (z : complex fl) : let A := Bsqrt mode_NE (fl_norm2 prec emax (re z) (im z)) in
  let b1 := Bleb (Babs (re z)) (mul (Babs (im z)) two) in
  let d := div (Babs (im z)) (Bsqrt mode_NE (mul (add A (Babs (re z))) two)) in
  let b := Bsqrt mode_NE (mul (add A (Babs (re z))) half) in
  let r := if b1 then Bsqrt mode_NE (mul (add A (re z)) half) else if Bleb zero (re z) then b else d in
  let i := if b1 then Bsqrt mode_NE (mul (sub A (re z)) half) else if Bleb zero (re z) then d else b in
  complex_sqrt FF FE z = Ok (Cx r (if Bltb (im z) zero then Bopp i else i)).
Proof.
  intros A b1 d b r i. unfold r, i, b1. cbn -[Bleb Bltb Bsqrt fl_add fl_sub fl_mul fl_div fl_int Babs Bopp].
  fold (fl_norm2 prec emax (re z) (im z)). fold A.
  destruct (Bleb (Babs (re z)) (mul (Babs (im z)) two)); cbn -[Bleb Bltb Bsqrt fl_add fl_sub fl_mul fl_div fl_int Babs Bopp].
  - destruct (Bltb (im z) zero); reflexivity.
  - destruct (Bleb zero (re z)); cbn -[Bleb Bltb Bsqrt fl_add fl_sub fl_mul fl_div fl_int Babs Bopp]; destruct (Bltb (im z) zero); reflexivity.
Qed.

(** ** Too large: the square root is infinite *)
Lemma inf_mul (x : fl) : is_finite x = true -> 0 < B2R x -> mul (B754_infinity false) x = B754_infinity false.
Proof. intros F H. destruct (positive_form x F H) as (m & e & B & ->). reflexivity. Qed.
Lemma inf_add (x : fl) : is_finite x = true -> add (B754_infinity false) x = B754_infinity false.
Proof. intros F. destruct x; try discriminate; reflexivity. Qed.
Lemma inf_sub (x : fl) : is_finite x = true -> sub (B754_infinity false) x = B754_infinity false.
Proof. intros F. destruct x; try discriminate; reflexivity. Qed.
Lemma abs_fin (x : fl) : is_finite (Babs x) = is_finite x.
Proof. destruct x; reflexivity. Qed.
Lemma div_inf (x : fl) : is_finite x = true -> is_nan (div x (B754_infinity false)) = false.
Proof. intros F. destruct x; try discriminate; reflexivity. Qed.
Lemma opp_nan (x : fl) : is_nan (Bopp x) = is_nan x.
Proof. destruct x; reflexivity. Qed.

Lemma below_big (x : fl) : Rabs (B2R x) < big.
Proof. apply abs_B2R_lt_emax. Qed.

Lemma root_modulus a b p q : principal_root a b p q -> (p * p + q * q) * (p * p + q * q) = a * a + b * b.
Proof. intros (A & B & _). rewrite <- A, <- B. ring. Qed.

Theorem C109_sqrt_infinite_refuted : forall z : complex fl, cfinite z -> too_large z ->
  (exists s, complex_sqrt FF FE z = Ok s /\ is_nan (re s) = false /\ is_nan (im s) = false /\ (is_finite (re s) = false \/ is_finite (im s) = false))
  /\ (forall p q, principal_root (B2R (re z)) (B2R (im z)) p q -> p * p + q * q <= 2 * big).
Proof.
  intros z F H. split.
  - eexists. split; [apply sqrt_def|]. rewrite (norm2_infinite z F H). destruct F as [Fa Fb].
    destruct two_v as [T1 T2]. destruct half_v as [U1 U2].
    change (Bsqrt mode_NE (B754_infinity false : fl)) with (B754_infinity false : fl).
    rewrite (inf_add (re z) Fa), (inf_add (Babs (re z))) by (rewrite abs_fin; exact Fa). rewrite (inf_sub (re z) Fa).
    rewrite (inf_mul half U1) by lra. rewrite (inf_mul two T1) by lra.
    change (Bsqrt mode_NE (B754_infinity false : fl)) with (B754_infinity false : fl).
    assert (N : is_nan (div (Babs (im z)) (B754_infinity false)) = false) by (apply div_inf; rewrite abs_fin; exact Fb).
    set (d := div (Babs (im z)) (B754_infinity false)) in *.
    cbn [re im]. destruct (Bleb (Babs (re z)) (mul (Babs (im z)) two)); [|destruct (Bleb zero (re z))]; destruct (Bltb (im z) zero);
      rewrite ?opp_nan; rewrite ?opp_finite; cbn; auto.
  - intros p q P. pose proof (root_modulus _ _ _ _ P) as E. pose proof (below_big (re z)) as A. pose proof (below_big (im z)) as B.
    assert (A2 : B2R (re z) * B2R (re z) <= big * big).
    { replace (B2R (re z) * B2R (re z)) with (Rabs (B2R (re z)) * Rabs (B2R (re z))) by (rewrite <- Rabs_mult; apply Rabs_pos_eq; nra). pose proof (Rabs_pos (B2R (re z))). nra. }
    assert (B2 : B2R (im z) * B2R (im z) <= big * big).
    { replace (B2R (im z) * B2R (im z)) with (Rabs (B2R (im z)) * Rabs (B2R (im z))) by (rewrite <- Rabs_mult; apply Rabs_pos_eq; nra). pose proof (Rabs_pos (B2R (im z))). nra. }
    pose proof (bpow_gt_0 radix2 emax). assert (0 <= p * p + q * q) by nra. nra.
Qed.

(** ** Too small *)
Lemma eta_small : 0 < eta <= / 1048576.
Proof.
  split; [apply bpow_gt_0|]. pose proof emax_big. unfold underflow_unit.
  replace (/ 1048576) with (bpow radix2 (-20)) by (vm_compute; lra). apply bpow_le. lia.
Qed.
Lemma u_tiny : 0 < u <= / 2048.
Proof. exact (u_small prec Hprec). Qed.

Lemma min_format : generic_format radix2 (SpecFloat.fexp prec emax) (2 * eta).
Proof.
  replace (2 * eta) with (bpow radix2 (3 - emax - prec)).
  - apply generic_format_bpow. unfold SpecFloat.fexp, SpecFloat.emin. pose proof emax_big. lia.
  - unfold underflow_unit. replace (3 - emax - prec)%Z with (1 + (2 - emax - prec))%Z by lia. rewrite bpow_plus. reflexivity.
Qed.
Lemma half_big_ge_1 : 1 <= half_big emax.
Proof. unfold half_big. change 1 with (bpow radix2 0). apply bpow_le. pose proof emax_big. lia. Qed.

Lemma small_value (x : fl) : B2R x ^ 2 <= eta -> Rabs (B2R x) <= / 1024.
Proof.
  intros H. pose proof eta_small as E. apply Rnot_lt_le. intros C. assert (B2R x ^ 2 = Rabs (B2R x) * Rabs (B2R x)) by (rewrite <- Rabs_mult, Rabs_pos_eq; nra). nra.
Qed.

(** Doubling is exact, halving is off by less than [eta] and preserves the sign of numbers that are not minimal. *)
Lemma doubled (x : fl) : is_finite x = true -> Rabs (B2R x) <= / 1024 -> is_finite (mul x two) = true /\ B2R (mul x two) = 2 * B2R x.
Proof.
  intros F H. destruct two_v as [T1 T2]. pose proof half_big_ge_1 as G.
  destruct (mul_round prec emax x two F T1) as [M1 M2].
  { rewrite T2, Rabs_mult, (Rabs_pos_eq 2) by lra. lra. }
  split; [exact M1|]. rewrite M2, T2, round_generic; [ring|apply valid_rnd_round_mode|].
  change 2 with (bpow radix2 1). apply (mult_bpow_pos_exact_FLT radix2 (SpecFloat.emin prec emax) prec); [apply format|lia].
Qed.
Lemma halved (x : fl) : is_finite x = true -> Rabs (B2R x) <= / 1024 ->
  is_finite (mul x half) = true /\ Rabs (B2R (mul x half) - B2R x / 2) <= u * (Rabs (B2R x) / 2) + eta
  /\ (4 * eta <= B2R x -> 0 < B2R (mul x half)) /\ (B2R x <= - (4 * eta) -> B2R (mul x half) < 0).
Proof.
  intros F H. destruct half_v as [T1 T2]. pose proof half_big_ge_1 as G. pose proof eta_small as E.
  destruct (mul_round prec emax x half F T1) as [M1 M2].
  { rewrite T2, Rabs_mult, (Rabs_pos_eq (/ 2)) by lra. lra. }
  split; [exact M1|]. rewrite M2, T2. split; [|split].
  - destruct (rnd_any prec emax (B2R x * / 2)) as (e & h & He1 & Hh & ->).
    replace (B2R x * / 2 * (1 + e) + h - B2R x / 2) with (e * (B2R x / 2) + h) by field.
    eapply Rle_trans; [apply Rabs_triang|]. rewrite Rabs_mult. apply Rplus_le_compat; [|exact Hh].
    replace (Rabs (B2R x / 2)) with (Rabs (B2R x) / 2) by (unfold Rdiv; rewrite Rabs_mult, (Rabs_pos_eq (/ 2)) by lra; reflexivity).
    apply Rmult_le_compat_r; [pose proof (Rabs_pos (B2R x)); lra|exact He1].
  - intros Hx. apply Rlt_le_trans with (2 * eta); [lra|]. apply round_ge_generic; [typeclasses eauto|typeclasses eauto|apply min_format|lra].
  - intros Hx. apply Rle_lt_trans with (- (2 * eta)); [|lra]. apply round_le_generic; [typeclasses eauto|typeclasses eauto|apply generic_format_opp, min_format|lra].
Qed.

Lemma abs_val (x : fl) : B2R (Babs x) = Rabs (B2R x).
Proof. apply B2R_Babs. Qed.

Lemma le_twice (x y : fl) : is_finite x = true -> is_finite y = true -> Rabs (B2R y) <= / 1024 ->
  Bleb (Babs x) (mul (Babs y) two) = Rle_bool (Rabs (B2R x)) (2 * Rabs (B2R y)).
Proof.
  intros Fx Fy H. destruct (doubled (Babs y)) as [D1 D2]; [rewrite abs_fin; exact Fy|rewrite abs_val, Rabs_Rabsolu; exact H|].
  rewrite Bleb_correct by (rewrite ?abs_fin; assumption). rewrite D2, !abs_val. reflexivity.
Qed.

(** When the real part does not dominate, the square root is NaN. *)
Theorem C109_sqrt_nan_refuted : forall z : complex fl, cfinite z -> too_small z ->
  Rabs (B2R (re z)) <= 2 * Rabs (B2R (im z)) -> 4 * eta <= Rabs (B2R (re z)) ->
  exists s, complex_sqrt FF FE z = Ok s /\ (0 < B2R (re z) -> is_nan (im s) = true) /\ (B2R (re z) < 0 -> is_nan (re s) = true).
Proof.
  intros z F H L M. eexists. split; [apply sqrt_def|]. destruct (norm2_underflow prec emax z F (proj1 H) (proj2 H)) as (s & ->).
  destruct F as [Fa Fb]. destruct H as [Ha Hb]. pose proof (small_value _ Ha) as Sa. pose proof (small_value _ Hb) as Sb.
  change (Bsqrt mode_NE (B754_zero s : fl)) with (B754_zero s : fl).
  rewrite (le_twice _ _ Fa Fb Sb), Rle_bool_true by exact L. cbn [re im].
  destruct (add_0_l prec emax (B754_zero s) (re z) eq_refl eq_refl Fa) as [A1 A2].
  assert (D : is_finite (sub (B754_zero s) (re z)) = true /\ B2R (sub (B754_zero s) (re z)) = - B2R (re z)).
  { rewrite sub_add. destruct (add_0_l prec emax (B754_zero s) (Bopp (re z)) eq_refl eq_refl) as [D1 D2]; [rewrite opp_finite; exact Fa|].
    split; [exact D1|]. rewrite D2. apply B2R_Bopp. }
  destruct D as [D1 D2].
  split; intros C.
  - rewrite Rabs_pos_eq in M by lra. destruct (halved (sub (B754_zero s) (re z)) D1) as (K1 & _ & _ & K2); [rewrite D2, Rabs_Ropp; exact Sa|].
    rewrite D2 in K2. rewrite (negative_root _ K1 (K2 ltac:(lra))). destruct (Bltb (im z) zero); reflexivity.
  - rewrite Rabs_left in M by lra. destruct (halved (add (B754_zero s) (re z)) A1) as (K1 & _ & _ & K2); [rewrite A2; exact Sa|].
    rewrite A2 in K2. rewrite (negative_root _ K1 (K2 ltac:(lra))). reflexivity.
Qed.

(** When it dominates, the larger component of the square root is at least a quarter too small, the smaller one two fifths
    too large. *)
Theorem C109_sqrt_wrong_refuted : forall z : complex fl, cfinite z -> too_small z ->
  2 * Rabs (B2R (im z)) < Rabs (B2R (re z)) -> 32 * eta <= Rabs (B2R (re z)) -> B2R (im z) = 0 \/ 1000 * eta <= Rabs (B2R (im z)) ->
  exists s, complex_sqrt FF FE z = Ok s /\ cfinite s /\
    forall p q, principal_root (B2R (re z)) (B2R (im z)) p q ->
    (0 < B2R (re z) -> B2R (re s) <= 3 / 4 * p /\ 7 / 5 * Rabs q <= Rabs (B2R (im s)))
    /\ (B2R (re z) < 0 -> Rabs (B2R (im s)) <= 3 / 4 * Rabs q /\ 7 / 5 * p <= B2R (re s)).
Proof.
  intros z F H L M1 M2. eexists. split; [apply sqrt_def|]. destruct (norm2_underflow prec emax z F (proj1 H) (proj2 H)) as (s & ->).
  destruct F as [Fa Fb]. destruct H as [Ha Hb]. pose proof (small_value _ Ha) as Sa. pose proof (small_value _ Hb) as Sb.
  change (Bsqrt mode_NE (B754_zero s : fl)) with (B754_zero s : fl).
  rewrite (le_twice _ _ Fa Fb Sb), Rle_bool_false by exact L. cbn [re im].
  set (a := B2R (re z)) in *. set (b := B2R (im z)) in *. pose proof eta_small as E. pose proof u_tiny as U.
  assert (Fa' : is_finite (Babs (re z)) = true) by (rewrite abs_fin; exact Fa).
  assert (Fb' : is_finite (Babs (im z)) = true) by (rewrite abs_fin; exact Fb).
  destruct (add_0_l prec emax (B754_zero s) (Babs (re z)) eq_refl eq_refl Fa') as [A1 A2]. rewrite abs_val in A2. fold a in A2.
  set (S := add (B754_zero s) (Babs (re z))) in *.
  destruct (halved S A1) as (K1 & K2 & K3 & _); [rewrite A2, Rabs_Rabsolu; exact Sa|]. rewrite A2, Rabs_Rabsolu in K2. rewrite A2 in K3. specialize (K3 ltac:(lra)).
  destruct (doubled S A1) as [D1 D2]; [rewrite A2, Rabs_Rabsolu; exact Sa|]. rewrite A2 in D2.
  destruct (sqrt_rel prec emax (mul S half) K1 ltac:(lra)) as (B1 & e1 & E1 & B2).
  destruct (sqrt_rel prec emax (mul S two) D1 ltac:(rewrite D2; pose proof (Rabs_pos a); lra)) as (C1 & e2 & E2 & C2).
  set (beta := Bsqrt mode_NE (mul S half)) in *. set (den := Bsqrt mode_NE (mul S two)) in *. rewrite D2 in C2.
  apply Rabs_le_inv in E1. apply Rabs_le_inv in E2. apply Rabs_le_inv in K2.
  set (r := sqrt (Rabs a)) in *. assert (Rr : r * r = Rabs a) by (apply sqrt_sqrt, Rabs_pos).
  assert (R0 : 0 < r) by (apply sqrt_lt_R0; lra).
  assert (R1 : r <= / 32) by (assert (r * r <= / 32 * / 32) by lra; nra).
  (* the larger component *)
  assert (Big : 0 <= B2R beta <= 3 / 4 * r).
  { rewrite B2. set (t := sqrt (B2R (mul S half))). assert (Tt : t * t = B2R (mul S half)) by (apply sqrt_sqrt; lra).
    assert (T0 : 0 <= t) by apply sqrt_pos. assert (u * (Rabs a / 2) <= / 2048 * (Rabs a / 2)) by (apply Rmult_le_compat_r; lra).
    assert (t * t <= 73 / 100 * r * (73 / 100 * r)) by lra. assert (t <= 73 / 100 * r) by (apply sq_le; lra). split; [apply Rmult_le_pos; lra|]. apply Rle_trans with (73 / 100 * r * (2049 / 2048)); [apply Rmult_le_compat; lra|lra]. }
  (* the denominator *)
  set (w := sqrt (2 * Rabs a)) in *. assert (Ww : w * w = 2 * Rabs a) by (apply sqrt_sqrt; lra). assert (W0 : 0 < w) by (apply sqrt_lt_R0; lra).
  assert (W1 : 1414 / 1000 * r <= w <= 1415 / 1000 * r).
  { split; apply Rnot_lt_le; intros C; [assert (w * w < 1414 / 1000 * r * (1414 / 1000 * r)) by nra|assert (1415 / 1000 * r * (1415 / 1000 * r) < w * w) by nra]; nra. }
  assert (Dp : 1413 / 1000 * r <= B2R den <= 1416 / 1000 * r) by (rewrite C2; split; [apply Rle_trans with (1414 / 1000 * r * (2047 / 2048))|apply Rle_trans with (1415 / 1000 * r * (2049 / 2048))]; try lra; apply Rmult_le_compat; lra).
  assert (Nz : B2R den <> 0) by lra.
  pose proof half_big_ge_1 as G.
  assert (Qn : 0 <= Rabs b / B2R den <= 1).
  { split; [apply Rmult_le_pos; [apply Rabs_pos|left; apply Rinv_0_lt_compat; lra]|].
    apply Rmult_le_reg_r with (B2R den); [lra|]. unfold Rdiv. rewrite Rmult_assoc, Rinv_l by exact Nz. nra. }
  destruct (div_round prec emax (Babs (im z)) den Fb' Nz) as [V1 V2]; [rewrite abs_val; fold b; rewrite Rabs_pos_eq; lra|].
  set (alpha := div (Babs (im z)) den) in *. rewrite abs_val in V2. fold b in V2.
  assert (Small : 0 <= B2R alpha /\ 14 / 10 * (Rabs b / (2 * r)) <= B2R alpha).
  { split; [rewrite V2; apply round_ge_generic; [typeclasses eauto|typeclasses eauto|apply generic_format_0|lra]|].
    destruct M2 as [Zb|M2].
    - rewrite Zb, Rabs_R0. unfold Rdiv at 2. rewrite Rmult_0_l, Rmult_0_r. rewrite V2. apply round_ge_generic; [typeclasses eauto|typeclasses eauto|apply generic_format_0|lra].
    - assert (Q1 : Rabs b / (1416 / 1000 * r) <= Rabs b / B2R den) by (apply Rmult_le_compat_l; [apply Rabs_pos|apply Rinv_le; lra]).
      assert (Q2 : Rabs b <= Rabs b / B2R den).
      { apply Rmult_le_reg_r with (B2R den); [lra|]. unfold Rdiv. rewrite Rmult_assoc, Rinv_l by exact Nz. pose proof (Rabs_pos b). nra. }
      destruct (rnd_any prec emax (Rabs b / B2R den)) as (e & h & He1 & Hh & Er). rewrite Er in V2. apply Rabs_le_inv in He1. apply Rabs_le_inv in Hh.
      set (x := Rabs b / B2R den) in *. replace (Rabs b / (1416 / 1000 * r)) with (Rabs b / (2 * r) * (2000 / 1416)) in Q1 by (field; lra).
      set (y := Rabs b / (2 * r)) in *.
      assert (0 <= x * (1 + e) - x * (2047 / 2048)) by nra. lra. }
  split; [split; cbn [re im]|].
  { destruct (Bleb zero (re z)); assumption. }
  { destruct (Bleb zero (re z)), (Bltb (im z) zero); rewrite ?opp_finite; assumption. }
  intros p q P. pose proof (root_modulus _ _ _ _ P) as N. destruct P as (P1 & P2 & P3 & P4).
  set (Z := p * p + q * q) in *. assert (Z0 : 0 <= Z) by (pose proof (Rle_0_sqr p) as X; pose proof (Rle_0_sqr q) as Y; unfold Rsqr in X, Y; unfold Z; lra).
  assert (Za : Rabs a <= Z) by (apply sq_le; [exact Z0|]; rewrite abs_sq, N; pose proof (Rle_0_sqr b) as X; unfold Rsqr in X; lra).
  assert (Qq : Rabs q * Rabs q = q * q) by apply abs_sq. pose proof (Rabs_pos q) as Q0.
  assert (Pq : 2 * (p * Rabs q) = Rabs b) by (rewrite <- P2, !Rabs_mult, (Rabs_pos_eq 2), (Rabs_pos_eq p) by lra; ring).
  assert (Oi : forall x : fl, Rabs (B2R (if Bltb (im z) zero then Bopp x else x)) = Rabs (B2R x)) by (intros x; destruct (Bltb (im z) zero); [rewrite B2R_Bopp, Rabs_Ropp|]; reflexivity).
  rewrite Oi. destruct (zero_value prec emax) as [Z1 Z2]. rewrite (Bleb_correct _ _ zero (re z) Z2 Fa), Z1. fold a.
  split; intros C.
  - rewrite Rle_bool_true by lra. rewrite (Rabs_pos_eq (B2R alpha)) by apply Small. rewrite Rabs_pos_eq in Rr, Za by lra.
    assert (Pr : r <= p) by (apply sq_le; [exact P3|unfold Z in *; lra]).
    split; [lra|]. destruct Small as [_ Sm]. replace (Rabs b / (2 * r)) with (Rabs q * (p / r)) in Sm by (rewrite <- Pq; field; lra).
    exact (scaled_up _ _ _ Q0 (ratio_ge_1 _ _ R0 Pr) Sm).
  - rewrite Rle_bool_false by lra. rewrite (Rabs_pos_eq (B2R beta)) by apply Big. rewrite Rabs_left in Rr, Za by lra.
    assert (Pr : r <= Rabs q) by (apply sq_le; [exact Q0|unfold Z in *; lra]).
    split; [lra|]. destruct Small as [_ Sm]. replace (Rabs b / (2 * r)) with (p * (Rabs q / r)) in Sm by (rewrite <- Pq; field; lra).
    exact (scaled_up _ _ _ P3 (ratio_ge_1 _ _ R0 Pr) Sm).
Qed.

(** ** The logarithm *)
(** libm's logarithm of infinity and of zero is infinite; atan2 returns. *)
Definition ln_at_ends : Prop := fn_ln libm (B754_infinity false) = Ok (B754_infinity false)
  /\ (forall s, fn_ln libm (B754_zero s) = Ok (B754_infinity true)) /\ (forall y x, exists a, fn_atan2 libm y x = Ok a).

Theorem C109_ln_infinite_refuted : ln_at_ends -> forall z : complex fl, cfinite z -> cval z <> c0 ->
  (too_large z -> exists l, complex_ln FF FE z = Ok l /\ re l = B754_infinity false)
  /\ (too_small z -> exists l, complex_ln FF FE z = Ok l /\ re l = B754_infinity true)
  /\ Rabs (ln (cnorm (cval z))) <= IZR (emax + prec).
Proof.
  intros (L1 & L2 & L3) z F NZ. destruct (L3 (im z) (re z)) as (t & T). destruct two_v as [T1 T2].
  destruct (positive_form two T1 ltac:(lra)) as (m & e & B & E).
  split; [|split].
  - intros H. pose proof (norm2_infinite z F H) as N. unfold fl_norm2 in N. unfold complex_ln, complex_sqr_norm.
    cbn -[Bplus fl_add fl_mul fl_div fl_int]. rewrite N, L1. cbn -[Bplus fl_add fl_mul fl_div fl_int]. rewrite T, E. eexists. split; reflexivity.
  - intros H. destruct (norm2_underflow prec emax z F (proj1 H) (proj2 H)) as (s & N). unfold fl_norm2 in N. unfold complex_ln, complex_sqr_norm.
    cbn -[Bplus fl_add fl_mul fl_div fl_int]. rewrite N, L2. cbn -[Bplus fl_add fl_mul fl_div fl_int]. rewrite T, E. eexists. split; reflexivity.
  - clear - F NZ Hprec Hp He. pose proof emax_big as EB.
    assert (ln2 : 0 < ln 2 <= 1).
    { split; [rewrite <- ln_1; apply ln_increasing; lra|]. rewrite <- (ln_exp 1). destruct (Req_dec (exp 1) 2) as [Q|Q]; [rewrite Q; lra|].
      left. apply ln_increasing; [lra|]. pose proof (exp_ineq1 1). lra. }
    assert (lnb : forall k, ln (bpow radix2 k) = IZR k * ln 2).
    { intros k. rewrite bpow_powerRZ. change (IZR radix2) with 2. rewrite powerRZ_Rpower by lra. unfold Rpower. apply ln_exp. }
    assert (Up : cnorm (cval z) <= bpow radix2 (emax + 1)).
    { unfold cnorm, cval; cbn [fst snd]. pose proof (below_big (re z)) as A. pose proof (below_big (im z)) as C. apply Rabs_lt_inv in A. apply Rabs_lt_inv in C.
      rewrite bpow_plus. change (bpow radix2 1) with 2. rewrite <- (sqrt_Rsqr (big * 2)) by (pose proof (bpow_gt_0 radix2 emax); lra).
      apply sqrt_le_1_alt. unfold Rsqr. nra. }
    assert (Lo : bpow radix2 (3 - emax - prec) <= cnorm (cval z)).
    { assert (G : forall x : fl, is_finite x = true -> B2R x <> 0 -> bpow radix2 (3 - emax - prec) <= Rabs (B2R x)).
      { intros x Fx Nx. destruct x as [s|s| |s m' e' B']; try discriminate; [simpl in Nx; lra|]. apply abs_B2R_ge_emin. reflexivity. }
      unfold cnorm, cval in *; cbn [fst snd] in *.
      assert (H : bpow radix2 (3 - emax - prec) <= Rabs (B2R (re z)) \/ bpow radix2 (3 - emax - prec) <= Rabs (B2R (im z))).
      { destruct F as [Fa Fb]. destruct (Req_dec (B2R (re z)) 0) as [Za|Za]; [|left; auto]. destruct (Req_dec (B2R (im z)) 0) as [Zb|Zb]; [|right; auto].
        exfalso. apply NZ. unfold c0. rewrite Za, Zb. reflexivity. }
      destruct H as [H|H]; (eapply Rle_trans; [exact H|]); rewrite <- sqrt_Rsqr_abs; apply sqrt_le_1_alt; unfold Rsqr; nra. }
    assert (P0 : 0 < bpow radix2 (3 - emax - prec)) by apply bpow_gt_0.
    pose proof (ln_mono _ _ P0 Lo) as G1. assert (P1 : 0 < cnorm (cval z)) by lra. pose proof (ln_mono _ _ P1 Up) as G2. rewrite lnb in G1, G2.
    rewrite !minus_IZR in G1. rewrite plus_IZR in *. assert (IZR 12 <= IZR emax) by (apply IZR_le; lia). assert (IZR 11 <= IZR prec) by (apply IZR_le; lia).
    apply Rabs_le. split; nra.
Qed.
End Fmt.

(** ** f32 and f64 *)
Lemma large_sq {prec emax} (z : complex (binary_float prec emax)) k : (2 * k = emax)%Z ->
  bpow radix2 k <= Rabs (B2R (re z)) \/ bpow radix2 k <= Rabs (B2R (im z)) -> too_large prec emax z.
Proof.
  intros E. assert (H : forall x, bpow radix2 k <= Rabs x -> bpow radix2 emax <= x ^ 2).
  { intros x H. replace (x ^ 2) with (Rabs x * Rabs x) by (rewrite abs_sq; ring). rewrite <- E. replace (2 * k)%Z with (k + k)%Z by lia. rewrite bpow_plus.
    pose proof (bpow_gt_0 radix2 k). apply Rmult_le_compat; lra. }
  intros [C|C]; [left|right]; apply H, C.
Qed.
Lemma small_sq {prec emax} (z : complex (binary_float prec emax)) k : (2 * k <= 2 - emax - prec)%Z ->
  Rabs (B2R (re z)) <= bpow radix2 k -> Rabs (B2R (im z)) <= bpow radix2 k -> too_small prec emax z.
Proof.
  intros E. assert (H : forall x, Rabs x <= bpow radix2 k -> x ^ 2 <= underflow_unit prec emax).
  { intros x H. replace (x ^ 2) with (Rabs x * Rabs x) by (rewrite abs_sq; ring). apply Rle_trans with (bpow radix2 (2 * k)); [|apply bpow_le, E].
    replace (2 * k)%Z with (k + k)%Z by lia. rewrite bpow_plus. pose proof (Rabs_pos x). apply Rmult_le_compat; lra. }
  intros A B. split; apply H; assumption.
Qed.

Corollary C109_sqrt_f32_f64_refuted :
  (forall (libm : FunOps f32) z, cfinite z -> bpow radix2 64 <= Rabs (B2R (re z)) \/ bpow radix2 64 <= Rabs (B2R (im z)) ->
     exists s, complex_sqrt (float_field 24 128) (float_fun 24 128 libm) z = Ok s /\ (is_finite (re s) = false \/ is_finite (im s) = false))
  /\ (forall (libm : FunOps f64) z, cfinite z -> bpow radix2 512 <= Rabs (B2R (re z)) \/ bpow radix2 512 <= Rabs (B2R (im z)) ->
     exists s, complex_sqrt f64_field (float_fun 53 1024 libm) z = Ok s /\ (is_finite (re s) = false \/ is_finite (im s) = false))
  /\ (forall (libm : FunOps f32) z, cfinite z -> bpow radix2 (-148) <= Rabs (B2R (re z)) <= bpow radix2 (-75) ->
       Rabs (B2R (re z)) / 2 <= Rabs (B2R (im z)) <= bpow radix2 (-75) ->
     exists s, complex_sqrt (float_field 24 128) (float_fun 24 128 libm) z = Ok s /\ (is_nan (re s) = true \/ is_nan (im s) = true))
  /\ (forall (libm : FunOps f64) z, cfinite z -> bpow radix2 (-1073) <= Rabs (B2R (re z)) <= bpow radix2 (-538) ->
       Rabs (B2R (re z)) / 2 <= Rabs (B2R (im z)) <= bpow radix2 (-538) ->
     exists s, complex_sqrt f64_field (float_fun 53 1024 libm) z = Ok s /\ (is_nan (re s) = true \/ is_nan (im s) = true)).
Proof.
  split; [|split; [|split]].
  - intros libm z F H. destruct (C109_sqrt_infinite_refuted 24 128 libm ltac:(lia) z F (large_sq z 64 eq_refl H)) as [(s & E & _ & _ & D) _]. eauto.
  - intros libm z F H. destruct (C109_sqrt_infinite_refuted 53 1024 libm ltac:(lia) z F (large_sq z 512 eq_refl H)) as [(s & E & _ & _ & D) _]. eauto.
  - intros libm z F [A1 A2] [B1 B2]. assert (L : Rabs (B2R (re z)) <= 2 * Rabs (B2R (im z))) by lra. assert (U : 4 * underflow_unit 24 128 = bpow radix2 (-148)) by (unfold underflow_unit; change 4 with (bpow radix2 2); rewrite <- bpow_plus; reflexivity).
    destruct (C109_sqrt_nan_refuted 24 128 libm ltac:(lia) z F (small_sq z (-75) ltac:(lia) A2 B2) L ltac:(rewrite U; exact A1)) as (s & E & P & N).
    exists s. split; [exact E|]. pose proof (bpow_gt_0 radix2 (-148)). destruct (Rtotal_order (B2R (re z)) 0) as [C|[C|C]]; [left; auto|rewrite C, Rabs_R0 in A1; lra|right; auto].
  - intros libm z F [A1 A2] [B1 B2]. assert (L : Rabs (B2R (re z)) <= 2 * Rabs (B2R (im z))) by lra. assert (U : 4 * underflow_unit 53 1024 = bpow radix2 (-1073)) by (unfold underflow_unit; change 4 with (bpow radix2 2); rewrite <- bpow_plus; reflexivity).
    destruct (C109_sqrt_nan_refuted 53 1024 libm ltac:(lia) z F (small_sq z (-538) ltac:(lia) A2 B2) L ltac:(rewrite U; exact A1)) as (s & E & P & N).
    exists s. split; [exact E|]. pose proof (bpow_gt_0 radix2 (-1073)). destruct (Rtotal_order (B2R (re z)) 0) as [C|[C|C]]; [left; auto|rewrite C, Rabs_R0 in A1; lra|right; auto].
Qed.

(** ** The hypotheses are met: sqrt(2^-600 + 2^-600 i) is NaN, sqrt(-2^-600 + 2^-602 i) is wrong, sqrt(2^600 i) is infinite, ln of both infinite. *)
Definition p2 (e : Z) : f64 := pow2 e.
Lemma p2_value e : (-700 <= e <= 700)%Z -> is_finite (p2 e) = true /\ B2R (p2 e) = bpow radix2 e.
Proof.
  intros H. pose proof (binary_normalize_correct 53 1024 f64_prec f64_emax mode_NE 1 e false) as C. cbv zeta in C.
  assert (V : F2R {| Fnum := 1; Fexp := e |} = bpow radix2 e) by (unfold F2R; cbn [Fnum Fexp]; rewrite Rmult_1_l; reflexivity).
  change (Defs.F2R (beta := radix2) {| Fnum := 1; Fexp := e |}) with (F2R (beta := radix2) {| Fnum := 1; Fexp := e |}) in C.
  rewrite V, round_generic in C; [|apply valid_rnd_round_mode|apply generic_format_bpow; unfold SpecFloat.fexp, SpecFloat.emin; lia].
  rewrite Rlt_bool_true in C; [split; apply C|]. rewrite Rabs_pos_eq by apply bpow_ge_0. apply bpow_lt. lia.
Qed.

Definition end_libm : FunOps f64 := {|
  fn_exp := fun x => Ok x; fn_sin := fun x => Ok x; fn_cos := fun x => Ok x; fn_sinh := fun x => Ok x; fn_cosh := fun x => Ok x;
  fn_ln := fun x => Ok (match x with B754_infinity false => B754_infinity false | B754_zero _ => B754_infinity true | _ => x end);
  fn_atan2 := fun y x => Ok y; fn_sqrt := fun x => Ok x; fn_abs := fun x => Ok x; fn_leb := Bleb; fn_ltb := Bltb |}.

Example C109_case :
  let E := float_fun 53 1024 end_libm in let a := Cx (p2 (-600)) (p2 (-600)) in let b := Cx (Bopp (p2 (-600))) (p2 (-602)) in let c := Cx (f64_of_Z 0) (p2 600) in
  (cfinite a /\ too_small 53 1024 a /\ Rabs (B2R (re a)) <= 2 * Rabs (B2R (im a)) /\ 4 * underflow_unit 53 1024 <= Rabs (B2R (re a)) /\ 0 < B2R (re a))
  /\ (cfinite b /\ too_small 53 1024 b /\ 2 * Rabs (B2R (im b)) < Rabs (B2R (re b)) /\ 32 * underflow_unit 53 1024 <= Rabs (B2R (re b)) /\ 1000 * underflow_unit 53 1024 <= Rabs (B2R (im b)))
  /\ (cfinite c /\ too_large 53 1024 c) /\ ln_at_ends 53 1024 end_libm
  /\ on_ok (complex_sqrt f64_field E a) (fun s => is_nan (im s)) = true
  /\ on_ok (complex_sqrt f64_field E c) (fun s => Beqb (re s) (B754_infinity false)) = true.
Proof.
  intros E a b c. destruct (p2_value (-600) ltac:(lia)) as [A1 A2]. destruct (p2_value (-602) ltac:(lia)) as [B1 B2]. destruct (p2_value 600 ltac:(lia)) as [C1 C2].
  assert (N : forall k, Rabs (bpow radix2 k) = bpow radix2 k) by (intros; apply Rabs_pos_eq, bpow_ge_0).
  assert (W : forall k j, (k + (-1075) <= j)%Z -> bpow radix2 k * underflow_unit 53 1024 <= bpow radix2 j).
  { intros k j H. unfold underflow_unit. rewrite <- bpow_plus. apply bpow_le. lia. }
  assert (H2 : forall k, 2 * bpow radix2 k = bpow radix2 (k + 1)) by (intros k; rewrite bpow_plus; change (bpow radix2 1) with 2; ring).
  pose proof (bpow_gt_0 radix2 (-600)) as P. pose proof (bpow_gt_0 radix2 (-1075)) as P'.
  unfold cfinite, ln_at_ends. repeat match goal with |- _ /\ _ => split end; unfold a, b, c; cbn [re im];
    try (rewrite ?opp_finite; assumption); try reflexivity; try (vm_compute; reflexivity).
  - apply (small_sq _ (-600)); cbn [re im]; rewrite ?A2, ?N; try apply Rle_refl. lia.
  - rewrite A2, N. lra.
  - rewrite A2, N. change 4 with (bpow radix2 2). apply W. lia.
  - rewrite A2. exact P.
  - apply (small_sq _ (-600)); cbn [re im]; rewrite ?B2R_Bopp, ?Rabs_Ropp, ?A2, ?B2, ?N; try apply Rle_refl; [lia|apply bpow_le; lia].
  - rewrite B2R_Bopp, Rabs_Ropp, A2, B2, !N, H2. apply bpow_lt. lia.
  - rewrite B2R_Bopp, Rabs_Ropp, A2, N. change 32 with (bpow radix2 5). apply W. lia.
  - rewrite B2, N. apply Rle_trans with (bpow radix2 10 * underflow_unit 53 1024); [|apply W; lia]. apply Rmult_le_compat_r; [apply bpow_ge_0|]. change (bpow radix2 10) with 1024. lra.
  - apply (large_sq (Cx (f64_of_Z 0) (p2 600)) 512 eq_refl). right. change (im (Cx (f64_of_Z 0) (p2 600))) with (p2 600). rewrite C2, N. apply bpow_le. lia.
  - intros y x. exists y. reflexivity.
Qed.

Print Assumptions C109_sqrt_infinite_refuted. Print Assumptions C109_sqrt_nan_refuted. Print Assumptions C109_sqrt_wrong_refuted.
Print Assumptions C109_ln_infinite_refuted. Print Assumptions C109_sqrt_f32_f64_refuted. Print Assumptions C109_case.
