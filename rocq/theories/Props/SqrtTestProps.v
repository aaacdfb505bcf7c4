(** Property C89: squaring the square root of a Complex<f32> or Complex<f64> gives the argument
    back up to 8 units of roundoff (4 machine epsilons), and the crate's own randomized test of
    [sqrt] can never fail. *)
From Coq Require Import List ZArith Reals Bool Lia Lra Psatz.
From Flocq Require Import Core.Core IEEE754.BinarySingleNaN Mult_error.
From Verif Require Import Base.Outcome Model.Traits Model.Float Model.Complex Spec.FloatErr
  Proofs.FloatErr Proofs.FloatRound Proofs.FloatRange Proofs.FloatSqrt Proofs.SqrtTest Proofs.SqrtTestFloat Proofs.SqrtTestFloat2
  Props.FloatRangeProps Props.FloatSqrtProps.
Local Open Scope R_scope.

(** The distance of two complex numbers given by their parts. *)
Definition distance (a b c d : R) : R := sqrt ((a - c) * (a - c) + (b - d) * (b - d)).

Section Fmt.
Context (prec emax : Z) {Hp : Prec_gt_0 prec} {He : Prec_lt_emax prec emax} (libm : FunOps (binary_float prec emax)).
Notation fl := (binary_float prec emax).
Notation FF := (float_field prec emax).
Notation FR := (float_ring prec emax).
Notation FE := (float_fun prec emax libm).
Notation u := (unit_roundoff prec).
Notation add := (fl_add prec emax). Notation sub := (fl_sub prec emax).
Notation mul := (fl_mul prec emax). Notation div := (fl_div prec emax).

(** EPSILON: the distance from 1 to the next number, 2^(1-prec) = 2u. *)
Definition fl_epsilon : fl := binary_normalize prec emax Hp He mode_NE 1 (1 - prec) false.

(** complex.rs lines 660-669: the body of the loop of [test_sqrt_complex_f32]; the result says
    whether both assertions hold. *)
Definition sqrt_test (z : complex fl) : outcome bool :=
  s <- complex_sqrt FF FE z ;;
  ss <- complex_mul FR s s ;;
  d <- complex_sub (r_sub FR) z ss ;;
  error <- complex_abs FF FE d ;;
  a <- complex_abs FF FE z ;;
  e4 <- r_mul FR (fl_int prec emax 4) fl_epsilon ;;
  tolerance <- r_mul FR e4 a ;;
  Ok (Bleb (fl_int prec emax 0) (re s) && Bleb error tolerance).

Lemma mul_zero (x y : fl) : is_finite x = true -> is_finite y = true -> B2R x = 0 -> is_finite (mul x y) = true /\ B2R (mul x y) = 0.
Proof. intros Fx Fy E. exact (mul_0_l prec emax x y E Fx Fy). Qed.

(** Everything about the squared root. *)
Lemma squared_root k (z : complex fl) : (24 <= prec)%Z -> (0 <= k)%Z -> (3 * k + 20 <= emax)%Z -> within k (re z) -> within k (im z) ->
  exists s w, complex_sqrt FF FE z = Ok s /\ complex_mul FR s s = Ok w
  /\ is_finite (re s) = true /\ 0 <= B2R (re s) /\ is_finite (re w) = true /\ is_finite (im w) = true
  /\ (B2R (re w) - B2R (re z)) * (B2R (re w) - B2R (re z)) + (B2R (im w) - B2R (im z)) * (B2R (im w) - B2R (im z))
     <= 6325 / 100 * (u * u) * (B2R (re z) * B2R (re z) + B2R (im z) * B2R (im z)).
Proof.
  intros Hprec Hk0 Hk3 Ha Hb. destruct z as [a b]. cbn [re im] in *.
  pose proof (Hk2 emax k Hk0 Hk3) as Hk. pose proof (Hp11 prec Hprec) as H11.
  destruct (twice_exact prec emax k b Hk0 Hk H11 Hb) as [Ft Et].
  assert (Ra : in_range prec emax k a).
  { split; [exact (proj1 Ha)|]. rewrite <- bpow_opp. exact (proj2 Ha). }
  assert (Rb : in_range prec emax k b).
  { split; [exact (proj1 Hb)|]. rewrite <- bpow_opp. exact (proj2 Hb). }
  destruct (Z_facts prec emax k Hk0 Hk a b Ra Rb) as (Z0 & Z2 & _ & _ & Z1).
  set (Z := sqrt (B2R a * B2R a + B2R b * B2R b)) in *.
  destruct Z1 as [Z1|Z1].
  - (* z = 0 *)
    assert (N0 : B2R a * B2R a + B2R b * B2R b = 0) by (rewrite <- Z2, Z1; ring).
    assert (Za : B2R a = 0) by nra. assert (Zb : B2R b = 0) by nra.
    destruct (C72_sqrt_accurate prec emax libm k (Cx a b) H11 Hk0 Hk Ha Hb) as (s & p & q & Es & (P1 & P2 & _) & Fr & Hr & Fi & Hi).
    cbn [re im] in *. rewrite Za in P1. rewrite Zb in P2.
    assert (PQ : p * q = 0) by lra. assert (p = 0) by (apply Rmult_integral in PQ; destruct PQ as [PQ|PQ]; [exact PQ|rewrite PQ in P1; nra]).
    assert (q = 0) by (subst p; nra). subst p q.
    rewrite Rabs_R0, Rminus_0_r, Rmult_0_r in Hr, Hi.
    assert (E1 : B2R (re s) = 0) by (apply Rabs_le_inv in Hr; lra). assert (E2 : B2R (im s) = 0) by (apply Rabs_le_inv in Hi; lra).
    exists s. eexists. split; [exact Es|]. split; [reflexivity|]. cbn [re im complex_new].
    destruct (mul_zero (re s) (re s) Fr Fr E1) as [F1 V1]. destruct (mul_zero (im s) (im s) Fi Fi E2) as [F2 V2].
    destruct (mul_zero (re s) (im s) Fr Fi E1) as [F3 V3]. destruct (mul_zero (im s) (re s) Fi Fr E2) as [F4 V4].
    destruct (sub_rel prec emax _ _ F1 F2) as (F5 & e5 & _ & V5). { rewrite V1, V2, Rminus_0_r, Rabs_R0. apply bpow_ge_0. }
    destruct (add_rel prec emax _ _ F3 F4) as (F6 & e6 & _ & V6). { rewrite V3, V4, Rplus_0_r, Rabs_R0. apply bpow_ge_0. }
    split; [exact Fr|]. split; [lra|]. split; [exact F5|]. split; [exact F6|].
    rewrite V5, V6, V1, V2, V3, V4, Za, Zb. lra.
  - assert (Zp : 0 < Z) by (pose proof (bpow_gt_0 radix2 k) as HQ; apply Rinv_0_lt_compat in HQ; lra).
    set (one := fl_int prec emax 1) in *. set (two := add one one) in *.
    set (A := Bsqrt mode_NE (fl_norm2 prec emax a b)).
    assert (Fin : forall r i : fl, squares_to prec emax (B2R a) (Rabs (B2R b)) Z r i ->
      exists s w, bind (if Bltb b (fl_int prec emax 0) then Ok (Bopp i) else Ok i) (fun i' => Ok (complex_new r i')) = Ok s
      /\ complex_mul FR s s = Ok w
      /\ is_finite (re s) = true /\ 0 <= B2R (re s) /\ is_finite (re w) = true /\ is_finite (im w) = true
      /\ (B2R (re w) - B2R a) * (B2R (re w) - B2R a) + (B2R (im w) - B2R b) * (B2R (im w) - B2R b)
         <= 6325 / 100 * (u * u) * (B2R a * B2R a + B2R b * B2R b)).
    { intros r i (Fr & r0 & Fi & i0 & G).
      rewrite (Bltb_correct prec emax b (fl_int prec emax 0) (proj1 Hb) eq_refl). change (B2R (fl_int prec emax 0)) with 0.
      assert (Out : forall sg (j : fl), (sg = 1 \/ sg = -1) -> is_finite j = true -> B2R j = sg * B2R i -> sg * Rabs (B2R b) = B2R b ->
        exists s w, Ok (complex_new r j) = Ok s /\ complex_mul FR s s = Ok w
        /\ is_finite (re s) = true /\ 0 <= B2R (re s) /\ is_finite (re w) = true /\ is_finite (im w) = true
        /\ (B2R (re w) - B2R a) * (B2R (re w) - B2R a) + (B2R (im w) - B2R b) * (B2R (im w) - B2R b)
           <= 6325 / 100 * (u * u) * (B2R a * B2R a + B2R b * B2R b)).
      { intros sg j Hs Fj Ej Eb. destruct (G sg j Hs Fj Ej) as (F1 & F2 & c & d & Hc & Hd & c0 & d0 & Hcd).
        eexists. eexists. split; [reflexivity|]. split; [reflexivity|]. cbn [re im complex_new].
        split; [exact Fr|]. split; [exact r0|]. split; [exact F1|]. split; [exact F2|].
        set (V := B2R (sub (mul r r) (mul j j))) in *. set (I := B2R (add (mul r j) (mul j r))) in *.
        assert (Hd' : Rabs (I - B2R b) <= d * u * Z).
        { replace (I - B2R b) with (sg * (sg * I - Rabs (B2R b))).
          - rewrite Rabs_mult, (abs_sign sg Hs). lra.
          - rewrite Rmult_minus_distr_l, Eb. destruct Hs; subst sg; ring. }
        assert (SQ : forall x y, Rabs x <= y -> x * x <= y * y).
        { intros x y H. rewrite (abs_sq x). pose proof (Rabs_pos x). apply Rmult_le_compat; assumption. }
        apply SQ in Hc, Hd'. rewrite <- Z2.
        apply Rle_trans with ((c * c + d * d) * ((u * u) * (Z * Z))); [lra|].
        replace (6325 / 100 * (u * u) * (Z * Z)) with (6325 / 100 * ((u * u) * (Z * Z))) by ring.
        apply Rmult_le_compat_r; [|exact Hcd]. apply Rmult_le_pos; nra. }
      destruct (Rlt_dec (B2R b) 0) as [S|S].
      - rewrite Rlt_bool_true by exact S. cbn [bind]. apply (Out (-1)); [right; reflexivity|rewrite opp_finite; exact Fi|rewrite B2R_Bopp; ring|].
        rewrite Rabs_left by exact S. ring.
      - rewrite Rlt_bool_false by lra. cbn [bind]. apply (Out 1); [left; reflexivity|exact Fi|ring|].
        rewrite Rabs_pos_eq by lra. ring. }
    unfold complex_sqrt.
    cbn [r_add r_sub r_mul r_one r_zero r_neg f_ring f_div float_field float_ring fn_abs fn_leb fn_ltb fn_sqrt float_fun bind re im].
    unfold complex_abs_ref, complex_sqr_norm.
    cbn [r_add r_sub r_mul r_one r_zero r_neg f_ring f_div float_field float_ring fn_abs fn_leb fn_ltb fn_sqrt float_fun bind re im].
    fold one. fold two. change (add (mul a a) (mul b b)) with (fl_norm2 prec emax a b). fold A.
    rewrite (Bleb_correct prec emax (Babs a)) by (rewrite ?is_finite_Babs; try exact (proj1 Ha); exact Ft).
    rewrite B2R_Babs. fold one in Et. fold two in Et. rewrite Et.
    destruct (Rle_dec (Rabs (B2R a)) (2 * Rabs (B2R b))) as [H|H].
    + rewrite Rle_bool_true by exact H. cbn [bind]. apply Fin.
      exact (squares1 prec emax Hprec k Hk0 Hk3 a b Ra Rb H Zp).
    + rewrite Rle_bool_false by lra.
      destruct (squares2 prec emax Hprec k Hk0 Hk3 a b Ra Rb ltac:(lra)) as [G1 G2].
      rewrite (Bleb_correct prec emax (fl_int prec emax 0) a eq_refl (proj1 Ha)). change (B2R (fl_int prec emax 0)) with 0.
      destruct (Rle_dec 0 (B2R a)) as [S|S].
      * rewrite Rle_bool_true by exact S. cbn [bind]. apply Fin, G1, S.
      * rewrite Rle_bool_false by lra. cbn [bind]. apply Fin, G2. lra.
Qed.

(** The computed square of the computed root is within 8u |z| of z. *)
Theorem C89_sqrt_squared : forall k (z : complex fl),
  (24 <= prec)%Z -> (0 <= k)%Z -> (3 * k + 20 <= emax)%Z -> within k (re z) -> within k (im z) ->
  exists s w, complex_sqrt FF FE z = Ok s /\ complex_mul FR s s = Ok w
  /\ 0 <= B2R (re s) /\ is_finite (re w) = true /\ is_finite (im w) = true
  /\ distance (B2R (re w)) (B2R (im w)) (B2R (re z)) (B2R (im z)) <= 8 * u * distance (B2R (re z)) (B2R (im z)) 0 0.
Proof.
  intros k z Hprec Hk0 Hk3 Ha Hb.
  destruct (squared_root k z Hprec Hk0 Hk3 Ha Hb) as (s & w & E1 & E2 & _ & S0 & F1 & F2 & H).
  exists s, w. repeat (split; [assumption|]). unfold distance. rewrite !Rminus_0_r.
  set (N := B2R (re z) * B2R (re z) + B2R (im z) * B2R (im z)) in *. assert (N0 : 0 <= N) by (unfold N; nra).
  pose proof (u_pos prec) as U. rewrite <- (sqrt_square (8 * u)) by lra. rewrite <- sqrt_mult by nra.
  apply sqrt_le_1_alt. eapply Rle_trans; [exact H|]. apply Rmult_le_compat_r; [exact N0|]. nra.
Qed.

(** The modulus of a difference, computed with possible underflow. *)
Lemma computed_norm (x y : fl) : is_finite x = true -> is_finite y = true -> u <= 1 / 16000000 -> underflow_unit prec emax <= 1 ->
  4 * (B2R x * B2R x + B2R y * B2R y) + 4 <= half_big emax ->
  let e := Bsqrt mode_NE (fl_norm2 prec emax x y) in
  is_finite e = true
  /\ B2R e * B2R e <= (1 + 5 * u) * (B2R x * B2R x + B2R y * B2R y + 2 * underflow_unit prec emax).
Proof.
  intros Fx Fy U1 T1 B e. pose proof (u_pos prec) as U0. set (t := underflow_unit prec emax) in *.
  assert (t0 : 0 <= t) by apply bpow_ge_0.
  assert (P : forall v : fl, is_finite v = true -> 4 * (B2R v * B2R v) <= half_big emax ->
     is_finite (mul v v) = true /\ 0 <= B2R (mul v v) <= B2R v * B2R v * (1 + u) + t).
  { intros v Fv Bv. destruct (mul_round prec emax v v Fv Fv) as [F E]. { rewrite Rabs_pos_eq by nra. nra. }
    split; [exact F|]. split.
    - rewrite E. apply round_ge_generic; [apply fexp_correct; exact Hp|apply valid_rnd_round_mode|apply generic_format_0|nra].
    - rewrite E. destruct (rnd_any prec emax (B2R v * B2R v)) as (e1 & h & H1 & H2 & ->). apply Rabs_le_inv in H1, H2. fold t in H2.
      assert (B2R v * B2R v * (1 + e1) <= B2R v * B2R v * (1 + u)) by (apply Rmult_le_compat_l; nra). lra. }
  assert (x2 : 0 <= B2R x * B2R x) by nra. assert (y2 : 0 <= B2R y * B2R y) by nra.
  destruct (P x Fx ltac:(lra)) as [F1 B1]. destruct (P y Fy ltac:(lra)) as [F2 B2].
  set (N := B2R x * B2R x + B2R y * B2R y) in *.
  assert (S : 0 <= B2R (mul x x) + B2R (mul y y) <= N * (1 + u) + 2 * t) by (unfold N; lra).
  destruct (add_rel prec emax _ _ F1 F2) as (F3 & e3 & H3 & E3).
  { rewrite Rabs_pos_eq by lra. assert (N * (1 + u) <= N * 2) by (apply Rmult_le_compat_l; unfold N; lra). lra. }
  change (add (mul x x) (mul y y)) with (fl_norm2 prec emax x y) in *.
  apply Rabs_le_inv in H3. set (n := B2R (mul x x) + B2R (mul y y)) in *.
  assert (n0 : 0 <= B2R (fl_norm2 prec emax x y) <= (N * (1 + u) + 2 * t) * (1 + u)).
  { rewrite E3. split; [apply Rmult_le_pos; lra|]. apply Rmult_le_compat; lra. }
  destruct (sqrt_rel prec emax _ F3 (proj1 n0)) as (F4 & e4 & H4 & E4). fold e in F4, E4. split; [exact F4|].
  rewrite E4. set (q := sqrt (B2R (fl_norm2 prec emax x y))) in *. assert (qq : q * q = B2R (fl_norm2 prec emax x y)) by (apply sqrt_sqrt, n0).
  replace (q * (1 + e4) * (q * (1 + e4))) with (B2R (fl_norm2 prec emax x y) * ((1 + e4) * (1 + e4))) by (rewrite <- qq; ring).
  apply Rabs_le_inv in H4. assert (K : (1 + e4) * (1 + e4) <= (1 + u) * (1 + u)) by (apply Rmult_le_compat; lra).
  apply Rle_trans with ((N * (1 + u) + 2 * t) * (1 + u) * ((1 + u) * (1 + u))); [apply Rmult_le_compat; nra|].
  assert (N0 : 0 <= N) by (unfold N; lra). clearbody N t. clear - U0 U1 N0 t0.
  assert (C : (1 + u) * ((1 + u) * ((1 + u) * (1 + u))) <= 1 + 5 * u) by nra.
  assert (C' : (1 + u) * ((1 + u) * (1 + u)) <= 1 + 5 * u) by nra.
  replace ((N * (1 + u) + 2 * t) * (1 + u) * ((1 + u) * (1 + u)))
    with (N * ((1 + u) * ((1 + u) * ((1 + u) * (1 + u)))) + 2 * t * ((1 + u) * ((1 + u) * (1 + u)))) by ring.
  replace ((1 + 5 * u) * (N + 2 * t)) with (N * (1 + 5 * u) + 2 * t * (1 + 5 * u)) by ring.
  apply Rplus_le_compat; apply Rmult_le_compat_l; lra.
Qed.

Lemma epsilon_value : (2 <= prec)%Z -> is_finite fl_epsilon = true /\ B2R fl_epsilon = 2 * u.
Proof.
  intros H. pose proof (binary_normalize_correct prec emax Hp He mode_NE 1 (1 - prec) false) as C.
  assert (E : F2R (Float radix2 1 (1 - prec)) = 2 * u).
  { unfold F2R. cbn [Fnum Fexp]. unfold unit_roundoff. rewrite Rmult_1_l. change 2 with (bpow radix2 1). rewrite <- bpow_plus. f_equal. }
  cbv zeta in C. rewrite E in C. assert (G : generic_format radix2 (SpecFloat.fexp prec emax) (2 * u)).
  { unfold unit_roundoff. change 2 with (bpow radix2 1). rewrite <- bpow_plus. apply generic_format_bpow.
    unfold SpecFloat.fexp, SpecFloat.emin. unfold Prec_lt_emax in He. lia. }
  rewrite (round_generic _ _ (round_mode mode_NE) _ G) in C. rewrite Rlt_bool_true in C.
  - destruct C as (V & F & _). split; [exact F|exact V].
  - unfold unit_roundoff. rewrite Rabs_pos_eq by (pose proof (bpow_ge_0 radix2 (- prec)); lra).
    change 2 with (bpow radix2 1). rewrite <- bpow_plus. apply bpow_lt. unfold Prec_lt_emax in He. lia.
Qed.
Lemma four_value : (3 <= prec)%Z -> is_finite (fl_int prec emax 4) = true /\ B2R (fl_int prec emax 4) = 4.
Proof.
  intros H. apply (FloatInt.fl_int_exact prec emax 4). simpl Z.abs. change 4%Z with (2 ^ 2)%Z. apply Z.pow_le_mono_r; lia.
Qed.

(** Multiplying by 8u, a power of two, is exact above the underflow range. *)
Lemma tolerance_exact (a : fl) : (24 <= prec)%Z -> (prec + 20 <= emax)%Z -> is_finite a = true ->
  bpow radix2 (prec - emax) <= Rabs (B2R a) ->
  is_finite (mul (mul (fl_int prec emax 4) fl_epsilon) a) = true /\ B2R (mul (mul (fl_int prec emax 4) fl_epsilon) a) = 8 * u * B2R a.
Proof.
  intros Hprec Hx F L. destruct (epsilon_value ltac:(lia)) as [F1 V1]. destruct (four_value ltac:(lia)) as [F2 V2].
  assert (E8 : 8 * u = bpow radix2 (3 - prec)).
  { unfold unit_roundoff. change 8 with (bpow radix2 3). rewrite <- bpow_plus. reflexivity. }
  assert (B8 : 0 < 8 * u <= 1) by (rewrite E8; split; [apply bpow_gt_0|change 1 with (bpow radix2 0); apply bpow_le; lia]).
  assert (H1 : 1 <= half_big emax) by (unfold half_big; change 1 with (bpow radix2 0); apply bpow_le; lia).
  assert (V3 : is_finite (mul (fl_int prec emax 4) fl_epsilon) = true /\ B2R (mul (fl_int prec emax 4) fl_epsilon) = 8 * u).
  { destruct (mul_round prec emax _ _ F2 F1) as [F3 E3]. { rewrite V1, V2. replace (4 * (2 * u)) with (8 * u) by ring. rewrite Rabs_pos_eq by lra. lra. }
    split; [exact F3|]. rewrite E3, V1, V2. replace (4 * (2 * u)) with (8 * u) by ring.
    apply round_generic; [apply valid_rnd_round_mode|]. rewrite E8. apply generic_format_bpow.
    unfold SpecFloat.fexp, SpecFloat.emin. lia. }
  destruct V3 as [F3 V3].
  assert (G : generic_format radix2 (SpecFloat.fexp prec emax) (8 * u * B2R a)).
  { rewrite E8, Rmult_comm. apply (mult_bpow_exact_FLT radix2 (SpecFloat.emin prec emax) prec); [apply generic_format_B2R|].
    assert (prec - emax + 1 <= mag radix2 (B2R a))%Z by (apply mag_ge_bpow; replace (prec - emax + 1 - 1)%Z with (prec - emax)%Z by ring; exact L).
    unfold SpecFloat.emin. lia. }
  pose proof (Bmult_correct prec emax Hp He mode_NE (mul (fl_int prec emax 4) fl_epsilon) a) as C.
  rewrite V3, (round_generic _ _ _ _ G), Rlt_bool_true in C.
  - destruct C as (V & F4 & _). rewrite F3, F in F4. split; [exact F4|exact V].
  - rewrite Rabs_mult, (Rabs_pos_eq (8 * u)) by lra. pose proof (abs_B2R_lt_emax prec emax a). pose proof (Rabs_pos (B2R a)). nra.
Qed.

(** The test passes. *)
Theorem C89_sqrt_test_passes : forall k (z : complex fl),
  (24 <= prec)%Z -> (0 <= k)%Z -> (3 * k + 20 <= emax)%Z -> (prec + 2 * k + 20 <= emax)%Z ->
  within k (re z) -> within k (im z) -> sqrt_test z = Ok true.
Proof.
  intros k z Hprec Hk0 Hk3 Hk4 Ha Hb.
  destruct (squared_root k z Hprec Hk0 Hk3 Ha Hb) as (s & w & E1 & E2 & Fs & S0 & F1 & F2 & H).
  pose proof (u_tiny prec Hprec) as U. pose proof (Hk2 emax k Hk0 Hk3) as Hk.
  pose proof (Q_facts emax k Hk0 Hk) as (Q1 & Q2 & Q4 & L0). pose proof (Q3 emax k Hk0 Hk3) as [_ Q5].
  destruct z as [a b]. cbn [re im] in *.
  assert (Ra : in_range prec emax k a).
  { split; [exact (proj1 Ha)|]. rewrite <- bpow_opp. exact (proj2 Ha). }
  assert (Rb : in_range prec emax k b).
  { split; [exact (proj1 Hb)|]. rewrite <- bpow_opp. exact (proj2 Hb). }
  destruct (Z_facts prec emax k Hk0 Hk a b Ra Rb) as (Z0 & Z2 & Zx & Zy & Z1).
  destruct (abs_square prec emax Hprec k Hk0 Hk3 a b Ra Rb) as (FA & A0 & SA).
  set (Z := sqrt (B2R a * B2R a + B2R b * B2R b)) in *. rewrite <- Z2 in H.
  set (A := Bsqrt mode_NE (fl_norm2 prec emax a b)) in *.
  set (Q := bpow radix2 k) in *.
  (* the differences *)
  set (dx := B2R (re w) - B2R a) in *. set (dy := B2R (im w) - B2R b) in *.
  assert (UU : 0 <= u * u) by nra. assert (ZZ : 0 <= Z * Z) by nra. assert (UZ : 0 <= u * u * (Z * Z)) by (apply Rmult_le_pos; assumption).
  assert (D1 : forall v, v * v <= 6325 / 100 * (u * u) * (Z * Z) -> Rabs v <= Q).
  { intros v Hv. assert (u * u * (Z * Z) <= 1 / 16000000 * (Q * Q)).
    { apply Rle_trans with (1 / 64000000 * (Z * Z)); [apply Rmult_le_compat_r; [exact ZZ|nra]|nra]. }
    pose proof (Rabs_pos v). pose proof (abs_sq v) as Ev. apply sq_le; [assumption|lra|]. lra. }
  assert (G1 : Rabs dx <= Q) by (apply D1; nra). assert (G2 : Rabs dy <= Q) by (apply D1; nra).
  assert (Half : forall v, Rabs v <= Q -> Rabs (- v) <= half_big emax) by (intros v Hv; rewrite Rabs_Ropp; nra).
  destruct (sub_rel prec emax a (re w) (proj1 Ha) F1) as (Fx & ex & Hex & Vx).
  { replace (B2R a - B2R (re w)) with (- dx) by (unfold dx; ring). apply Half, G1. }
  destruct (sub_rel prec emax b (im w) (proj1 Hb) F2) as (Fy & ey & Hey & Vy).
  { replace (B2R b - B2R (im w)) with (- dy) by (unfold dy; ring). apply Half, G2. }
  assert (SQ : forall e d v, Rabs e <= u -> v = - d * (1 + e) -> v * v <= d * d * (1 + 3 * u)).
  { intros e d v He' ->. apply Rabs_le_inv in He'. replace (- d * (1 + e) * (- d * (1 + e))) with (d * d * ((1 + e) * (1 + e))) by ring.
    apply Rmult_le_compat_l; [nra|]. nra. }
  pose proof (SQ ex dx (B2R (sub a (re w))) Hex ltac:(rewrite Vx; unfold dx; ring)) as Sx.
  pose proof (SQ ey dy (B2R (sub b (im w))) Hey ltac:(rewrite Vy; unfold dy; ring)) as Sy.
  set (x := sub a (re w)) in *. set (y := sub b (im w)) in *.
  assert (SS : B2R x * B2R x + B2R y * B2R y <= 633 / 10 * (u * u * (Z * Z))) by nra.
  assert (TU : underflow_unit prec emax * (64 * 1024) * (Q * Q) <= u * u).
  { unfold underflow_unit, unit_roundoff, Q. change (64 * 1024)%R with (IZR 64 * IZR 1024)%R. rewrite <- mult_IZR. change (IZR (64 * 1024)) with (bpow radix2 16).
    rewrite <- !bpow_plus. apply bpow_le. lia. }
  assert (T0 : 0 <= underflow_unit prec emax) by apply bpow_ge_0.
  assert (QQ : 1 <= Q * Q) by nra.
  destruct (computed_norm x y Fx Fy (proj2 U)) as [Fe Se].
  { assert (u * u <= 1) by nra. nra. }
  { assert (u * u * (Z * Z) <= 1 / 1000 * (Z * Z)) by (apply Rmult_le_compat_r; [exact ZZ|nra]). nra. }
  set (e := Bsqrt mode_NE (fl_norm2 prec emax x y)) in *.
  (* the program *)
  unfold sqrt_test. rewrite E1. cbn [bind]. rewrite E2. cbn [bind].
  unfold complex_sub, complex_abs, complex_sqr_norm.
  cbn [r_add r_sub r_mul f_ring float_field float_ring fn_sqrt float_fun bind re im complex_new].
  change (add (mul a a) (mul b b)) with (fl_norm2 prec emax a b). fold A x y.
  change (add (mul x x) (mul y y)) with (fl_norm2 prec emax x y). fold e.
  rewrite (Bleb_correct prec emax (fl_int prec emax 0) (re s) eq_refl Fs). change (B2R (fl_int prec emax 0)) with 0.
  rewrite Rle_bool_true by exact S0. cbn [andb].
  destruct Z1 as [Z1|Z1].
  - (* z = 0: nothing but zeros *)
    assert (Za : B2R a = 0) by (rewrite Z1 in Zx; apply Rabs_le_inv in Zx; lra).
    assert (Zb : B2R b = 0) by (rewrite Z1 in Zy; apply Rabs_le_inv in Zy; lra).
    rewrite Z1 in H, SS, SA. rewrite !Rmult_0_r in SS. rewrite !Rmult_0_r in H.
    assert (X0 : B2R x = 0) by nra. assert (Y0 : B2R y = 0) by nra.
    destruct (mul_zero x x Fx Fx X0) as [F3 V3]. destruct (mul_zero y y Fy Fy Y0) as [F4 V4].
    destruct (add_rel prec emax _ _ F3 F4) as (F5 & e5 & _ & V5). { rewrite V3, V4, Rplus_0_r, Rabs_R0. apply bpow_ge_0. }
    rewrite V3, V4 in V5. change (add (mul x x) (mul y y)) with (fl_norm2 prec emax x y) in F5, V5.
    destruct (sqrt_rel prec emax _ F5 ltac:(lra)) as (_ & e6 & _ & V6). fold e in V6.
    replace (B2R (fl_norm2 prec emax x y)) with 0 in V6 by lra. rewrite sqrt_0 in V6.
    assert (VA : B2R A = 0) by (apply Rabs_le_inv in SA; nra).
    destruct (epsilon_value ltac:(lia)) as [F6 W6]. destruct (four_value ltac:(lia)) as [F7 W7].
    destruct (mul_round prec emax _ _ F7 F6) as [F8 _]. { rewrite W6, W7, Rabs_pos_eq by lra. nra. }
    destruct (mul_round prec emax (mul (fl_int prec emax 4) fl_epsilon) A F8 FA) as [F9 W9]. { rewrite VA, Rmult_0_r, Rabs_R0. apply bpow_ge_0. }
    rewrite VA, Rmult_0_r, round_0 in W9 by apply valid_rnd_round_mode.
    rewrite (Bleb_correct prec emax _ _ Fe F9). rewrite W9, V6, Rle_bool_true by lra. reflexivity.
  - assert (iQ : 0 < / Q) by (apply Rinv_0_lt_compat; lra). assert (Zp : 0 < Z) by lra.
    pose proof (A_near u (proj1 U) (proj2 U) Z (B2R A) Zp A0 SA) as NA.
    assert (NA' : 999 / 1000 * Z <= B2R A) by nra.
    destruct (tolerance_exact A Hprec ltac:(lia) FA) as [Ft Vt].
    { rewrite Rabs_pos_eq by exact A0. apply Rle_trans with (1 / 2 * / Q); [|lra].
      unfold Q. rewrite <- bpow_opp. replace (1 / 2) with (bpow radix2 (-1)) by (simpl; lra). rewrite <- bpow_plus. apply bpow_le. lia. }
    rewrite (Bleb_correct prec emax _ _ Fe Ft), Vt, Rle_bool_true; [reflexivity|].
    assert (TZ : 2 * underflow_unit prec emax <= 1 / 10 * (u * u * (Z * Z))).
    { assert (1 <= Q * Q * (Z * Z)).
      { replace 1 with (Q * / Q * (Q * / Q)) by (field; lra). replace (Q * Q * (Z * Z)) with (Q * Z * (Q * Z)) by ring.
        apply Rmult_le_compat; nra. }
      assert (underflow_unit prec emax * (64 * 1024) * (Q * Q) * (Z * Z) <= u * u * (Z * Z)) by (apply Rmult_le_compat_r; assumption).
      assert (underflow_unit prec emax * 1 <= underflow_unit prec emax * (Q * Q * (Z * Z))) by (apply Rmult_le_compat_l; assumption). lra. }
    assert (L1 : B2R e * B2R e <= 635 / 10 * (u * u * (Z * Z))).
    { eapply Rle_trans; [exact Se|]. apply Rle_trans with ((1 + 5 * u) * (634 / 10 * (u * u * (Z * Z)))); [apply Rmult_le_compat_l; lra|]. nra. }
    assert (L2 : 639 / 10 * (u * u * (Z * Z)) <= 8 * u * B2R A * (8 * u * B2R A)).
    { apply Rabs_le_inv in SA. replace (8 * u * B2R A * (8 * u * B2R A)) with (64 * (u * u) * (B2R A * B2R A)) by ring.
      assert (9999 / 10000 * (Z * Z) <= B2R A * B2R A) by nra.
      assert (64 * (u * u) * (9999 / 10000 * (Z * Z)) <= 64 * (u * u) * (B2R A * B2R A)) by (apply Rmult_le_compat_l; lra). lra. }
    assert (R0 : 0 <= 8 * u * B2R A) by nra.
    destruct (Rle_or_lt 0 (B2R e)) as [e0|e0]; [|lra]. apply sq_le; [exact e0|exact R0|lra].
Qed.
End Fmt.

(** The test of the repository: [rng.gen_range(-5f32..5f32)] yields numbers of magnitude at most 5
    that are zero or not smaller than 2^-36 (the generator itself is not modelled); and the same
    test for f64. *)
Corollary C89_repo_test : forall libm (z : complex f32),
  within 36 (re z) -> within 36 (im z) -> sqrt_test 24 128 libm z = Ok true.
Proof. intros libm z Ha Hb. apply (C89_sqrt_test_passes 24 128 libm 36); try lia; assumption. Qed.
Corollary C89_repo_test_f64 : forall libm (z : complex f64),
  within 334 (re z) -> within 334 (im z) -> sqrt_test 53 1024 libm z = Ok true.
Proof. intros libm z Ha Hb. apply (C89_sqrt_test_passes 53 1024 libm 334); try lia; assumption. Qed.

(** The range matters: far below it the test fails (the square underflows). *)
Theorem C89_tiny_refuted : forall libm,
  sqrt_test 24 128 libm (Cx (binary_normalize 24 128 _ _ mode_NE 1 (-140) false) (binary_normalize 24 128 _ _ mode_NE 3 (-140) false)) = Ok false.
Proof. intros libm. vm_compute. reflexivity. Qed.

(** A concrete case: -3 + i/3 in f32 (second branch), -1/3 + i (first branch). *)
Example C89_case :
  sqrt_test 24 128 (float_fun 24 128 {| fn_exp := Ok; fn_sin := Ok; fn_cos := Ok; fn_sinh := Ok; fn_cosh := Ok; fn_ln := Ok;
     fn_atan2 := fun x _ => Ok x; fn_sqrt := Ok; fn_abs := Ok; fn_leb := Bleb; fn_ltb := Bltb |})
    (Cx (f32_of_Z (-3)) (fl_div 24 128 (f32_of_Z 1) (f32_of_Z 3))) = Ok true
  /\ within 36 (f32_of_Z (-3)) /\ within 36 (f32_of_Z 1).
Proof.
  split; [vm_compute; reflexivity|].
  assert (E : bpow radix2 (- (36)) <= 1) by (change 1 with (bpow radix2 0); apply bpow_le; lia).
  assert (G : 4 <= bpow radix2 36) by (change 4 with (bpow radix2 2); apply bpow_le; lia).
  split; (split; [reflexivity|right]).
  - replace (B2R (f32_of_Z (-3))) with (- (3)) by (vm_compute; lra). rewrite Rabs_Ropp, Rabs_pos_eq by lra. lra.
  - replace (B2R (f32_of_Z 1)) with 1 by (vm_compute; lra). rewrite Rabs_R1. lra.
Qed.
Print Assumptions C89_sqrt_squared.
Print Assumptions C89_sqrt_test_passes.
Print Assumptions C89_repo_test.
Print Assumptions C89_repo_test_f64.
Print Assumptions C89_tiny_refuted.
