(** Property C103: the complex tangent of f32 numbers is accurate up to rounding, and the addition theorem that the
    crate's randomized test of tan checks holds up to rounding for every pair of samples that keep away from the zeros
    of 1 - tan a tan b; where that denominator is computed as 0 the test fails, whatever its tolerance. *)
From Coq Require Import List ZArith Reals Bool Lia Lra Psatz.
From Flocq Require Import Core.Core IEEE754.BinarySingleNaN.
From Verif Require Import Base.Outcome Model.Traits Model.Float Model.Complex Model.Ackley Spec.FloatErr Spec.ComplexErr Spec.CTan
  Proofs.FloatErr Proofs.FloatRound Proofs.FloatRange Proofs.FloatSqrt Proofs.PiE Proofs.ComplexErr Proofs.ComplexReal Proofs.TrigTest
  Props.ComplexErrProps Props.FloatFunProps Props.SqrtTestProps Props.TrigTestProps Props.LnTestProps Proofs.ComplexUndo Proofs.TanTest.
Local Open Scope R_scope.

Notation fl := f32.
Notation FF := (float_field 24 128).
Notation FR := (float_ring 24 128).
Notation u := (unit_roundoff 24).
Notation eta := (underflow_unit 24 128).
Notation rnd := (round radix2 (SpecFloat.fexp 24 128) (round_mode mode_NE)).
Notation add := (fl_add 24 128). Notation sub := (fl_sub 24 128).
Notation mul := (fl_mul 24 128). Notation div := (fl_div 24 128).
Notation hi := (half_big 128).
Notation int := (fl_int 24 128).
Notation mid := (ComplexUndo.mid 25).

(** ** The test *)
Section Test.
Context (libm : FunOps fl).
Notation FE := (float_fun 24 128 libm).

(** complex.rs lines 562 and 565: [one - ta * tb]. *)
Definition denominator (ta tb : complex fl) : outcome (complex fl) :=
  p <- complex_mul FR ta tb ;;
  complex_sub (r_sub FR) (Cx (int 1) (int 0)) p.

(** complex.rs lines 557-566: the body of the loop of [test_tan_complex_f32]; the result says whether the assertion
    holds. [factor] is 8 in the crate. *)
Definition tan_test (factor : fl) (a b : complex fl) : outcome bool :=
  c <- complex_add (r_add FR) a b ;;
  ta <- complex_tan FF FE a ;;
  tb <- complex_tan FF FE b ;;
  tc <- complex_tan FF FE c ;;
  s <- complex_add (r_add FR) ta tb ;;
  d1 <- denominator ta tb ;;
  expected <- complex_div FF s d1 ;;
  diff <- complex_sub (r_sub FR) tc expected ;;
  diff_abs <- complex_abs FF FE diff ;;
  n <- complex_sqr_norm FR tc ;;
  n1 <- r_add FR n (int 1) ;;
  d2 <- denominator ta tb ;;
  m <- complex_sqr_norm FR d2 ;;
  q <- f_div FF (int 1) m ;;
  f <- r_mul FR factor (fl_epsilon 24 128) ;;
  tolerance <- r_mul FR (fl_max n1 q) f ;;
  Ok (Bleb diff_abs tolerance).

(** A number both of whose parts are multiples of 2^-20 of magnitude at most [r]: what [rng.gen_range(-4.0..4.0)] yields
    for f32 with r = 4 (the generator itself is not modelled). *)
Definition grid_point (r : R) (z : complex fl) : Prop :=
  cfinite z /\ on_grid (B2R (re z)) /\ on_grid (B2R (im z)) /\ Rabs (B2R (re z)) <= r /\ Rabs (B2R (im z)) <= r.

(** ** Sizes *)
Lemma cosh_8 x : Rabs x <= 8 -> cosh x <= 4096.
Proof.
  intros H. rewrite <- cosh_abs. pose proof (Rabs_pos x) as P. set (y := Rabs x) in *. unfold cosh.
  assert (exp (- y) <= exp y) by (destruct (Req_dec y 0) as [->|N]; [rewrite Ropp_0; lra|left; apply exp_increasing; lra]).
  assert (exp y <= exp 8) by (destruct H as [H|H]; [left; apply exp_increasing; exact H|rewrite H; lra]).
  assert (exp 8 <= 4096); [|lra]. pose proof E_close as E. replace 8 with (1 + 1 + (1 + 1) + (1 + 1 + (1 + 1))) by ring. rewrite !exp_plus.
  set (e := exp 1) in *. assert (e * e <= 74 / 10) by (apply Rle_trans with (272 / 100 * (272 / 100)); [apply Rmult_le_compat; lra|lra]).
  assert (0 <= e * e) by (apply Rmult_le_pos; lra). set (f := e * e) in *. assert (f * f <= 55) by (apply Rle_trans with (74 / 10 * (74 / 10)); [apply Rmult_le_compat; lra|lra]).
  assert (0 <= f * f) by (apply Rmult_le_pos; lra). set (g := f * f) in *. apply Rle_trans with (55 * 55); [apply Rmult_le_compat; lra|lra].
Qed.

Lemma sinh_sq x : x * x <= sinh x * sinh x.
Proof.
  destruct (Rle_dec 0 x) as [P|P].
  - pose proof (sinh_ge x P). apply Rmult_le_compat; lra.
  - pose proof (sinh_ge (- x) ltac:(lra)) as K. rewrite sinh_odd in K. replace (x * x) with (- x * - x) by ring. replace (sinh x * sinh x) with (- sinh x * - sinh x) by ring.
    apply Rmult_le_compat; lra.
Qed.
Lemma grid_nonzero x : on_grid x -> x <> 0 -> / 1048576 <= Rabs x.
Proof.
  intros [m ->] N. unfold Rdiv. rewrite Rabs_mult, (Rabs_pos_eq (/ 1048576)) by lra. rewrite <- abs_IZR.
  assert (1 <= IZR (Z.abs m)); [|lra]. apply IZR_le. assert (m <> 0)%Z; [|lia]. intros ->. apply N. lra.
Qed.
Lemma P28 : / 2 ^ 28 = / 268435456. Proof. f_equal. simpl. lra. Qed.

Lemma grid_sizes (z : complex fl) : grid_point 8 z -> cosh (B2R (im z)) <= 4096
  /\ / 268435456 <= cnorm (ccs (cval z)) /\ (grid_point 4 z -> / 8388608 <= cnorm (ccs (cval z)))
  /\ (cnorm (csn (cval z)) = 0 \/ / 268435456 <= cnorm (csn (cval z)))
  /\ cnorm (csn (cval z)) * cnorm (csn (cval z)) <= cnorm (ccs (cval z)) * cnorm (ccs (cval z)) + 1.
Proof.
  intros (Fz & Gr & Gi & Br & Bi). pose proof (ccs_norm (cval z)) as C. pose proof (csn_norm (cval z)) as S. change (fst (cval z)) with (B2R (re z)) in *. change (snd (cval z)) with (B2R (im z)) in *.
  set (x := B2R (re z)) in *. set (y := B2R (im z)) in *. destruct (grid_cos x Gr Br) as [C1 C2].
  pose proof (Rle_0_sqr (sinh y)) as Q. unfold Rsqr in Q.
  assert (Q0 : forall a v W, 0 <= a -> 0 <= W -> a <= Rabs v -> W * W = v * v + sinh y * sinh y -> a <= W).
  { intros a v W a0 W0 Ha E. apply sq_le; [exact W0|]. rewrite E. rewrite <- (abs_sq v). assert (a * a <= Rabs v * Rabs v) by (apply Rmult_le_compat; lra). lra. }
  pose proof (cnorm_nonneg (ccs (cval z))) as N1. pose proof (cnorm_nonneg (csn (cval z))) as N2.
  split; [apply cosh_8; exact Bi|]. split; [apply (Q0 _ (cos x)); try assumption; lra|].
  split. { intros (_ & _ & _ & B4 & _). apply (Q0 _ (cos x)); try assumption; [lra|]. apply C2. exact B4. }
  split.
  - destruct (grid_sin x Gr Br) as [Z|L]; [|right; apply (Q0 _ (sin x)); try assumption; lra].
    destruct (Req_dec y 0) as [Y|Y].
    + left. apply Rle_antisym; [|exact N2]. apply sq_le; [lra|]. rewrite S, Z, Y, sin_0, sinh_0. lra.
    + right. pose proof (grid_nonzero y Gi Y) as G. apply sq_le; [exact N2|]. rewrite S. pose proof (sinh_sq y) as K. rewrite <- (abs_sq y) in K.
      assert (/ 1048576 * / 1048576 <= Rabs y * Rabs y) by (apply Rmult_le_compat; lra). pose proof (Rle_0_sqr (sin x)) as Q1. unfold Rsqr in Q1. lra.
  - rewrite C, S. pose proof (sc x). pose proof (Rle_0_sqr (cos x)) as Q1. unfold Rsqr in Q1. lra.
Qed.

Context (d : R) (Hd : 0 <= d <= 11 / 10 * u) (HL : faithful 24 128 libm d).

(** ** The computed tangent *)
Theorem C103_tangent_accuracy : forall z : complex fl, grid_point 8 z ->
  exists q t, complex_tan FF FE z = Ok q /\ cfinite q /\ is_tan t (cval z)
    /\ cnorm (csub (cval q) t) <= 1332 / 100 * u * cnorm t.
Proof.
  intros z Hz. destruct (grid_sizes z Hz) as (H1 & H2 & _ & H4 & _). destruct Hz as (Fz & _).
  apply (tan_computed libm d Hd HL z Fz H1); rewrite P28; assumption.
Qed.

Lemma tangent_size (z : complex fl) (t : cplx) (g : R) : grid_point 8 z -> is_tan t (cval z) -> 1 <= g -> / g <= cnorm (ccs (cval z)) ->
  cnorm t <= g + 1.
Proof.
  intros Hz Ht Hg HW. destruct (grid_sizes z Hz) as (_ & _ & _ & _ & K). pose proof (tan_size t _ Ht) as E. set (W := cnorm (ccs (cval z))) in *.
  rewrite <- E in K. set (T := cnorm t) in *. pose proof (cnorm_nonneg t) as T0. fold T in T0.
  assert (g0 : 0 < / g) by (apply Rinv_0_lt_compat; lra). assert (gW : 1 <= g * W). { rewrite <- (Rinv_r g) by lra. apply Rmult_le_compat_l; lra. }
  apply sq_le; [lra|]. assert (G : T * T <= 1 + g * g); [|pose proof (Rle_0_sqr g); unfold Rsqr in *; lra].
  assert (WW : 0 < W * W) by (apply Rmult_lt_0_compat; lra). apply Rmult_le_reg_r with (W * W); [exact WW|].
  assert (1 * 1 <= g * W * (g * W)) by (apply Rmult_le_compat; lra). replace (T * T * (W * W)) with (T * W * (T * W)) by ring. lra.
Qed.

(** ** Sums of samples are exact *)
Lemma grid_sum (x y : fl) : is_finite x = true -> is_finite y = true -> on_grid (B2R x) -> on_grid (B2R y) -> Rabs (B2R x) <= 4 -> Rabs (B2R y) <= 4 ->
  is_finite (add x y) = true /\ B2R (add x y) = B2R x + B2R y /\ on_grid (B2R x + B2R y) /\ Rabs (B2R x + B2R y) <= 8.
Proof.
  intros Fx Fy [m Em] [n En] Bx By. assert (B : Rabs (B2R x + B2R y) <= 8) by (eapply Rle_trans; [apply Rabs_triang|lra]).
  assert (E : B2R x + B2R y = IZR (m + n) / 1048576) by (rewrite plus_IZR, Em, En; field).
  destruct (add_round 24 128 x y Fx Fy) as [F V]. { pose proof hi24. assert (8 <= 2 ^ 127) by (rewrite (pow_IZR 2 127); apply IZR_le; vm_compute; discriminate). lra. }
  split; [exact F|]. split; [|split; [exists (m + n)%Z; exact E|exact B]]. rewrite V. apply round_generic; [apply valid_rnd_round_mode|].
  replace (B2R x + B2R y) with (F2R (Float radix2 (m + n) (-20))) in B |- * by (rewrite E; unfold F2R; simpl; lra).
  apply generic_format_F2R. intros N. unfold cexp, SpecFloat.fexp, SpecFloat.emin. assert (G : (mag radix2 (F2R (Float radix2 (m + n) (-20))) <= 4)%Z); [|cbn [Fexp]; apply Z.max_lub; [|vm_compute; discriminate]; revert G; generalize (mag_val _ _ (mag radix2 (F2R (Float radix2 (m + n) (-20))))); intros; lia].
  apply mag_le_bpow; [apply F2R_neq_0; exact N|]. eapply Rle_lt_trans; [exact B|]. simpl. lra.
Qed.

(** ** Sums and differences of complex floats *)
Lemma csum_close (z w : complex fl) : cfinite z -> cfinite w -> cnorm (cval z) + cnorm (cval w) <= hi ->
  exists s, complex_add (r_add FR) z w = Ok s /\ cfinite s /\ cnorm (csub (cval s) (cadd (cval z) (cval w))) <= u * cnorm (cadd (cval z) (cval w)).
Proof.
  intros [F1 F2] [G1 G2] B. destruct (abs_le_norm (B2R (re z)) (B2R (im z))) as [Z1 Z2]. destruct (abs_le_norm (B2R (re w)) (B2R (im w))) as [W1 W2].
  fold (cval z) in Z1, Z2. fold (cval w) in W1, W2. change (cnorm (B2R (re z), B2R (im z))) with (cnorm (cval z)) in Z1, Z2. change (cnorm (B2R (re w), B2R (im w))) with (cnorm (cval w)) in W1, W2.
  destruct (add_rel 24 128 (re z) (re w) F1 G1) as [H1 (e1 & L1 & V1)]; [eapply Rle_trans; [apply Rabs_triang|lra]|].
  destruct (add_rel 24 128 (im z) (im w) F2 G2) as [H2 (e2 & L2 & V2)]; [eapply Rle_trans; [apply Rabs_triang|lra]|].
  exists (Cx (add (re z) (re w)) (add (im z) (im w))). split; [reflexivity|]. split; [split; assumption|].
  unfold cval, cadd. cbn [re im fst snd]. rewrite V1, V2. pose proof u24 as U.
  eapply Rle_trans; [apply (cnorm_perturb _ _ _ _ u 0); [rewrite U; lra|lra|..]|lra].
  - replace ((B2R (re z) + B2R (re w)) * (1 + e1) - (B2R (re z) + B2R (re w))) with (e1 * (B2R (re z) + B2R (re w))) by ring. rewrite Rabs_mult, Rplus_0_r. apply Rmult_le_compat_r; [apply Rabs_pos|exact L1].
  - replace ((B2R (im z) + B2R (im w)) * (1 + e2) - (B2R (im z) + B2R (im w))) with (e2 * (B2R (im z) + B2R (im w))) by ring. rewrite Rabs_mult, Rplus_0_r. apply Rmult_le_compat_r; [apply Rabs_pos|exact L2].
Qed.
Lemma cdiff_close (z w : complex fl) : cfinite z -> cfinite w -> cnorm (cval z) + cnorm (cval w) <= hi ->
  exists s, complex_sub (r_sub FR) z w = Ok s /\ cfinite s /\ cnorm (csub (cval s) (csub (cval z) (cval w))) <= u * cnorm (csub (cval z) (cval w)).
Proof.
  intros [F1 F2] [G1 G2] B. destruct (abs_le_norm (B2R (re z)) (B2R (im z))) as [Z1 Z2]. destruct (abs_le_norm (B2R (re w)) (B2R (im w))) as [W1 W2].
  change (cnorm (B2R (re z), B2R (im z))) with (cnorm (cval z)) in Z1, Z2. change (cnorm (B2R (re w), B2R (im w))) with (cnorm (cval w)) in W1, W2.
  assert (T : forall x y, Rabs (x - y) <= Rabs x + Rabs y) by (intros x y; unfold Rminus; rewrite <- (Rabs_Ropp y); apply Rabs_triang).
  destruct (sub_rel 24 128 (re z) (re w) F1 G1) as [H1 (e1 & L1 & V1)]; [eapply Rle_trans; [apply T|lra]|].
  destruct (sub_rel 24 128 (im z) (im w) F2 G2) as [H2 (e2 & L2 & V2)]; [eapply Rle_trans; [apply T|lra]|].
  exists (Cx (sub (re z) (re w)) (sub (im z) (im w))). split; [reflexivity|]. split; [split; assumption|].
  unfold cval, csub at 2 3. cbn [re im fst snd]. rewrite V1, V2. pose proof u24 as U.
  eapply Rle_trans; [apply (cnorm_perturb _ _ _ _ u 0); [rewrite U; lra|lra|..]|lra].
  - replace ((B2R (re z) - B2R (re w)) * (1 + e1) - (B2R (re z) - B2R (re w))) with (e1 * (B2R (re z) - B2R (re w))) by ring. rewrite Rabs_mult, Rplus_0_r. apply Rmult_le_compat_r; [apply Rabs_pos|exact L1].
  - replace ((B2R (im z) - B2R (im w)) * (1 + e2) - (B2R (im z) - B2R (im w))) with (e2 * (B2R (im z) - B2R (im w))) by ring. rewrite Rabs_mult, Rplus_0_r. apply Rmult_le_compat_r; [apply Rabs_pos|exact L2].
Qed.

(** A product, against an upper bound of its size. *)
Lemma cprod_close (z w : complex fl) (M : R) : cfinite z -> cfinite w -> mid M -> cnorm (cval z) * cnorm (cval w) <= M ->
  exists p, complex_mul FR z w = Ok p /\ cfinite p /\ cnorm (csub (cval p) (cmul (cval z) (cval w))) <= 231 / 100 * u * M.
Proof. intros Fz Fw HM HB. exact (mul_below 24 128 ltac:(lia) 25 ltac:(lia) z w M Fz Fw HM HB). Qed.
Lemma norm_upto (z : complex fl) (M : R) : cfinite z -> mid M -> cnorm (cval z) * cnorm (cval z) <= M ->
  exists n, complex_sqr_norm FR z = Ok n /\ is_finite n = true /\ Rabs (B2R n - cnorm (cval z) * cnorm (cval z)) <= 20001 / 10000 * u * M.
Proof.
  intros [Fa Fb] HM B. destruct (two_products 24 128 ltac:(lia) 25 ltac:(lia) (re z) (re z) (im z) (im z) 1 add M (add_f 24 128)) as [F E]; try assumption; [left; reflexivity|eapply Rle_trans; [apply cauchy_abs|exact B]|].
  eexists. split; [reflexivity|]. split; [exact F|]. rewrite cnorm_sq. unfold cval. cbn [fst snd]. cbn [r_mul r_add float_ring].
  replace (B2R (re z) * B2R (re z) + B2R (im z) * B2R (im z)) with (B2R (re z) * B2R (re z) + 1 * (B2R (im z) * B2R (im z))) by ring. exact E.
Qed.

Lemma mid30 x : / 1000000000000000000000000000000 <= x <= 1000000000000000000000000000000 -> mid x.
Proof.
  intros Hx. apply mid24. assert (1000000000000000000000000000000 <= 2 ^ 104) by (rewrite (pow_IZR 2 104); apply IZR_le; vm_compute; discriminate).
  split; [|lra]. eapply Rle_trans; [|apply Hx]. apply Rinv_le; lra.
Qed.
Lemma hi_big : 1000000000000000000000000000000 <= hi.
Proof. eapply Rle_trans; [|apply hi24]. rewrite (pow_IZR 2 127). apply IZR_le. vm_compute. discriminate. Qed.

(** From an error relative to the exact value to one relative to the computed value. *)
Lemma turn_error (q t : cplx) : cnorm (csub q t) <= 1332 / 100 * u * cnorm t -> cnorm (csub q t) <= 1333 / 100 * u * cnorm q
  /\ cnorm q <= 100001 / 100000 * cnorm t /\ cnorm t <= 100001 / 100000 * cnorm q.
Proof.
  intros H. pose proof u24 as U. rewrite U in *. pose proof (cnorm_le_diff q t) as L1. pose proof (cnorm_le_diff t q) as L2. rewrite (csub_norm_sym t) in L2.
  pose proof (cnorm_nonneg q). pose proof (cnorm_nonneg t). pose proof (cnorm_nonneg (csub q t)). split; [|split]; lra.
Qed.

(** ** The addition theorem *)
Theorem C103_addition_test : forall a b : complex fl, grid_point 4 a -> grid_point 4 b ->
  cnorm (ccs (cval a)) * cnorm (ccs (cval b)) <= 1000 * cnorm (ccs (cadd (cval a) (cval b))) ->
  tan_test (int 64) a b = Ok true.
Proof.
  intros a b Ga Gb Away. pose proof u24 as U. pose proof eta24 as [T0 T1]. pose proof hi_big as HB.
  assert (T2 : eta <= / 1000000000000000000000000000000000000000).
  { eapply Rle_trans; [exact T1|]. apply Rinv_le; [lra|]. rewrite (pow_IZR 2 150). apply IZR_le. vm_compute. discriminate. }
  assert (W8 : forall z, grid_point 4 z -> grid_point 8 z) by (intros z (H1 & H2 & H3 & H4 & H5); repeat split; try assumption; try apply H1; lra).
  (* the sum *)
  pose proof Ga as ([Fa1 Fa2] & Ga1 & Ga2 & Ba1 & Ba2). pose proof Gb as ([Fb1 Fb2] & Gb1 & Gb2 & Bb1 & Bb2).
  destruct (grid_sum (re a) (re b) Fa1 Fb1 Ga1 Gb1 Ba1 Bb1) as (Fc1 & Vc1 & Gc1 & Bc1). destruct (grid_sum (im a) (im b) Fa2 Fb2 Ga2 Gb2 Ba2 Bb2) as (Fc2 & Vc2 & Gc2 & Bc2).
  set (c := Cx (add (re a) (re b)) (add (im a) (im b))).
  assert (Ec : complex_add (r_add FR) a b = Ok c) by reflexivity.
  assert (Gc : grid_point 8 c). { unfold c. repeat split; cbn [re im]; rewrite ?Vc1, ?Vc2; assumption. }
  assert (Vc : cval c = cadd (cval a) (cval b)). { unfold c, cval, cadd. cbn [re im fst snd]. rewrite Vc1, Vc2. reflexivity. }
  (* the tangents *)
  destruct (C103_tangent_accuracy a (W8 a Ga)) as (ta & Ta & Eta & Fta & Ita & Dta). destruct (C103_tangent_accuracy b (W8 b Gb)) as (tb & Tb & Etb & Ftb & Itb & Dtb).
  destruct (C103_tangent_accuracy c Gc) as (tc & Tc & Etc & Ftc & Itc & Dtc).
  pose proof (tan_addition (cval a) (cval b) Ta Tb Tc Ita Itb ltac:(rewrite <- Vc; exact Itc)) as Hadd.
  destruct (grid_sizes a (W8 a Ga)) as (_ & _ & Wa & _). destruct (grid_sizes b (W8 b Gb)) as (_ & _ & Wb & _). destruct (grid_sizes c Gc) as (_ & Wc & _).
  specialize (Wa Ga). specialize (Wb Gb).
  pose proof (tangent_size a Ta 8388608 (W8 a Ga) Ita ltac:(lra) Wa) as Sa. pose proof (tangent_size b Tb 8388608 (W8 b Gb) Itb ltac:(lra) Wb) as Sb.
  pose proof (tangent_size c Tc 268435456 Gc Itc ltac:(lra) Wc) as Scc.
  destruct (turn_error _ _ Dta) as (Ra & Qa & Qa'). destruct (turn_error _ _ Dtb) as (Rb & Qb & Qb'). destruct (turn_error _ _ Dtc) as (Rc & Qc & Qc').
  set (A := cnorm (cval ta)) in *. set (B := cnorm (cval tb)) in *. set (C := cnorm (cval tc)) in *.
  pose proof (cnorm_nonneg (cval ta)) as A0. pose proof (cnorm_nonneg (cval tb)) as B0. pose proof (cnorm_nonneg (cval tc)) as C0. fold A in A0. fold B in B0. fold C in C0.
  assert (A1 : A <= 8400000) by lra. assert (B1 : B <= 8400000) by lra. assert (C1 : C <= 270000000) by lra.
  assert (AB0 : 0 <= A * B) by (apply Rmult_le_pos; assumption). assert (AB1 : A * B <= 8400000 * 8400000) by (apply Rmult_le_compat; assumption).
  (* the numerator *)
  destruct (csum_close ta tb Fta Ftb) as (s & Es & Fs & Ds); [fold A B; lra|].
  assert (Sab : cnorm (cadd (cval ta) (cval tb)) <= A + B) by apply cnorm_triangle.
  assert (Hs : cnorm (csub (cval s) (cadd (cval ta) (cval tb))) <= u * (A + B)). { eapply Rle_trans; [exact Ds|]. apply Rmult_le_compat_l; [rewrite U; lra|exact Sab]. }
  (* the product and the denominator *)
  set (Mp := A * B + / 1000000).
  destruct (cprod_close ta tb Mp Fta Ftb) as (p & Ep & Fp & Dp); [apply mid30; unfold Mp; lra|fold A B; unfold Mp; lra|].
  destruct (small_int 24 128 ltac:(lia) 1 ltac:(lia)) as [F1 V1]. 
  assert (F10 : cfinite (Cx (int 1) (int 0))) by (split; [exact F1|reflexivity]). assert (V10 : cval (Cx (int 1) (int 0)) = c1) by (unfold cval, c1; cbn [re im]; rewrite V1; reflexivity).
  assert (N1 : cnorm c1 = 1) by (unfold cnorm, c1; cbn [fst snd]; replace (1 * 1 + 0 * 0) with 1 by ring; apply sqrt_1).
  assert (NP : cnorm (cval p) <= 10001 / 10000 * (A * B) + 1). { pose proof (cnorm_le_diff (cval p) (cmul (cval ta) (cval tb))) as L. rewrite cnorm_mul in L. fold A B in L. unfold Mp in Dp. rewrite U in *. lra. }
  destruct (cdiff_close (Cx (int 1) (int 0)) p F10 Fp) as (D & ED & FD & DD); [rewrite V10, N1; lra|]. rewrite V10 in DD.
  assert (EDen : denominator ta tb = Ok D). { unfold denominator. rewrite Ep. exact ED. }
  set (Delta := cnorm (cval D)) in *. pose proof (cnorm_nonneg (cval D)) as D0. fold Delta in D0.
  assert (X1 : cnorm (csub c1 (cval p)) <= 10001 / 10000 * Delta).
  { pose proof (cnorm_le_diff (csub c1 (cval p)) (cval D)) as L. rewrite (csub_norm_sym (csub c1 (cval p)) (cval D)) in L. fold Delta in L. rewrite U in DD. lra. }
  assert (HD : cnorm (csub (cval D) (csub c1 (cmul (cval ta) (cval tb)))) <= 284 / 100 * u * (A * B) + 101 / 100 * u * Delta + / 1000 * u).
  { eapply Rle_trans; [apply (csub_triangle _ (csub c1 (cval p)))|].
    replace (csub (csub c1 (cval p)) (csub c1 (cmul (cval ta) (cval tb)))) with (csub (cmul (cval ta) (cval tb)) (cval p)) by (unfold csub, cmul, c1; cbn [fst snd]; f_equal; ring).
    rewrite (csub_norm_sym (cmul (cval ta) (cval tb))). unfold Mp in Dp. rewrite U in *. lra. }
  (* it is not small *)
  assert (Lex : / 1000 <= cnorm (csub c1 (cmul Ta Tb))).
  { destruct Ita as [Ea Na]. destruct Itb as [Eb Nb]. pose proof (cnorm_pos _ Na) as Wa0. pose proof (cnorm_pos _ Nb) as Wb0. set (wa := cnorm (ccs (cval a))) in *. set (wb := cnorm (ccs (cval b))) in *.
    assert (E : cmul (cmul (ccs (cval a)) (ccs (cval b))) (csub c1 (cmul Ta Tb)) = ccs (cadd (cval a) (cval b))).
    { rewrite ccs_add, <- Ea, <- Eb. unfold cmul, csub, c1. cbn [fst snd]. f_equal; ring. }
    rewrite <- E, !cnorm_mul in Away. fold wa wb in Away. assert (P : 0 < wa * wb) by (apply Rmult_lt_0_compat; assumption).
    apply Rmult_le_reg_l with (wa * wb); [exact P|]. lra. }
  assert (AB : A * B <= 1001 / 1000 * (1 + cnorm (csub c1 (cmul Ta Tb)))).
  { assert (L : cnorm (cmul Ta Tb) <= 1 + cnorm (csub c1 (cmul Ta Tb))).
    { pose proof (cnorm_le_diff (cmul Ta Tb) c1) as L. rewrite (csub_norm_sym (cmul Ta Tb) c1), N1 in L. exact L. }
    rewrite cnorm_mul in L. assert (A * B <= 100001 / 100000 * cnorm Ta * (100001 / 100000 * cnorm Tb)) by (apply Rmult_le_compat; assumption).
    assert (0 <= cnorm Ta * cnorm Tb) by (apply Rmult_le_pos; apply cnorm_nonneg). lra. }
  assert (DT : cnorm (csub (cmul (cval ta) (cval tb)) (cmul Ta Tb)) <= 2667 / 100 * u * (A * B)).
  { replace (csub (cmul (cval ta) (cval tb)) (cmul Ta Tb)) with (cadd (cmul (csub (cval ta) Ta) (cval tb)) (cmul Ta (csub (cval tb) Tb))) by (unfold cmul, csub, cadd; cbn [fst snd]; f_equal; ring).
    eapply Rle_trans; [apply cnorm_triangle|]. rewrite !cnorm_mul. fold B.
    assert (cnorm (csub (cval ta) Ta) * B <= 1333 / 100 * u * A * B) by (apply Rmult_le_compat_r; assumption).
    assert (cnorm Ta * cnorm (csub (cval tb) Tb) <= 100001 / 100000 * A * (1333 / 100 * u * B)) by (apply Rmult_le_compat; try apply cnorm_nonneg; assumption).
    rewrite U in *. lra. }
  assert (Hlow : / 1024 <= Delta).
  { pose proof (cnorm_le_diff (csub c1 (cmul Ta Tb)) (cval D)) as L. fold Delta in L. rewrite (csub_norm_sym (csub c1 (cmul Ta Tb)) (cval D)) in L.
    pose proof (csub_triangle (cval D) (csub c1 (cmul (cval ta) (cval tb))) (csub c1 (cmul Ta Tb))) as L2.
    replace (csub (csub c1 (cmul (cval ta) (cval tb))) (csub c1 (cmul Ta Tb))) with (csub (cmul Ta Tb) (cmul (cval ta) (cval tb))) in L2 by (unfold csub, cmul, c1; cbn [fst snd]; f_equal; ring).
    rewrite (csub_norm_sym (cmul Ta Tb)) in L2. rewrite U in *. lra. }
  assert (Dup : Delta <= 100000000000000).
  { pose proof (cnorm_le_diff (cval D) (csub c1 (cval p))) as L. fold Delta in L. pose proof (cnorm_le_diff (csub c1 (cval p)) c1) as L2.
    replace (csub (csub c1 (cval p)) c1) with (- fst (cval p), - snd (cval p)) in L2 by (unfold csub, c1; cbn [fst snd]; f_equal; ring). rewrite cnorm_opp, N1 in L2. rewrite U in *. lra. }
  assert (D00 : 0 < Delta) by lra. assert (DI : / 100000000000000 <= / Delta <= 1024) by (split; [apply Rinv_le; lra|rewrite <- (Rinv_inv 1024); apply Rinv_le; lra]).
  assert (DDb : / 2000000 <= Delta * Delta <= 100000000000000 * 100000000000000).
  { split; [apply Rle_trans with (/ 1024 * / 1024); [lra|apply Rmult_le_compat; lra]|apply Rmult_le_compat; lra]. }
  assert (IIb : / 100000000000000 * / 100000000000000 <= / Delta * / Delta <= 1024 * 1024) by (split; apply Rmult_le_compat; lra).
  (* the quotient *)
  pose proof (cnorm_nonneg (cval s)) as S0. assert (S1 : cnorm (cval s) <= 17000000).
  { pose proof (cnorm_le_diff (cval s) (cadd (cval ta) (cval tb))) as L. rewrite U in Hs. lra. }
  set (Z := cnorm (cval s) + / 100000). assert (Zb : / 100000 <= Z <= 18000000) by (unfold Z; lra).
  destruct (div_upto 24 128 ltac:(lia) 25 ltac:(lia) s D Z Fs FD) as (E & EE & FE' & DE); fold Delta.
  { unfold Z. lra. }
  { apply mid30. lra. }
  { apply mid30. split; [apply Rle_trans with (/ 100000 * / 1024); [lra|apply Rmult_le_compat; lra]|apply Rle_trans with (18000000 * 100000000000000); [apply Rmult_le_compat; lra|lra]]. }
  { apply mid30. rewrite Rinv_mult. lra. }
  { apply mid30. split; [apply Rle_trans with (/ 100000 * / 100000000000000); [lra|apply Rmult_le_compat; lra]|apply Rle_trans with (18000000 * 1024); [apply Rmult_le_compat; lra|lra]]. }
  { exact D00. } { lra. }
  assert (HE : cnorm (csub (cmul (cval E) (cval D)) (cval s)) <= 69 / 10 * u * cnorm (cval s) + / 1000 * u).
  { eapply Rle_trans; [exact DE|]. unfold Z. rewrite U. lra. }
  (* the error *)
  set (tau := cnorm Tc) in *. pose proof (cnorm_nonneg Tc) as tau0. fold tau in tau0.
  set (M := Rmax (tau * tau + 1) (/ (Delta * Delta))).
  assert (M1 : tau * tau + 1 <= M) by apply Rmax_l. assert (M2 : / (Delta * Delta) <= M) by apply Rmax_r.
  pose proof (addition_error (cval ta) (cval tb) Ta Tb Tc (cval s) (cval D) (cval E) u U Ra Rb Hadd Hs HD HE Hlow M M1 M2) as Err.
  assert (tt : 0 <= tau * tau) by (apply Rmult_le_pos; lra). assert (Mge : 1 <= M) by lra.
  assert (tau2 : 2 * tau <= M). { pose proof (Rle_0_sqr (tau - 1)) as Q. unfold Rsqr in Q. lra. }
  assert (Mle : M <= 100000000000000000).
  { unfold M. apply Rmax_lub; [|rewrite Rinv_mult; lra]. assert (tau * tau <= 268435457 * 268435457) by (apply Rmult_le_compat; lra). lra. }
  assert (Diff : cnorm (csub (cval tc) (cval E)) <= 11167 / 100 * u * M).
  { eapply Rle_trans; [apply (csub_triangle _ Tc)|]. rewrite (csub_norm_sym Tc). rewrite U in *. lra. }
  assert (NE : cnorm (cval E) <= 1000000000000000000). { pose proof (cnorm_le_diff (cval E) Tc) as L. fold tau in L. rewrite U in Err. lra. }
  destruct (cdiff_close tc E Ftc FE') as (df & Edf & Fdf & Ddf); [fold C; lra|].
  assert (Ndf : cnorm (cval df) <= 1117 / 10 * u * M). { pose proof (cnorm_le_diff (cval df) (csub (cval tc) (cval E))) as L. rewrite U in *. lra. }
  pose proof (cnorm_nonneg (cval df)) as df0. assert (dfb : cnorm (cval df) <= 1000000000000) by (rewrite U in Ndf; lra).
  assert (dfq : cnorm (cval df) * cnorm (cval df) <= 1000000000000 * 1000000000000) by (apply Rmult_le_compat; assumption).
  destruct (modulus 24 128 ltac:(lia) ltac:(lia) (re df) (im df)) as (Fe & e0 & He); [apply Fdf|apply Fdf|..].
  { pose proof (cnorm_sq (cval df)) as Q. unfold cval in Q at 3 4 5 6. cbn [fst snd] in Q. rewrite <- Q. lra. }
  replace (B2R (re df) * B2R (re df) + B2R (im df) * B2R (im df)) with (cnorm (cval df) * cnorm (cval df)) in He by (rewrite cnorm_sq; reflexivity).
  set (e := Bsqrt mode_NE (fl_norm2 24 128 (re df) (im df))) in *.
  assert (Ee : complex_abs FF FE df = Ok e) by reflexivity.
  assert (eb : B2R e <= 112 * u * M).
  { apply sq_le; [rewrite U; lra|]. apply Rabs_le_inv in He.
    assert (Q : cnorm (cval df) * cnorm (cval df) <= 1117 / 10 * u * M * (1117 / 10 * u * M)) by (apply Rmult_le_compat; assumption).
    assert (MM : 1 * 1 <= M * M) by (apply Rmult_le_compat; lra). rewrite U in *.
    replace (112 * / 16777216 * M * (112 * / 16777216 * M)) with (112 * / 16777216 * (112 * / 16777216) * (M * M)) by ring.
    replace (1117 / 10 * / 16777216 * M * (1117 / 10 * / 16777216 * M)) with (1117 / 10 * / 16777216 * (1117 / 10 * / 16777216) * (M * M)) in Q by ring. lra. }
  (* the tolerance *)
  assert (CC : 0 <= C * C <= 270000000 * 270000000) by (split; [apply Rmult_le_pos; lra|apply Rmult_le_compat; lra]).
  destruct (norm_upto tc (C * C + / 1000000) Ftc) as (n & En & Fn & Dn); [apply mid30; lra|fold C; lra|]. fold C in Dn. apply Rabs_le_inv in Dn.
  destruct (add_rel 24 128 n (int 1) Fn F1) as [Fn1 (e1 & L1 & Vn1)]. { rewrite V1. apply Rabs_le. rewrite U in Dn. lra. }
  destruct (norm_upto D (Delta * Delta) FD) as (m & Em & Fm & Dm); [apply mid30; lra|fold Delta; lra|]. fold Delta in Dm. apply Rabs_le_inv in Dm.
  assert (m0 : 0 < B2R m) by (rewrite U in Dm; lra).
  assert (mi : 999999 / 1000000 * / (Delta * Delta) <= / B2R m <= 2000000).
  { split.
    - apply Rmult_le_reg_r with (B2R m); [exact m0|]. rewrite Rinv_l by lra. apply Rle_trans with (999999 / 1000000 * / (Delta * Delta) * (1000001 / 1000000 * (Delta * Delta))).
      + apply Rmult_le_compat_l; [rewrite Rinv_mult; lra|rewrite U in Dm; lra].
      + replace (999999 / 1000000 * / (Delta * Delta) * (1000001 / 1000000 * (Delta * Delta))) with (999999 / 1000000 * (1000001 / 1000000)) by (field; lra). lra.
    - apply Rle_trans with (/ (/ 2000000)); [|rewrite Rinv_inv; lra]. apply Rinv_le; [lra|]. 
      assert (1024 * 1024 * (Delta * Delta) >= 1). { assert (/ 1024 * / 1024 <= Delta * Delta) by (apply Rmult_le_compat; lra). lra. } rewrite U in Dm. lra. }
  assert (mi0 : 0 < / B2R m) by (apply Rinv_0_lt_compat; exact m0). assert (DDi : 0 < / (Delta * Delta)) by (apply Rinv_0_lt_compat; lra).
  destruct (div_round 24 128 (int 1) m F1 ltac:(lra)) as [Fq Vq].
  { rewrite V1. unfold Rdiv. rewrite Rmult_1_l, Rabs_pos_eq by lra. lra. }
  rewrite V1 in Vn1, Vq. unfold Rdiv in Vq. rewrite Rmult_1_l in Vq. pose proof (ComplexUndo.rnd_err 24 128 (/ B2R m)) as Eq. rewrite <- Vq in Eq. rewrite (Rabs_pos_eq (/ B2R m)) in Eq by lra. apply Rabs_le_inv in Eq.
  set (n1 := add n (int 1)) in *. set (q := div (int 1) m) in *.
  destruct (larger n1 q Fn1 Fq) as (Fx & X1' & X2 & X3). set (x := fl_max n1 q) in *.
  apply Rabs_le_inv in L1.
  assert (n0 : 0 <= B2R n + 1 <= 100000000000000000) by (rewrite U in Dn; lra).
  assert (n1b : 9999999 / 10000000 * (B2R n + 1) <= B2R n1 <= 2 * (B2R n + 1)).
  { rewrite Vn1, !(Rmult_comm _ (B2R n + 1)). split; apply Rmult_le_compat_l; rewrite U in L1; lra. }
  assert (xM : 9999 / 10000 * M <= B2R x).
  { assert (Ct : 99998 / 100000 * (tau * tau) <= C * C).
    { assert (K : 99999 / 100000 * tau * (99999 / 100000 * tau) <= C * C) by (apply Rmult_le_compat; lra). lra. }
    assert (G1 : 9999 / 10000 * (tau * tau + 1) <= B2R x) by (rewrite U in Dn; lra).
    assert (G2 : 9999 / 10000 * / (Delta * Delta) <= B2R x) by (rewrite U in Eq; lra).
    unfold M. unfold Rmax. destruct (Rle_dec (tau * tau + 1) (/ (Delta * Delta))); assumption. }
  assert (xb : B2R x <= 1000000000000000000) by (rewrite U in Eq; destruct X3 as [-> | ->]; lra).
  set (f := mul (int 64) (fl_epsilon 24 128)).
  assert (Vf : B2R f = / 131072 /\ is_finite f = true) by (split; [vm_compute; lra|reflexivity]). destruct Vf as [Vf Ff].
  destruct (mul_round 24 128 x f Fx Ff) as [Ft Vt]. { rewrite Vf, Rabs_pos_eq; lra. }
  pose proof (ComplexUndo.rnd_err 24 128 (B2R x * B2R f)) as Er. rewrite <- Vt in Er. rewrite (Rabs_pos_eq (B2R x * B2R f)) in Er by (rewrite Vf; lra). rewrite Vf in Er. apply Rabs_le_inv in Er.
  assert (Fin : B2R e <= B2R (mul x f)) by (rewrite U in *; lra).
  unfold tan_test. rewrite Ec. cbn [bind]. rewrite Eta. cbn [bind]. rewrite Etb. cbn [bind]. rewrite Etc. cbn [bind]. rewrite Es. cbn [bind]. rewrite EDen. cbn [bind]. rewrite EE. cbn [bind].
  rewrite Edf. cbn [bind]. rewrite Ee. cbn [bind]. rewrite En. cbn [bind r_add float_ring]. fold n1. rewrite Em. cbn [bind f_div float_field r_mul]. fold q x f.
  change (Ok (Bleb e (mul x f)) = Ok true). rewrite (Bleb_correct 24 128 e (mul x f) Fe Ft), Rle_bool_true by exact Fin. reflexivity.
Qed.
End Test.

(** ** Where the denominator is computed as 0 *)
Notation near := (nearest 24 128).

(** sin, cos, sinh and cosh are correctly rounded at [x]. *)
Definition rounds_at (libm : FunOps f32) (x : f32) : Prop :=
  fn_sin libm x = Ok (near (sin (B2R x))) /\ fn_cos libm x = Ok (near (cos (B2R x)))
  /\ fn_sinh libm x = Ok (near (sinh (B2R x))) /\ fn_cosh libm x = Ok (near (cosh (B2R x))).
(** sin and cos return something at [x]. *)
Definition answers_at (libm : FunOps f32) (x : f32) : Prop := exists s c, fn_sin libm x = Ok s /\ fn_cos libm x = Ok c.

(** 2470649 / 2^20, close to 3 pi / 4. *)
Definition three_quarters : f32 := f32_lit 2470649 (-20).
Definition quarter_turns : complex f32 := Cx three_quarters (int 0).

Lemma three_quarters_value : is_finite three_quarters = true /\ B2R three_quarters = 2470649 / 1048576.
Proof. split; [reflexivity|vm_compute; lra]. Qed.

Lemma near_half (v : R) (m : Z) : / 2 <= Rabs v < 1 -> Rabs (v * 16777216 - IZR m) < / 2 -> near v = f32_lit m (-24).
Proof.
  intros H E. unfold nearest. assert (C : Generic_fmt.cexp radix2 (SpecFloat.fexp 24 128) v = (-24)%Z).
  { unfold Generic_fmt.cexp. rewrite (mag_unique radix2 v 0); [reflexivity|]. simpl. lra. }
  unfold scaled_mantissa. rewrite C. replace (ZnearestE (v * bpow radix2 (- -24))) with m; [reflexivity|].
  symmetry. apply Znearest_imp. replace (bpow radix2 (- -24)) with 16777216 by (simpl; lra). exact E.
Qed.
Lemma near_one : near 1 = f32_lit 8388608 (-23).
Proof.
  unfold nearest. assert (C : Generic_fmt.cexp radix2 (SpecFloat.fexp 24 128) 1 = (-23)%Z).
  { unfold Generic_fmt.cexp. rewrite (mag_unique radix2 1 1); [reflexivity|]. rewrite Rabs_R1. simpl. lra. }
  unfold scaled_mantissa. rewrite C. replace (ZnearestE (1 * bpow radix2 (- -23))) with 8388608%Z; [reflexivity|].
  symmetry. apply Znearest_imp. replace (bpow radix2 (- -23)) with 8388608 by (simpl; lra). rewrite Rabs_pos_eq; lra.
Qed.
Lemma near_zero : near 0 = B754_zero false.
Proof.
  unfold nearest. unfold scaled_mantissa. rewrite Rmult_0_l. replace (ZnearestE 0) with 0%Z; [reflexivity|].
  symmetry. apply Znearest_imp. rewrite Rminus_0_r, Rabs_R0. lra.
Qed.

Lemma sin_lipschitz x y : Rabs (sin x - sin y) <= Rabs (x - y).
Proof.
  destruct (Req_dec x y) as [->|N]; [rewrite !Rminus_diag_eq by reflexivity; rewrite Rabs_R0; lra|].
  destruct (MVT_abs sin cos x y) as (c & E & _); [intros; apply derivable_pt_lim_sin|]. rewrite (Rabs_minus_sym (sin x)), (Rabs_minus_sym x), E.
  pose proof (COS_bound c). rewrite <- (Rmult_1_l (Rabs (y - x))) at 2. apply Rmult_le_compat_r; [apply Rabs_pos|]. apply Rabs_le. lra.
Qed.

Lemma sin_cos_there : near (sin (B2R three_quarters)) = f32_lit 11863283 (-24) /\ near (cos (B2R three_quarters)) = f32_lit (-11863283) (-24).
Proof.
  destruct three_quarters_value as [_ ->]. pose proof PI_close as P. set (x := 2470649 / 1048576).
  assert (R2 : 70710678 / 100000000 <= sqrt 2 / 2 <= 707106782 / 1000000000).
  { pose proof (sqrt_pos 2). pose proof (sqrt_sqrt 2 ltac:(lra)) as Q. split.
    - assert (141421356 / 100000000 <= sqrt 2); [|lra]. apply sq_le; [lra|]. rewrite Q. lra.
    - assert (sqrt 2 <= 1414213563 / 1000000000); [|lra]. apply sq_le; [lra|]. rewrite Q. lra. }
  assert (S : Rabs (sin x - sqrt 2 / 2) <= / 100000000).
  { replace (sqrt 2 / 2) with (sin (3 * (PI / 4))). - eapply Rle_trans; [apply sin_lipschitz|]. apply Rabs_le. unfold x. lra.
    - rewrite sin_3PI4. pose proof (sqrt_sqrt 2 ltac:(lra)) as Q. assert (0 < sqrt 2) by (apply sqrt_lt_R0; lra). field_simplify_eq; [simpl; lra|lra]. }
  assert (C : Rabs (cos x + sqrt 2 / 2) <= / 100000000).
  { rewrite <- (sin_shift x). replace (sqrt 2 / 2) with (- sin (- (PI / 4))).
    - replace (sin (PI / 2 - x) + - sin (- (PI / 4))) with (sin (PI / 2 - x) - sin (- (PI / 4))) by ring. eapply Rle_trans; [apply sin_lipschitz|]. apply Rabs_le. unfold x. lra.
    - rewrite sin_neg, Ropp_involutive, sin_PI4. pose proof (sqrt_sqrt 2 ltac:(lra)) as Q. assert (0 < sqrt 2) by (apply sqrt_lt_R0; lra). field_simplify_eq; [simpl; lra|lra]. }
  apply Rabs_le_inv in S, C. split; apply near_half.
  - rewrite Rabs_pos_eq; lra.
  - apply Rabs_lt. lra.
  - rewrite Rabs_left; lra.
  - apply Rabs_lt. lra.
Qed.

(** A pair the generator can draw for which 1 - tan a tan b is computed as 0 although a + b is not a pole: [expected]
    is NaN, and the assertion fails whatever the tolerance. *)
Theorem C103_zero_denominator_refuted : forall (libm : FunOps f32) (factor : f32),
  rounds_at libm three_quarters -> rounds_at libm (int 0) -> answers_at libm (add three_quarters three_quarters) ->
  grid_point 4 quarter_turns /\ ccs (cadd (cval quarter_turns) (cval quarter_turns)) <> c0
  /\ tan_test libm factor quarter_turns quarter_turns = Ok false.
Proof.
  intros libm factor (S1 & C1 & _ & _) (_ & _ & S0 & C0) (s2 & c2 & S2 & C2).
  destruct sin_cos_there as [Vs Vc]. destruct three_quarters_value as [F V]. rewrite Vs in S1. rewrite Vc in C1. change (B2R (int 0)) with 0 in S0, C0. rewrite sinh_0, near_zero in S0. rewrite cosh_0, near_one in C0.
  assert (G : grid_point 4 quarter_turns).
  { repeat split; cbn [re im quarter_turns]; try reflexivity.
    - exists 2470649%Z. exact V. - exists 0%Z. simpl. lra. - rewrite V, Rabs_pos_eq; lra. - simpl. rewrite Rabs_R0. lra. }
  split; [exact G|]. split.
  { destruct (grid_sum three_quarters three_quarters) as (Fc & Ec & Gc & Bc); try (apply G); try reflexivity. clear Fc Ec. destruct (grid_cos _ Gc Bc) as [K _].
    intros E. apply (f_equal fst) in E. unfold ccs, cadd, cval, c0, quarter_turns in E. cbn [fst snd re im] in E. change (B2R (int 0)) with 0 in E. rewrite Rplus_0_l, cosh_0, Rmult_1_r in E. rewrite E, Rabs_R0 in K. lra. }
  set (FE := float_fun 24 128 libm).
  assert (Tan : exists t, complex_tan FF FE quarter_turns = Ok t /\ (s <- complex_add (r_add FR) t t ;; d1 <- denominator t t ;; complex_div FF s d1) = Ok (Cx B754_nan B754_nan)).
  { eexists. split.
    - unfold complex_tan, complex_sin, complex_cos. cbn [re im quarter_turns]. unfold FE. cbn [fn_sin fn_cos fn_sinh fn_cosh float_fun]. rewrite S1, C1, S0, C0. reflexivity.
    - vm_compute. reflexivity. }
  destruct Tan as (t & Et & Ex). 
  assert (T2 : exists w, complex_tan FF FE (Cx (add three_quarters three_quarters) (add (int 0) (int 0))) = Ok w).
  { eexists. unfold complex_tan, complex_sin, complex_cos. cbn [re im]. unfold FE. cbn [fn_sin fn_cos fn_sinh fn_cosh float_fun]. change (add (int 0) (int 0)) with (int 0). rewrite S2, C2, S0, C0. reflexivity. }
  destruct T2 as (w & Ew). assert (Ec : complex_add (r_add FR) quarter_turns quarter_turns = Ok (Cx (add three_quarters three_quarters) (add (int 0) (int 0)))) by reflexivity.
  unfold tan_test. fold FE. rewrite Ec. cbn [bind]. rewrite Et. cbn [bind]. rewrite Ew. cbn [bind].
  destruct (complex_add (r_add FR) t t) as [s| |]; try discriminate. cbn [bind] in *. destruct (denominator t t) as [dn| |]; try discriminate. cbn [bind] in *.
  rewrite Ex. cbn [bind]. unfold complex_sub. cbn [re im r_sub float_ring bind complex_new]. 
  replace (sub (re w) B754_nan) with (B754_nan : f32) by (destruct (re w); reflexivity). replace (sub (im w) B754_nan) with (B754_nan : f32) by (destruct (im w); reflexivity).
  reflexivity.
Qed.

(** ** Concrete cases *)
Lemma rounded_at x : rounds_at (rounded_libm 24 128) x.
Proof. repeat split. Qed.

(** 1 + i and -1 + i/2. *)
Lemma sample_pair : grid_point 4 (Cx (int 1) (int 1)) /\ grid_point 4 (Cx (int (-1)) (f32_lit 1 (-1))).
Proof.
  assert (V1 : B2R (int 1) = 1) by (vm_compute; lra). assert (V2 : B2R (int (-1)) = -1) by (vm_compute; lra). assert (V3 : B2R (f32_lit 1 (-1)) = / 2) by (vm_compute; lra).
  split; repeat split; cbn [re im]; try reflexivity; rewrite ?V1, ?V2, ?V3.
  all: try (exists 1048576%Z; lra). all: try (exists (-1048576)%Z; lra). all: try (exists 524288%Z; lra). all: apply Rabs_le; lra.
Qed.

Lemma ccs_below z y : Rabs (snd z) <= y -> y <= 1 -> cnorm (ccs z) <= 3.
Proof.
  intros H Hy. pose proof E_close as E. apply sq_le; [lra|]. rewrite ccs_norm. pose proof (sq_hyp (snd z)) as Q. pose proof (sc (fst z)) as S. pose proof (Rle_0_sqr (sin (fst z))) as S0. unfold Rsqr in S0.
  assert (cosh (snd z) <= 3).
  { rewrite <- cosh_abs. pose proof (Rabs_pos (snd z)) as P. set (v := Rabs (snd z)) in *. unfold cosh. assert (exp v <= exp 1) by (destruct (Req_dec v 1) as [->|N]; [lra|left; apply exp_increasing; lra]).
    assert (exp (- v) <= exp 1) by (left; apply exp_increasing; lra). lra. }
  pose proof (cosh_ge_1 (snd z)). assert (cosh (snd z) * cosh (snd z) <= 3 * 3) by (apply Rmult_le_compat; lra). lra.
Qed.

Example C103_case :
  tan_test (rounded_libm 24 128) (int 64) (Cx (int 1) (int 1)) (Cx (int (-1)) (f32_lit 1 (-1))) = Ok true
  /\ tan_test (rounded_libm 24 128) (int 8) quarter_turns quarter_turns = Ok false
  /\ tan_test (rounded_libm 24 128) (int 64) quarter_turns quarter_turns = Ok false
  /\ exists q t, complex_tan FF (float_fun 24 128 (rounded_libm 24 128)) quarter_turns = Ok q /\ is_tan t (cval quarter_turns)
       /\ cnorm (csub (cval q) t) <= 1332 / 100 * u * cnorm t.
Proof.
  pose proof u24 as U. assert (D : 0 <= 11 / 10 * u <= 11 / 10 * u) by (rewrite U; lra). pose proof (rounded_faithful 24 128 ltac:(lia)) as HL.
  assert (Ans : answers_at (rounded_libm 24 128) (add three_quarters three_quarters)) by (eexists; eexists; split; reflexivity).
  pose proof (fun f => C103_zero_denominator_refuted (rounded_libm 24 128) f (rounded_at _) (rounded_at _) Ans) as Rf.
  split; [|split; [apply Rf|split; [apply Rf|]]].
  - destruct sample_pair as [S1 S2]. apply (C103_addition_test _ _ D HL _ _ S1 S2).
    assert (V1 : B2R (int 1) = 1) by (vm_compute; lra). assert (V2 : B2R (int (-1)) = -1) by (vm_compute; lra). assert (V3 : B2R (f32_lit 1 (-1)) = / 2) by (vm_compute; lra).
    unfold cval. cbn [re im]. rewrite V1, V2, V3.
    assert (N1 : cnorm (ccs (1, 1)) <= 3) by (apply (ccs_below _ 1); cbn [snd]; [rewrite Rabs_R1; lra|lra]).
    assert (N2 : cnorm (ccs (-1, / 2)) <= 3) by (apply (ccs_below _ (/ 2)); cbn [snd]; [rewrite Rabs_pos_eq; lra|lra]).
    pose proof (cnorm_nonneg (ccs (1, 1))). pose proof (cnorm_nonneg (ccs (-1, / 2))).
    assert (cnorm (ccs (1, 1)) * cnorm (ccs (-1, / 2)) <= 3 * 3) by (apply Rmult_le_compat; assumption).
    assert (1 <= cnorm (ccs (cadd (1, 1) (-1, / 2)))).
    { apply sq_le; [apply cnorm_nonneg|]. rewrite ccs_norm. unfold cadd. cbn [fst snd]. replace (1 + -1) with 0 by ring. rewrite cos_0.
      pose proof (Rle_0_sqr (sinh (1 + / 2))) as Q. unfold Rsqr in Q. lra. }
    lra.
  - destruct (Rf (int 1)) as (G & _). assert (G8 : grid_point 8 quarter_turns) by (destruct G as (H1 & H2 & H3 & H4 & H5); repeat split; try assumption; try apply H1; lra).
    destruct (C103_tangent_accuracy _ _ D HL _ G8) as (q & t & E & _ & T & B). exists q, t. repeat split; try assumption; apply T.
Qed.

Print Assumptions C103_tangent_accuracy.
Print Assumptions C103_addition_test.
Print Assumptions C103_zero_denominator_refuted.
