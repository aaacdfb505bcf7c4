(** The tangent of complex floats and its addition theorem: error analysis (for C103). *)
From Coq Require Import List ZArith Reals Bool Lia Lra Psatz.
From Flocq Require Import Core.Core IEEE754.BinarySingleNaN.
From Verif Require Import Base.Outcome Model.Traits Model.Float Model.Complex Spec.FloatErr Spec.ComplexErr Spec.CTan
  Proofs.FloatErr Proofs.FloatRound Proofs.FloatRange Proofs.PiE Proofs.ComplexErr Proofs.ComplexReal Proofs.TrigTest Props.ComplexErrProps
  Props.FloatFunProps Props.TrigTestProps Proofs.ComplexUndo.
Local Open Scope R_scope.

(** ** Complex sine, cosine, tangent *)

Lemma sc a : sin a * sin a + cos a * cos a = 1.
Proof. pose proof (sin2_cos2 a). unfold Rsqr in *. lra. Qed.

Lemma csn_norm z : cnorm (csn z) * cnorm (csn z) = sin (fst z) * sin (fst z) + sinh (snd z) * sinh (snd z).
Proof.
  rewrite cnorm_sq. unfold csn. cbn [fst snd]. pose proof (sc (fst z)) as S. pose proof (sq_hyp (snd z)) as H.
  set (s := sin (fst z)) in *. set (c := cos (fst z)) in *. set (sh := sinh (snd z)) in *. set (ch := cosh (snd z)) in *.
  replace (s * ch * (s * ch) + c * sh * (c * sh)) with (s * s * (ch * ch) + c * c * (sh * sh)) by ring.
  replace (ch * ch) with (1 + sh * sh) by lra. replace (c * c) with (1 - s * s) by lra. ring.
Qed.
Lemma ccs_norm z : cnorm (ccs z) * cnorm (ccs z) = cos (fst z) * cos (fst z) + sinh (snd z) * sinh (snd z).
Proof.
  rewrite cnorm_sq. unfold ccs. cbn [fst snd]. pose proof (sc (fst z)) as S. pose proof (sq_hyp (snd z)) as H.
  set (s := sin (fst z)) in *. set (c := cos (fst z)) in *. set (sh := sinh (snd z)) in *. set (ch := cosh (snd z)) in *.
  replace (c * ch * (c * ch) + - (s * sh) * - (s * sh)) with (c * c * (ch * ch) + s * s * (sh * sh)) by ring.
  replace (ch * ch) with (1 + sh * sh) by lra. replace (s * s) with (1 - c * c) by lra. ring.
Qed.

Lemma csn_add z w : csn (cadd z w) = cadd (cmul (csn z) (ccs w)) (cmul (ccs z) (csn w)).
Proof.
  unfold csn, ccs, cadd, cmul. cbn [fst snd]. rewrite sin_plus, cos_plus, cosh_plus, sinh_plus. f_equal; ring.
Qed.
Lemma ccs_add z w : ccs (cadd z w) = csub (cmul (ccs z) (ccs w)) (cmul (csn z) (csn w)).
Proof.
  unfold csn, ccs, cadd, csub, cmul. cbn [fst snd]. rewrite sin_plus, cos_plus, cosh_plus, sinh_plus. f_equal; ring.
Qed.

Lemma cnorm_zero z : cnorm z = 0 -> z = c0.
Proof.
  intros H. pose proof (cnorm_sq z) as Q. rewrite H in Q. destruct z as [x y]. cbn [fst snd] in Q.
  assert (x = 0) by nra. assert (y = 0) by nra. subst. reflexivity.
Qed.
Lemma cnorm_pos z : z <> c0 -> 0 < cnorm z.
Proof. intros N. destruct (cnorm_nonneg z) as [P|P]; [exact P|]. exfalso. apply N, cnorm_zero. symmetry. exact P. Qed.
Lemma cmul_cancel x y w : w <> c0 -> cmul x w = cmul y w -> x = y.
Proof.
  intros N E. assert (cnorm (csub x y) = 0).
  { assert (K : cnorm (cmul (csub x y) w) = 0). { rewrite <- csub_mul, E. unfold csub, cnorm. cbn [fst snd]. replace (_ + _) with 0 by ring. apply sqrt_0. }
    rewrite cnorm_mul in K. pose proof (cnorm_pos w N). apply Rmult_integral in K as [K|K]; [exact K|lra]. }
  apply cnorm_zero in H. unfold csub, c0 in H. injection H as H1 H2. destruct x, y. cbn [fst snd] in *. f_equal; lra.
Qed.
Lemma cmul_comm z w : cmul z w = cmul w z.
Proof. unfold cmul. f_equal; ring. Qed.
Lemma cmul_nonzero z w : z <> c0 -> w <> c0 -> cmul z w <> c0.
Proof.
  intros Hz Hw E. pose proof (cnorm_pos _ Hz). pose proof (cnorm_pos _ Hw). assert (cnorm (cmul z w) = 0) by (rewrite E; apply cnorm_c0).
  rewrite cnorm_mul in *. assert (0 < cnorm z * cnorm w) by (apply Rmult_lt_0_compat; assumption). lra.
Qed.

(** tan(a+b) (1 - tan a tan b) = tan a + tan b. *)
Lemma tan_addition a b ta tb tc : is_tan ta a -> is_tan tb b -> is_tan tc (cadd a b) ->
  cmul tc (csub c1 (cmul ta tb)) = cadd ta tb.
Proof.
  intros [Ea Na] [Eb Nb] [Ec _]. apply (cmul_cancel _ _ (cmul (ccs a) (ccs b))); [apply cmul_nonzero; assumption|].
  transitivity (cmul tc (csub (cmul (ccs a) (ccs b)) (cmul (cmul ta (ccs a)) (cmul tb (ccs b))))).
  { unfold cmul, csub, c1. cbn [fst snd]. f_equal; ring. }
  rewrite Ea, Eb, <- ccs_add, Ec, csn_add, <- Ea, <- Eb. unfold cmul, cadd. cbn [fst snd]. f_equal; ring.
Qed.

(** There is a tangent away from the poles, and only one. *)
Lemma tan_exists z : ccs z <> c0 -> exists t, is_tan t z.
Proof.
  intros N. pose proof (cnorm_pos _ N) as W. pose proof (cnorm_sq (ccs z)) as Q. set (w := ccs z) in *.
  assert (WW : 0 < cnorm w * cnorm w) by (apply Rmult_lt_0_compat; assumption).
  exists (cscale (/ (cnorm w * cnorm w)) (cmul (csn z) (cconj w))). split; [|exact N].
  fold w. rewrite cscale_mul, cmul_assoc. replace (cmul (cconj w) w) with (cnorm w * cnorm w, 0).
  - unfold cscale, cmul. cbn [fst snd]. apply injective_projections; cbn [fst snd]; field; apply Rgt_not_eq; assumption.
  - rewrite Q. unfold cmul, cconj. cbn [fst snd]. f_equal; ring.
Qed.
Lemma tan_unique t t' z : is_tan t z -> is_tan t' z -> t = t'.
Proof. intros [E N] [E' _]. apply (cmul_cancel _ _ (ccs z) N). congruence. Qed.
Lemma tan_size t z : is_tan t z -> cnorm t * cnorm (ccs z) = cnorm (csn z).
Proof. intros [E _]. rewrite <- cnorm_mul, E. reflexivity. Qed.

(** ** Multiples of 2^-20 keep away from multiples of pi/2 *)

(** sin y >= y / 2 for 0 <= y <= pi/2. *)
Lemma sin_half y : 0 <= y <= PI / 2 -> y / 2 <= sin y.
Proof.
  intros H. pose proof PI_close as P. pose proof (sin_bound y 0 ltac:(lra) ltac:(lra)) as [L _].
  unfold sin_approx, sin_term in L. cbn [sum_f_R0 Nat.mul Nat.add fact INR pow] in L.
  assert (y - y * (y * y) / 6 <= sin y). { eapply Rle_trans; [|exact L]. simpl. lra. }
  assert (y * (y * y) <= y * 3); [|lra]. apply Rmult_le_compat_l; [lra|].
  apply Rle_trans with (1571 / 1000 * (1571 / 1000)); [apply Rmult_le_compat; lra|lra].
Qed.
Lemma sin_half_abs y : - (PI / 2) <= y <= PI / 2 -> Rabs y / 2 <= Rabs (sin y).
Proof.
  intros H. destruct (Rle_dec 0 y) as [P|P].
  - rewrite (Rabs_pos_eq y) by lra. eapply Rle_trans; [apply sin_half; lra|apply Rle_abs].
  - rewrite (Rabs_left y) by lra. rewrite <- Rabs_Ropp, <- sin_neg. eapply Rle_trans; [apply sin_half; lra|apply Rle_abs].
Qed.

Lemma sin_shift_abs x k : Rabs (sin (x + IZR k * PI)) = Rabs (sin x).
Proof.
  assert (K : forall n y, Rabs (sin (y + INR n * PI)) = Rabs (sin y)).
  { induction n; intros y; [simpl; rewrite Rmult_0_l, Rplus_0_r; reflexivity|]. rewrite S_INR.
    replace (y + (INR n + 1) * PI) with ((y + INR n * PI) + PI) by ring. rewrite neg_sin, Rabs_Ropp. apply IHn. }
  destruct k as [|p|p].
  - rewrite Rmult_0_l, Rplus_0_r. reflexivity.
  - replace (IZR (Z.pos p)) with (INR (Pos.to_nat p)) by (rewrite INR_IZR_INZ, positive_nat_Z; reflexivity). apply K.
  - replace (IZR (Z.neg p)) with (- INR (Pos.to_nat p)) by (rewrite INR_IZR_INZ, positive_nat_Z; reflexivity).
    rewrite <- (K (Pos.to_nat p) (x + - INR (Pos.to_nat p) * PI)). f_equal. f_equal. ring.
Qed.
Lemma cos_shift x k : Rabs (cos x) = Rabs (sin (x - (2 * IZR k + 1) * (PI / 2))).
Proof.
  replace (x - (2 * IZR k + 1) * (PI / 2)) with (- (PI / 2 - x + IZR k * PI)) by field.
  rewrite sin_neg, Rabs_Ropp, <- sin_shift. symmetry. apply sin_shift_abs.
Qed.

(** The distance of a multiple of 2^-20 from a point [p] between two such multiples. *)
Lemma grid_distance m p N g : (IZR N + g) / 1048576 <= p <= (IZR N + 1 - g) / 1048576 -> 0 < g ->
  g / 1048576 <= Rabs (IZR m / 1048576 - p).
Proof.
  intros P G. destruct (Z_le_gt_dec m N) as [H|H].
  - apply IZR_le in H. rewrite Rabs_left1; lra.
  - assert (N + 1 <= m)%Z as H' by lia. apply IZR_le in H'. rewrite plus_IZR in H'. rewrite Rabs_pos_eq; lra.
Qed.

Lemma grid_cos x : on_grid x -> Rabs x <= 8 -> / 268435456 <= Rabs (cos x) /\ (Rabs x <= 4 -> / 8388608 <= Rabs (cos x)).
Proof.
  intros [m ->] B. apply Rabs_le_inv in B. set (x := IZR m / 1048576) in *. pose proof PI_close as P.
  assert (K : forall k N g, (IZR N + g) / 1048576 <= (2 * IZR k + 1) * (PI / 2) <= (IZR N + 1 - g) / 1048576 -> 0 < g ->
     - (PI / 2) <= x - (2 * IZR k + 1) * (PI / 2) <= PI / 2 -> g / 2097152 <= Rabs (cos x)).
  { intros k N g H G Y. rewrite (cos_shift x k). eapply Rle_trans; [|apply sin_half_abs; exact Y].
    pose proof (grid_distance m _ N g H G) as D. fold x in D. lra. }
  assert (C : (exists k, (k = -1 \/ k = 0)%Z /\ - (PI / 2) <= x - (2 * IZR k + 1) * (PI / 2) <= PI / 2)
     \/ (~ Rabs x <= 4 /\ exists k, (k = -3 \/ k = -2 \/ k = 1 \/ k = 2)%Z /\ - (PI / 2) <= x - (2 * IZR k + 1) * (PI / 2) <= PI / 2)
     \/ (Rabs x <= 4 /\ Rabs x >= 3)).
  { destruct (Rle_dec (- PI) x); [destruct (Rle_dec x 0); [left; exists (-1)%Z; split; [lia|lra]|destruct (Rle_dec x PI); [left; exists 0%Z; split; [lia|lra]|]]|].
    - destruct (Rle_dec x 4); [right; right; rewrite Rabs_pos_eq; lra|]. right; left. split; [rewrite Rabs_pos_eq by lra; lra|].
      destruct (Rle_dec x (2 * PI)); [exists 1%Z; split; [lia|lra]|exists 2%Z; split; [lia|lra]].
    - destruct (Rle_dec (-4) x); [right; right; rewrite Rabs_left by lra; lra|]. right; left. split; [rewrite Rabs_left by lra; lra|].
      destruct (Rle_dec (- (2 * PI)) x); [exists (-2)%Z; split; [lia|lra]|exists (-3)%Z; split; [lia|lra]]. }
  assert (Small : / 8388608 <= Rabs (cos x) -> / 268435456 <= Rabs (cos x) /\ (Rabs x <= 4 -> / 8388608 <= Rabs (cos x))) by (intros H; split; [lra|auto]).
  destruct C as [(k & Hk & Y)|[(NB & k & Hk & Y)|[B4 B3]]].
  - apply Small. destruct Hk as [->| ->].
    + apply Rle_trans with ((/ 4) / 2097152); [lra|]. apply (K (-1)%Z (-1647100)%Z (/ 4)); lra.
    + apply Rle_trans with ((/ 4) / 2097152); [lra|]. apply (K 0%Z 1647099%Z (/ 4)); lra.
  - split; [|intros H; contradiction]. apply Rle_trans with ((/ 128) / 2097152); [lra|].
    destruct Hk as [->|[->|[->| ->]]].
    + apply (K (-3)%Z (-8235497)%Z (/ 128)); lra.
    + apply (K (-2)%Z (-4941298)%Z (/ 128)); lra.
    + apply (K 1%Z 4941297%Z (/ 128)); lra.
    + apply (K 2%Z 8235496%Z (/ 128)); lra.
  - apply Small. clear Small K. assert (/ 2 <= Rabs (cos x)); [|lra].
    assert (Q : forall y, 3 <= y <= 4 -> / 2 <= - cos y).
    { intros y Hy. rewrite <- neg_cos. replace (y + PI) with (y - PI + 2 * INR 1 * PI) by (simpl; ring). rewrite cos_period.
      pose proof (cos_bound (y - PI) 0 ltac:(lra) ltac:(lra)) as [L _]. unfold cos_approx, cos_term in L. simpl in L. nra. }
    destruct (Rle_dec 0 x) as [S|S].
    + rewrite (Rabs_pos_eq x) in B3, B4 by lra. pose proof (Q x ltac:(lra)). rewrite Rabs_left; lra.
    + rewrite (Rabs_left x) in B3, B4 by lra. pose proof (Q (- x) ltac:(lra)) as H. rewrite cos_neg in H. rewrite Rabs_left; lra.
Qed.

Lemma grid_sin x : on_grid x -> Rabs x <= 8 -> x = 0 \/ / 8388608 <= Rabs (sin x).
Proof.
  intros [m E] B. destruct (Req_dec x 0) as [Z|Z]; [left; exact Z|right]. apply Rabs_le_inv in B. pose proof PI_close as P.
  assert (Sh : forall k, Rabs (sin x) = Rabs (sin (x - IZR k * PI))).
  { intros k. rewrite <- (sin_shift_abs (x - IZR k * PI) k). f_equal. f_equal. ring. }
  assert (Hs : forall k g, - (PI / 2) <= x - IZR k * PI <= PI / 2 -> g <= Rabs (x - IZR k * PI) -> g / 2 <= Rabs (sin x)).
  { intros k g Y G. rewrite (Sh k). eapply Rle_trans; [|apply sin_half_abs; exact Y]. lra. }
  assert (K : forall k N g, (IZR N + g) / 1048576 <= IZR k * PI <= (IZR N + 1 - g) / 1048576 -> 0 < g ->
     - (PI / 2) <= x - IZR k * PI <= PI / 2 -> g / 2097152 <= Rabs (sin x)).
  { intros k N g H G Y. apply Rle_trans with (g / 1048576 / 2); [lra|]. apply (Hs k); [exact Y|]. rewrite E. apply (grid_distance m _ N g H G). }
  assert (K0 : - (PI / 2) <= x <= PI / 2 -> / 8388608 <= Rabs (sin x)).
  { intros Y. apply Rle_trans with (/ 1048576 / 2); [lra|]. apply (Hs 0%Z); [lra|]. rewrite Rmult_0_l, Rminus_0_r, E. unfold Rdiv. rewrite Rabs_mult, (Rabs_pos_eq (/ 1048576)) by lra.
    apply Rle_trans with (1 * / 1048576); [lra|]. apply Rmult_le_compat_r; [lra|]. rewrite <- abs_IZR. apply IZR_le.
    assert (m <> 0)%Z; [|lia]. intros ->. apply Z. rewrite E. lra. }
  assert (G : / 8388608 <= (/ 4) / 2097152) by lra.
  destruct (Rle_dec x (- (PI / 2))) as [A|A]; [destruct (Rle_dec x (- (3 * PI / 2))) as [A'|A']; [destruct (Rle_dec x (- (5 * PI / 2)))|]|destruct (Rle_dec x (PI / 2)) as [A'|A']; [apply K0; lra|destruct (Rle_dec x (3 * PI / 2)) as [A2|A2]; [|destruct (Rle_dec x (5 * PI / 2))]]].
  - apply Rle_trans with (1 / 2); [lra|]. apply (Hs (-3)%Z); [lra|]. rewrite Rabs_pos_eq; lra.
  - apply (Rle_trans _ _ _ G). apply (K (-2)%Z (-6588398)%Z); lra.
  - apply (Rle_trans _ _ _ G). apply (K (-1)%Z (-3294199)%Z); lra.
  - apply (Rle_trans _ _ _ G). apply (K 1%Z 3294198%Z); lra.
  - apply (Rle_trans _ _ _ G). apply (K 2%Z 6588397%Z); lra.
  - apply Rle_trans with (1 / 2); [lra|]. apply (Hs 3%Z); [lra|]. rewrite Rabs_left; lra.
Qed.

Section Fmt.
Context (prec emax : Z) {Hp : Prec_gt_0 prec} {He : Prec_lt_emax prec emax} (libm : FunOps (binary_float prec emax)).
Notation fl := (binary_float prec emax).
Notation FF := (float_field prec emax).
Notation FR := (float_ring prec emax).
Notation FE := (float_fun prec emax libm).
Notation u := (unit_roundoff prec).
Notation eta := (underflow_unit prec emax).
Notation rnd := (round radix2 (SpecFloat.fexp prec emax) (round_mode mode_NE)).
Notation add := (fl_add prec emax). Notation sub := (fl_sub prec emax).
Notation mul := (fl_mul prec emax). Notation div := (fl_div prec emax).
Notation hi := (half_big emax).
Context (Hprec : (24 <= prec)%Z) (k : Z) (Hk0 : (0 <= k)%Z) (Hk : (4 * k + 26 <= emax)%Z).

Notation mid := (mid k).

(** Division, against an upper bound of the dividend. *)
Lemma div_upto (z w : complex fl) (Z : R) : cfinite z -> cfinite w -> cnorm (cval z) <= Z ->
  let W := cnorm (cval w) in
  mid (W * W) -> mid (Z * W) -> mid (/ (W * W)) -> mid (Z * / W) -> 0 < W -> 0 < Z ->
  exists q, complex_div FF z w = Ok q /\ cfinite q
  /\ cnorm (csub (cmul (cval q) (cval w)) (cval z)) <= 69 / 10 * u * Z.
Proof.
  intros [Fa Fb] [Fc Fd] HZ W MWW MZW MI MQ W0 Z0. pose proof (u_range prec Hprec) as U.
  destruct (norm_sized prec emax Hprec k Hk w (conj Fc Fd) MWW) as [Fn En]. fold W in En. assert (ZW : cnorm (cval z) * W <= Z * W) by (apply Rmult_le_compat_r; [lra|exact HZ]). set (n := fl_norm2 prec emax (re w) (im w)) in *.
  assert (WW : 0 < W * W) by (apply Rmult_lt_0_compat; lra). assert (uWW : u * (W * W) <= / 16777216 * (W * W)) by (apply Rmult_le_compat_r; lra).
  apply Rabs_le_inv in En. assert (n0 : 0 < B2R n) by lra.
  set (a := re z) in *. set (b := im z) in *. set (c := re w) in *. set (d := im w) in *.
  assert (One : is_finite (fl_int prec emax 1) = true /\ B2R (fl_int prec emax 1) = 1).
  { apply (small_int prec emax Hprec 1). lia. }
  destruct One as [F1 V1].
  (* reciprocal *)
  set (I := / (W * W)) in *. assert (I0 : 0 < I) by (apply Rinv_0_lt_compat; exact WW).
  assert (RI : Rabs (/ B2R n - I) <= 20003 / 10000 * u * I).
  { replace (/ B2R n - I) with ((W * W - B2R n) * (I * / B2R n)) by (unfold I; field; split; apply Rgt_not_eq; lra).
    rewrite Rabs_mult. rewrite (Rabs_pos_eq (I * / B2R n)) by (apply Rmult_le_pos; [lra|left; apply Rinv_0_lt_compat; exact n0]).
    apply Rle_trans with (20001 / 10000 * u * (W * W) * (I * / B2R n)).
    - apply Rmult_le_compat_r; [apply Rmult_le_pos; [lra|left; apply Rinv_0_lt_compat; exact n0]|]. apply Rabs_le. lra.
    - replace (20001 / 10000 * u * (W * W) * (I * / B2R n)) with (u * I * (20001 / 10000 * (W * W * / B2R n))) by ring.
      replace (20003 / 10000 * u * I) with (u * I * (20003 / 10000)) by ring. apply Rmult_le_compat_l; [apply Rmult_le_pos; lra|].
      assert (W * W * / B2R n <= 20003 / 20001); [|lra]. apply Rmult_le_reg_r with (B2R n); [exact n0|]. rewrite Rmult_assoc, Rinv_l, Rmult_1_r by lra. lra. }
  apply Rabs_le_inv in RI. assert (uI : u * I <= / 16777216 * I) by (apply Rmult_le_compat_r; lra). assert (uI0 : 0 < u * I) by (apply Rmult_lt_0_compat; lra).
  pose proof (mid_hi emax k Hk _ MI) as HI. pose proof (mid_eta prec emax Hprec k Hk _ MI) as EI. fold I in HI, EI.
  destruct (div_round prec emax (fl_int prec emax 1) n F1 (Rgt_not_eq _ _ n0)) as [Fr Vr].
  { rewrite V1. unfold Rdiv. rewrite Rmult_1_l, Rabs_pos_eq by lra. lra. }
  rewrite V1 in Vr. unfold Rdiv in Vr. rewrite Rmult_1_l in Vr. set (r := div (fl_int prec emax 1) n) in *.
  pose proof (rnd_err prec emax (/ B2R n)) as Rr. rewrite <- Vr in Rr. rewrite (Rabs_pos_eq (/ B2R n)) in Rr by lra.
  assert (RR : Rabs (B2R r - I) <= 3001 / 1000 * u * I).
  { replace (B2R r - I) with ((B2R r - / B2R n) + (/ B2R n - I)) by ring. eapply Rle_trans; [apply Rabs_triang|].
    assert (u * / B2R n <= u * (10001 / 10000 * I)) by (apply Rmult_le_compat_l; lra). apply Rabs_le in RI. lra. }
  pose proof (Rabs_le_inv _ _ RR) as RR'.
  (* numerator *)
  set (M := Z * W) in *. pose proof (mid_pos k _ MZW) as M0. fold M in M0.
  assert (uM0 : 0 < u * M) by (apply Rmult_lt_0_compat; lra). assert (uM : u * M <= / 16777216 * M) by (apply Rmult_le_compat_r; lra).
  destruct (two_products prec emax Hprec k Hk a c b d 1 add M (add_f prec emax)) as [Fp1 E1]; try assumption; [left; reflexivity|eapply Rle_trans; [apply cauchy_abs|exact ZW]|].
  destruct (two_products prec emax Hprec k Hk b c a d (-1) sub M (sub_f prec emax)) as [Fp2 E2]; try assumption; [right; reflexivity|eapply Rle_trans; [apply cauchy_abs|]; rewrite (cnorm_swap (B2R a)); exact ZW|].
  set (p1 := add (mul a c) (mul b d)) in *. set (p2 := sub (mul b c) (mul a d)) in *.
  set (P := cmul (cval z) (cconj (cval w))).
  assert (EP : P = (B2R a * B2R c + 1 * (B2R b * B2R d), B2R b * B2R c + -1 * (B2R a * B2R d))).
  { unfold P, cmul, cconj, cval. cbn [fst snd]. fold a b c d. f_equal; ring. }
  assert (NP : cnorm P <= M) by (unfold P; rewrite cnorm_mul, cnorm_conj; exact ZW).
  assert (DP : cnorm (csub (B2R p1, B2R p2) P) <= 28288 / 10000 * u * M).
  { rewrite EP. eapply Rle_trans; [apply (pair_error _ _ _ _ (20001 / 10000 * u * M)); [lra|assumption..]|]. lra. }
  (* scaled numerator *)
  assert (r0 : 0 <= B2R r) by lra.
  set (S := cscale (B2R r) (B2R p1, B2R p2)).
  assert (NQ : M * I = Z * / W). { unfold M, I. field. apply Rgt_not_eq; lra. }
  pose proof (mid_pos k _ MQ) as Q0. pose proof (mid_eta prec emax Hprec k Hk _ MQ) as EQ. pose proof (mid_hi emax k Hk _ MQ) as HQ. rewrite <- NQ in Q0, EQ, HQ. set (Q := M * I) in *.
  assert (uQ0 : 0 < u * Q) by (apply Rmult_lt_0_compat; lra). assert (uQ : u * Q <= / 16777216 * Q) by (apply Rmult_le_compat_r; lra).
  assert (DS : cnorm (csub S (cscale I P)) <= 58302 / 10000 * u * Q).
  { eapply Rle_trans; [apply (csub_triangle _ (cscale (B2R r) P))|].
    replace (csub S (cscale (B2R r) P)) with (cscale (B2R r) (csub (B2R p1, B2R p2) P)) by (unfold S, csub, cscale; cbn [fst snd]; f_equal; ring).
    rewrite cnorm_scale by exact r0.
    assert (D2 : cnorm (csub (cscale (B2R r) P) (cscale I P)) <= 3001 / 1000 * u * I * M).
    { eapply Rle_trans; [apply (cnorm_mono _ (cscale (3001 / 1000 * u * I) (Rabs (fst P), Rabs (snd P)))); unfold csub, cscale; cbn [fst snd]|].
      - replace (B2R r * fst P - I * fst P) with ((B2R r - I) * fst P) by ring. rewrite Rabs_mult. apply Rmult_le_compat_r; [apply Rabs_pos|exact RR].
      - replace (B2R r * snd P - I * snd P) with ((B2R r - I) * snd P) by ring. rewrite Rabs_mult. apply Rmult_le_compat_r; [apply Rabs_pos|exact RR].
      - rewrite cnorm_scale by lra. rewrite cnorm_abs, <- surjective_pairing. apply Rmult_le_compat_l; [lra|exact NP]. }
    assert (D1 : B2R r * cnorm (csub (B2R p1, B2R p2) P) <= (1 + / 1000000) * I * (28288 / 10000 * u * M)).
    { apply Rmult_le_compat; [exact r0|apply cnorm_nonneg|lra|exact DP]. }
    replace ((1 + / 1000000) * I * (28288 / 10000 * u * M)) with ((1 + / 1000000) * (28288 / 10000) * (u * Q)) in D1 by (unfold Q; ring).
    replace (3001 / 1000 * u * I * M) with (3001 / 1000 * (u * Q)) in D2 by (unfold Q; ring). lra. }
  assert (NS : cnorm S <= 100001 / 100000 * Q).
  { eapply Rle_trans; [apply (cnorm_le_diff _ (cscale I P))|]. rewrite cnorm_scale by lra. assert (I * cnorm P <= Q) by (unfold Q; rewrite (Rmult_comm M); apply Rmult_le_compat_l; lra). lra. }
  destruct (abs_le_norm (fst S) (snd S)) as [NS1 NS2]. rewrite <- surjective_pairing in NS1, NS2. unfold S in NS1, NS2. cbn [cscale fst snd] in NS1, NS2. fold S in NS1, NS2.
  destruct (mul_round prec emax p1 r Fp1 Fr) as [Fq1 Vq1]; [rewrite Rmult_comm; lra|]. destruct (mul_round prec emax p2 r Fp2 Fr) as [Fq2 Vq2]; [rewrite Rmult_comm; lra|].
  exists (Cx (mul p1 r) (mul p2 r)). split; [reflexivity|]. split; [split; assumption|].
  assert (DQ : cnorm (csub (B2R (mul p1 r), B2R (mul p2 r)) (cscale I P)) <= 6839 / 1000 * u * Q).
  { eapply Rle_trans; [apply (csub_triangle _ S)|]. rewrite Vq1, Vq2. replace S with (B2R p1 * B2R r, B2R p2 * B2R r) by (unfold S, cscale; cbn [fst snd]; f_equal; ring).
    assert (D3 : cnorm (csub (rnd (B2R p1 * B2R r), rnd (B2R p2 * B2R r)) (B2R p1 * B2R r, B2R p2 * B2R r)) <= u * cnorm (B2R p1 * B2R r, B2R p2 * B2R r) + 3 / 2 * eta).
    { apply cnorm_perturb; [lra|left; apply (eta_pos prec emax)|apply (rnd_err prec emax)|apply (rnd_err prec emax)]. }
    replace (B2R p1 * B2R r, B2R p2 * B2R r) with S in D3 |- * by (unfold S, cscale; cbn [fst snd]; f_equal; ring).
    assert (u * cnorm S <= u * (100001 / 100000 * Q)) by (apply Rmult_le_compat_l; lra). lra. }
  change (cval {| re := mul p1 r; im := mul p2 r |}) with (B2R (mul p1 r), B2R (mul p2 r)). set (q := (B2R (mul p1 r), B2R (mul p2 r))) in *.
  assert (EZ : cmul (cscale I P) (cval w) = cval z).
  { rewrite cscale_mul. unfold P. rewrite cmul_assoc. assert (CW : cmul (cconj (cval w)) (cval w) = (W * W, 0)).
    { unfold W. rewrite cnorm_sq. unfold cmul, cconj. cbn [fst snd]. f_equal; ring. }
    rewrite CW. unfold cscale, cmul. cbn [fst snd]. apply injective_projections; cbn [fst snd]; unfold I; field; apply Rgt_not_eq; lra. }
  rewrite <- EZ at 1. rewrite csub_mul, cnorm_mul. fold W.
  apply Rle_trans with (6839 / 1000 * u * Q * W); [apply Rmult_le_compat_r; [lra|exact DQ]|].
  replace (6839 / 1000 * u * Q * W) with (6839 / 1000 * (u * Z)); [assert (0 < u * Z) by (apply Rmult_lt_0_compat; lra); lra|].
  unfold Q, M, I. field. apply Rgt_not_eq; lra.
Qed.
End Fmt.

(** ** The computed tangent, in f32 *)
Section F32.
Context (libm : FunOps f32) (d : R) (Hd : 0 <= d <= 11 / 10 * unit_roundoff 24) (HL : faithful 24 128 libm d).
Notation fl := f32.
Notation FF := (float_field 24 128).
Notation FR := (float_ring 24 128).
Notation FE := (float_fun 24 128 libm).
Notation u := (unit_roundoff 24).
Notation eta := (underflow_unit 24 128).
Notation rnd := (round radix2 (SpecFloat.fexp 24 128) (round_mode mode_NE)).
Notation add := (fl_add 24 128). Notation sub := (fl_sub 24 128).
Notation mul := (fl_mul 24 128). Notation div := (fl_div 24 128).
Notation hi := (half_big 128).
Notation mid := (mid 25).

Lemma u24 : u = / 16777216.
Proof. unfold unit_roundoff. simpl. lra. Qed.
Lemma eta24 : 0 < eta <= / 2 ^ 150.
Proof. unfold underflow_unit. split; [apply bpow_gt_0|]. replace (/ 2 ^ 150) with (bpow radix2 (-150)); [apply bpow_le; lia|]. cbn [bpow]. rewrite (pow_IZR 2 150). reflexivity. Qed.
Lemma hi24 : 2 ^ 127 <= hi.
Proof. unfold half_big. change (bpow radix2 (128 - 1)) with (IZR (2 ^ 127)). rewrite (pow_IZR 2 127). right. reflexivity. Qed.
Lemma mid24 x : / 2 ^ 104 <= x <= 2 ^ 104 -> mid x.
Proof.
  intros [L H]. split.
  - eapply Rle_trans; [|exact L]. change (bpow radix2 (- (4 * 25))) with (/ IZR (2 ^ 100)). rewrite <- Rinv_mult.
    rewrite (pow_IZR 2 104). replace (16 * IZR (2 ^ 100)) with (IZR (2 ^ 104)) by (rewrite <- mult_IZR; reflexivity). right. reflexivity.
  - eapply Rle_trans; [exact H|]. change (bpow radix2 (4 * 25)) with (IZR (2 ^ 100)). rewrite (pow_IZR 2 104), <- mult_IZR. right. reflexivity.
Qed.

(** A float no larger than half the smallest positive one is zero. *)
Lemma tiny_zero (x : fl) : is_finite x = true -> Rabs (B2R x) <= eta -> B2R x = 0.
Proof.
  intros F H. destruct (Req_dec (B2R x) 0) as [Z|N]; [exact Z|exfalso].
  assert (K : bpow radix2 (-149) <= Rabs (B2R x)).
  { apply (generic_format_ge_bpow radix2 (SpecFloat.fexp 24 128)).
    - intros e. unfold SpecFloat.fexp, SpecFloat.emin. lia.
    - apply Rabs_pos_lt. exact N.
    - apply generic_format_abs. apply generic_format_B2R. }
  unfold underflow_unit in H. assert (bpow radix2 (2 - 128 - 24) < bpow radix2 (-149)) by (apply bpow_lt; lia). lra.
Qed.
Lemma rnd0 : rnd 0 = 0. Proof. apply round_0. apply valid_rnd_round_mode. Qed.
Lemma hi_pos : 1 <= hi. Proof. pose proof hi24. assert (1 <= 2 ^ 127) by (apply pow_R1_Rle; lra). lra. Qed.
Lemma mul_zero_l (x y : fl) : is_finite x = true -> is_finite y = true -> B2R x = 0 -> is_finite (mul x y) = true /\ B2R (mul x y) = 0.
Proof.
  intros Fx Fy Z. destruct (mul_round 24 128 x y Fx Fy) as [F E]; rewrite Z, Rmult_0_l in *; [rewrite Rabs_R0; pose proof hi_pos; lra|]. rewrite rnd0 in E. auto.
Qed.
Lemma mul_zero_r (x y : fl) : is_finite x = true -> is_finite y = true -> B2R y = 0 -> is_finite (mul x y) = true /\ B2R (mul x y) = 0.
Proof.
  intros Fx Fy Z. destruct (mul_round 24 128 x y Fx Fy) as [F E]; rewrite Z, Rmult_0_r in *; [rewrite Rabs_R0; pose proof hi_pos; lra|]. rewrite rnd0 in E. auto.
Qed.
Lemma add_zeros (x y : fl) : is_finite x = true -> is_finite y = true -> B2R x = 0 -> B2R y = 0 ->
  (is_finite (add x y) = true /\ B2R (add x y) = 0) /\ (is_finite (sub x y) = true /\ B2R (sub x y) = 0).
Proof.
  intros Fx Fy Zx Zy. pose proof hi_pos.
  destruct (add_round 24 128 x y Fx Fy) as [F E]; rewrite Zx, Zy, Rplus_0_r in *; [rewrite Rabs_R0; lra|].
  destruct (sub_round 24 128 x y Fx Fy) as [F' E']; rewrite Zx, Zy, Rminus_0_r in *; [rewrite Rabs_R0; lra|]. rewrite rnd0 in *. auto.
Qed.

(** A zero divided by a number of moderate size is zero. *)
Lemma div_of_zero (z w : complex fl) : cfinite z -> cfinite w -> cval z = c0 -> 
  let W := cnorm (cval w) in / 2 ^ 40 <= W <= 2 ^ 40 ->
  exists q, complex_div FF z w = Ok q /\ cfinite q /\ cval q = c0.
Proof.
  intros [Fa Fb] [Fc Fd] Z W HW. unfold cval, c0 in Z. injection Z as Za Zb. set (a := re z) in *. set (b := im z) in *. set (c := re w) in *. set (e := im w) in *.
  assert (P40 : 0 < 2 ^ 40) by (apply pow_lt; lra). assert (W0 : 0 < W) by (assert (0 < / 2 ^ 40) by (apply Rinv_0_lt_compat; exact P40); lra).
  assert (W2 : / 2 ^ 80 <= W * W <= 2 ^ 80).
  { split.
    - replace (/ 2 ^ 80) with (/ 2 ^ 40 * / 2 ^ 40) by (rewrite <- Rinv_mult by lra; f_equal; rewrite <- pow_add; reflexivity). apply Rmult_le_compat; try (left; apply Rinv_0_lt_compat; exact P40); lra.
    - replace (2 ^ 80) with (2 ^ 40 * 2 ^ 40) by (rewrite <- pow_add; reflexivity). apply Rmult_le_compat; lra. }
  assert (P80 : 0 < 2 ^ 80) by (apply pow_lt; lra). assert (L80 : 2 ^ 80 <= 2 ^ 104) by (apply Rle_pow; [lra|lia]).
  assert (I80 : / 2 ^ 104 <= / 2 ^ 80) by (apply Rinv_le; lra).
  destruct (norm_sized 24 128 ltac:(lia) 25 ltac:(lia) w (conj Fc Fd)) as [Fn En]; [fold W; apply mid24; lra|]. fold W in En. set (n := fl_norm2 24 128 (re w) (im w)) in *.
  assert (WW0 : 0 < W * W) by (apply Rmult_lt_0_compat; assumption). rewrite u24 in En. apply Rabs_le_inv in En.
  assert (n0 : / 2 * (W * W) <= B2R n) by lra.
  assert (One : is_finite (fl_int 24 128 1) = true /\ B2R (fl_int 24 128 1) = 1) by (apply (small_int 24 128 ltac:(lia) 1); lia). destruct One as [F1 V1].
  destruct (div_round 24 128 (fl_int 24 128 1) n F1 ltac:(lra)) as [Fr _].
  { rewrite V1. unfold Rdiv. rewrite Rmult_1_l, Rabs_pos_eq by (left; apply Rinv_0_lt_compat; lra). pose proof hi24.
    apply Rle_trans with (2 * 2 ^ 80).
    - rewrite <- (Rinv_inv (2 * 2 ^ 80)) by lra. apply Rinv_le; [apply Rinv_0_lt_compat; lra|]. rewrite Rinv_mult by lra. lra.
    - eapply Rle_trans; [|exact H]. replace (2 * 2 ^ 80) with (2 ^ 81) by (simpl; lra). apply Rle_pow; [lra|lia]. }
  set (r := div (fl_int 24 128 1) n) in *.
  destruct (mul_zero_l a c Fa Fc Za) as [A1 A2]. destruct (mul_zero_l b c Fb Fc Zb) as [B1 B2]. destruct (mul_zero_l a e Fa Fd Za) as [C1 C2]. destruct (mul_zero_l b e Fb Fd Zb) as [D1 D2].
  destruct (add_zeros _ _ A1 D1 A2 D2) as [[S1 S2] _]. destruct (add_zeros _ _ B1 C1 B2 C2) as [_ [T1 T2]].
  destruct (mul_zero_l _ r S1 Fr S2) as [X1 X2]. destruct (mul_zero_l _ r T1 Fr T2) as [Y1 Y2].
  eexists. split; [reflexivity|]. split; [split; cbn [re im]; assumption|]. unfold cval, c0. cbn [re im]. f_equal; assumption.
Qed.

(** sin z and cos z as computed. *)
Definition close_to (z : cplx) (v : complex fl) : Prop :=
  cfinite v /\ cnorm (csub (cval v) z) <= 32001 / 10000 * u * cnorm z + / 2 ^ 130.

Lemma libm_product (x y : fl) v w : close 24 128 d x v -> close 24 128 d y w -> Rabs v <= 4096 -> Rabs w <= 4096 ->
  is_finite (mul x y) = true /\ Rabs (B2R (mul x y) - v * w) <= 32001 / 10000 * u * Rabs (v * w) + / 2 ^ 131.
Proof.
  intros Cx Cy Hv Hw. destruct (close_product 24 128 ltac:(lia) ltac:(lia) d x y v w 4096 Hd Cx Cy ltac:(lra) Hv Hw) as [F E].
  - assert (Rabs (v * w) <= 4096 * 4096) by (rewrite Rabs_mult; apply Rmult_le_compat; try apply Rabs_pos; assumption). pose proof hi24.
    assert (2 ^ 30 <= 2 ^ 127) by (apply Rle_pow; [lra|lia]). assert (2 ^ 30 = 1073741824) by (simpl; lra). lra.
  - split; [exact F|]. eapply Rle_trans; [exact E|]. apply Rplus_le_compat_l. pose proof eta24 as [_ T].
    apply Rle_trans with (5 * / 2 ^ 150 * 4096); [apply Rmult_le_compat_r; [lra|]; apply Rmult_le_compat_l; lra|].
    replace (/ 2 ^ 150) with (/ 2 ^ 131 * / 524288); [|replace 524288 with (2 ^ 19) by (simpl; lra); rewrite <- Rinv_mult, <- pow_add; reflexivity].
    assert (0 < / 2 ^ 131) by (apply Rinv_0_lt_compat, pow_lt; lra). lra.
Qed.

Lemma pow_half : 3 / 2 * / 2 ^ 131 <= / 2 ^ 130.
Proof. replace (/ 2 ^ 131) with (/ 2 ^ 130 * / 2) by (rewrite <- Rinv_mult; f_equal; simpl; ring). assert (0 < / 2 ^ 130) by (apply Rinv_0_lt_compat, pow_lt; lra). lra. Qed.

Lemma u_pos : 0 < u. Proof. rewrite u24. lra. Qed.

Lemma sin_cos_computed (z : complex fl) : cfinite z -> cosh (B2R (im z)) <= 4096 ->
  exists s c, complex_sin FF FE z = Ok s /\ complex_cos FF FE z = Ok c /\ close_to (csn (cval z)) s /\ close_to (ccs (cval z)) c
    /\ (csn (cval z) = c0 -> cval s = c0).
Proof.
  intros [Fa Fb] Hc. set (a := B2R (re z)) in *. set (b := B2R (im z)) in *.
  assert (Q : cosh b <= bpow radix2 (128 - 2)). { eapply Rle_trans; [exact Hc|]. change 4096 with (bpow radix2 12). apply bpow_le. lia. }
  destruct (HL (re z) Fa) as (_ & (s & Es & Fs & Hs) & (c & Ec & Fc & Hcs) & _). destruct (HL (im z) Fb) as (_ & _ & _ & H).
  destruct (H Q) as [(sh & Esh & Fsh & Hsh) (ch & Ech & Fch & Hch)]. clear H. fold a in Hs, Hcs. fold b in Hsh, Hch.
  assert (B1 : Rabs (sin a) <= 4096) by (pose proof (sin_le_1 a); lra). assert (B2 : Rabs (cos a) <= 4096) by (pose proof (cos_le_1 a); lra).
  pose proof (cosh_pos b) as Cp. assert (B3 : Rabs (cosh b) <= 4096) by (rewrite Rabs_pos_eq; lra). assert (B4 : Rabs (sinh b) <= 4096) by (pose proof (sinh_le_cosh b); lra).
  destruct (libm_product s ch (sin a) (cosh b) (conj Fs Hs) (conj Fch Hch) B1 B3) as [F1 E1].
  destruct (libm_product c sh (cos a) (sinh b) (conj Fc Hcs) (conj Fsh Hsh) B2 B4) as [F2 E2].
  destruct (libm_product c ch (cos a) (cosh b) (conj Fc Hcs) (conj Fch Hch) B2 B3) as [F3 E3].
  destruct (libm_product s sh (sin a) (sinh b) (conj Fs Hs) (conj Fsh Hsh) B1 B4) as [F4 E4].
  exists (Cx (mul s ch) (mul c sh)), (Cx (mul c ch) (Bopp (mul s sh))).
  assert (FE1 : fn_sin FE (re z) = Ok s) by exact Es. assert (FE2 : fn_cos FE (re z) = Ok c) by exact Ec.
  assert (FE3 : fn_sinh FE (im z) = Ok sh) by exact Esh. assert (FE4 : fn_cosh FE (im z) = Ok ch) by exact Ech.
  pose proof u_pos as U. assert (P131 : 0 <= / 2 ^ 131) by (left; apply Rinv_0_lt_compat, pow_lt; lra). pose proof pow_half as PH.
  split; [unfold complex_sin; rewrite FE1, FE2, FE3, FE4; reflexivity|]. split; [unfold complex_cos; rewrite FE1, FE2, FE3, FE4; reflexivity|].
  split; [|split].
  - split; [split; assumption|]. eapply Rle_trans; [apply (cnorm_perturb (sin a * cosh b) (cos a * sinh b) _ _ (32001 / 10000 * u) (/ 2 ^ 131)); [lra|assumption..]|].
    change (csn (cval z)) with (sin a * cosh b, cos a * sinh b). lra.
  - split; [split; cbn [re im]; [assumption|rewrite is_finite_Bopp; assumption]|].
    eapply Rle_trans; [apply (cnorm_perturb (cos a * cosh b) (- (sin a * sinh b)) _ _ (32001 / 10000 * u) (/ 2 ^ 131)); [lra|assumption|exact E3|]|].
    + cbn [re im]. rewrite B2R_Bopp. replace (- B2R (mul s sh) - - (sin a * sinh b)) with (- (B2R (mul s sh) - sin a * sinh b)) by ring. rewrite !Rabs_Ropp. exact E4.
    + change (ccs (cval z)) with (cos a * cosh b, - (sin a * sinh b)). lra.
  - intros Z. assert (N : sin a * sin a + sinh b * sinh b = 0). { change (sin (fst (cval z)) * sin (fst (cval z)) + sinh (snd (cval z)) * sinh (snd (cval z)) = 0). rewrite <- csn_norm, Z, cnorm_c0. ring. }
    assert (S0 : sin a = 0) by nra. assert (H0 : sinh b = 0) by nra.
    assert (Zs : B2R s = 0) by (apply tiny_zero; [exact Fs|]; rewrite S0, Rabs_R0, Rmult_0_r, Rplus_0_l, Rminus_0_r in Hs; exact Hs).
    assert (Zh : B2R sh = 0) by (apply tiny_zero; [exact Fsh|]; rewrite H0, Rabs_R0, Rmult_0_r, Rplus_0_l, Rminus_0_r in Hsh; exact Hsh).
    unfold cval, c0. cbn [re im]. f_equal; [apply mul_zero_l; assumption|apply mul_zero_r; assumption].
Qed.

(** Both parts of the quotient perturbed by 3.2002 u, the division by 6.9 u: the tangent within 13.32 u. *)
Lemma tan_computed (z : complex fl) : cfinite z -> cosh (B2R (im z)) <= 4096 ->
  let S := cnorm (csn (cval z)) in let W := cnorm (ccs (cval z)) in
  / 2 ^ 28 <= W -> S = 0 \/ / 2 ^ 28 <= S ->
  exists q t, complex_tan FF FE z = Ok q /\ cfinite q /\ is_tan t (cval z) /\ cnorm (csub (cval q) t) <= 1332 / 100 * u * cnorm t.
Proof.
  intros Fz Hc S W HW HS. destruct (sin_cos_computed z Fz Hc) as (s & c & Es & Ec & [Fs Ds] & [Fc Dc] & Zs). fold S in Ds. fold W in Dc.
  assert (W0 : 0 < W) by (assert (0 < / 2 ^ 28) by (apply Rinv_0_lt_compat, pow_lt; lra); lra).
  assert (NC : ccs (cval z) <> c0) by (intros E; unfold W in W0; rewrite E, cnorm_c0 in W0; lra).
  destruct (tan_exists (cval z) NC) as [t Ht]. pose proof (tan_size t (cval z) Ht) as Sz. fold S W in Sz.
  assert (Up : forall X v, X = cnorm v -> (X * X = sin (fst (cval z)) * sin (fst (cval z)) + sinh (snd (cval z)) * sinh (snd (cval z)) \/ X * X = cos (fst (cval z)) * cos (fst (cval z)) + sinh (snd (cval z)) * sinh (snd (cval z))) -> X <= 4096).
  { intros X v EX H. apply sq_le; [lra|]. pose proof (sc (fst (cval z))) as SC. pose proof (sq_hyp (snd (cval z))) as Hy. change (snd (cval z)) with (B2R (im z)) in *. set (ch := cosh (B2R (im z))) in *.
    pose proof (cosh_pos (B2R (im z))) as Cp. fold ch in Cp. assert (ch * ch <= 4096 * 4096) by (apply Rmult_le_compat; lra).
    pose proof (Rle_0_sqr (sin (fst (cval z)))). pose proof (Rle_0_sqr (cos (fst (cval z)))). unfold Rsqr in *. destruct H; lra. }
  assert (SU : S <= 4096) by (apply (Up S (csn (cval z)) eq_refl); left; apply csn_norm).
  assert (WU : W <= 4096) by (apply (Up W (ccs (cval z)) eq_refl); right; apply ccs_norm). clear Up.
  pose proof u24 as U. rewrite U in Ds, Dc.
  assert (P130 : / 2 ^ 130 = / 2 ^ 28 * / 2 ^ 102) by (rewrite <- Rinv_mult, <- pow_add; reflexivity).
  assert (P102 : 0 < / 2 ^ 102 <= / 1000000000000000).
  { split; [apply Rinv_0_lt_compat, pow_lt; lra|]. apply Rinv_le; [lra|]. apply Rle_trans with (2 ^ 60); [|apply Rle_pow; [lra|lia]]. rewrite (pow_IZR 2 60). apply IZR_le. vm_compute. discriminate. }
  assert (T28 : forall X, / 2 ^ 28 <= X -> / 2 ^ 130 <= / 1000000000000000 * X).
  { intros X HX. rewrite P130. assert (0 < / 2 ^ 28) by (apply Rinv_0_lt_compat, pow_lt; lra). rewrite (Rmult_comm (/ 1000000000000000)). apply Rmult_le_compat; lra. }
  pose proof (T28 W HW) as TW.
  set (s' := cval s) in *. set (c' := cval c) in *. set (S' := cnorm s'). set (W' := cnorm c').
  assert (DW : cnorm (csub c' (ccs (cval z))) <= 32002 / 10000 * / 16777216 * W) by lra.
  assert (W'b : 999 / 1000 * W <= W' <= 1001 / 1000 * W).
  { pose proof (cnorm_le_diff c' (ccs (cval z))) as L1. pose proof (cnorm_le_diff (ccs (cval z)) c') as L2. rewrite (csub_norm_sym (ccs (cval z))) in L2. fold W W' in L1, L2. lra. }
  assert (Tan : complex_tan FF FE z = complex_div FF s c) by (unfold complex_tan; rewrite Es, Ec; reflexivity).
  assert (Q28 : / 2 ^ 28 = / 268435456) by (f_equal; simpl; lra).
  destruct HS as [S0|HS].
  - (* zero *)
    assert (Zc : cval s = c0) by (apply Zs, cnorm_zero, S0).
    destruct (div_of_zero s c Fs Fc Zc) as (q & Eq & Fq & Vq).
    { fold c' W'. split.
      - apply Rle_trans with (/ 1099511627776); [right; f_equal; simpl; lra|lra].
      - apply Rle_trans with 1099511627776; [lra|right; simpl; lra]. }
    exists q, t. rewrite Tan. repeat (split; [assumption|]). rewrite Vq.
    assert (T0 : cnorm t = 0) by (rewrite S0 in Sz; apply Rmult_integral in Sz as [Z|Z]; lra).
    rewrite (cnorm_zero t T0). unfold csub, c0, cnorm. cbn [fst snd]. replace (_ + _) with 0 by ring. replace (0 * 0 + 0 * 0) with 0 by ring. rewrite sqrt_0. lra.
  - pose proof (T28 S HS) as TS.
    assert (DS : cnorm (csub s' (csn (cval z))) <= 32002 / 10000 * / 16777216 * S) by lra.
    assert (S'b : 999 / 1000 * S <= S' <= 1001 / 1000 * S).
    { pose proof (cnorm_le_diff s' (csn (cval z))) as L1. pose proof (cnorm_le_diff (csn (cval z)) s') as L2. rewrite (csub_norm_sym (csn (cval z))) in L2. fold S S' in L1, L2. lra. }
    assert (S0 : 0 < S') by lra. assert (W'0 : 0 < W') by lra.
    assert (B : forall x, / 1000000000000000000000000000000 <= x <= 1000000000000000000000000000000 -> mid x).
    { intros x Hx. apply mid24. assert (1000000000000000000000000000000 <= 2 ^ 104) by (rewrite (pow_IZR 2 104); apply IZR_le; vm_compute; discriminate).
      split; [|lra]. eapply Rle_trans; [|apply Hx]. apply Rinv_le; lra. }
    assert (lo : forall x y a b : R, 0 < a -> 0 < b -> a <= x -> b <= y -> a * b <= x * y) by (intros; apply Rmult_le_compat; lra).
    assert (WI : / 5000 <= / W' <= 300000000) by (split; [apply Rinv_le; lra|rewrite <- (Rinv_inv 300000000); apply Rinv_le; lra]).
    assert (M1 : mid (W' * W')).
    { apply B. split; [eapply Rle_trans; [|apply (lo W' W' (/ 300000000) (/ 300000000)); lra]; lra|]. apply Rle_trans with (5000 * 5000); [apply Rmult_le_compat; lra|lra]. }
    assert (M2 : mid (S' * W')).
    { apply B. split; [eapply Rle_trans; [|apply (lo S' W' (/ 300000000) (/ 300000000)); lra]; lra|]. apply Rle_trans with (5000 * 5000); [apply Rmult_le_compat; lra|lra]. }
    assert (M3 : mid (/ (W' * W'))).
    { rewrite Rinv_mult. apply B. split; [eapply Rle_trans; [|apply (lo (/ W') (/ W') (/ 5000) (/ 5000)); lra]; lra|]. apply Rle_trans with (300000000 * 300000000); [apply Rmult_le_compat; lra|lra]. }
    assert (M4 : mid (S' * / W')).
    { apply B. split; [eapply Rle_trans; [|apply (lo S' (/ W') (/ 300000000) (/ 5000)); lra]; lra|]. apply Rle_trans with (5000 * 300000000); [apply Rmult_le_compat; lra|lra]. }
    destruct (div_upto 24 128 ltac:(lia) 25 ltac:(lia) s c S' Fs Fc (Rle_refl _) M1 M2 M3 M4 W'0 S0) as (q & Eq & Fq & Dq).
    exists q, t. rewrite Tan. repeat (split; [assumption|]). fold s' c' in Dq. set (q' := cval q) in *. set (T := cnorm t) in *.
    set (e := cnorm (csub q' t)). rewrite U in Dq |- *.
    assert (Main : e * W <= 69 / 10 * / 16777216 * S' + 32002 / 10000 * / 16777216 * S + (T + e) * (32002 / 10000 * / 16777216 * W)).
    { replace (e * W) with (cnorm (cmul (csub q' t) (ccs (cval z)))) by (rewrite cnorm_mul; reflexivity). rewrite <- csub_mul. destruct Ht as [Et _]. rewrite Et.
      eapply Rle_trans; [apply (csub_triangle _ (cmul q' c'))|]. rewrite (csub_norm_sym (cmul q' (ccs (cval z)))).
      replace (csub (cmul q' c') (cmul q' (ccs (cval z)))) with (cmul q' (csub c' (ccs (cval z)))) by (unfold cmul, csub; cbn [fst snd]; f_equal; ring). rewrite cnorm_mul.
      assert (cnorm q' * cnorm (csub c' (ccs (cval z))) <= (T + e) * (32002 / 10000 * / 16777216 * W)).
      { apply Rmult_le_compat; try apply cnorm_nonneg; [apply cnorm_le_diff|exact DW]. }
      pose proof (csub_triangle (cmul q' c') s' (csn (cval z))). lra. }
    apply Rmult_le_reg_r with W; [exact W0|]. assert (TW0 : 0 <= T * W) by (rewrite Sz; lra).
    assert (e0 : 0 <= e) by apply cnorm_nonneg. assert (eW0 : 0 <= e * W) by (apply Rmult_le_pos; lra).
    pose proof (cnorm_le_diff s' (csn (cval z))) as L1. fold S S' in L1.
    replace ((T + e) * (32002 / 10000 * / 16777216 * W)) with (32002 / 10000 * / 16777216 * (T * W) + 32002 / 10000 * / 16777216 * (e * W)) in Main by ring.
    replace (1332 / 100 * / 16777216 * T * W) with (1332 / 100 * / 16777216 * (T * W)) by ring. lra.
Qed.
End F32.

(** ** The addition theorem under rounding *)
Section Addition.
Context (ta tb Ta Tb Tc s D E : cplx) (v : R).
Notation A := (cnorm ta). Notation B := (cnorm tb). Notation tau := (cnorm Tc). Notation Delta := (cnorm D).
Context (Hv : v = / 16777216).
Context (Ha : cnorm (csub ta Ta) <= 1333 / 100 * v * A) (Hb : cnorm (csub tb Tb) <= 1333 / 100 * v * B).
Context (Hadd : cmul Tc (csub c1 (cmul Ta Tb)) = cadd Ta Tb).
Context (Hs : cnorm (csub s (cadd ta tb)) <= v * (A + B)).
Context (HD : cnorm (csub D (csub c1 (cmul ta tb))) <= 284 / 100 * v * (A * B) + 101 / 100 * v * Delta + / 1000 * v).
Context (HE : cnorm (csub (cmul E D) s) <= 69 / 10 * v * cnorm s + / 1000 * v).
Context (Hlow : / 1024 <= Delta).

Lemma addition_error (M : R) : tau * tau + 1 <= M -> / (Delta * Delta) <= M -> cnorm (csub E Tc) <= 105 * v * M.
Proof.
  intros HM1 HM2. set (e := cnorm (csub E Tc)).
  pose proof (cnorm_nonneg ta) as A0. pose proof (cnorm_nonneg tb) as B0. pose proof (cnorm_nonneg Tc) as T0. pose proof (cnorm_nonneg s) as S0.
  pose proof (cnorm_nonneg (csub E Tc)) as e0. fold e in e0.
  set (a := A) in *. set (b := B) in *. set (t := tau) in *. set (x := Delta) in *.
  assert (ab0 : 0 <= a * b) by (apply Rmult_le_pos; assumption). assert (tx0 : 0 <= t * x) by (apply Rmult_le_pos; lra).
  assert (tab0 : 0 <= t * (a * b)) by (apply Rmult_le_pos; assumption).
  set (D0 := csub c1 (cmul ta tb)) in *.
  (* the defect of the rounded tangents in the addition theorem *)
  assert (HX : cnorm (csub (cadd ta tb) (cmul Tc D0)) <= 1333 / 100 * v * (a + b) + 2667 / 100 * v * (t * (a * b))).
  { replace (csub (cadd ta tb) (cmul Tc D0)) with (cadd (cadd (csub ta Ta) (csub tb Tb)) (cmul Tc (cadd (cmul (csub ta Ta) tb) (cmul Ta (csub tb Tb))))).
    - assert (N1 : cnorm Ta <= 10001 / 10000 * a). { pose proof (cnorm_le_diff Ta ta) as L. rewrite csub_norm_sym in L. fold a in L. rewrite Hv in Ha. lra. }
      pose proof (cnorm_nonneg Ta) as TA0. pose proof (cnorm_nonneg (csub tb Tb)) as q1. pose proof (cnorm_nonneg (csub ta Ta)) as q2.
      assert (P1 : cnorm (cmul (csub ta Ta) tb) <= 1333 / 100 * v * (a * b)). { rewrite cnorm_mul. fold b. replace (1333 / 100 * v * (a * b)) with (1333 / 100 * v * a * b) by ring. apply Rmult_le_compat_r; lra. }
      assert (P2 : cnorm (cmul Ta (csub tb Tb)) <= 10001 / 10000 * (1333 / 100) * v * (a * b)).
      { rewrite cnorm_mul. replace (10001 / 10000 * (1333 / 100) * v * (a * b)) with (10001 / 10000 * a * (1333 / 100 * v * b)) by ring. apply Rmult_le_compat; lra. }
      eapply Rle_trans; [apply cnorm_triangle|]. apply Rplus_le_compat.
      + eapply Rle_trans; [apply cnorm_triangle|]. lra.
      + rewrite cnorm_mul. fold t. replace (2667 / 100 * v * (t * (a * b))) with (t * (2667 / 100 * v * (a * b))) by ring. apply Rmult_le_compat_l; [exact T0|].
        eapply Rle_trans; [apply cnorm_triangle|]. rewrite Hv in *. lra.
    - unfold D0. pose proof (f_equal fst Hadd) as H1. pose proof (f_equal snd Hadd) as H2. unfold cmul, csub, cadd, c1 in H1, H2 |- *. cbn [fst snd] in H1, H2 |- *.
      apply injective_projections; cbn [fst snd]; [> lra | lra]. }
  set (X := cnorm (csub (cadd ta tb) (cmul Tc D0))) in *.
  assert (x0 : 0 < x) by lra.
  (* sizes *)
  assert (AB : a * b <= 10001 / 10000 * (1 + x)).
  { assert (L : cnorm (cmul ta tb) <= 1 + cnorm D0).
    { replace (cmul ta tb) with (csub c1 D0) by (unfold D0, csub, c1, cmul; cbn [fst snd]; f_equal; ring).
      pose proof (cnorm_le_diff (csub c1 D0) c1) as L. replace (csub (csub c1 D0) c1) with (- fst D0, - snd D0) in L by (unfold csub, c1; cbn [fst snd]; f_equal; ring).
      rewrite cnorm_opp in L. assert (cnorm c1 = 1) as N1 by (unfold cnorm, c1; cbn [fst snd]; replace (1 * 1 + 0 * 0) with 1 by ring; apply sqrt_1). lra. }
    rewrite cnorm_mul in L. fold a b in L. pose proof (cnorm_le_diff D0 D) as L2. rewrite csub_norm_sym in L2. fold x in L2. rewrite Hv in *. lra. }
  assert (DD : cnorm (csub D0 D) <= 2841 / 1000 * v * (1 + x) + 101 / 100 * v * x + / 1000 * v).
  { rewrite csub_norm_sym. eapply Rle_trans; [exact HD|]. rewrite Hv. lra. }
  assert (TAB : t * (a * b) <= 10001 / 10000 * (t + t * x)).
  { replace (10001 / 10000 * (t + t * x)) with (t * (10001 / 10000 * (1 + x))) by ring. apply Rmult_le_compat_l; assumption. }
  assert (TX : t <= 1024 * (t * x)). { replace (1024 * (t * x)) with (t * (1024 * x)) by ring. rewrite <- (Rmult_1_r t) at 1. apply Rmult_le_compat_l; lra. }
  assert (ND : cnorm (cmul Tc D0) <= t * (x + (2841 / 1000 * v * (1 + x) + 101 / 100 * v * x + / 1000 * v))).
  { rewrite cnorm_mul. fold t. apply Rmult_le_compat_l; [exact T0|]. pose proof (cnorm_le_diff D0 D) as L. fold x in L. lra. }
  assert (SUM : cnorm (cadd ta tb) <= 10019 / 10000 * (t * x) + 1333 / 100 * v * (a + b)).
  { pose proof (cnorm_le_diff (cadd ta tb) (cmul Tc D0)) as L. fold X in L.
    replace (t * (x + (2841 / 1000 * v * (1 + x) + 101 / 100 * v * x + / 1000 * v))) with (t * x + v * (2842 / 1000 * t + 3851 / 1000 * (t * x))) in ND by (field).
    rewrite Hv in *. lra. }
  assert (MIN : Rmin a b <= 10001 / 10000 * (1 + x / 2)).
  { apply sq_le; [lra|]. apply Rle_trans with (a * b).
    - apply Rmult_le_compat; try (apply Rmin_glb; assumption); [apply Rmin_l|apply Rmin_r].
    - eapply Rle_trans; [exact AB|]. replace (10001 / 10000 * (1 + x / 2) * (10001 / 10000 * (1 + x / 2))) with (10001 / 10000 * (10001 / 10000 * (1 + x + x * x / 4))) by field.
      pose proof (Rle_0_sqr x). unfold Rsqr in *. lra. }
  assert (APB : a + b <= 1003 / 1000 * (t * x) + 2001 / 1000 + 1001 / 1000 * x).
  { assert (K : a + b <= cnorm (cadd ta tb) + 2 * Rmin a b).
    { pose proof (cnorm_triangle (cadd ta tb) (- fst tb, - snd tb)) as L1. pose proof (cnorm_triangle (cadd ta tb) (- fst ta, - snd ta)) as L2.
      replace (cadd (cadd ta tb) (- fst tb, - snd tb)) with ta in L1 by (unfold cadd; cbn [fst snd]; rewrite (surjective_pairing ta) at 1; f_equal; ring).
      replace (cadd (cadd ta tb) (- fst ta, - snd ta)) with tb in L2 by (unfold cadd; cbn [fst snd]; rewrite (surjective_pairing tb) at 1; f_equal; ring).
      rewrite cnorm_opp in L1, L2. fold a b in L1, L2. unfold Rmin. destruct (Rle_dec a b); lra. }
    rewrite Hv in *. lra. }
  (* the error of the quotient, times |D| *)
  assert (NS : cnorm s <= 10001 / 10000 * (a + b)).
  { pose proof (cnorm_le_diff s (cadd ta tb)) as L. pose proof (cnorm_triangle ta tb) as L2. fold a b in L2. rewrite Hv in *. lra. }
  assert (Main : e * x <= 69 / 10 * v * cnorm s + / 1000 * v + v * (a + b) + (1333 / 100 * v * (a + b) + 2667 / 100 * v * (t * (a * b)))
      + t * (2841 / 1000 * v * (1 + x) + 101 / 100 * v * x + / 1000 * v)).
  { replace (e * x) with (cnorm (cmul (csub E Tc) D)) by (rewrite cnorm_mul; reflexivity). rewrite <- csub_mul.
    eapply Rle_trans; [apply (csub_triangle _ s)|]. assert (cnorm (csub s (cmul Tc D)) <= v * (a + b) + (1333 / 100 * v * (a + b) + 2667 / 100 * v * (t * (a * b))) + t * (2841 / 1000 * v * (1 + x) + 101 / 100 * v * x + / 1000 * v)); [|lra].
    eapply Rle_trans; [apply (csub_triangle _ (cadd ta tb))|]. rewrite Rplus_assoc. apply Rplus_le_compat; [exact Hs|].
    eapply Rle_trans; [apply (csub_triangle _ (cmul Tc D0))|]. fold X. apply Rplus_le_compat; [exact HX|].
    replace (csub (cmul Tc D0) (cmul Tc D)) with (cmul Tc (csub D0 D)) by (unfold cmul, csub; cbn [fst snd]; f_equal; ring).
    rewrite cnorm_mul. fold t. apply Rmult_le_compat_l; assumption. }
  assert (Main2 : e * x <= v * (519 / 10 * (t * x) + 426 / 10 + 214 / 10 * x + 296 / 10 * t)).
  { replace (t * (2841 / 1000 * v * (1 + x) + 101 / 100 * v * x + / 1000 * v)) with (v * (2842 / 1000 * t + 3851 / 1000 * (t * x))) in Main by field. rewrite Hv in *. lra. }
  set (y := / x). assert (xy : x * y = 1) by (unfold y; apply Rinv_r; lra). assert (y0 : 0 < y) by (apply Rinv_0_lt_compat; exact x0).
  assert (YY : y * y <= M) by (unfold y; rewrite <- Rinv_mult; exact HM2).
  assert (F : e <= v * (519 / 10 * t + 426 / 10 * y + 214 / 10 + 296 / 10 * (t * y))).
  { apply Rmult_le_reg_r with x; [exact x0|]. eapply Rle_trans; [exact Main2|]. right.
    transitivity (v * (519 / 10 * (t * x) + 426 / 10 * (x * y) + 214 / 10 * x + 296 / 10 * (t * (x * y)))); [rewrite xy; ring|ring]. }
  assert (K1 : 2 * t <= M). { pose proof (Rle_0_sqr (t - 1)). unfold Rsqr in *. lra. }
  assert (K2 : 2 * y <= M + 1). { pose proof (Rle_0_sqr (y - 1)). unfold Rsqr in *. lra. }
  assert (K3 : 2 * (t * y) <= 2 * M - 1). { pose proof (Rle_0_sqr (t - y)). unfold Rsqr in *. lra. }
  assert (M1 : 1 <= M) by (pose proof (Rle_0_sqr t); unfold Rsqr in *; lra).
  eapply Rle_trans; [exact F|]. replace (105 * v * M) with (v * (105 * M)) by ring. apply Rmult_le_compat_l; [lra|]. lra.
Qed.
End Addition.
