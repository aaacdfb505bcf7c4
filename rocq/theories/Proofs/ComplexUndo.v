(** Normwise error of complex float division, products and absolute values inside the range (for C95). *)
From Coq Require Import List ZArith Reals Bool Lia Lra Psatz.
From Flocq Require Import Core.Core IEEE754.BinarySingleNaN.
From Verif Require Import Base.Outcome Model.Traits Model.Float Model.Complex Spec.Ring Spec.Complex Spec.FloatErr Spec.ComplexErr
  Proofs.FloatErr Proofs.FloatRound Proofs.FloatRange Proofs.FloatComm Proofs.ComplexErr Props.ComplexErrProps Props.TrigTestProps.
Local Open Scope R_scope.

Definition cscale (r : R) (z : cplx) : cplx := (r * fst z, r * snd z).

Lemma cnorm_scale r z : 0 <= r -> cnorm (cscale r z) = r * cnorm z.
Proof.
  intros Hr. unfold cnorm, cscale. cbn [fst snd]. replace (r * fst z * (r * fst z) + r * snd z * (r * snd z)) with (r * r * (fst z * fst z + snd z * snd z)) by ring.
  rewrite sqrt_mult_alt by (apply Rmult_le_pos; exact Hr). rewrite sqrt_square by exact Hr. reflexivity.
Qed.

Lemma cnorm_mono z b : Rabs (fst z) <= fst b -> Rabs (snd z) <= snd b -> cnorm z <= cnorm b.
Proof.
  intros H1 H2. unfold cnorm. apply sqrt_le_1_alt.
  assert (A : forall x y, Rabs x <= y -> x * x <= y * y).
  { intros x y H. replace (x * x) with (Rabs x * Rabs x) by (unfold Rabs; destruct (Rcase_abs x); ring). pose proof (Rabs_pos x). apply Rmult_le_compat; lra. }
  apply Rplus_le_compat; apply A; assumption.
Qed.

Lemma csub_norm_sym z w : cnorm (csub z w) = cnorm (csub w z).
Proof. unfold cnorm, csub. cbn [fst snd]. f_equal. ring. Qed.

(** Perturbing both components relatively by d and absolutely by e. *)
Lemma cnorm_perturb a b x y d e : 0 <= d -> 0 <= e -> Rabs (x - a) <= d * Rabs a + e -> Rabs (y - b) <= d * Rabs b + e ->
  cnorm (csub (x, y) (a, b)) <= d * cnorm (a, b) + 3 / 2 * e.
Proof.
  intros Hd He H1 H2. eapply Rle_trans; [apply (cnorm_mono _ (cadd (cscale d (Rabs a, Rabs b)) (e, e))); cbn [csub cadd cscale fst snd]; assumption|].
  eapply Rle_trans; [apply cnorm_triangle|]. rewrite cnorm_scale, cnorm_abs by exact Hd. apply Rplus_le_compat_l.
  unfold cnorm. cbn [fst snd]. apply sq_le; [lra|]. rewrite sqrt_sqrt; [|pose proof (sq_nonneg e); lra].
  replace (3 / 2 * e * (3 / 2 * e)) with (9 / 4 * (e * e)) by field. pose proof (sq_nonneg e). lra.
Qed.

Section Fmt.
Context (prec emax : Z) {Hp : Prec_gt_0 prec} {He : Prec_lt_emax prec emax} (libm : FunOps (binary_float prec emax)).
Notation fl := (binary_float prec emax).
Notation FF := (float_field prec emax).
Notation FR := (float_ring prec emax).
Notation FE := (float_fun prec emax libm).
Notation u := (unit_roundoff prec).
Notation eta := (underflow_unit prec emax).
Notation rnd := (round radix2 (SpecFloat.fexp prec emax) (round_mode mode_NE)).
Notation add := (fl_add prec emax). Notation sub := (fl_sub prec emax).
Notation mul := (fl_mul prec emax). Notation div := (fl_div prec emax).
Notation hi := (half_big emax).
Context (Hprec : (24 <= prec)%Z) (k : Z) (Hk0 : (0 <= k)%Z) (Hk : (4 * k + 26 <= emax)%Z).

(** Magnitudes far away from overflow and underflow. *)
Definition mid (x : R) : Prop := / 16 * bpow radix2 (- (4 * k)) <= x <= 16 * bpow radix2 (4 * k).

Lemma u_range : 0 < u <= / 16777216.
Proof.
  unfold unit_roundoff. split; [apply bpow_gt_0|]. replace (/ 16777216) with (bpow radix2 (-24)) by (simpl; lra). apply bpow_le. lia.
Qed.

Lemma eta_pos : 0 < eta. Proof. unfold underflow_unit. apply bpow_gt_0. Qed.

Lemma mid_pos x : mid x -> 0 < x.
Proof. intros [H _]. pose proof (bpow_gt_0 radix2 (- (4 * k))). lra. Qed.
Lemma mid_eta x : mid x -> eta <= / 1000000 * (u * x).
Proof.
  intros [H _]. pose proof u_range as U. apply Rle_trans with (/ 1000000 * (u * (/ 16 * bpow radix2 (- (4 * k))))).
  - apply Rle_trans with (bpow radix2 (-20) * (u * (bpow radix2 (-4) * bpow radix2 (- (4 * k))))).
    + unfold underflow_unit, unit_roundoff. rewrite <- !bpow_plus. apply bpow_le. lia.
    + pose proof (bpow_gt_0 radix2 (- (4 * k))) as P. change (bpow radix2 (-4)) with (/ 16). apply Rmult_le_compat_r; [apply Rmult_le_pos; lra|]. simpl. lra.
  - apply Rmult_le_compat_l; [lra|]. apply Rmult_le_compat_l; lra.
Qed.
Lemma mid_hi x : mid x -> 4 * x <= hi.
Proof.
  intros [_ H]. apply Rle_trans with (bpow radix2 6 * bpow radix2 (4 * k)).
  - change (bpow radix2 6) with 64. lra.
  - rewrite <- bpow_plus. unfold half_big. apply bpow_le. lia.
Qed.

Lemma rnd_err v : Rabs (rnd v - v) <= u * Rabs v + eta.
Proof.
  destruct (rnd_any prec emax v) as (e & h & E & H & ->). replace (v * (1 + e) + h - v) with (v * e + h) by ring.
  eapply Rle_trans; [apply Rabs_triang|]. rewrite Rabs_mult, (Rmult_comm u). apply Rplus_le_compat; [apply Rmult_le_compat_l; [apply Rabs_pos|exact E]|exact H].
Qed.

Lemma abs_le_norm a b : Rabs a <= cnorm (a, b) /\ Rabs b <= cnorm (a, b).
Proof.
  assert (A : forall x, Rabs x * Rabs x = x * x) by (intros x; unfold Rabs; destruct (Rcase_abs x); ring).
  split; apply sq_le; try apply cnorm_nonneg; rewrite A, cnorm_sq; cbn [fst snd]; [pose proof (sq_nonneg b)|pose proof (sq_nonneg a)]; lra.
Qed.

(** A sum or difference of two float products. *)
Lemma two_products (x y x' y' : fl) (s : R) (f : fl -> fl -> fl) M :
  (forall p q : fl, is_finite p = true -> is_finite q = true -> Rabs (B2R p + s * B2R q) <= hi -> is_finite (f p q) = true /\ B2R (f p q) = rnd (B2R p + s * B2R q)) ->
  s = 1 \/ s = -1 ->
  is_finite x = true -> is_finite y = true -> is_finite x' = true -> is_finite y' = true -> mid M ->
  Rabs (B2R x * B2R y) + Rabs (B2R x' * B2R y') <= M ->
  is_finite (f (mul x y) (mul x' y')) = true
  /\ Rabs (B2R (f (mul x y) (mul x' y')) - (B2R x * B2R y + s * (B2R x' * B2R y'))) <= 20001 / 10000 * u * M.
Proof.
  intros Hf Hs Fx Fy Fx' Fy' HM B. pose proof u_range as U. pose proof eta_pos as E0. pose proof (mid_eta M HM) as Em. pose proof (mid_hi M HM) as Hm. pose proof (mid_pos M HM) as M0.
  set (v := B2R x * B2R y) in *. set (w := B2R x' * B2R y') in *. pose proof (Rabs_pos v) as V0. pose proof (Rabs_pos w) as W0.
  destruct (mul_round prec emax x y Fx Fy) as [F1 V1]; [fold v; lra|]. destruct (mul_round prec emax x' y' Fx' Fy') as [F2 V2]; [fold w; lra|]. fold v in V1. fold w in V2.
  pose proof (rnd_err v) as R1. rewrite <- V1 in R1. pose proof (rnd_err w) as R2. rewrite <- V2 in R2. set (v' := B2R (mul x y)) in *. set (w' := B2R (mul x' y')) in *.
  assert (UM : u * Rabs v + u * Rabs w <= u * M) by (rewrite <- Rmult_plus_distr_l; apply Rmult_le_compat_l; lra).
  assert (S1 : Rabs ((v' + s * w') - (v + s * w)) <= 1000003 / 1000000 * (u * M)).
  { replace (v' + s * w' - (v + s * w)) with ((v' - v) + s * (w' - w)) by ring. eapply Rle_trans; [apply Rabs_triang|]. rewrite (Rabs_mult s).
    replace (Rabs s) with 1 by (destruct Hs as [-> | ->]; [rewrite Rabs_pos_eq|rewrite Rabs_left]; lra). lra. }
  assert (S2 : Rabs (v + s * w) <= M).
  { eapply Rle_trans; [apply Rabs_triang|]. rewrite (Rabs_mult s). replace (Rabs s) with 1 by (destruct Hs as [-> | ->]; [rewrite Rabs_pos_eq|rewrite Rabs_left]; lra). lra. }
  assert (uM : u * M <= / 16777216 * M) by (apply Rmult_le_compat_r; lra). assert (uM0 : 0 < u * M) by (apply Rmult_lt_0_compat; lra).
  assert (S3 : Rabs (v' + s * w') <= 1000001 / 1000000 * M).
  { replace (v' + s * w') with ((v' + s * w' - (v + s * w)) + (v + s * w)) by ring. eapply Rle_trans; [apply Rabs_triang|]. lra. }
  destruct (Hf _ _ F1 F2) as [F3 V3]; [fold v' w'; lra|]. split; [exact F3|]. rewrite V3. fold v' w'. pose proof (rnd_err (v' + s * w')) as R3.
  replace (rnd (v' + s * w') - (v + s * w)) with ((rnd (v' + s * w') - (v' + s * w')) + (v' + s * w' - (v + s * w))) by ring.
  eapply Rle_trans; [apply Rabs_triang|]. assert (u * Rabs (v' + s * w') <= u * (1000001 / 1000000 * M)) by (apply Rmult_le_compat_l; lra). lra.
Qed.

Lemma add_f (p q : fl) : is_finite p = true -> is_finite q = true -> Rabs (B2R p + 1 * B2R q) <= hi -> is_finite (add p q) = true /\ B2R (add p q) = rnd (B2R p + 1 * B2R q).
Proof. intros F1 F2 H. rewrite Rmult_1_l in *. apply add_round; assumption. Qed.
Lemma sub_f (p q : fl) : is_finite p = true -> is_finite q = true -> Rabs (B2R p + -1 * B2R q) <= hi -> is_finite (sub p q) = true /\ B2R (sub p q) = rnd (B2R p + -1 * B2R q).
Proof. intros F1 F2 H. replace (B2R p + -1 * B2R q) with (B2R p - B2R q) in * by ring. apply sub_round; assumption. Qed.

(** |a||c| + |b||d| <= |z||w|. *)
Lemma cauchy_abs a b c d : Rabs (a * c) + Rabs (b * d) <= cnorm (a, b) * cnorm (c, d).
Proof. rewrite !Rabs_mult. rewrite <- (cnorm_abs a b), <- (cnorm_abs c d). apply cauchy. Qed.

Lemma sqrt2_le : sqrt 2 <= 14143 / 10000.
Proof. apply sq_le; [lra|]. rewrite sqrt_sqrt; lra. Qed.

Lemma pair_error (x y a b d : R) : 0 <= d -> Rabs (x - a) <= d -> Rabs (y - b) <= d -> cnorm (csub (x, y) (a, b)) <= 14143 / 10000 * d.
Proof.
  intros Hd H1 H2. eapply Rle_trans; [apply (cnorm_le2 _ d Hd); cbn [csub fst snd]; assumption|]. apply Rmult_le_compat_r; [exact Hd|exact sqrt2_le].
Qed.

(** *** Products *)
Lemma roundoff_le : mul_roundoff prec <= 2309601 / 1000000 * u.
Proof.
  pose proof u_range as U. assert (S : sqrt (4 / 3) <= 11548 / 10000) by (apply sq_le; [lra|rewrite sqrt_sqrt; lra]). unfold mul_roundoff.
  assert (B : 0 <= u * u <= / 16777216 * u) by (split; [apply Rmult_le_pos; lra|apply Rmult_le_compat_r; lra]). replace (u ^ 2) with (u * u) by ring.
  apply Rle_trans with (11548 / 10000 * (2 * (u + u * u))); [apply Rmult_le_compat_r; lra|lra].
Qed.
Lemma underflow_le x : mid x -> mul_underflow prec emax <= 3 / 1000000 * (u * x).
Proof.
  intros H. pose proof u_range as U. pose proof (mid_eta x H) as E. pose proof eta_pos as E0. unfold mul_underflow.
  assert (B : u * eta <= / 16777216 * eta) by (apply Rmult_le_compat_r; lra).
  apply Rle_trans with (14143 / 10000 * (2 * (1 + u) * eta)); [apply Rmult_le_compat_r; [apply Rmult_le_pos; lra|exact sqrt2_le]|lra].
Qed.

(** The product of two numbers whose size is bounded from above. *)
Lemma mul_below (z w : complex fl) M : cfinite z -> cfinite w -> mid M -> cnorm (cval z) * cnorm (cval w) <= M ->
  exists p, complex_mul FR z w = Ok p /\ cfinite p
  /\ cnorm (csub (cval p) (cmul (cval z) (cval w))) <= 231 / 100 * u * M.
Proof.
  intros Fz Fw HM HB. exists (smul (complex_sig (float_sig prec emax)) z w). split; [reflexivity|].
  assert (F : cfinite (smul (complex_sig (float_sig prec emax)) z w)).
  { destruct z as [a b], w as [c d]. destruct Fz as [Fa Fb], Fw as [Fc Fd]. cbn [re im] in *. unfold cval in HB. cbn [re im] in HB.
    destruct (two_products a c b d (-1) sub M sub_f (or_intror eq_refl) Fa Fc Fb Fd HM) as [F1 _]; [eapply Rle_trans; [apply cauchy_abs|exact HB]|].
    destruct (two_products a d b c 1 add M add_f (or_introl eq_refl) Fa Fd Fb Fc HM) as [F2 _]; [eapply Rle_trans; [apply cauchy_abs|rewrite (cnorm_swap (B2R c)); exact HB]|].
    split; assumption. }
  split; [exact F|]. eapply Rle_trans; [apply cmul_error; exact F|].
  pose proof (underflow_le _ HM) as T. pose proof roundoff_le as K. pose proof (mid_pos _ HM) as M0. pose proof u_range as U.
  assert (N0 : 0 <= cnorm (cval z) * cnorm (cval w)) by (apply Rmult_le_pos; apply cnorm_nonneg).
  set (N := cnorm (cval z) * cnorm (cval w)) in *. assert (uM0 : 0 < u * M) by (apply Rmult_lt_0_compat; lra). assert (uN : u * N <= u * M) by (apply Rmult_le_compat_l; lra).
  assert (mul_roundoff prec * N <= 2309601 / 1000000 * u * N) by (apply Rmult_le_compat_r; lra). lra.
Qed.

Lemma mul_sized (z w : complex fl) : cfinite z -> cfinite w -> mid (cnorm (cval z) * cnorm (cval w)) ->
  exists p, complex_mul FR z w = Ok p /\ cfinite p
  /\ cnorm (csub (cval p) (cmul (cval z) (cval w))) <= 231 / 100 * u * (cnorm (cval z) * cnorm (cval w)).
Proof. intros Fz Fw HM. apply (mul_below z w _ Fz Fw HM). apply Rle_refl. Qed.

(** *** The squared norm and the absolute value *)
Lemma norm_sized (z : complex fl) : cfinite z -> mid (cnorm (cval z) * cnorm (cval z)) ->
  let n := fl_norm2 prec emax (re z) (im z) in let Z := cnorm (cval z) in
  is_finite n = true /\ Rabs (B2R n - Z * Z) <= 20001 / 10000 * u * (Z * Z).
Proof.
  intros [Fa Fb] HM n Z. destruct (two_products (re z) (re z) (im z) (im z) 1 add (Z * Z) add_f) as [F E]; try assumption; [left; reflexivity|apply cauchy_abs|].
  split; [exact F|]. unfold n, fl_norm2. replace (Z * Z) with (B2R (re z) * B2R (re z) + 1 * (B2R (im z) * B2R (im z))) at 1; [exact E|].
  unfold Z. rewrite cnorm_sq. unfold cval. cbn [fst snd]. ring.
Qed.

Lemma abs_sized (z : complex fl) : cfinite z -> mid (cnorm (cval z) * cnorm (cval z)) -> mid (cnorm (cval z)) ->
  exists m, complex_abs FF FE z = Ok m /\ is_finite m = true /\ Rabs (B2R m - cnorm (cval z)) <= 201 / 100 * u * cnorm (cval z).
Proof.
  intros Fz HM HZ. destruct (norm_sized z Fz HM) as [Fn En]. set (n := fl_norm2 prec emax (re z) (im z)) in *. set (Z := cnorm (cval z)) in *.
  pose proof u_range as U. pose proof (mid_pos _ HZ) as Z0. pose proof (mid_eta _ HZ) as Ez. assert (ZZ : 0 < Z * Z) by (apply Rmult_lt_0_compat; lra).
  assert (uZZ : u * (Z * Z) <= / 16777216 * (Z * Z)) by (apply Rmult_le_compat_r; lra). apply Rabs_le_inv in En.
  assert (n0 : 0 <= B2R n) by lra. destruct (sqrt_round prec emax n Fn n0) as [Fm Em]. set (m := Bsqrt mode_NE n) in *.
  exists m. split; [reflexivity|]. split; [exact Fm|].
  assert (S : Rabs (sqrt (B2R n) - Z) <= 10003 / 10000 * u * Z).
  { pose proof (sqrt_pos (B2R n)) as S0. assert (D : (sqrt (B2R n) - Z) * (sqrt (B2R n) + Z) = B2R n - Z * Z).
    { replace ((sqrt (B2R n) - Z) * (sqrt (B2R n) + Z)) with (sqrt (B2R n) * sqrt (B2R n) - Z * Z) by ring. rewrite sqrt_sqrt by exact n0. reflexivity. }
    assert (L : 9999 / 10000 * Z <= sqrt (B2R n)).
    { apply sq_le; [exact S0|]. rewrite sqrt_sqrt by exact n0. replace (9999 / 10000 * Z * (9999 / 10000 * Z)) with (99980001 / 100000000 * (Z * Z)) by field. lra. }
    assert (P : 0 < sqrt (B2R n) + Z) by lra.
    apply Rmult_le_reg_r with (sqrt (B2R n) + Z); [exact P|]. rewrite <- (Rabs_pos_eq (sqrt (B2R n) + Z)) at 1 by lra. rewrite <- Rabs_mult, D.
    apply Rle_trans with (20001 / 10000 * u * (Z * Z)); [apply Rabs_le; lra|].
    replace (20001 / 10000 * u * (Z * Z)) with (u * Z * (20001 / 10000 * Z)) by ring. replace (10003 / 10000 * u * Z * (sqrt (B2R n) + Z)) with (u * Z * (10003 / 10000 * (sqrt (B2R n) + Z))) by ring.
    apply Rmult_le_compat_l; [apply Rmult_le_pos; lra|]. lra. }
  pose proof (rnd_err (sqrt (B2R n))) as R. rewrite <- Em in R. rewrite (Rabs_pos_eq (sqrt _)) in R by apply sqrt_pos.
  replace (B2R m - Z) with ((B2R m - sqrt (B2R n)) + (sqrt (B2R n) - Z)) by ring. eapply Rle_trans; [apply Rabs_triang|].
  apply Rabs_le_inv in S. assert (uZ : u * Z <= / 16777216 * Z) by (apply Rmult_le_compat_r; lra). assert (uZ0 : 0 < u * Z) by (apply Rmult_lt_0_compat; lra).
  assert (u * sqrt (B2R n) <= u * (10001 / 10000 * Z)) by (apply Rmult_le_compat_l; lra). apply Rabs_le in S. lra.
Qed.

(** *** Division: the exact product of the computed quotient with the divisor is close to the dividend. *)
Lemma cmul_assoc a b c : cmul (cmul a b) c = cmul a (cmul b c).
Proof. unfold cmul. cbn [fst snd]. f_equal; ring. Qed.
Lemma cscale_mul r z w : cmul (cscale r z) w = cscale r (cmul z w).
Proof. unfold cmul, cscale. cbn [fst snd]. f_equal; ring. Qed.
Lemma csub_mul a b c : csub (cmul a c) (cmul b c) = cmul (csub a b) c.
Proof. unfold cmul, csub. cbn [fst snd]. f_equal; ring. Qed.

Lemma div_sized (z w : complex fl) : cfinite z -> cfinite w ->
  let Z := cnorm (cval z) in let W := cnorm (cval w) in
  mid (W * W) -> mid (Z * W) -> mid (/ (W * W)) -> mid (Z * / W) -> 0 < W -> 0 < Z ->
  exists q, complex_div FF z w = Ok q /\ cfinite q
  /\ cnorm (csub (cmul (cval q) (cval w)) (cval z)) <= 632 / 100 * u * Z.
Proof.
  intros [Fa Fb] [Fc Fd] Z W MWW MZW MI MQ W0 Z0. pose proof u_range as U.
  destruct (norm_sized w (conj Fc Fd) MWW) as [Fn En]. fold W in En. set (n := fl_norm2 prec emax (re w) (im w)) in *.
  assert (WW : 0 < W * W) by (apply Rmult_lt_0_compat; lra). assert (uWW : u * (W * W) <= / 16777216 * (W * W)) by (apply Rmult_le_compat_r; lra).
  apply Rabs_le_inv in En. assert (n0 : 0 < B2R n) by lra.
  set (a := re z) in *. set (b := im z) in *. set (c := re w) in *. set (d := im w) in *.
  assert (One : is_finite (fl_int prec emax 1) = true /\ B2R (fl_int prec emax 1) = 1).
  { apply (small_int prec emax Hprec 1). lia. }
  destruct One as [F1 V1].
  (* reciprocal *)
  set (I := / (W * W)) in *. assert (I0 : 0 < I) by (apply Rinv_0_lt_compat; exact WW).
  assert (RI : Rabs (/ B2R n - I) <= 20003 / 10000 * u * I).
  { replace (/ B2R n - I) with ((W * W - B2R n) * (I * / B2R n)) by (unfold I; field; split; apply Rgt_not_eq; lra).
    rewrite Rabs_mult. rewrite (Rabs_pos_eq (I * / B2R n)) by (apply Rmult_le_pos; [lra|left; apply Rinv_0_lt_compat; exact n0]).
    apply Rle_trans with (20001 / 10000 * u * (W * W) * (I * / B2R n)).
    - apply Rmult_le_compat_r; [apply Rmult_le_pos; [lra|left; apply Rinv_0_lt_compat; exact n0]|]. apply Rabs_le. lra.
    - replace (20001 / 10000 * u * (W * W) * (I * / B2R n)) with (u * I * (20001 / 10000 * (W * W * / B2R n))) by ring.
      replace (20003 / 10000 * u * I) with (u * I * (20003 / 10000)) by ring. apply Rmult_le_compat_l; [apply Rmult_le_pos; lra|].
      assert (W * W * / B2R n <= 20003 / 20001); [|lra]. apply Rmult_le_reg_r with (B2R n); [exact n0|]. rewrite Rmult_assoc, Rinv_l, Rmult_1_r by lra. lra. }
  apply Rabs_le_inv in RI. assert (uI : u * I <= / 16777216 * I) by (apply Rmult_le_compat_r; lra). assert (uI0 : 0 < u * I) by (apply Rmult_lt_0_compat; lra).
  pose proof (mid_hi _ MI) as HI. pose proof (mid_eta _ MI) as EI. fold I in HI, EI.
  destruct (div_round prec emax (fl_int prec emax 1) n F1 (Rgt_not_eq _ _ n0)) as [Fr Vr].
  { rewrite V1. unfold Rdiv. rewrite Rmult_1_l, Rabs_pos_eq by lra. lra. }
  rewrite V1 in Vr. unfold Rdiv in Vr. rewrite Rmult_1_l in Vr. set (r := div (fl_int prec emax 1) n) in *.
  pose proof (rnd_err (/ B2R n)) as Rr. rewrite <- Vr in Rr. rewrite (Rabs_pos_eq (/ B2R n)) in Rr by lra.
  assert (RR : Rabs (B2R r - I) <= 3001 / 1000 * u * I).
  { replace (B2R r - I) with ((B2R r - / B2R n) + (/ B2R n - I)) by ring. eapply Rle_trans; [apply Rabs_triang|].
    assert (u * / B2R n <= u * (10001 / 10000 * I)) by (apply Rmult_le_compat_l; lra). apply Rabs_le in RI. lra. }
  pose proof (Rabs_le_inv _ _ RR) as RR'.
  (* numerator *)
  set (M := Z * W) in *. pose proof (mid_pos _ MZW) as M0. fold M in M0.
  assert (uM0 : 0 < u * M) by (apply Rmult_lt_0_compat; lra). assert (uM : u * M <= / 16777216 * M) by (apply Rmult_le_compat_r; lra).
  destruct (two_products a c b d 1 add M add_f) as [Fp1 E1]; try assumption; [left; reflexivity|apply cauchy_abs|].
  destruct (two_products b c a d (-1) sub M sub_f) as [Fp2 E2]; try assumption; [right; reflexivity|unfold M, Z; unfold cval; fold a b; rewrite <- (cnorm_swap (B2R a)); apply cauchy_abs|].
  set (p1 := add (mul a c) (mul b d)) in *. set (p2 := sub (mul b c) (mul a d)) in *.
  set (P := cmul (cval z) (cconj (cval w))).
  assert (EP : P = (B2R a * B2R c + 1 * (B2R b * B2R d), B2R b * B2R c + -1 * (B2R a * B2R d))).
  { unfold P, cmul, cconj, cval. cbn [fst snd]. fold a b c d. f_equal; ring. }
  assert (NP : cnorm P = M) by (unfold P; rewrite cnorm_mul, cnorm_conj; reflexivity).
  assert (DP : cnorm (csub (B2R p1, B2R p2) P) <= 231 / 100 * u * M).
  { assert (V : cval (Cx c (Bopp d)) = cconj (cval w)).
    { unfold cval, cconj. cbn [re im fst snd]. fold c d. rewrite B2R_Bopp. reflexivity. }
    destruct (mul_sized z (Cx c (Bopp d))) as (p & Ep & _ & Hpp); [split; assumption|split; cbn [re im]; [exact Fc|rewrite is_finite_Bopp; exact Fd]|rewrite V, cnorm_conj; exact MZW|].
    rewrite V in Hpp. fold P in Hpp. rewrite cnorm_conj in Hpp. fold Z W M in Hpp.
    assert (Q : p = Cx p1 p2).
    { change (complex_mul FR z (Cx c (Bopp d))) with (Ok (Cx (sub (mul a c) (mul b (Bopp d))) (add (mul a (Bopp d)) (mul b c)))) in Ep. injection Ep as <-.
      rewrite !fl_mul_opp_r, (fl_add_comm _ _ (Bopp (mul a d))), <- fl_sub_def, fl_sub_def, fl_opp_opp. reflexivity. }
    rewrite Q in Hpp. exact Hpp. }
  (* scaled numerator *)
  assert (r0 : 0 <= B2R r) by lra.
  set (S := cscale (B2R r) (B2R p1, B2R p2)).
  assert (NQ : M * I = Z * / W). { unfold M, I. field. apply Rgt_not_eq; lra. }
  pose proof (mid_pos _ MQ) as Q0. pose proof (mid_eta _ MQ) as EQ. pose proof (mid_hi _ MQ) as HQ. rewrite <- NQ in Q0, EQ, HQ. set (Q := M * I) in *.
  assert (uQ0 : 0 < u * Q) by (apply Rmult_lt_0_compat; lra). assert (uQ : u * Q <= / 16777216 * Q) by (apply Rmult_le_compat_r; lra).
  assert (DS : cnorm (csub S (cscale I P)) <= 53112 / 10000 * u * Q).
  { eapply Rle_trans; [apply (csub_triangle _ (cscale (B2R r) P))|].
    replace (csub S (cscale (B2R r) P)) with (cscale (B2R r) (csub (B2R p1, B2R p2) P)) by (unfold S, csub, cscale; cbn [fst snd]; f_equal; ring).
    rewrite cnorm_scale by exact r0.
    assert (D2 : cnorm (csub (cscale (B2R r) P) (cscale I P)) <= 3001 / 1000 * u * I * M).
    { eapply Rle_trans; [apply (cnorm_mono _ (cscale (3001 / 1000 * u * I) (Rabs (fst P), Rabs (snd P)))); unfold csub, cscale; cbn [fst snd]|].
      - replace (B2R r * fst P - I * fst P) with ((B2R r - I) * fst P) by ring. rewrite Rabs_mult. apply Rmult_le_compat_r; [apply Rabs_pos|exact RR].
      - replace (B2R r * snd P - I * snd P) with ((B2R r - I) * snd P) by ring. rewrite Rabs_mult. apply Rmult_le_compat_r; [apply Rabs_pos|exact RR].
      - rewrite cnorm_scale by lra. rewrite cnorm_abs, <- surjective_pairing, NP. lra. }
    assert (D1 : B2R r * cnorm (csub (B2R p1, B2R p2) P) <= (1 + / 1000000) * I * (231 / 100 * u * M)).
    { apply Rmult_le_compat; [exact r0|apply cnorm_nonneg|lra|exact DP]. }
    replace ((1 + / 1000000) * I * (231 / 100 * u * M)) with ((1 + / 1000000) * (231 / 100) * (u * Q)) in D1 by (unfold Q; ring).
    replace (3001 / 1000 * u * I * M) with (3001 / 1000 * (u * Q)) in D2 by (unfold Q; ring). lra. }
  assert (NS : cnorm S <= 100001 / 100000 * Q).
  { eapply Rle_trans; [apply (cnorm_le_diff _ (cscale I P))|]. rewrite cnorm_scale, NP by lra. replace (I * M) with Q by (unfold Q; ring). lra. }
  destruct (abs_le_norm (fst S) (snd S)) as [NS1 NS2]. rewrite <- surjective_pairing in NS1, NS2. unfold S in NS1, NS2. cbn [cscale fst snd] in NS1, NS2. fold S in NS1, NS2.
  destruct (mul_round prec emax p1 r Fp1 Fr) as [Fq1 Vq1]; [rewrite Rmult_comm; lra|]. destruct (mul_round prec emax p2 r Fp2 Fr) as [Fq2 Vq2]; [rewrite Rmult_comm; lra|].
  exists (Cx (mul p1 r) (mul p2 r)). split; [reflexivity|]. split; [split; assumption|].
  assert (DQ : cnorm (csub (B2R (mul p1 r), B2R (mul p2 r)) (cscale I P)) <= 6312 / 1000 * u * Q).
  { eapply Rle_trans; [apply (csub_triangle _ S)|]. rewrite Vq1, Vq2. replace S with (B2R p1 * B2R r, B2R p2 * B2R r) by (unfold S, cscale; cbn [fst snd]; f_equal; ring).
    assert (D3 : cnorm (csub (rnd (B2R p1 * B2R r), rnd (B2R p2 * B2R r)) (B2R p1 * B2R r, B2R p2 * B2R r)) <= u * cnorm (B2R p1 * B2R r, B2R p2 * B2R r) + 3 / 2 * eta).
    { apply cnorm_perturb; [lra|left; apply eta_pos|apply rnd_err|apply rnd_err]. }
    replace (B2R p1 * B2R r, B2R p2 * B2R r) with S in D3 |- * by (unfold S, cscale; cbn [fst snd]; f_equal; ring).
    assert (u * cnorm S <= u * (100001 / 100000 * Q)) by (apply Rmult_le_compat_l; lra). lra. }
  change (cval {| re := mul p1 r; im := mul p2 r |}) with (B2R (mul p1 r), B2R (mul p2 r)). set (q := (B2R (mul p1 r), B2R (mul p2 r))) in *.
  assert (EZ : cmul (cscale I P) (cval w) = cval z).
  { rewrite cscale_mul. unfold P. rewrite cmul_assoc. assert (CW : cmul (cconj (cval w)) (cval w) = (W * W, 0)).
    { unfold W. rewrite cnorm_sq. unfold cmul, cconj. cbn [fst snd]. f_equal; ring. }
    rewrite CW. unfold cscale, cmul. cbn [fst snd]. apply injective_projections; cbn [fst snd]; unfold I; field; apply Rgt_not_eq; lra. }
  rewrite <- EZ at 1. rewrite csub_mul, cnorm_mul. fold W.
  apply Rle_trans with (6312 / 1000 * u * Q * W); [apply Rmult_le_compat_r; [lra|exact DQ]|].
  replace (6312 / 1000 * u * Q * W) with (6312 / 1000 * (u * Z)); [assert (0 < u * Z) by (apply Rmult_lt_0_compat; lra); lra|].
  unfold Q, M, I. field. apply Rgt_not_eq; lra.
Qed.
End Fmt.
