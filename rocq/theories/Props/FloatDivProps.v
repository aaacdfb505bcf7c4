(** Property C73: accuracy of the division of Complex<f32> and Complex<f64>. *)
From Coq Require Import List ZArith Reals Bool Lia Lra Psatz.
From Flocq Require Import Core.Core IEEE754.BinarySingleNaN.
From Verif Require Import Base.Outcome Model.Traits Model.Float Model.Complex Spec.FloatErr
  Proofs.FloatErr Proofs.FloatRound Proofs.FloatRange Proofs.FloatSqrt Proofs.FloatComm
  Props.FloatRangeProps Props.FloatSqrtProps.
Local Open Scope R_scope.

(** x + iy is the quotient (a + ib) / (c + id). *)
Definition is_quotient (a b c d x y : R) : Prop :=
  x * c - y * d = a /\ x * d + y * c = b /\ (c <> 0 \/ d <> 0).

Lemma quotient_unique a b c d x y x' y' : is_quotient a b c d x y -> is_quotient a b c d x' y' -> x = x' /\ y = y'.
Proof.
  intros (E1 & E2 & N) (E1' & E2' & _).
  assert (P : 0 < c * c + d * d) by (destruct N; nra).
  assert (A : (x - x') * (c * c + d * d) = 0).
  { replace ((x - x') * (c * c + d * d)) with
      (((x * c - y * d) - (x' * c - y' * d)) * c + ((x * d + y * c) - (x' * d + y' * c)) * d) by ring.
    rewrite E1, E2, E1', E2'. ring. }
  assert (B : (y - y') * (c * c + d * d) = 0).
  { replace ((y - y') * (c * c + d * d)) with
      (((x * d + y * c) - (x' * d + y' * c)) * c - ((x * c - y * d) - (x' * c - y' * d)) * d) by ring.
    rewrite E1, E2, E1', E2'. ring. }
  apply Rmult_integral in A. apply Rmult_integral in B. destruct A, B; try lra; split; lra.
Qed.

Lemma cauchy2 a b c d Z W : 0 <= Z -> 0 <= W -> Z * Z = a * a + b * b -> W * W = c * c + d * d ->
  Rabs a * Rabs c + Rabs b * Rabs d <= Z * W.
Proof.
  intros HZ HW EZ EW.
  assert (S : forall t, t * t = Rabs t * Rabs t) by (intros t; rewrite <- Rabs_mult; symmetry; apply Rabs_pos_eq; nra).
  rewrite (S a), (S b) in EZ. rewrite (S c), (S d) in EW.
  pose proof (Rabs_pos a). pose proof (Rabs_pos b). pose proof (Rabs_pos c). pose proof (Rabs_pos d).
  set (A := Rabs a) in *. set (B := Rabs b) in *. set (C := Rabs c) in *. set (D := Rabs d) in *.
  apply Rnot_lt_le. intros L.
  assert (Q : (Z * W) * (Z * W) < (A * C + B * D) * (A * C + B * D)).
  { assert (0 <= Z * W) by (apply Rmult_le_pos; lra). nra. }
  replace ((Z * W) * (Z * W)) with ((A * A + B * B) * (C * C + D * D)) in Q by (rewrite <- EZ, <- EW; ring).
  assert (0 <= (A * D - B * C) * (A * D - B * C)) by (apply Rle_0_sqr || nra). nra.
Qed.

Section Fmt.
Context (prec emax : Z) {Hp : Prec_gt_0 prec} {He : Prec_lt_emax prec emax}.
Notation fl := (binary_float prec emax).
Notation FF := (float_field prec emax).
Notation u := (unit_roundoff prec).
Notation eta := (underflow_unit prec emax).
Notation add := (fl_add prec emax). Notation sub := (fl_sub prec emax).
Notation mul := (fl_mul prec emax). Notation div := (fl_div prec emax).
Notation one := (fl_int prec emax 1).
Notation lo := (bpow radix2 (2 - emax)).
Notation hi := (half_big emax).
Context (Hprec : (11 <= prec)%Z) (k : Z) (Hk0 : (0 <= k)%Z) (Hk : (4 * k + 10 <= emax)%Z).
Notation Q := (bpow radix2 k).

Lemma Hk2 : (2 * k + 10 <= emax)%Z. Proof. lia. Qed.
Lemma Q4_facts : 1 <= Q /\ 32 * (Q * Q * (Q * Q)) <= hi /\ lo * 256 * (Q * Q * (Q * Q)) <= 1 /\ 0 < lo.
Proof.
  unfold half_big. split; [change 1 with (bpow radix2 0); apply bpow_le; exact Hk0|].
  change 32 with (bpow radix2 5). change 256 with (bpow radix2 8). rewrite <- !bpow_plus.
  split; [apply bpow_le; lia|]. split; [change 1 with (bpow radix2 0); apply bpow_le; lia|apply bpow_gt_0].
Qed.

Lemma within_range (x : fl) : within k x -> in_range prec emax k x.
Proof. intros [F H]. split; [exact F|]. rewrite <- bpow_opp. exact H. Qed.

(** Products of in-range numbers neither overflow nor underflow. *)
Lemma prod_rel (x y : fl) : in_range prec emax k x -> in_range prec emax k y ->
  is_finite (mul x y) = true /\ exists e, Rabs e <= u /\ B2R (mul x y) = B2R x * B2R y * (1 + e).
Proof.
  intros [Fx Hx] [Fy Hy]. pose proof Q4_facts as (Q1 & Q2 & Q3 & L0).
  assert (iQ : 0 < / Q) by (apply Rinv_0_lt_compat; lra).
  assert (QQ : 1 <= Q * Q) by nra.
  apply mul_rel; auto.
  - destruct Hx as [->|Hx]; [left; ring|]. destruct Hy as [->|Hy]; [left; ring|right].
    rewrite Rabs_mult. apply Rle_trans with (/ Q * / Q); [|apply Rmult_le_compat; lra].
    apply Rmult_le_reg_r with (Q * Q); [nra|]. replace (/ Q * / Q * (Q * Q)) with 1 by (field; lra). nra.
  - rewrite Rabs_mult.
    assert (UX : Rabs (B2R x) <= Q) by (destruct Hx as [->|]; [rewrite Rabs_R0; lra|lra]).
    assert (UY : Rabs (B2R y) <= Q) by (destruct Hy as [->|]; [rewrite Rabs_R0; lra|lra]).
    apply Rle_trans with (Q * Q); [apply Rmult_le_compat; try apply Rabs_pos; assumption|nra].
Qed.

Lemma small_prod e1 e2 : Rabs e1 <= u -> Rabs e2 <= u -> Rabs ((1 + e1) * (1 + e2) - 1) <= 201 / 100 * u.
Proof.
  intros H1 H2. pose proof (u_small prec Hprec) as U. replace ((1 + e1) * (1 + e2) - 1) with (e1 + e2 + e1 * e2) by ring.
  eapply Rle_trans; [apply Rabs_triang|]. rewrite Rabs_mult.
  assert (Rabs (e1 + e2) <= 2 * u) by (eapply Rle_trans; [apply Rabs_triang|lra]).
  assert (Rabs e1 * Rabs e2 <= u * u) by (apply Rmult_le_compat; try apply Rabs_pos; assumption). nra.
Qed.

(** A sum or difference of two products, relative to the sum of their magnitudes. *)
Lemma two_products (x y x' y' : fl) (f : fl -> fl -> fl) (s : R) : s = 1 \/ s = -1 ->
  (forall p q : fl, is_finite p = true -> is_finite q = true -> Rabs (B2R p + s * B2R q) <= hi ->
     is_finite (f p q) = true /\ exists e, Rabs e <= u /\ B2R (f p q) = (B2R p + s * B2R q) * (1 + e)) ->
  in_range prec emax k x -> in_range prec emax k y -> in_range prec emax k x' -> in_range prec emax k y' ->
  is_finite (f (mul x y) (mul x' y')) = true
  /\ Rabs (B2R (f (mul x y) (mul x' y')) - (B2R x * B2R y + s * (B2R x' * B2R y')))
       <= 201 / 100 * u * (Rabs (B2R x) * Rabs (B2R y) + Rabs (B2R x') * Rabs (B2R y')).
Proof.
  intros Hs Hf Hx Hy Hx' Hy'. pose proof (u_small prec Hprec) as U. pose proof Q4_facts as (Q1 & Q2 & Q3 & L0).
  destruct (prod_rel x y Hx Hy) as (F1 & e1 & H1 & E1). destruct (prod_rel x' y' Hx' Hy') as (F2 & e2 & H2 & E2).
  assert (UB : forall v : fl, in_range prec emax k v -> Rabs (B2R v) <= Q).
  { intros v [_ [->|]]; [rewrite Rabs_R0; lra|lra]. }
  assert (As : Rabs s = 1) by (destruct Hs as [->| ->]; [apply Rabs_R1|rewrite Rabs_left; lra]).
  assert (PB : forall v w e, Rabs v <= Q -> Rabs w <= Q -> Rabs e <= u -> Rabs (v * w * (1 + e)) <= 2 * (Q * Q)).
  { intros v w e V W E. rewrite !Rabs_mult. assert (Rabs (1 + e) <= 2) by (eapply Rle_trans; [apply Rabs_triang|rewrite Rabs_R1; lra]).
    assert (Rabs v * Rabs w <= Q * Q) by (apply Rmult_le_compat; try apply Rabs_pos; assumption).
    pose proof (Rabs_pos (1 + e)). assert (0 <= Rabs v * Rabs w) by (apply Rmult_le_pos; apply Rabs_pos). nra. }
  destruct (Hf (mul x y) (mul x' y') F1 F2) as (F3 & e3 & H3 & E3).
  { rewrite E1, E2. eapply Rle_trans; [apply Rabs_triang|]. rewrite (Rabs_mult s), As, Rmult_1_l.
    pose proof (PB _ _ _ (UB x Hx) (UB y Hy) H1). pose proof (PB _ _ _ (UB x' Hx') (UB y' Hy') H2).
    assert (1 <= Q * Q) by nra. nra. }
  split; [exact F3|]. rewrite E3, E1, E2.
  replace ((B2R x * B2R y * (1 + e1) + s * (B2R x' * B2R y' * (1 + e2))) * (1 + e3) - (B2R x * B2R y + s * (B2R x' * B2R y')))
    with (B2R x * B2R y * ((1 + e1) * (1 + e3) - 1) + s * (B2R x' * B2R y' * ((1 + e2) * (1 + e3) - 1))) by ring.
  eapply Rle_trans; [apply Rabs_triang|]. rewrite (Rabs_mult s), As, Rmult_1_l, !Rabs_mult.
  pose proof (small_prod _ _ H1 H3). pose proof (small_prod _ _ H2 H3).
  assert (0 <= Rabs (B2R x) * Rabs (B2R y)) by (apply Rmult_le_pos; apply Rabs_pos).
  assert (0 <= Rabs (B2R x') * Rabs (B2R y')) by (apply Rmult_le_pos; apply Rabs_pos). nra.
Qed.

Lemma sum_products (x y x' y' : fl) : in_range prec emax k x -> in_range prec emax k y -> in_range prec emax k x' -> in_range prec emax k y' ->
  is_finite (add (mul x y) (mul x' y')) = true
  /\ Rabs (B2R (add (mul x y) (mul x' y')) - (B2R x * B2R y + B2R x' * B2R y'))
       <= 201 / 100 * u * (Rabs (B2R x) * Rabs (B2R y) + Rabs (B2R x') * Rabs (B2R y')).
Proof.
  intros. rewrite <- (Rmult_1_l (B2R x' * B2R y')). apply two_products; auto.
  intros p q Fp Fq Hh. rewrite Rmult_1_l in *. apply add_rel; assumption.
Qed.
Lemma diff_products (x y x' y' : fl) : in_range prec emax k x -> in_range prec emax k y -> in_range prec emax k x' -> in_range prec emax k y' ->
  is_finite (sub (mul x y) (mul x' y')) = true
  /\ Rabs (B2R (sub (mul x y) (mul x' y')) - (B2R x * B2R y - B2R x' * B2R y'))
       <= 201 / 100 * u * (Rabs (B2R x) * Rabs (B2R y) + Rabs (B2R x') * Rabs (B2R y')).
Proof.
  intros. replace (B2R x * B2R y - B2R x' * B2R y') with (B2R x * B2R y + (-1) * (B2R x' * B2R y')) by ring.
  apply (two_products x y x' y' sub (-1)); auto.
  intros p q Fp Fq Hh. replace (B2R p + -1 * B2R q) with (B2R p - B2R q) in * by ring. apply sub_rel; assumption.
Qed.

(** The last step: a numerator close to [P], times the reciprocal of the norm. *)
Lemma scaled (p r : fl) (P ZW W2 : R) : is_finite p = true -> is_finite r = true ->
  0 < W2 -> 0 <= ZW -> Rabs P <= ZW -> Rabs (B2R p - P) <= 201 / 100 * u * ZW -> rel (B2R r) (/ W2) (32 / 10 * u) ->
  ZW * / W2 <= 8 * (Q * Q * (Q * Q)) -> (ZW = 0 \/ / 4 * / (Q * Q) <= ZW * / W2) ->
  is_finite (mul p r) = true /\ Rabs (B2R (mul p r) - P * / W2) <= 7 * u * (ZW * / W2).
Proof.
  intros Fp Fr HW HZ HP Hp' Hr HU HL. pose proof (u_small prec Hprec) as U. pose proof Q4_facts as (Q1 & Q2 & Q3 & L0).
  assert (iW : 0 < / W2) by (apply Rinv_0_lt_compat; lra).
  set (I := / W2) in *. set (d := B2R p - P) in *.
  assert (Er : exists t, Rabs t <= 32 / 10 * u /\ B2R r = I * (1 + t)).
  { exists ((B2R r - I) / I). split; [|field; lra]. unfold Rdiv. rewrite Rabs_mult, (Rabs_pos_eq (/ I)) by (left; apply Rinv_0_lt_compat, iW).
    apply Rmult_le_reg_r with I; [lra|]. rewrite Rmult_assoc, Rinv_l, Rmult_1_r by lra. exact Hr. }
  destruct Er as (t & Ht & Er).
  assert (Ep : B2R p = P + d) by (unfold d; ring).
  assert (X : Rabs (B2R p * B2R r - P * I) <= 53 / 10 * u * (ZW * I)).
  { rewrite Ep, Er. replace ((P + d) * (I * (1 + t)) - P * I) with ((d + (P + d) * t) * I) by ring.
    rewrite Rabs_mult, (Rabs_pos_eq I) by lra. replace (53 / 10 * u * (ZW * I)) with (53 / 10 * u * ZW * I) by ring.
    apply Rmult_le_compat_r; [lra|]. eapply Rle_trans; [apply Rabs_triang|]. rewrite Rabs_mult.
    assert (Rabs (P + d) <= ZW + 201 / 100 * u * ZW) by (eapply Rle_trans; [apply Rabs_triang|lra]).
    assert (Rabs (P + d) * Rabs t <= (ZW + 201 / 100 * u * ZW) * (32 / 10 * u)) by (apply Rmult_le_compat; try apply Rabs_pos; assumption).
    assert (0 <= u * ZW) by nra. assert (u * (u * ZW) <= / 2048 * (u * ZW)) by (apply Rmult_le_compat_r; lra). nra. }
  set (G := ZW * I) in *. assert (G0 : 0 <= G) by (apply Rmult_le_pos; lra).
  assert (PG : Rabs (P * I) <= G) by (rewrite Rabs_mult, (Rabs_pos_eq I) by lra; apply Rmult_le_compat_r; lra).
  assert (VB : Rabs (B2R p * B2R r) <= G + 53 / 10 * u * G).
  { replace (B2R p * B2R r) with (P * I + (B2R p * B2R r - P * I)) by ring. eapply Rle_trans; [apply Rabs_triang|]. lra. }
  assert (uG : u * G <= / 2048 * G) by (apply Rmult_le_compat_r; lra). assert (0 <= u * G) by nra.
  destruct (mul_round prec emax p r Fp Fr) as [F E]; [eapply Rle_trans; [exact VB|]; nra|].
  split; [exact F|].
  destruct HL as [Z0|HL].
  - assert (G00 : G = 0) by (unfold G; rewrite Z0; ring).
    assert (V0 : B2R p * B2R r = 0).
    { rewrite G00 in VB. replace (0 + 53 / 10 * u * 0) with 0 in VB by ring. apply Rabs_le_inv in VB. lra. }
    assert (P0 : P * I = 0) by (rewrite G00 in PG; apply Rabs_le_inv in PG; lra).
    rewrite E, V0, P0, round_0, G00, Rminus_0_r, Rabs_R0 by apply valid_rnd_round_mode. lra.
  - rewrite E. destruct (rnd_any prec emax (B2R p * B2R r)) as (e & h & He' & Hh & ->).
    replace (B2R p * B2R r * (1 + e) + h - P * I) with ((B2R p * B2R r - P * I) + (B2R p * B2R r) * e + h) by ring.
    eapply Rle_trans; [apply Rabs_triang|].
    assert (EL : eta = u * lo) by (unfold underflow_unit, unit_roundoff; rewrite <- bpow_plus; f_equal; ring).
    assert (LG : lo <= / 64 * G).
    { apply Rle_trans with (/ 64 * (/ 4 * / (Q * Q))); [|lra]. assert (0 < Q * Q) by nra.
      apply Rmult_le_reg_r with (Q * Q); [lra|]. replace (/ 64 * (/ 4 * / (Q * Q)) * (Q * Q)) with (/ 256) by (field; lra).
      assert (1 <= Q * Q) by nra. nra. }
    assert (EH : Rabs h <= / 64 * (u * G)) by (rewrite EL in Hh; nra).
    assert (Rabs (B2R p * B2R r * e) <= (G + 53 / 10 * u * G) * u) by (rewrite Rabs_mult; apply Rmult_le_compat; try apply Rabs_pos; assumption).
    assert (Rabs (B2R p * B2R r - P * I + B2R p * B2R r * e) <= 53 / 10 * u * G + (G + 53 / 10 * u * G) * u)
      by (eapply Rle_trans; [apply Rabs_triang|lra]).
    assert (u * (u * G) <= / 2048 * (u * G)) by (apply Rmult_le_compat_r; lra). nra.
Qed.

(** Each component of the computed quotient is within 7 units of roundoff times |z|/|w|. *)
Theorem C73_div_accurate : forall z w : complex fl,
  within k (re z) -> within k (im z) -> within k (re w) -> within k (im w) -> ~ (B2R (re w) = 0 /\ B2R (im w) = 0) ->
  let size := sqrt (B2R (re z) * B2R (re z) + B2R (im z) * B2R (im z)) / sqrt (B2R (re w) * B2R (re w) + B2R (im w) * B2R (im w)) in
  exists q x y, complex_div FF z w = Ok q /\ complex_div_ref FF z w = Ok q
  /\ is_quotient (B2R (re z)) (B2R (im z)) (B2R (re w)) (B2R (im w)) x y
  /\ is_finite (re q) = true /\ Rabs (B2R (re q) - x) <= 7 * u * size
  /\ is_finite (im q) = true /\ Rabs (B2R (im q) - y) <= 7 * u * size.
Proof.
  intros [a b] [c d] Ra Rb Rc Rd NZ size. cbn [re im] in *.
  apply within_range in Ra, Rb, Rc, Rd.
  destruct (Z_facts prec emax k Hk0 Hk2 a b Ra Rb) as (Z0 & Z2 & Za & Zb & Z1).
  destruct (Z_facts prec emax k Hk0 Hk2 c d Rc Rd) as (W0 & W2 & Wc & Wd & W1).
  set (Z := sqrt (B2R a * B2R a + B2R b * B2R b)) in *. set (W := sqrt (B2R c * B2R c + B2R d * B2R d)) in *.
  pose proof (u_small prec Hprec) as U. pose proof Q4_facts as (Q1 & Q2 & Q3 & L0).
  assert (iQ : 0 < / Q) by (apply Rinv_0_lt_compat; lra).
  destruct W1 as [W1|W1].
  { exfalso. apply NZ. rewrite W1, Rmult_0_l in W2. split; nra. }
  set (A := B2R a) in *. set (B := B2R b) in *. set (C := B2R c) in *. set (D := B2R d) in *.
  assert (Wp : 0 < W) by lra. assert (W2p : 0 < W * W) by nra.
  (* squared norm and its reciprocal *)
  destruct (sum_products c c d d Rc Rc Rd Rd) as [Fn En]. fold C D in En.
  assert (SqC : Rabs C * Rabs C = C * C) by (rewrite <- Rabs_mult; apply Rabs_pos_eq; nra).
  assert (SqD : Rabs D * Rabs D = D * D) by (rewrite <- Rabs_mult; apply Rabs_pos_eq; nra).
  rewrite SqC, SqD, <- W2 in En.
  set (n := add (mul c c) (mul d d)) in *.
  destruct (one_value prec emax) as [F1 E1].
  destruct (rel_div 1 (B2R n) (W * W) (201 / 100 * u) En ltac:(lra) W2p ltac:(lra)) as [Np Rn].
  unfold Rdiv in Rn. rewrite !Rmult_1_l in Rn.
  assert (WU : W * W <= 4 * (Q * Q)) by nra.
  assert (WL : / Q * / Q <= W * W) by (apply Rmult_le_compat; lra).
  assert (IW : / (W * W) <= Q * Q).
  { apply Rmult_le_reg_r with (W * W); [lra|]. rewrite Rinv_l by lra.
    apply Rle_trans with (Q * Q * (/ Q * / Q)); [right; field; lra|apply Rmult_le_compat_l; nra]. }
  assert (IL : / 4 * / (Q * Q) <= / (W * W)).
  { rewrite <- Rinv_mult. apply Rinv_le_contravar; lra. }
  assert (QQ : 1 <= Q * Q) by nra.
  pose proof (rel_bounds _ _ _ Rn) as Bn.
  assert (iW : 0 < / (W * W)) by (apply Rinv_0_lt_compat; lra).
  assert (L4 : 16 * lo <= / 4 * / (Q * Q)).
  { apply Rmult_le_reg_r with (Q * Q); [lra|]. replace (/ 4 * / (Q * Q) * (Q * Q)) with (/ 4) by (field; lra). nra. }
  assert (KW : 105 / 100 * (201 / 100 * u) * / (W * W) <= 1 / 100 * / (W * W)) by (apply Rmult_le_compat_r; lra).
  destruct (div_rel prec emax one n F1) as (Fr & e & He' & Er).
  { lra. }
  { right. rewrite E1. unfold Rdiv. rewrite Rmult_1_l, Rabs_pos_eq by lra. lra. }
  { rewrite E1. unfold Rdiv. rewrite Rmult_1_l, Rabs_pos_eq by lra. nra. }
  rewrite E1 in Er. unfold Rdiv in Er. rewrite Rmult_1_l in Er.
  pose proof (rel_step _ _ _ _ _ Rn He' ltac:(lra) ltac:(lra)) as Rr. rewrite <- Er in Rr.
  apply (rel_weaken _ _ _ (32 / 10 * u)) in Rr; [|lra|nra].
  (* the two numerators *)
  destruct (sum_products a c b d Ra Rc Rb Rd) as [Fx Ex]. fold A B C D in Ex.
  destruct (diff_products b c a d Rb Rc Ra Rd) as [Fy Ey]. fold A B C D in Ey.
  pose proof (cauchy2 A B C D Z W (proj1 Z0) (Rlt_le _ _ Wp) Z2 W2) as K1.
  assert (K2 : Rabs B * Rabs C + Rabs A * Rabs D <= Z * W).
  { apply cauchy2; [lra|lra|rewrite Z2; ring|exact W2]. }
  assert (ZW0 : 0 <= Z * W) by (apply Rmult_le_pos; lra).
  assert (HU : Z * W * / (W * W) <= 8 * (Q * Q * (Q * Q))).
  { apply Rle_trans with (2 * Q * (2 * Q) * (Q * Q)); [apply Rmult_le_compat; try lra; apply Rmult_le_compat; lra|].
    assert (0 <= Q * Q * (Q * Q)) by nra. lra. }
  assert (HS : Z * W * / (W * W) = size) by (unfold size; fold A B C D; fold Z W; field; lra).
  assert (HL : Z * W = 0 \/ / 4 * / (Q * Q) <= Z * W * / (W * W)).
  { destruct Z1 as [Z1|Z1]; [left; rewrite Z1; ring|right]. replace (Z * W * / (W * W)) with (Z * / W) by (field; lra).
    apply Rle_trans with (/ Q * / (2 * Q)).
    - rewrite !Rinv_mult. assert (0 <= / Q * / Q) by nra. nra.
    - apply Rmult_le_compat; try lra; [left; apply Rinv_0_lt_compat; lra|apply Rinv_le_contravar; lra]. }
  assert (AP : forall x y s, Rabs (x * y + s) <= Rabs x * Rabs y + Rabs s).
  { intros x y s. eapply Rle_trans; [apply Rabs_triang|]. rewrite Rabs_mult. lra. }
  assert (u201 : 0 <= 201 / 100 * u) by lra.
  destruct (scaled (add (mul a c) (mul b d)) (div one n) (A * C + B * D) (Z * W) (W * W) Fx Fr W2p ZW0) as [Gx Hx].
  { eapply Rle_trans; [apply AP|]. rewrite Rabs_mult. exact K1. }
  { eapply Rle_trans; [exact Ex|apply Rmult_le_compat_l; assumption]. }
  { exact Rr. } { exact HU. } { exact HL. }
  destruct (scaled (sub (mul b c) (mul a d)) (div one n) (B * C - A * D) (Z * W) (W * W) Fy Fr W2p ZW0) as [Gy Hy].
  { unfold Rminus. eapply Rle_trans; [apply AP|]. rewrite Rabs_Ropp, Rabs_mult. exact K2. }
  { eapply Rle_trans; [exact Ey|apply Rmult_le_compat_l; assumption]. }
  { exact Rr. } { exact HU. } { exact HL. }
  rewrite HS in Hx, Hy.
  exists (Cx (mul (add (mul a c) (mul b d)) (div one n)) (mul (sub (mul b c) (mul a d)) (div one n))),
    ((A * C + B * D) * / (W * W)), ((B * C - A * D) * / (W * W)).
  split; [reflexivity|]. split; [reflexivity|]. cbn [re im].
  split.
  { unfold is_quotient. rewrite W2. assert (C * C + D * D <> 0) by (rewrite <- W2; lra).
    split; [field; assumption|]. split; [field; assumption|].
    destruct (Req_dec C 0) as [C0|C0]; [right|left; exact C0]. intros D0. apply NZ. auto. }
  auto.
Qed.
(** z / z: the imaginary part is exactly zero, the real part within 3 units of 1. *)
Theorem C73_self_quotient : forall z : complex fl,
  within k (re z) -> within k (im z) -> ~ (B2R (re z) = 0 /\ B2R (im z) = 0) ->
  exists q, complex_div FF z z = Ok q
  /\ is_finite (re q) = true /\ Rabs (B2R (re q) - 1) <= 3 * u
  /\ is_finite (im q) = true /\ B2R (im q) = 0.
Proof.
  intros [c d] Rc Rd NZ. cbn [re im] in *. apply within_range in Rc, Rd.
  destruct (Z_facts prec emax k Hk0 Hk2 c d Rc Rd) as (W0 & W2 & Wc & Wd & W1).
  set (W := sqrt (B2R c * B2R c + B2R d * B2R d)) in *.
  pose proof (u_small prec Hprec) as U. pose proof Q4_facts as (Q1 & Q2 & Q3 & L0).
  assert (iQ : 0 < / Q) by (apply Rinv_0_lt_compat; lra).
  destruct W1 as [W1|W1].
  { exfalso. apply NZ. rewrite W1, Rmult_0_l in W2. split; nra. }
  set (C := B2R c) in *. set (D := B2R d) in *.
  assert (Wp : 0 < W) by lra. assert (W2p : 0 < W * W) by nra.
  destruct (sum_products c c d d Rc Rc Rd Rd) as [Fn En]. fold C D in En.
  assert (SqC : Rabs C * Rabs C = C * C) by (rewrite <- Rabs_mult; apply Rabs_pos_eq; nra).
  assert (SqD : Rabs D * Rabs D = D * D) by (rewrite <- Rabs_mult; apply Rabs_pos_eq; nra).
  rewrite SqC, SqD, <- W2 in En. set (n := add (mul c c) (mul d d)) in *.
  destruct (one_value prec emax) as [F1 E1]. apply Rabs_le_inv in En.
  assert (uW : u * (W * W) <= / 2048 * (W * W)) by (apply Rmult_le_compat_r; lra).
  assert (WU : W * W <= 4 * (Q * Q)) by nra.
  assert (WL : / Q * / Q <= W * W) by (apply Rmult_le_compat; lra).
  assert (QQ : 1 <= Q * Q) by nra.
  assert (NU : 0 < B2R n <= 5 * (Q * Q)) by lra.
  assert (NL : / 2 * / (Q * Q) <= B2R n) by (rewrite Rinv_mult; lra).
  assert (IU : / B2R n <= 2 * (Q * Q)).
  { apply Rle_trans with (/ (/ 2 * / (Q * Q))); [|right; field; lra].
    apply Rinv_le_contravar; [|exact NL]. apply Rmult_lt_0_compat; [lra|apply Rinv_0_lt_compat; lra]. }
  assert (IL : / 5 * / (Q * Q) <= / B2R n) by (rewrite <- Rinv_mult; apply Rinv_le_contravar; lra).
  assert (ip : 0 < / B2R n) by (apply Rinv_0_lt_compat; lra).
  assert (L4 : 16 * lo <= / 5 * / (Q * Q)).
  { apply Rmult_le_reg_r with (Q * Q); [lra|]. replace (/ 5 * / (Q * Q) * (Q * Q)) with (/ 5) by (field; lra). nra. }
  destruct (div_rel prec emax one n F1) as (Fr & e & He' & Er).
  { lra. }
  { right. rewrite E1. unfold Rdiv. rewrite Rmult_1_l, Rabs_pos_eq by lra. lra. }
  { rewrite E1. unfold Rdiv. rewrite Rmult_1_l, Rabs_pos_eq by lra. nra. }
  rewrite E1 in Er. unfold Rdiv in Er. rewrite Rmult_1_l in Er.
  exists (Cx (mul n (div one n)) (mul (sub (mul d c) (mul c d)) (div one n))).
  split; [reflexivity|]. cbn [re im].
  assert (P1 : B2R n * B2R (div one n) = 1 + e) by (rewrite Er; field; lra).
  apply Rabs_le_inv in He'. assert (HiB : 2 <= hi) by nra. assert (LoB : lo <= 1 / 2) by nra.
  destruct (mul_rel prec emax n (div one n) Fn Fr) as (Fm & e2 & He2 & Em).
  { right. rewrite P1, Rabs_pos_eq by lra. lra. }
  { rewrite P1, Rabs_pos_eq by lra. lra. }
  split; [exact Fm|]. split.
  { rewrite Em, P1. apply Rabs_le_inv in He2. apply Rabs_le. nra. }
  rewrite (fl_mul_comm prec emax d c).
  destruct (prod_rel c d Rc Rd) as (Fcd & _).
  destruct (sub_rel prec emax (mul c d) (mul c d) Fcd Fcd) as (Fs & e3 & _ & Es).
  { rewrite Rminus_diag_eq, Rabs_R0 by reflexivity. lra. }
  assert (Es0 : B2R (sub (mul c d) (mul c d)) = 0) by (rewrite Es; ring).
  apply (mul_0_l prec emax); assumption.
Qed.
End Fmt.

(** Finding: the real part need not be 1; 7/7 = 1 - 2^-53 in Complex<f64>. *)
Theorem C73_self_quotient_one_refuted :
  on_ok (complex_div f64_field (Cx (f64_of_Z 7) (f64_of_Z 0)) (Cx (f64_of_Z 7) (f64_of_Z 0)))
    (fun q => Bltb (re q) (f64_of_Z 1) && negb (complex_eqb f64_ring q (complex_one f64_ring))) = true.
Proof. vm_compute. reflexivity. Qed.

(** f32: components zero or in [2^-29, 2^29]; f64: in [2^-253, 2^253]. *)
Corollary C73_div_f32 : forall z w : complex f32,
  within 29 (re z) -> within 29 (im z) -> within 29 (re w) -> within 29 (im w) -> ~ (B2R (re w) = 0 /\ B2R (im w) = 0) ->
  let size := sqrt (B2R (re z) * B2R (re z) + B2R (im z) * B2R (im z)) / sqrt (B2R (re w) * B2R (re w) + B2R (im w) * B2R (im w)) in
  exists q x y, complex_div (float_field 24 128) z w = Ok q
  /\ is_quotient (B2R (re z)) (B2R (im z)) (B2R (re w)) (B2R (im w)) x y
  /\ Rabs (B2R (re q) - x) <= 7 * / 2 ^ 24 * size /\ Rabs (B2R (im q) - y) <= 7 * / 2 ^ 24 * size.
Proof.
  intros z w H1 H2 H3 H4 H5.
  destruct (C73_div_accurate 24 128 ltac:(lia) 29 ltac:(lia) ltac:(lia) z w H1 H2 H3 H4 H5) as (q & x & y & E & _ & S & _ & B1 & _ & B2).
  exists q, x, y. replace (/ 2 ^ 24) with (unit_roundoff 24) by (unfold unit_roundoff; simpl; lra). auto.
Qed.
Corollary C73_div_f64 : forall z w : complex f64,
  within 253 (re z) -> within 253 (im z) -> within 253 (re w) -> within 253 (im w) -> ~ (B2R (re w) = 0 /\ B2R (im w) = 0) ->
  let size := sqrt (B2R (re z) * B2R (re z) + B2R (im z) * B2R (im z)) / sqrt (B2R (re w) * B2R (re w) + B2R (im w) * B2R (im w)) in
  exists q x y, complex_div f64_field z w = Ok q
  /\ is_quotient (B2R (re z)) (B2R (im z)) (B2R (re w)) (B2R (im w)) x y
  /\ Rabs (B2R (re q) - x) <= 7 * / 2 ^ 53 * size /\ Rabs (B2R (im q) - y) <= 7 * / 2 ^ 53 * size.
Proof.
  intros z w H1 H2 H3 H4 H5.
  destruct (C73_div_accurate 53 1024 ltac:(lia) 253 ltac:(lia) ltac:(lia) z w H1 H2 H3 H4 H5) as (q & x & y & E & _ & S & _ & B1 & _ & B2).
  exists q, x, y. replace (/ 2 ^ 53) with (unit_roundoff 53) by (unfold unit_roundoff; simpl; lra). auto.
Qed.

(** A concrete case: (1 + 3i) / (-2 + i) = 1/5 - 7/5 i in f64. *)
Example C73_case :
  within 253 (f64_of_Z 1) /\ within 253 (f64_of_Z 3) /\ within 253 (f64_of_Z (-2))
  /\ ~ (B2R (f64_of_Z (-2)) = 0 /\ B2R (f64_of_Z 1) = 0) /\ is_quotient 1 3 (-2) 1 (1 / 5) (-7 / 5).
Proof.
  assert (L : bpow radix2 (- (253)) <= 1) by (change 1 with (bpow radix2 0); apply bpow_le; lia).
  assert (G : 4 <= bpow radix2 253) by (change 4 with (bpow radix2 2); apply bpow_le; lia).
  assert (E1 : B2R (f64_of_Z 1) = 1) by (vm_compute; lra).
  assert (E3 : B2R (f64_of_Z 3) = 3) by (vm_compute; lra).
  assert (E2 : B2R (f64_of_Z (-2)) = -2) by (vm_compute; lra).
  unfold within, is_quotient. rewrite E1, E2, E3. rewrite Rabs_R1, (Rabs_pos_eq 3), (Rabs_left (-2)) by lra.
  repeat split; try lra; right; lra.
Qed.
Print Assumptions C73_div_accurate.
Print Assumptions C73_div_f32.
Print Assumptions C73_div_f64.
Print Assumptions C73_self_quotient.
Print Assumptions C73_self_quotient_one_refuted.
