(** Squaring a computed complex square root: the float operations. *)
From Coq Require Import List ZArith Reals Bool Lia Lra Psatz.
From Flocq Require Import Core.Core IEEE754.BinarySingleNaN Relative Mult_error.
From Verif Require Import Base.Outcome Model.Traits Model.Float Model.Complex Spec.FloatErr
  Proofs.FloatErr Proofs.FloatRound Proofs.FloatRange Proofs.FloatInt Proofs.FloatSqrt Proofs.SqrtTest
  Props.FloatRangeProps Props.FloatSqrtProps.
Local Open Scope R_scope.

Lemma near_mul e1 e2 u k1 k2 : 0 < u <= 1 / 16000000 -> 0 <= k1 <= 16 -> 0 <= k2 <= 16 -> Rabs e1 <= k1 * u -> Rabs e2 <= k2 * u ->
  Rabs ((1 + e1) * (1 + e2) - 1) <= (k1 + k2 + 1 / 60000) * u.
Proof.
  intros U K1 K2 H1 H2. replace ((1 + e1) * (1 + e2) - 1) with (e1 + e2 + e1 * e2) by ring.
  eapply Rle_trans; [apply Rabs_triang|]. assert (Rabs (e1 + e2) <= k1 * u + k2 * u) by (eapply Rle_trans; [apply Rabs_triang|lra]).
  assert (Rabs (e1 * e2) <= 1 / 60000 * u).
  { rewrite Rabs_mult. apply Rle_trans with (k1 * u * (k2 * u)); [apply Rmult_le_compat; auto using Rabs_pos|].
    assert (k1 * k2 <= 256) by nra. assert (0 <= k1 * k2) by nra.
    replace (k1 * u * (k2 * u)) with (k1 * k2 * u * u) by ring. apply Rmult_le_compat_r; [lra|]. nra. }
  lra.
Qed.
Lemma near_inv e u k : 0 < u <= 1 / 16000000 -> 0 <= k <= 16 -> Rabs e <= k * u ->
  exists e', Rabs e' <= (k + 1 / 60000) * u /\ / (1 + e) = 1 + e'.
Proof.
  intros U K H. exists (/ (1 + e) - 1). split; [|ring]. pose proof H as H'. apply Rabs_le_inv in H'.
  assert (k * u <= 16 / 16000000) by nra. assert (1 - 16 / 16000000 <= 1 + e) by lra.
  replace (/ (1 + e) - 1) with (- e * / (1 + e)) by (field; lra).
  rewrite Rabs_mult, Rabs_Ropp, (Rabs_pos_eq (/ (1 + e))) by (left; apply Rinv_0_lt_compat; lra).
  apply Rmult_le_reg_r with (1 + e); [lra|]. rewrite Rmult_assoc, Rinv_l, Rmult_1_r by lra.
  eapply Rle_trans; [exact H|]. assert (Rabs e <= 16 / 16000000) by lra.
  assert (k * u * (16 / 16000000) <= 1 / 61000 * u) by nra.
  assert (0 <= 1 / 60000 * u) by lra. nra.
Qed.
Lemma as_error v w e k : 0 <= w -> v = w * (1 + e) -> Rabs e <= k -> Rabs (v - w) <= k * w.
Proof. intros W -> H. replace (w * (1 + e) - w) with (e * w) by ring. rewrite Rabs_mult, (Rabs_pos_eq w W). apply Rmult_le_compat_r; assumption. Qed.
Lemma as_error' v w e k : v = w * (1 + e) -> Rabs e <= k -> Rabs (v - w) <= k * Rabs w.
Proof. intros -> H. replace (w * (1 + e) - w) with (e * w) by ring. rewrite Rabs_mult. apply Rmult_le_compat_r; [apply Rabs_pos|assumption]. Qed.
Lemma sq_near e u : 0 < u <= 1 / 16000000 -> Rabs e <= u -> exists e', Rabs e' <= (2 + 1 / 60000) * u /\ (1 + e) * (1 + e) = 1 + e'.
Proof.
  intros U H. exists ((1 + e) * (1 + e) - 1). split; [|ring]. assert (Rabs e <= 1 * u) by lra.
  replace 2 with (1 + 1) by ring. apply near_mul; lra.
Qed.

Lemma abs_sign s : s = 1 \/ s = -1 -> Rabs s = 1.
Proof. intros [->| ->]; unfold Rabs; destruct Rcase_abs; lra. Qed.

Section Fmt.
Context (prec emax : Z) {Hp : Prec_gt_0 prec} {He : Prec_lt_emax prec emax} (libm : FunOps (binary_float prec emax)).
Notation fl := (binary_float prec emax).
Notation FF := (float_field prec emax).
Notation FE := (float_fun prec emax libm).
Notation u := (unit_roundoff prec).
Notation rnd := (round radix2 (SpecFloat.fexp prec emax) (round_mode mode_NE)).
Notation add := (fl_add prec emax). Notation sub := (fl_sub prec emax).
Notation mul := (fl_mul prec emax). Notation div := (fl_div prec emax).
Notation one := (fl_int prec emax 1). Notation zero := (fl_int prec emax 0).
Notation lo := (bpow radix2 (2 - emax)).
Notation hi := (half_big emax).
Context (Hprec : (24 <= prec)%Z) (k : Z) (Hk0 : (0 <= k)%Z) (Hk3 : (3 * k + 20 <= emax)%Z).
Notation Q := (bpow radix2 k).

Lemma u_tiny : 0 < u <= 1 / 16000000.
Proof.
  split; [apply u_pos|]. apply Rle_trans with (bpow radix2 (-24)); [apply bpow_le; lia|]. simpl. lra.
Qed.
Lemma Hk2 : (2 * k + 10 <= emax)%Z. Proof. lia. Qed.
Lemma Hp11 : (11 <= prec)%Z. Proof. lia. Qed.
Lemma Q3 : lo * 4096 * (Q * Q * Q) <= 1 /\ 4096 * (Q * Q) <= hi.
Proof.
  change 4096 with (bpow radix2 12). rewrite <- !bpow_plus. unfold half_big.
  split; [change 1 with (bpow radix2 0); apply bpow_le; lia|apply bpow_le; lia].
Qed.

Lemma half_exact (n : fl) : is_finite n = true -> 2 * lo <= Rabs (B2R n) <= hi ->
  is_finite (mul n (div one (add one one))) = true /\ B2R (mul n (div one (add one one))) = B2R n / 2.
Proof.
  intros F [L H]. destruct (half_value prec emax Hp11 k Hk0 Hk2) as [Fh Eh].
  destruct (mul_round prec emax n (div one (add one one)) F Fh) as [Fm Em].
  { rewrite Eh, Rabs_mult, (Rabs_pos_eq (/ 2)) by lra. pose proof (Rabs_pos (B2R n)). lra. }
  split; [exact Fm|]. rewrite Em, Eh. apply round_generic; [apply valid_rnd_round_mode|].
  replace (B2R n / 2) with (B2R n * bpow radix2 (-1)) by (simpl; lra). apply (mult_bpow_exact_FLT radix2 (SpecFloat.emin prec emax) prec).
  - apply generic_format_B2R.
  - assert (4 - emax <= mag radix2 (B2R n))%Z.
    { apply mag_ge_bpow. replace (4 - emax - 1)%Z with (1 + (2 - emax))%Z by ring. rewrite bpow_plus. simpl (bpow radix2 1). lra. }
    unfold SpecFloat.emin. lia.
Qed.
Lemma two_exact (n : fl) : is_finite n = true -> 2 * Rabs (B2R n) <= hi ->
  is_finite (mul n (add one one)) = true /\ B2R (mul n (add one one)) = 2 * B2R n.
Proof.
  intros F H. destruct (two_value prec emax Hp11 k Hk0 Hk2) as [F2 E2].
  destruct (mul_round prec emax n (add one one) F F2) as [Fm Em].
  { rewrite E2, Rabs_mult, (Rabs_pos_eq 2) by lra. lra. }
  split; [exact Fm|]. rewrite Em, E2, (Rmult_comm 2). apply round_generic; [apply valid_rnd_round_mode|].
  change 2 with (bpow radix2 1). apply (mult_bpow_pos_exact_FLT radix2 (SpecFloat.emin prec emax) prec).
  - apply generic_format_B2R. - lia.
Qed.
Lemma twice_add (x y : fl) : is_finite x = true -> is_finite y = true -> B2R x = B2R y -> 2 * Rabs (B2R x) <= hi ->
  is_finite (add x y) = true /\ B2R (add x y) = 2 * B2R x.
Proof.
  intros Fx Fy E H. destruct (add_round prec emax x y Fx Fy) as [F Ea].
  { rewrite <- E. replace (B2R x + B2R x) with (2 * B2R x) by ring. rewrite Rabs_mult, (Rabs_pos_eq 2) by lra. exact H. }
  split; [exact F|]. rewrite Ea, <- E. replace (B2R x + B2R x) with (B2R x * 2) by ring. rewrite (Rmult_comm 2).
  apply round_generic; [apply valid_rnd_round_mode|]. change 2 with (bpow radix2 1).
  apply (mult_bpow_pos_exact_FLT radix2 (SpecFloat.emin prec emax) prec); [apply generic_format_B2R|lia].
Qed.

Notation Zabs a b := (sqrt (B2R a * B2R a + B2R b * B2R b)).

(** the modulus *)
Lemma abs_square (a b : fl) : in_range prec emax k a -> in_range prec emax k b ->
  let A := Bsqrt mode_NE (fl_norm2 prec emax a b) in
  is_finite A = true /\ 0 <= B2R A
  /\ Rabs (B2R A * B2R A - Zabs a b * Zabs a b) <= 4001 / 1000 * u * (Zabs a b * Zabs a b).
Proof.
  intros Ha Hb A. pose proof (Q_facts emax k Hk0 Hk2) as (Q1 & Q2 & Q4 & L0). pose proof u_tiny as U.
  destruct (Z_facts prec emax k Hk0 Hk2 a b Ha Hb) as (Z0 & Z2 & Za & Zb & _). set (Z := Zabs a b) in *.
  assert (P : forall x : fl, in_range prec emax k x -> is_finite (mul x x) = true /\ exists e, Rabs e <= u /\ B2R (mul x x) = B2R x * B2R x * (1 + e)).
  { intros x [Fx Rx]. apply mul_rel; [exact Fx|exact Fx| |].
    - destruct Rx as [->|[Rx _]]; [left; ring|right]. rewrite Rabs_mult.
      apply Rle_trans with (/ Q * / Q); [|apply Rmult_le_compat; try lra; left; apply Rinv_0_lt_compat; lra].
      apply Rmult_le_reg_r with (Q * Q); [nra|]. replace (/ Q * / Q * (Q * Q)) with 1 by (field; lra). nra.
    - rewrite Rabs_mult. assert (Rabs (B2R x) <= Q) by (destruct Rx as [->|]; [rewrite Rabs_R0; lra|lra]).
      apply Rle_trans with (Q * Q); [apply Rmult_le_compat; auto using Rabs_pos|nra]. }
  destruct (P a Ha) as (Fa & e1 & He1 & E1). destruct (P b Hb) as (Fb & e2 & He2 & E2).
  set (X2 := B2R a * B2R a) in *. set (Y2 := B2R b * B2R b) in *.
  assert (X20 : 0 <= X2) by (unfold X2; nra). assert (Y20 : 0 <= Y2) by (unfold Y2; nra).
  assert (S : Rabs (B2R (mul a a) + B2R (mul b b) - Z * Z) <= u * (Z * Z)).
  { rewrite E1, E2, Z2. replace (X2 * (1 + e1) + Y2 * (1 + e2) - (X2 + Y2)) with (e1 * X2 + e2 * Y2) by ring.
    eapply Rle_trans; [apply Rabs_triang|]. rewrite !Rabs_mult, (Rabs_pos_eq X2 X20), (Rabs_pos_eq Y2 Y20). nra. }
  assert (ZZ : 0 <= Z * Z <= 4 * (Q * Q)) by nra.
  set (n := B2R (mul a a) + B2R (mul b b)) in *.
  assert (n0 : 0 <= n) by (apply Rabs_le_inv in S; nra).
  destruct (add_rel prec emax (mul a a) (mul b b) Fa Fb) as (Fn & e3 & He3 & E3).
  { fold n. rewrite Rabs_pos_eq by exact n0. apply Rabs_le_inv in S. nra. }
  fold n in E3. change (add (mul a a) (mul b b)) with (fl_norm2 prec emax a b) in *.
  assert (N0 : 0 <= B2R (fl_norm2 prec emax a b)) by (rewrite E3; apply Rmult_le_pos; [exact n0|]; apply Rabs_le_inv in He3; lra).
  destruct (sqrt_rel prec emax _ Fn N0) as (FA & e4 & He4 & E4). fold A in FA, E4. split; [exact FA|].
  split. { rewrite E4. apply Rmult_le_pos; [apply sqrt_pos|]. apply Rabs_le_inv in He4. lra. }
  replace (B2R A * B2R A) with (n * (1 + ((1 + e3) * ((1 + e4) * (1 + e4)) - 1))).
  2:{ rewrite E4. replace (sqrt (B2R (fl_norm2 prec emax a b)) * (1 + e4) * (sqrt (B2R (fl_norm2 prec emax a b)) * (1 + e4)))
        with (sqrt (B2R (fl_norm2 prec emax a b)) * sqrt (B2R (fl_norm2 prec emax a b)) * ((1 + e4) * (1 + e4))) by ring.
      rewrite sqrt_sqrt by exact N0. rewrite E3. ring. }
  destruct (sq_near e4 u U He4) as (e5 & He5 & ->).
  pose proof (near_mul e3 e5 u 1 (2 + 1 / 60000) U ltac:(lra) ltac:(lra) ltac:(lra) He5) as H5.
  set (d := (1 + e3) * (1 + e5) - 1) in *.
  replace (n * (1 + d) - Z * Z) with ((n - Z * Z) + d * n) by ring. eapply Rle_trans; [apply Rabs_triang|].
  rewrite Rabs_mult, (Rabs_pos_eq n n0). assert (n <= Z * Z * (1 + u)) by (apply Rabs_le_inv in S; lra).
  assert (Rabs d * n <= 30001 / 10000 * u * (Z * Z * (1 + u))) by (apply Rmult_le_compat; auto using Rabs_pos; lra).
  assert (0 <= u * (Z * Z)) by nra. nra.
Qed.

(** sqrt(n/2) squared *)
Lemma root_half_square (n : fl) w e : is_finite n = true -> 3 * lo <= w <= 1000 * (Q * Q) -> B2R n = w * (1 + e) -> Rabs e <= u ->
  let r := Bsqrt mode_NE (mul n (div one (add one one))) in
  is_finite r = true /\ exists e', Rabs e' <= u /\ B2R r = sqrt (w * (1 + e) / 2) * (1 + e')
  /\ 0 <= B2R r /\ Rabs (B2R r * B2R r - w / 2) <= 3001 / 1000 * u * (w / 2).
Proof.
  intros F W En He' r. pose proof u_tiny as U. pose proof (Q_facts emax k Hk0 Hk2) as (Q1 & Q2 & Q4 & L0). pose proof Q3 as [_ Q5].
  pose proof He' as He''. apply Rabs_le_inv in He''.
  assert (P : 0 <= w * (1 + e)) by nra.
  destruct (half_exact n F) as [Fm Em]. { rewrite En, Rabs_pos_eq by exact P. split; nra. }
  rewrite En in Em. destruct (sqrt_rel prec emax _ Fm) as (Fr & e2 & He2 & Er); [rewrite Em; lra|]. fold r in Fr, Er.
  rewrite Em in Er. split; [exact Fr|]. exists e2. split; [exact He2|]. split; [exact Er|].
  pose proof (sqrt_pos (w * (1 + e) / 2)) as SP. pose proof (sqrt_sqrt (w * (1 + e) / 2) ltac:(lra)) as SS.
  set (s := sqrt (w * (1 + e) / 2)) in *. split.
  { rewrite Er. apply Rmult_le_pos; [exact SP|]. apply Rabs_le_inv in He2. lra. }
  destruct (sq_near e2 u U He2) as (e5 & He5 & E5).
  apply (as_error _ _ ((1 + e) * (1 + e5) - 1)); [lra| |].
  - rewrite Er. replace (s * (1 + e2) * (s * (1 + e2))) with (s * s * ((1 + e2) * (1 + e2))) by ring. rewrite SS, E5. lra.
  - pose proof (near_mul e e5 u 1 (2 + 1 / 60000) U ltac:(lra) ltac:(lra) ltac:(lra) He5). lra.
Qed.

(** s * s *)
Lemma square_parts (r j : fl) B : is_finite r = true -> is_finite j = true -> B <= 1000 * (Q * Q) ->
  Rabs (B2R r) * Rabs (B2R r) <= B -> Rabs (B2R j) * Rabs (B2R j) <= B ->
  (B2R r = 0 \/ lo <= B2R r * B2R r) -> (B2R j = 0 \/ lo <= B2R j * B2R j) -> (B2R r * B2R j = 0 \/ lo <= Rabs (B2R r * B2R j)) ->
  let R := sub (mul r r) (mul j j) in let I := add (mul r j) (mul j r) in
  is_finite R = true /\ is_finite I = true /\ exists rr jj v,
  Rabs (rr - B2R r * B2R r) <= u * (B2R r * B2R r) /\ Rabs (jj - B2R j * B2R j) <= u * (B2R j * B2R j)
  /\ Rabs (v - B2R r * B2R j) <= u * Rabs (B2R r * B2R j) /\ Rabs (B2R R - (rr - jj)) <= u * Rabs (rr - jj) /\ B2R I = 2 * v.
Proof.
  intros Fr Fj HB Br Bj Lr Lj Lrj R I. pose proof u_tiny as U. pose proof (Q_facts emax k Hk0 Hk2) as (Q1 & Q2 & Q4 & L0). pose proof Q3 as [_ Q5].
  pose proof (Rabs_pos (B2R r)). pose proof (Rabs_pos (B2R j)).
  assert (Er : Rabs (B2R r * B2R r) = B2R r * B2R r) by (apply Rabs_pos_eq; nra).
  assert (Ej : Rabs (B2R j * B2R j) = B2R j * B2R j) by (apply Rabs_pos_eq; nra).
  assert (Er' : B2R r * B2R r <= B) by (rewrite <- Er, Rabs_mult; exact Br).
  assert (Ej' : B2R j * B2R j <= B) by (rewrite <- Ej, Rabs_mult; exact Bj).
  assert (Brj : Rabs (B2R r * B2R j) <= B) by (rewrite Rabs_mult; nra).
  destruct (mul_rel prec emax r r Fr Fr) as (F1 & e1 & He1 & E1).
  { destruct Lr as [->|L]; [left; ring|right; rewrite Er; exact L]. } { rewrite Er. nra. }
  destruct (mul_rel prec emax j j Fj Fj) as (F2 & e2 & He2 & E2).
  { destruct Lj as [->|L]; [left; ring|right; rewrite Ej; exact L]. } { rewrite Ej. nra. }
  destruct (mul_rel prec emax r j Fr Fj Lrj) as (F3 & e3 & He3 & E3). { nra. }
  destruct (mul_round prec emax r j Fr Fj) as [_ E3']. { nra. }
  destruct (mul_round prec emax j r Fj Fr) as [F4 E4]. { rewrite Rmult_comm. nra. }
  rewrite Rmult_comm, <- E3' in E4.
  assert (G : forall v e B', Rabs e <= u -> Rabs v <= B' -> Rabs (v * (1 + e)) <= 1001 / 1000 * B').
  { intros v e B' H1 H2. rewrite Rabs_mult. pose proof (Rabs_pos v). assert (Rabs (1 + e) <= 1001 / 1000).
    { eapply Rle_trans; [apply Rabs_triang|]. rewrite Rabs_R1. lra. }
    rewrite (Rmult_comm (1001 / 1000)). apply Rmult_le_compat; auto using Rabs_pos. }
  pose proof (G (B2R r * B2R r) _ B He1 ltac:(lra)) as G1. rewrite <- E1 in G1.
  pose proof (G (B2R j * B2R j) _ B He2 ltac:(lra)) as G2. rewrite <- E2 in G2.
  pose proof (G _ _ B He3 Brj) as G3. rewrite <- E3 in G3.
  destruct (sub_rel prec emax (mul r r) (mul j j) F1 F2) as (F5 & e5 & He5 & E5).
  { unfold Rminus. eapply Rle_trans; [apply Rabs_triang|]. rewrite Rabs_Ropp. lra. }
  destruct (twice_add (mul r j) (mul j r) F3 F4 (eq_sym E4)) as [F6 E6]. { lra. }
  split; [exact F5|]. split; [exact F6|]. exists (B2R (mul r r)), (B2R (mul j j)), (B2R (mul r j)).
  split; [apply (as_error _ _ e1); [nra|exact E1|exact He1]|].
  split; [apply (as_error _ _ e2); [nra|exact E2|exact He2]|].
  split; [apply (as_error' _ _ e3); [exact E3|exact He3]|].
  split; [apply (as_error' _ _ e5); [exact E5|exact He5]|exact E6].
Qed.

(** what is shown of the two parts of the root (i with either sign) *)
Definition squares_to (X Y Z : R) (r i : fl) : Prop :=
  is_finite r = true /\ 0 <= B2R r /\ is_finite i = true /\ 0 <= B2R i
  /\ forall s (j : fl), (s = 1 \/ s = -1) -> is_finite j = true -> B2R j = s * B2R i ->
     is_finite (sub (mul r r) (mul j j)) = true /\ is_finite (add (mul r j) (mul j r)) = true
     /\ exists c d, Rabs (B2R (sub (mul r r) (mul j j)) - X) <= c * u * Z
        /\ Rabs (s * B2R (add (mul r j) (mul j r)) - Y) <= d * u * Z /\ 0 <= c /\ 0 <= d /\ c * c + d * d <= 6325 / 100.

Lemma squares1 (a b : fl) : in_range prec emax k a -> in_range prec emax k b -> Rabs (B2R a) <= 2 * Rabs (B2R b) ->
  0 < Zabs a b ->
  let A := Bsqrt mode_NE (fl_norm2 prec emax a b) in
  squares_to (B2R a) (Rabs (B2R b)) (Zabs a b)
    (Bsqrt mode_NE (mul (add A a) (div one (add one one)))) (Bsqrt mode_NE (mul (sub A a) (div one (add one one)))).
Proof.
  intros Ha Hb Hab Zp A. destruct (abs_square a b Ha Hb) as (FA & A0 & SA). fold A in FA, A0, SA.
  destruct (Z_facts prec emax k Hk0 Hk2 a b Ha Hb) as (Z0 & Z2 & Za & Zb & Z1). set (Z := Zabs a b) in *.
  pose proof u_tiny as U. pose proof (Q_facts emax k Hk0 Hk2) as (Q1 & Q2 & Q4 & L0). pose proof Q3 as [_ Q5].
  assert (iQ : 100 * lo <= / Q).
  { apply Rmult_le_reg_r with (Q * Q); [nra|]. replace (/ Q * (Q * Q)) with Q by (field; lra). nra. }
  assert (ZL : / Q <= Z) by (destruct Z1; lra).
  set (X := B2R a) in *. set (Y := Rabs (B2R b)) in *. assert (Y0 : 0 <= Y) by apply Rabs_pos.
  assert (EZ : Z * Z = X * X + Y * Y) by (rewrite Z2; unfold Y; rewrite <- (abs_sq (B2R b)); ring).
  pose proof (A_near u (proj1 U) (proj2 U) Z (B2R A) Zp A0 SA) as NA.
  assert (NA' : 999 / 1000 * Z <= B2R A <= 1001 / 1000 * Z) by nra.
  assert (TX : Rabs X <= 8945 / 10000 * Z).
  { pose proof (abs_sq X) as EX. pose proof (Rabs_pos X). apply Rnot_lt_le. intros C.
    assert (Rabs X * Rabs X <= 2 * Y * (2 * Y)) by (apply Rmult_le_compat; lra). nra. }
  apply Rabs_le_inv in TX.
  destruct (add_rel prec emax A a FA (proj1 Ha)) as (Fs & e1 & He1 & E1). { fold X. rewrite Rabs_pos_eq by lra. nra. }
  destruct (sub_rel prec emax A a FA (proj1 Ha)) as (Fd & e2 & He2 & E2). { fold X. rewrite Rabs_pos_eq by lra. nra. }
  fold X in E1, E2.
  destruct (root_half_square (add A a) (B2R A + X) e1 Fs ltac:(nra) E1 He1) as (Fr & _ & _ & _ & r0 & Sr).
  destruct (root_half_square (sub A a) (B2R A - X) e2 Fd ltac:(nra) E2 He2) as (Fi & _ & _ & _ & i0 & Si).
  set (r := Bsqrt mode_NE (mul (add A a) (div one (add one one)))) in *.
  set (i := Bsqrt mode_NE (mul (sub A a) (div one (add one one)))) in *.
  split; [exact Fr|]. split; [exact r0|]. split; [exact Fi|]. split; [exact i0|]. intros s j Hs Fj Ej.
  assert (Br : 5 / 100 * Z <= B2R r * B2R r <= Z) by (apply Rabs_le_inv in Sr; nra).
  assert (Bi : 5 / 100 * Z <= B2R i * B2R i <= Z) by (apply Rabs_le_inv in Si; nra).
  assert (jj : B2R j * B2R j = B2R i * B2R i) by (rewrite Ej; destruct Hs; subst s; ring).
  assert (aj : Rabs (B2R j) = B2R i) by (rewrite Ej, Rabs_mult, (Rabs_pos_eq (B2R i) i0), (abs_sign s Hs); ring).
  assert (ri : 5 / 100 * Z <= B2R r * B2R i).
  { apply Rnot_lt_le. intros C. assert (B2R r * B2R i * (B2R r * B2R i) < 5 / 100 * Z * (5 / 100 * Z)) by (apply Rmult_le_0_lt_compat; nra). nra. }
  destruct (square_parts r j (2 * Q) Fr Fj) as (FR & FI & rr & jj' & v & H1 & H2 & H3 & H4 & H5).
  { nra. } { rewrite Rabs_pos_eq by exact r0. lra. } { rewrite aj. lra. } { right. lra. } { right. lra. }
  { right. rewrite Rabs_mult, aj, Rabs_pos_eq by exact r0. lra. }
  split; [exact FR|]. split; [exact FI|]. exists (4897 / 1000), (6266 / 1000).
  rewrite jj in H2.
  assert (H3' : Rabs (s * v - B2R r * B2R i) <= u * (B2R r * B2R i)).
  { replace (s * v - B2R r * B2R i) with (s * (v - B2R r * B2R j)) by (rewrite Ej; destruct Hs; subst s; ring).
    rewrite Rabs_mult, (abs_sign s Hs).
    rewrite Rabs_mult, aj, (Rabs_pos_eq _ r0) in H3. lra. }
  destruct (branch1_core u (proj1 U) (proj2 U) X Y Z (B2R A) Zp EZ Y0 A0 SA (B2R r) (B2R i) rr jj' (s * v) _ Hab r0 i0 Sr Si H1 H2 H3' H4) as [K1 K2].
  split; [exact K1|]. split; [|lra]. rewrite H5. replace (s * (2 * v)) with (2 * (s * v)) by ring. exact K2.
Qed.

End Fmt.
