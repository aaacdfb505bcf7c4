(** Rounding error of the square root of a complex float whose absolute value, but not necessarily each component,
    is of moderate size. *)
From Coq Require Import List ZArith Reals Bool Lia Lra Psatz.
From Flocq Require Import Core.Core IEEE754.BinarySingleNaN Relative Mult_error.
From Verif Require Import Base.Outcome Model.Traits Model.Float Model.Complex Spec.FloatErr
  Proofs.FloatErr Proofs.FloatRound Proofs.FloatRange Proofs.FloatInt Proofs.FloatSqrt Props.FloatRangeProps.
Local Open Scope R_scope.

Section Fmt.
Context (prec emax : Z) {Hp : Prec_gt_0 prec} {He : Prec_lt_emax prec emax}.
Notation fl := (binary_float prec emax).
Notation u := (unit_roundoff prec).
Notation eta := (underflow_unit prec emax).
Notation rnd := (round radix2 (SpecFloat.fexp prec emax) (round_mode mode_NE)).
Notation add := (fl_add prec emax). Notation sub := (fl_sub prec emax).
Notation mul := (fl_mul prec emax). Notation div := (fl_div prec emax).
Notation one := (fl_int prec emax 1).
Notation lo := (bpow radix2 (2 - emax)).
Notation hi := (half_big emax).
Hypothesis Hprec : (11 <= prec)%Z.
Context (k : Z) (Hk0 : (0 <= k)%Z) (Hk : (2 * k + 10 <= emax)%Z).
Notation Q := (bpow radix2 k).
Notation Q_facts := (Q_facts emax k Hk0 Hk).
Notation u_small := (u_small prec Hprec).
Notation Zabs a b := (sqrt (B2R a * B2R a + B2R b * B2R b)).
Notation add_rel := (add_rel prec emax). Notation sub_rel := (sub_rel prec emax).
Notation mul_rel := (mul_rel prec emax). Notation sqrt_rel := (sqrt_rel prec emax).
Notation root_of_half := (root_of_half prec emax Hprec k Hk0 Hk).
Notation two_value := (two_value prec emax Hprec k Hk0 Hk).

(** a + ib is finite and 2^-k <= |a + ib| <= 2^k. *)
Definition moderate (a b : fl) : Prop := is_finite a = true /\ is_finite b = true /\ / Q <= Zabs a b <= Q.

Lemma eta_lo : eta = u * lo.
Proof. unfold underflow_unit, unit_roundoff. rewrite <- bpow_plus. f_equal. ring. Qed.

Lemma modulus_facts (a b : fl) : moderate a b ->
  0 <= Zabs a b <= 2 * Q /\ Zabs a b * Zabs a b = B2R a * B2R a + B2R b * B2R b
  /\ Rabs (B2R a) <= Zabs a b /\ Rabs (B2R b) <= Zabs a b /\ (Zabs a b = 0 \/ / Q <= Zabs a b).
Proof.
  intros (_ & _ & HZ). pose proof Q_facts as (Q1 & _).
  set (A := B2R a) in *. set (B := B2R b) in *.
  assert (N0 : 0 <= A * A + B * B) by nra. pose proof (sqrt_pos (A * A + B * B)) as P. pose proof (sqrt_sqrt _ N0) as E.
  set (Z := sqrt (A * A + B * B)) in *.
  assert (EA : A * A = Rabs A * Rabs A) by (rewrite <- Rabs_mult; symmetry; apply Rabs_pos_eq; nra).
  assert (EB : B * B = Rabs B * Rabs B) by (rewrite <- Rabs_mult; symmetry; apply Rabs_pos_eq; nra).
  pose proof (Rabs_pos A). pose proof (Rabs_pos B).
  repeat split; try assumption; try lra.
  - apply Rnot_lt_le; intros C; nra.
  - apply Rnot_lt_le; intros C; nra.
Qed.

Lemma square_err (a b : fl) : is_finite a = true -> Rabs (B2R a) <= Q ->
  is_finite (mul a a) = true /\ Rabs (B2R (mul a a) - B2R a * B2R a) <= u * (B2R a * B2R a) + eta.
Proof.
  intros Fa HA. pose proof Q_facts as (Q1 & Q2 & _). pose proof (Rabs_pos (B2R a)).
  assert (EA : B2R a * B2R a = Rabs (B2R a) * Rabs (B2R a)) by (rewrite <- Rabs_mult; symmetry; apply Rabs_pos_eq; nra).
  assert (A0 : 0 <= B2R a * B2R a) by nra.
  destruct (mul_round prec emax a a Fa Fa) as [F E].
  { rewrite Rabs_pos_eq, EA by exact A0. assert (Rabs (B2R a) * Rabs (B2R a) <= Q * Q) by (apply Rmult_le_compat; lra). nra. }
  split; [exact F|]. rewrite E. destruct (rnd_any prec emax (B2R a * B2R a)) as (e & h & He1 & Hh & ->).
  replace (B2R a * B2R a * (1 + e) + h - B2R a * B2R a) with (e * (B2R a * B2R a) + h) by ring.
  eapply Rle_trans; [apply Rabs_triang|]. rewrite Rabs_mult, (Rabs_pos_eq (B2R a * B2R a)) by exact A0.
  apply Rplus_le_compat; [|exact Hh]. apply Rmult_le_compat_r; assumption.
Qed.

Lemma modulus_rel (a b : fl) : moderate a b ->
  let A := Bsqrt mode_NE (fl_norm2 prec emax a b) in
  is_finite A = true /\ rel (B2R A) (Zabs a b) (203 / 100 * u).
Proof.
  intros M A. pose proof Q_facts as (Q1 & Q2 & Q3 & L0). pose proof u_small as U.
  destruct (modulus_facts a b M) as (Z0 & Z2 & Za & Zb & _). destruct M as (Fa & Fb & HZ).
  destruct (square_err a b Fa) as [Gx Rx]; [lra|]. destruct (square_err b a Fb) as [Gy Ry]; [lra|].
  set (x := mul a a) in *. set (y := mul b b) in *. set (v := B2R a * B2R a) in *. set (w := B2R b * B2R b) in *.
  set (Z := sqrt (v + w)) in *.
  assert (v0 : 0 <= v) by (unfold v; nra). assert (w0 : 0 <= w) by (unfold w; nra).
  assert (iQ : 0 < / Q) by (apply Rinv_0_lt_compat; lra).
  assert (ZL : / Q * / Q <= v + w) by (rewrite <- Z2; apply Rmult_le_compat; lra).
  assert (ZU : v + w <= Q * Q) by (rewrite <- Z2; apply Rmult_le_compat; lra).
  assert (LL : lo * 256 <= / Q * / Q).
  { apply Rmult_le_reg_r with (Q * Q); [nra|]. replace (/ Q * / Q * (Q * Q)) with 1 by (field; lra). lra. }
  assert (ET : eta <= u * (/ 256 * (v + w))) by (rewrite eta_lo; apply Rmult_le_compat_l; lra).
  assert (RN : rel (B2R x + B2R y) (v + w) (129 / 128 * u)).
  { unfold rel in *. replace (B2R x + B2R y - (v + w)) with ((B2R x - v) + (B2R y - w)) by ring. eapply Rle_trans; [apply Rabs_triang|]. lra. }
  pose proof (rel_bounds _ _ _ RN) as BN. assert (u * (v + w) <= / 2048 * (v + w)) by (apply Rmult_le_compat_r; lra).
  destruct (add_rel x y Gx Gy) as (Fs & e & He' & Es). { rewrite Rabs_pos_eq by lra. lra. }
  pose proof (rel_step _ _ _ _ _ RN He' ltac:(lra) ltac:(lra)) as R1. rewrite <- Es in R1.
  assert (uu : 0 <= u * u <= / 2048 * u) by (split; [nra|apply Rmult_le_compat_r; lra]).
  destruct (rel_sqrt _ _ _ R1 ltac:(lra) ltac:(lra)) as [Pm R2].
  destruct (sqrt_rel _ Fs Pm) as (Fr & e2 & He2 & Er). split; [exact Fr|]. unfold A. change (fl_norm2 prec emax a b) with (add x y). rewrite Er.
  pose proof (rel_step _ _ _ _ _ R2 He2 (sqrt_pos _) ltac:(lra)) as R3.
  eapply rel_weaken; [apply sqrt_pos| |exact R3].
  assert (u * (u * u) <= / 2048 * (u * u)) by (apply Rmult_le_compat_r; lra). lra.
Qed.

Lemma parts1 (a b : fl) : moderate a b -> Rabs (B2R a) <= 2 * Rabs (B2R b) ->
  let A := Bsqrt mode_NE (fl_norm2 prec emax a b) in
  let r := Bsqrt mode_NE (mul (add A a) (div one (add one one))) in
  let i := Bsqrt mode_NE (mul (sub A a) (div one (add one one))) in
  is_finite r = true /\ rel (B2R r) (sqrt ((Zabs a b + B2R a) * / 2)) (12 * u)
  /\ is_finite i = true /\ rel (B2R i) (sqrt ((Zabs a b - B2R a) * / 2)) (12 * u).
Proof.
  intros M Hab A r i. pose proof (proj1 M) as Ha. destruct (modulus_rel a b M) as [FA RA]. fold A in FA, RA.
  destruct (modulus_facts a b M) as (Z0 & Z2 & Za & Zb & Z1). pose proof Q_facts as (Q1 & Q2 & Q3 & L0). pose proof u_small as U.
  set (Z := Zabs a b) in *. destruct (limited_cancellation _ _ Z (proj1 Z0) Z2 Hab) as [C1 C2].
  assert (iQ : 100 * lo <= / Q).
  { apply Rmult_le_reg_r with (Q * Q); [nra|]. replace (/ Q * (Q * Q)) with Q by (field; lra). nra. }
  apply Rabs_le_inv in Za.
  assert (RS : rel (B2R A + B2R a) (Z + B2R a) (194 / 10 * u)).
  { unfold rel. replace (B2R A + B2R a - (Z + B2R a)) with (B2R A - Z) by ring. eapply Rle_trans; [exact RA|].
    rewrite !(Rmult_comm (_ / _) u), !Rmult_assoc. apply Rmult_le_compat_l; lra. }
  assert (RD : rel (B2R A - B2R a) (Z - B2R a) (194 / 10 * u)).
  { unfold rel. replace (B2R A - B2R a - (Z - B2R a)) with (B2R A - Z) by ring. eapply Rle_trans; [exact RA|].
    rewrite !(Rmult_comm (_ / _) u), !Rmult_assoc. apply Rmult_le_compat_l; lra. }
  assert (G : forall n d w, is_finite n = true -> rel d w (194 / 10 * u) -> 105 / 1000 * Z <= w -> w <= 2 * Z ->
     (exists e, Rabs e <= u /\ B2R n = d * (1 + e)) ->
     is_finite (Bsqrt mode_NE (mul n (div one (add one one)))) = true /\
     rel (B2R (Bsqrt mode_NE (mul n (div one (add one one))))) (sqrt (w * / 2)) (12 * u)).
  { intros n d w Fn Rw W1 W2 (e & He' & En).
    pose proof (rel_step _ _ _ _ _ Rw He' ltac:(lra) ltac:(lra)) as R1. rewrite <- En in R1.
    apply (rel_weaken _ _ _ (2042 / 100 * u)) in R1; [|lra|nra].
    destruct (root_of_half n w (2042 / 100 * u) Fn) as [F R2]; [lra|nra| |nra|exact R1|].
    - destruct Z1 as [Z1|Z1]; [left; lra|right; lra].
    - split; [exact F|]. eapply rel_weaken; [apply sqrt_pos| |exact R2]. nra. }
  assert (HB : forall d w, rel d w (194 / 10 * u) -> 0 <= w <= 2 * Z -> Rabs d <= hi).
  { intros d w R W. apply rel_bounds in R. assert (0 <= 194 / 10 * u <= 1 / 50) by lra.
    assert (194 / 10 * u * w <= 1 / 50 * w) by (apply Rmult_le_compat_r; lra).
    rewrite Rabs_pos_eq by lra. nra. }
  destruct (add_rel A a FA Ha) as [FS ES]; [apply (HB _ _ RS); lra|].
  destruct (sub_rel A a FA Ha) as [FD ED]; [apply (HB _ _ RD); lra|].
  destruct (G (add A a) _ (Z + B2R a) FS RS ltac:(lra) ltac:(lra) ES) as [F1 R1].
  destruct (G (sub A a) _ (Z - B2R a) FD RD ltac:(lra) ltac:(lra) ED) as [F2 R2].
  auto.
Qed.

Lemma parts2 (a b : fl) : moderate a b -> 2 * Rabs (B2R b) < Rabs (B2R a) ->
  let A := Bsqrt mode_NE (fl_norm2 prec emax a b) in
  let s := add A (Babs a) in
  let alpha := div (Babs b) (Bsqrt mode_NE (mul s (add one one))) in
  let beta := Bsqrt mode_NE (mul s (div one (add one one))) in
  is_finite beta = true /\ rel (B2R beta) (sqrt ((Zabs a b + Rabs (B2R a)) * / 2)) (12 * u)
  /\ is_finite alpha = true /\ Rabs (B2R alpha - sqrt ((Zabs a b - Rabs (B2R a)) * / 2)) <= 12 * u * sqrt ((Zabs a b - Rabs (B2R a)) * / 2) + eta.
Proof.
  intros M Hab A s alpha beta. pose proof (proj1 M) as Ha. pose proof (proj1 (proj2 M)) as Hb. destruct (modulus_rel a b M) as [FA RA]. fold A in FA, RA.
  destruct (modulus_facts a b M) as (Z0 & Z2 & Za & Zb & Z1). pose proof Q_facts as (Q1 & Q2 & Q3 & L0). pose proof u_small as U.
  set (Z := Zabs a b) in *.
  assert (iQ : 100 * lo <= / Q).
  { apply Rmult_le_reg_r with (Q * Q); [nra|]. replace (/ Q * (Q * Q)) with Q by (field; lra). nra. }
  pose proof (Rabs_pos (B2R a)). pose proof (Rabs_pos (B2R b)).
  assert (Zp : / Q <= Z) by (destruct Z1; [lra|assumption]).
  assert (RS : rel (B2R A + Rabs (B2R a)) (Z + Rabs (B2R a)) (203 / 100 * u)).
  { unfold rel. replace (B2R A + Rabs (B2R a) - (Z + Rabs (B2R a))) with (B2R A - Z) by ring. eapply Rle_trans; [exact RA|].
    apply Rmult_le_compat_l; lra. }
  set (w := Z + Rabs (B2R a)) in *.
  assert (W : / Q <= w <= 2 * Z) by (unfold w; lra).
  destruct (add_rel A (Babs a) FA) as (Fs & e & He' & Es).
  { rewrite is_finite_Babs. exact Ha. }
  { rewrite B2R_Babs. apply rel_bounds in RS. assert (203 / 100 * u * w <= 1 / 50 * w) by (apply Rmult_le_compat_r; lra).
    rewrite Rabs_pos_eq by lra. nra. }
  rewrite B2R_Babs in Es. fold s in Fs, Es.
  pose proof (rel_step _ _ _ _ _ RS He' ltac:(lra) ltac:(lra)) as R1. rewrite <- Es in R1.
  apply (rel_weaken _ _ _ (51 / 10 * u)) in R1; [|lra|nra].
  destruct (root_of_half s w (51 / 10 * u) Fs) as [Fb Rb]; [lra|nra|right; lra|nra|exact R1|].
  split; [exact Fb|]. split; [eapply rel_weaken; [apply sqrt_pos| |exact Rb]; nra|].
  (* the quotient *)
  destruct two_value as [F2 E2]. pose proof (rel_bounds _ _ _ R1) as Bs.
  assert (51 / 10 * u * w <= 1 / 50 * w) by (apply Rmult_le_compat_r; lra).
  destruct (mul_rel s (add one one) Fs F2) as (Fm & e3 & He3 & Em).
  { right. rewrite E2, Rabs_pos_eq by lra. lra. }
  { rewrite E2, Rabs_pos_eq by lra. nra. }
  rewrite E2 in Em. set (m := mul s (add one one)) in *.
  pose proof (rel_scale _ _ _ 2 ltac:(lra) R1) as R2.
  pose proof (rel_step _ _ _ _ _ R2 He3 ltac:(lra) ltac:(lra)) as R3. rewrite <- Em in R3.
  apply (rel_weaken _ _ _ (62 / 10 * u)) in R3; [|lra|nra].
  destruct (rel_sqrt _ _ _ R3 ltac:(lra) ltac:(lra)) as [Pm R4].
  destruct (sqrt_rel m Fm Pm) as (Fd & e4 & He4 & Ed).
  pose proof (rel_step _ _ _ _ _ R4 He4 (sqrt_pos _) ltac:(lra)) as R5. rewrite <- Ed in R5.
  apply (rel_weaken _ _ _ (42 / 10 * u)) in R5; [|apply sqrt_pos|nra]. set (d := Bsqrt mode_NE m) in *.
  assert (Sp : 0 < sqrt (w * 2)) by (apply sqrt_lt_R0; lra).
  assert (S2 : sqrt (w * 2) <= 4 * Q).
  { apply Rnot_lt_le. intros C. assert (4 * Q * (4 * Q) < sqrt (w * 2) * sqrt (w * 2)) by nra.
    rewrite sqrt_sqrt in H2 by lra. nra. }
  destruct (rel_div (Rabs (B2R b)) _ _ _ R5 (Rabs_pos _) Sp ltac:(lra)) as [Dp R6].
  assert (Eq : Rabs (B2R b) / sqrt (w * 2) = sqrt ((Z - Rabs (B2R a)) * / 2)).
  { apply root_quotient; [unfold w in W; lra|exact Z2|lra]. }
  assert (Q0 : 0 <= Rabs (B2R b) / sqrt (w * 2)) by (apply Rmult_le_pos; [lra|left; apply Rinv_0_lt_compat, Sp]).
  set (q := Rabs (B2R b) / sqrt (w * 2)) in *.
  assert (QU : q <= Q).
  { rewrite Eq. apply Rnot_lt_le. intros C. assert (Q * Q < sqrt ((Z - Rabs (B2R a)) * / 2) * sqrt ((Z - Rabs (B2R a)) * / 2)) by nra.
    rewrite sqrt_sqrt in H2 by nra. nra. }
  pose proof (rel_bounds _ _ _ R6) as B6.
  assert (KQ : 105 / 100 * (42 / 10 * u) * q <= 1 / 50 * q) by (apply Rmult_le_compat_r; lra).
  destruct (div_round prec emax (Babs b) d) as (Fa & Ea).
  { rewrite is_finite_Babs. exact Hb. }
  { lra. }
  { rewrite B2R_Babs, Rabs_pos_eq by lra. nra. }
  fold alpha in Fa, Ea. split; [exact Fa|]. rewrite B2R_Babs in Ea. rewrite <- Eq.
  destruct (rnd_any prec emax (Rabs (B2R b) / B2R d)) as (e5 & h & He5 & Hh & Er). rewrite Er in Ea.
  pose proof (rel_step _ _ _ _ _ R6 He5 Q0 ltac:(lra)) as R7. unfold rel in R7.
  replace (B2R alpha - q) with ((Rabs (B2R b) / B2R d * (1 + e5) - q) + h) by (rewrite Ea; ring).
  eapply Rle_trans; [apply Rabs_triang|]. apply Rplus_le_compat; [|exact Hh].
  eapply Rle_trans; [exact R7|]. apply Rmult_le_compat_r; [exact Q0|]. nra.
Qed.
End Fmt.
