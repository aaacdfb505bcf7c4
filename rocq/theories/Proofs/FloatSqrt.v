(** Rounding error of the square root of a complex float. *)
From Coq Require Import List ZArith Reals Bool Lia Lra Psatz.
From Flocq Require Import Core.Core IEEE754.BinarySingleNaN Relative.
From Verif Require Import Base.Outcome Model.Traits Model.Float Model.Complex Spec.FloatErr
  Proofs.FloatErr Proofs.FloatRound Proofs.FloatRange Proofs.FloatInt Props.FloatRangeProps.
Local Open Scope R_scope.

(** ** Real-number facts *)
Definition rel (v w k : R) : Prop := Rabs (v - w) <= k * w.

Lemma rel_weaken v w k k' : 0 <= w -> k <= k' -> rel v w k -> rel v w k'.
Proof. unfold rel. intros. nra. Qed.
Lemma rel_bounds v w k : rel v w k -> w - k * w <= v <= w + k * w.
Proof. intros H. apply Rabs_le_inv in H. lra. Qed.
Lemma rel_step v w k e u : rel v w k -> Rabs e <= u -> 0 <= w -> 0 <= k -> rel (v * (1 + e)) w (k + u * (1 + k)).
Proof.
  unfold rel. intros H He Hw Hk. replace (v * (1 + e) - w) with ((v - w) + e * v) by ring.
  eapply Rle_trans; [apply Rabs_triang|]. rewrite Rabs_mult.
  assert (V : Rabs v <= w + k * w) by (replace v with (w + (v - w)) by ring; eapply Rle_trans; [apply Rabs_triang|]; rewrite (Rabs_pos_eq w) by lra; lra).
  pose proof (Rabs_pos e). pose proof (Rabs_pos v).
  assert (Rabs e * Rabs v <= u * (w + k * w)) by (apply Rmult_le_compat; lra). lra.
Qed.
Lemma rel_scale v w k c : 0 <= c -> rel v w k -> rel (v * c) (w * c) k.
Proof.
  unfold rel. intros Hc H. replace (v * c - w * c) with ((v - w) * c) by ring. rewrite Rabs_mult, (Rabs_pos_eq c Hc).
  apply Rle_trans with (k * w * c); [apply Rmult_le_compat_r; assumption|lra].
Qed.
Lemma rel_sqrt v w k : rel v w k -> 0 <= w -> 0 <= k <= 1 / 25 -> 0 <= v /\ rel (sqrt v) (sqrt w) (51 / 100 * k).
Proof.
  intros H Hw Hk. pose proof (rel_bounds _ _ _ H) as B. assert (V : 0 <= v) by nra. split; [exact V|].
  pose proof (sqrt_pos v) as P. pose proof (sqrt_pos w) as P'. pose proof (sqrt_sqrt v V) as E. pose proof (sqrt_sqrt w Hw) as E'.
  unfold rel in *. set (s := sqrt v) in *. set (t := sqrt w) in *. apply Rabs_le_inv in H. apply Rabs_le.
  split; apply Rnot_lt_le; intros C.
  - assert (s * s < (t - 51 / 100 * k * t) * (t - 51 / 100 * k * t)) by nra.
    assert (0 <= k * t * t) by (apply Rmult_le_pos; [apply Rmult_le_pos; lra|lra]).
    assert (k * (k * t * t) <= 1 / 25 * (k * t * t)) by (apply Rmult_le_compat_r; lra). nra.
  - assert ((t + 51 / 100 * k * t) * (t + 51 / 100 * k * t) < s * s) by (assert (0 <= t + 51/100*k*t) by nra; nra).
    assert (0 <= k * t * t) by (apply Rmult_le_pos; [apply Rmult_le_pos; lra|lra]). nra.
Qed.
Lemma rel_div b v w k : rel v w k -> 0 <= b -> 0 < w -> 0 <= k <= 1 / 25 -> 0 < v /\ rel (b / v) (b / w) (105 / 100 * k).
Proof.
  intros H Hb Hw Hk. pose proof (rel_bounds _ _ _ H) as B. assert (V : 0 < v) by nra. split; [exact V|].
  unfold rel in *. replace (b / v - b / w) with ((w - v) / v * (b / w)) by (field; lra).
  assert (0 <= b / w) by (apply Rmult_le_pos; [lra|left; apply Rinv_0_lt_compat; lra]).
  rewrite Rabs_mult, (Rabs_pos_eq (b / w)) by assumption. apply Rmult_le_compat_r; [assumption|].
  unfold Rdiv. rewrite Rabs_mult, (Rabs_pos_eq (/ v)) by (left; apply Rinv_0_lt_compat; lra).
  rewrite Rabs_minus_sym. apply Rmult_le_reg_r with v; [lra|]. rewrite Rmult_assoc, Rinv_l, Rmult_1_r by lra.
  assert (24 / 25 * w <= v) by nra. assert (k * w <= k * (25 / 24 * v)) by (apply Rmult_le_compat_l; lra). nra.
Qed.

(** Cancellation is limited when |a| <= 2 |b|. *)
Lemma limited_cancellation a b Z : 0 <= Z -> Z * Z = a * a + b * b -> Rabs a <= 2 * Rabs b ->
  105 / 1000 * Z <= Z + a /\ 105 / 1000 * Z <= Z - a.
Proof.
  intros HZ E H. pose proof (Rabs_pos a). pose proof (Rabs_pos b).
  assert (Ea : a * a = Rabs a * Rabs a) by (rewrite <- Rabs_mult; symmetry; apply Rabs_pos_eq; nra).
  assert (Eb : b * b = Rabs b * Rabs b) by (rewrite <- Rabs_mult; symmetry; apply Rabs_pos_eq; nra).
  assert (A : Rabs a <= 895 / 1000 * Z).
  { apply Rnot_lt_le. intros C. assert (Rabs a * Rabs a <= 4 * (b * b)) by (rewrite Eb; nra).
    assert (Z * Z >= 5 / 4 * (Rabs a * Rabs a)) by lra. nra. }
  apply Rabs_le_inv in A. lra.
Qed.

Lemma root_quotient a b Z : 0 < Z + Rabs a -> Z * Z = a * a + b * b -> 0 <= Z ->
  Rabs b / sqrt ((Z + Rabs a) * 2) = sqrt ((Z - Rabs a) * / 2).
Proof.
  intros HP E HZ. assert (Ea : a * a = Rabs a * Rabs a) by (rewrite <- Rabs_mult; symmetry; apply Rabs_pos_eq; nra).
  assert (Hm : 0 <= Z - Rabs a).
  { pose proof (Rabs_pos a). assert (Rabs a * Rabs a <= Z * Z) by nra. nra. }
  assert (S : 0 < sqrt ((Z + Rabs a) * 2)) by (apply sqrt_lt_R0; lra).
  apply Rmult_eq_reg_r with (sqrt ((Z + Rabs a) * 2)); [|lra]. unfold Rdiv. rewrite Rmult_assoc, Rinv_l, Rmult_1_r by lra.
  rewrite <- sqrt_mult by lra. replace ((Z - Rabs a) * / 2 * ((Z + Rabs a) * 2)) with (Rsqr b).
  - symmetry. apply sqrt_Rsqr_abs.
  - unfold Rsqr. replace ((Z - Rabs a) * / 2 * ((Z + Rabs a) * 2)) with (Z * Z - Rabs a * Rabs a) by field. lra.
Qed.

Section Fmt.
Context (prec emax : Z) {Hp : Prec_gt_0 prec} {He : Prec_lt_emax prec emax} (libm : FunOps (binary_float prec emax)).
Notation fl := (binary_float prec emax).
Notation FF := (float_field prec emax).
Notation FE := (float_fun prec emax libm).
Notation u := (unit_roundoff prec).
Notation rnd := (round radix2 (SpecFloat.fexp prec emax) (round_mode mode_NE)).
Notation add := (fl_add prec emax). Notation sub := (fl_sub prec emax).
Notation mul := (fl_mul prec emax). Notation div := (fl_div prec emax).
Notation one := (fl_int prec emax 1). Notation zero := (fl_int prec emax 0).
Notation lo := (bpow radix2 (2 - emax)).
Notation hi := (half_big emax).

Lemma rnd_rel v : v = 0 \/ lo <= Rabs v -> exists e, Rabs e <= u /\ rnd v = v * (1 + e).
Proof.
  intros [->|H].
  - exists 0. rewrite round_0 by apply valid_rnd_round_mode. rewrite Rabs_R0. pose proof (u_pos prec). split; lra.
  - destruct (relative_error_N_FLT_ex radix2 (SpecFloat.emin prec emax) prec Hp (fun z => negb (Z.even z)) v) as (e & He' & Er).
    { unfold SpecFloat.emin. replace (3 - emax - prec + prec - 1)%Z with (2 - emax)%Z by ring. exact H. }
    exists e. split; [|exact Er]. rewrite <- u_ro_eq. exact He'.
Qed.

Lemma mul_rel (x y : fl) : is_finite x = true -> is_finite y = true ->
  B2R x * B2R y = 0 \/ lo <= Rabs (B2R x * B2R y) -> Rabs (B2R x * B2R y) <= hi ->
  is_finite (mul x y) = true /\ exists e, Rabs e <= u /\ B2R (mul x y) = B2R x * B2R y * (1 + e).
Proof.
  intros Fx Fy L U. destruct (mul_round prec emax x y Fx Fy U) as [F E]. split; [exact F|]. rewrite E. apply rnd_rel, L.
Qed.
Lemma div_rel (x y : fl) : is_finite x = true -> B2R y <> 0 ->
  B2R x / B2R y = 0 \/ lo <= Rabs (B2R x / B2R y) -> Rabs (B2R x / B2R y) <= hi ->
  is_finite (div x y) = true /\ exists e, Rabs e <= u /\ B2R (div x y) = B2R x / B2R y * (1 + e).
Proof.
  intros Fx Ny L U. destruct (div_round prec emax x y Fx Ny U) as [F E]. split; [exact F|]. rewrite E. apply rnd_rel, L.
Qed.
Lemma add_rel (x y : fl) : is_finite x = true -> is_finite y = true -> Rabs (B2R x + B2R y) <= hi ->
  is_finite (add x y) = true /\ exists e, Rabs e <= u /\ B2R (add x y) = (B2R x + B2R y) * (1 + e).
Proof.
  intros Fx Fy U. destruct (add_round prec emax x y Fx Fy U) as [F E]. split; [exact F|]. rewrite E. apply (rnd_add prec emax).
Qed.
Lemma sub_rel (x y : fl) : is_finite x = true -> is_finite y = true -> Rabs (B2R x - B2R y) <= hi ->
  is_finite (sub x y) = true /\ exists e, Rabs e <= u /\ B2R (sub x y) = (B2R x - B2R y) * (1 + e).
Proof.
  intros Fx Fy U. rewrite sub_add. destruct (add_rel x (Bopp y)) as [F (e & He' & E)].
  - exact Fx. - rewrite opp_finite. exact Fy. - rewrite B2R_Bopp. exact U.
  - split; [exact F|]. exists e. split; [exact He'|]. rewrite E, B2R_Bopp. ring.
Qed.

Lemma one_value : is_finite one = true /\ B2R one = 1.
Proof. apply (fl_int_exact prec emax 1). pose proof Hp as P. unfold Prec_gt_0 in P. simpl. lia. Qed.

Hypothesis Hprec : (11 <= prec)%Z.
Context (k : Z) (Hk0 : (0 <= k)%Z) (Hk : (2 * k + 10 <= emax)%Z).
Notation Q := (bpow radix2 k).

Lemma u_small : 0 < u <= / 2048.
Proof.
  split; [apply u_pos|]. unfold unit_roundoff. change (/ 2048) with (bpow radix2 (-11)). apply bpow_le. lia.
Qed.
Lemma Q_facts : 1 <= Q /\ 32 * (Q * Q) <= hi /\ lo * 256 * (Q * Q) <= 1 /\ 0 < lo.
Proof.
  unfold half_big. split; [change 1 with (bpow radix2 0); apply bpow_le; exact Hk0|].
  change 32 with (bpow radix2 5). change 256 with (bpow radix2 8). rewrite <- !bpow_plus.
  split; [apply bpow_le; lia|]. split; [change 1 with (bpow radix2 0); apply bpow_le; lia|apply bpow_gt_0].
Qed.

Lemma two_value : is_finite (add one one) = true /\ B2R (add one one) = 2.
Proof.
  destruct one_value as [F E]. pose proof Q_facts as (Q1 & Q2 & _).
  destruct (add_round prec emax one one F F) as [F2 E2]; [rewrite E, Rabs_pos_eq by lra; nra|].
  split; [exact F2|]. rewrite E2, E. replace (1 + 1) with (bpow radix2 1) by (simpl; lra).
  rewrite round_generic; [reflexivity|apply valid_rnd_round_mode|].
  apply generic_format_bpow. unfold SpecFloat.fexp, SpecFloat.emin. unfold Prec_lt_emax in He. lia.
Qed.
Lemma half_value : is_finite (div one (add one one)) = true /\ B2R (div one (add one one)) = / 2.
Proof.
  destruct one_value as [F E]. destruct two_value as [F2 E2]. pose proof Q_facts as (Q1 & Q2 & _).
  destruct (div_round prec emax one (add one one) F) as [F3 E3]; [rewrite E2; lra|rewrite E, E2, Rabs_pos_eq by lra; nra|].
  split; [exact F3|]. rewrite E3, E, E2. replace (1 / 2) with (bpow radix2 (-1)) by (simpl; lra).
  rewrite round_generic; [reflexivity|apply valid_rnd_round_mode|].
  apply generic_format_bpow. unfold SpecFloat.fexp, SpecFloat.emin. unfold Prec_lt_emax in He. lia.
Qed.

Definition in_range (x : fl) : Prop := is_finite x = true /\ (B2R x = 0 \/ / Q <= Rabs (B2R x) <= Q).

Notation Zabs a b := (sqrt (B2R a * B2R a + B2R b * B2R b)).

Lemma Z_facts (a b : fl) : in_range a -> in_range b ->
  0 <= Zabs a b <= 2 * Q /\ Zabs a b * Zabs a b = B2R a * B2R a + B2R b * B2R b
  /\ Rabs (B2R a) <= Zabs a b /\ Rabs (B2R b) <= Zabs a b /\ (Zabs a b = 0 \/ / Q <= Zabs a b).
Proof.
  intros [_ Ha] [_ Hb]. pose proof Q_facts as (Q1 & _). assert (iQ : 0 < / Q <= 1).
  { split; [apply Rinv_0_lt_compat; lra|]. rewrite <- Rinv_1. apply Rinv_le_contravar; lra. }
  set (A := B2R a) in *. set (B := B2R b) in *. set (N := A * A + B * B).
  assert (N0 : 0 <= N) by (unfold N; nra). pose proof (sqrt_pos N) as P. pose proof (sqrt_sqrt N N0) as E. set (Z := sqrt N) in *.
  assert (EA : A * A = Rabs A * Rabs A) by (rewrite <- Rabs_mult; symmetry; apply Rabs_pos_eq; nra).
  assert (EB : B * B = Rabs B * Rabs B) by (rewrite <- Rabs_mult; symmetry; apply Rabs_pos_eq; nra).
  pose proof (Rabs_pos A). pose proof (Rabs_pos B).
  assert (UA : Rabs A <= Q) by (destruct Ha as [->|]; [rewrite Rabs_R0; lra|lra]).
  assert (UB : Rabs B <= Q) by (destruct Hb as [->|]; [rewrite Rabs_R0; lra|lra]).
  assert (LA : Rabs A <= Z) by (apply Rnot_lt_le; intros C; unfold N in E; nra).
  assert (LB : Rabs B <= Z) by (apply Rnot_lt_le; intros C; unfold N in E; nra).
  repeat split; try assumption.
  - apply Rnot_lt_le. intros C. assert (N <= 2 * (Q * Q)) by (unfold N; rewrite EA, EB; nra). nra.
  - destruct Ha as [Za|Ha]; [|right; lra]. destruct Hb as [Zb|Hb]; [|right; lra].
    left. unfold Z, N. rewrite Za, Zb. replace (0 * 0 + 0 * 0) with 0 by ring. apply sqrt_0.
Qed.

Lemma square_rel (a : fl) : in_range a ->
  is_finite (mul a a) = true /\ rel (B2R (mul a a)) (B2R a * B2R a) u /\ B2R a * B2R a <= Q * Q.
Proof.
  intros [Fa Ha]. pose proof Q_facts as (Q1 & Q2 & Q3 & L0).
  assert (EA : B2R a * B2R a = Rabs (B2R a) * Rabs (B2R a)) by (rewrite <- Rabs_mult; symmetry; apply Rabs_pos_eq; nra).
  assert (A0 : 0 <= B2R a * B2R a) by nra. pose proof (Rabs_pos (B2R a)).
  assert (AQ : B2R a * B2R a <= Q * Q). { rewrite EA. destruct Ha as [->|Ha]; [rewrite Rabs_R0; nra|apply Rmult_le_compat; lra]. }
  destruct (mul_rel a a Fa Fa) as (F & e & He' & E).
  - destruct Ha as [->|Ha]; [left; ring|right]. rewrite Rabs_pos_eq by exact A0. rewrite EA.
    assert (iQ : 0 < / Q) by (apply Rinv_0_lt_compat; lra). apply Rle_trans with (/ Q * / Q); [|apply Rmult_le_compat; lra].
    apply Rmult_le_reg_r with (Q * Q); [nra|]. replace (/ Q * / Q * (Q * Q)) with 1 by (field; lra). lra.
  - rewrite Rabs_pos_eq by exact A0. lra.
  - split; [exact F|]. split; [|exact AQ]. unfold rel. rewrite E. replace (B2R a * B2R a * (1 + e) - B2R a * B2R a) with (e * (B2R a * B2R a)) by ring.
    rewrite Rabs_mult, (Rabs_pos_eq (B2R a * B2R a)) by exact A0. apply Rmult_le_compat_r; assumption.
Qed.

Lemma abs_rel (a b : fl) : in_range a -> in_range b ->
  let A := Bsqrt mode_NE (fl_norm2 prec emax a b) in
  is_finite A = true /\ rel (B2R A) (Zabs a b) (203 / 100 * u).
Proof.
  intros Ha Hb A. pose proof Q_facts as (Q1 & Q2 & Q3 & L0). pose proof u_small as U.
  destruct (square_rel a Ha) as (Fa & Ra & Qa). destruct (square_rel b Hb) as (Fb & Rb & Qb).
  set (x := mul a a) in *. set (y := mul b b) in *. set (v := B2R a * B2R a) in *. set (w := B2R b * B2R b) in *.
  assert (v0 : 0 <= v) by (unfold v; nra). assert (w0 : 0 <= w) by (unfold w; nra).
  assert (RN : rel (B2R x + B2R y) (v + w) u).
  { unfold rel in *. replace (B2R x + B2R y - (v + w)) with ((B2R x - v) + (B2R y - w)) by ring. eapply Rle_trans; [apply Rabs_triang|]. lra. }
  pose proof (rel_bounds _ _ _ RN) as BN. assert (u * (v + w) <= / 2048 * (v + w)) by (apply Rmult_le_compat_r; lra).
  destruct (add_rel x y Fa Fb) as (Fs & e & He' & Es). { rewrite Rabs_pos_eq by lra. lra. }
  pose proof (rel_step _ _ _ _ _ RN He' ltac:(lra) ltac:(lra)) as R1. rewrite <- Es in R1.
  assert (uu : 0 <= u * u <= / 2048 * u) by (split; [nra|apply Rmult_le_compat_r; lra]).
  destruct (rel_sqrt _ _ _ R1 ltac:(lra) ltac:(lra)) as [Pm R2].
  destruct (sqrt_rel prec emax _ Fs Pm) as (Fr & e2 & He2 & Er). split; [exact Fr|]. unfold A. change (fl_norm2 prec emax a b) with (add x y). rewrite Er.
  pose proof (rel_step _ _ _ _ _ R2 He2 (sqrt_pos _) ltac:(lra)) as R3.
  eapply rel_weaken; [apply sqrt_pos| |exact R3].
  assert (u * (u * u) <= / 2048 * (u * u)) by (apply Rmult_le_compat_r; lra). lra.
Qed.

(** sqrt((A + s a)/2) for |a| <= 2|b|, s = 1 or -1 *)
Lemma root_of_half (n : fl) w kk : is_finite n = true -> 0 <= kk -> kk + u * (1 + kk) <= 1 / 50 ->
  (w = 0 \/ 5 * lo <= w) -> w <= 8 * (Q * Q) -> rel (B2R n) w kk ->
  let r := Bsqrt mode_NE (mul n (div one (add one one))) in
  is_finite r = true /\ rel (B2R r) (sqrt (w * / 2)) (51 / 100 * (kk + u * (1 + kk)) * (1 + u) + u).
Proof.
  intros Fn Hkk Hs L W H r. pose proof Q_facts as (Q1 & Q2 & Q3 & L0). pose proof u_small as U.
  destruct half_value as [Fh Eh]. pose proof (rel_bounds _ _ _ H) as B.
  assert (w0 : 0 <= w) by (destruct L; lra).
  assert (kw : kk * w <= 1 / 50 * w) by (apply Rmult_le_compat_r; nra).
  destruct (mul_rel n (div one (add one one)) Fn Fh) as (Fm & e & He' & Em).
  - rewrite Eh. destruct L as [->|L]; [left; lra|right]. rewrite Rabs_pos_eq by lra. lra.
  - rewrite Eh, Rabs_pos_eq by lra. nra.
  - rewrite Eh in Em. set (m := mul n (div one (add one one))) in *.
    pose proof (rel_scale _ _ _ (/ 2) ltac:(lra) H) as H2.
    pose proof (rel_step _ _ _ _ _ H2 He' ltac:(lra) Hkk) as H3. rewrite <- Em in H3.
    destruct (rel_sqrt _ _ _ H3 ltac:(lra) ltac:(split; [apply Rplus_le_le_0_compat; [exact Hkk|apply Rmult_le_pos; lra]|lra])) as [Pm H4].
    destruct (sqrt_rel prec emax m Fm Pm) as (Fr & e2 & He2 & Er). split; [exact Fr|]. unfold r. rewrite Er.
    pose proof (rel_step _ _ _ _ _ H4 He2 (sqrt_pos _) ltac:(nra)) as H5.
    eapply rel_weaken; [apply sqrt_pos| |exact H5]. lra.
Qed.

Lemma branch1 (a b : fl) : in_range a -> in_range b -> Rabs (B2R a) <= 2 * Rabs (B2R b) ->
  let A := Bsqrt mode_NE (fl_norm2 prec emax a b) in
  let r := Bsqrt mode_NE (mul (add A a) (div one (add one one))) in
  let i := Bsqrt mode_NE (mul (sub A a) (div one (add one one))) in
  is_finite r = true /\ rel (B2R r) (sqrt ((Zabs a b + B2R a) * / 2)) (12 * u)
  /\ is_finite i = true /\ rel (B2R i) (sqrt ((Zabs a b - B2R a) * / 2)) (12 * u).
Proof.
  intros Ha Hb Hab A r i. destruct (abs_rel a b Ha Hb) as [FA RA]. fold A in FA, RA.
  destruct (Z_facts a b Ha Hb) as (Z0 & Z2 & Za & Zb & Z1). pose proof Q_facts as (Q1 & Q2 & Q3 & L0). pose proof u_small as U.
  set (Z := Zabs a b) in *. destruct (limited_cancellation _ _ Z (proj1 Z0) Z2 Hab) as [C1 C2].
  assert (iQ : 100 * lo <= / Q).
  { apply Rmult_le_reg_r with (Q * Q); [nra|]. replace (/ Q * (Q * Q)) with Q by (field; lra). nra. }
  apply Rabs_le_inv in Za.
  assert (RS : rel (B2R A + B2R a) (Z + B2R a) (194 / 10 * u)).
  { unfold rel. replace (B2R A + B2R a - (Z + B2R a)) with (B2R A - Z) by ring. eapply Rle_trans; [exact RA|].
    rewrite !(Rmult_comm (_ / _) u), !Rmult_assoc. apply Rmult_le_compat_l; lra. }
  assert (RD : rel (B2R A - B2R a) (Z - B2R a) (194 / 10 * u)).
  { unfold rel. replace (B2R A - B2R a - (Z - B2R a)) with (B2R A - Z) by ring. eapply Rle_trans; [exact RA|].
    rewrite !(Rmult_comm (_ / _) u), !Rmult_assoc. apply Rmult_le_compat_l; lra. }
  assert (G : forall n d w, is_finite n = true -> rel d w (194 / 10 * u) -> 105 / 1000 * Z <= w -> w <= 2 * Z ->
     (exists e, Rabs e <= u /\ B2R n = d * (1 + e)) ->
     is_finite (Bsqrt mode_NE (mul n (div one (add one one)))) = true /\
     rel (B2R (Bsqrt mode_NE (mul n (div one (add one one))))) (sqrt (w * / 2)) (12 * u)).
  { intros n d w Fn Rw W1 W2 (e & He' & En).
    pose proof (rel_step _ _ _ _ _ Rw He' ltac:(lra) ltac:(lra)) as R1. rewrite <- En in R1.
    apply (rel_weaken _ _ _ (2042 / 100 * u)) in R1; [|lra|nra].
    destruct (root_of_half n w (2042 / 100 * u) Fn) as [F R2]; [lra|nra| |nra|exact R1|].
    - destruct Z1 as [Z1|Z1]; [left; lra|right; lra].
    - split; [exact F|]. eapply rel_weaken; [apply sqrt_pos| |exact R2]. nra. }
  assert (HB : forall d w, rel d w (194 / 10 * u) -> 0 <= w <= 2 * Z -> Rabs d <= hi).
  { intros d w R W. apply rel_bounds in R. assert (0 <= 194 / 10 * u <= 1 / 50) by lra.
    assert (194 / 10 * u * w <= 1 / 50 * w) by (apply Rmult_le_compat_r; lra).
    rewrite Rabs_pos_eq by lra. nra. }
  destruct (add_rel A a FA (proj1 Ha)) as [FS ES]; [apply (HB _ _ RS); lra|].
  destruct (sub_rel A a FA (proj1 Ha)) as [FD ED]; [apply (HB _ _ RD); lra|].
  destruct (G (add A a) _ (Z + B2R a) FS RS ltac:(lra) ltac:(lra) ES) as [F1 R1].
  destruct (G (sub A a) _ (Z - B2R a) FD RD ltac:(lra) ltac:(lra) ED) as [F2 R2].
  auto.
Qed.

Lemma branch2 (a b : fl) : in_range a -> in_range b -> 2 * Rabs (B2R b) < Rabs (B2R a) ->
  let A := Bsqrt mode_NE (fl_norm2 prec emax a b) in
  let s := add A (Babs a) in
  let alpha := div (Babs b) (Bsqrt mode_NE (mul s (add one one))) in
  let beta := Bsqrt mode_NE (mul s (div one (add one one))) in
  is_finite beta = true /\ rel (B2R beta) (sqrt ((Zabs a b + Rabs (B2R a)) * / 2)) (12 * u)
  /\ is_finite alpha = true /\ rel (B2R alpha) (sqrt ((Zabs a b - Rabs (B2R a)) * / 2)) (12 * u).
Proof.
  intros Ha Hb Hab A s alpha beta. destruct (abs_rel a b Ha Hb) as [FA RA]. fold A in FA, RA.
  destruct (Z_facts a b Ha Hb) as (Z0 & Z2 & Za & Zb & Z1). pose proof Q_facts as (Q1 & Q2 & Q3 & L0). pose proof u_small as U.
  set (Z := Zabs a b) in *.
  assert (iQ : 100 * lo <= / Q).
  { apply Rmult_le_reg_r with (Q * Q); [nra|]. replace (/ Q * (Q * Q)) with Q by (field; lra). nra. }
  pose proof (Rabs_pos (B2R a)). pose proof (Rabs_pos (B2R b)).
  assert (Zp : / Q <= Z) by (destruct Z1; [lra|assumption]).
  assert (RS : rel (B2R A + Rabs (B2R a)) (Z + Rabs (B2R a)) (203 / 100 * u)).
  { unfold rel. replace (B2R A + Rabs (B2R a) - (Z + Rabs (B2R a))) with (B2R A - Z) by ring. eapply Rle_trans; [exact RA|].
    apply Rmult_le_compat_l; lra. }
  set (w := Z + Rabs (B2R a)) in *.
  assert (W : / Q <= w <= 2 * Z) by (unfold w; lra).
  destruct (add_rel A (Babs a) FA) as (Fs & e & He' & Es).
  { rewrite is_finite_Babs. exact (proj1 Ha). }
  { rewrite B2R_Babs. apply rel_bounds in RS. assert (203 / 100 * u * w <= 1 / 50 * w) by (apply Rmult_le_compat_r; lra).
    rewrite Rabs_pos_eq by lra. nra. }
  rewrite B2R_Babs in Es. fold s in Fs, Es.
  pose proof (rel_step _ _ _ _ _ RS He' ltac:(lra) ltac:(lra)) as R1. rewrite <- Es in R1.
  apply (rel_weaken _ _ _ (51 / 10 * u)) in R1; [|lra|nra].
  destruct (root_of_half s w (51 / 10 * u) Fs) as [Fb Rb]; [lra|nra|right; lra|nra|exact R1|].
  split; [exact Fb|]. split; [eapply rel_weaken; [apply sqrt_pos| |exact Rb]; nra|].
  (* the quotient *)
  destruct two_value as [F2 E2]. pose proof (rel_bounds _ _ _ R1) as Bs.
  assert (51 / 10 * u * w <= 1 / 50 * w) by (apply Rmult_le_compat_r; lra).
  destruct (mul_rel s (add one one) Fs F2) as (Fm & e3 & He3 & Em).
  { right. rewrite E2, Rabs_pos_eq by lra. lra. }
  { rewrite E2, Rabs_pos_eq by lra. nra. }
  rewrite E2 in Em. set (m := mul s (add one one)) in *.
  pose proof (rel_scale _ _ _ 2 ltac:(lra) R1) as R2.
  pose proof (rel_step _ _ _ _ _ R2 He3 ltac:(lra) ltac:(lra)) as R3. rewrite <- Em in R3.
  apply (rel_weaken _ _ _ (62 / 10 * u)) in R3; [|lra|nra].
  destruct (rel_sqrt _ _ _ R3 ltac:(lra) ltac:(lra)) as [Pm R4].
  destruct (sqrt_rel prec emax m Fm Pm) as (Fd & e4 & He4 & Ed).
  pose proof (rel_step _ _ _ _ _ R4 He4 (sqrt_pos _) ltac:(lra)) as R5. rewrite <- Ed in R5.
  apply (rel_weaken _ _ _ (42 / 10 * u)) in R5; [|apply sqrt_pos|nra]. set (d := Bsqrt mode_NE m) in *.
  assert (Sp : 0 < sqrt (w * 2)) by (apply sqrt_lt_R0; lra).
  assert (S2 : sqrt (w * 2) <= 4 * Q).
  { apply Rnot_lt_le. intros C. assert (4 * Q * (4 * Q) < sqrt (w * 2) * sqrt (w * 2)) by nra.
    rewrite sqrt_sqrt in H2 by lra. nra. }
  destruct (rel_div (Rabs (B2R b)) _ _ _ R5 (Rabs_pos _) Sp ltac:(lra)) as [Dp R6].
  assert (Eq : Rabs (B2R b) / sqrt (w * 2) = sqrt ((Z - Rabs (B2R a)) * / 2)).
  { apply root_quotient; [unfold w in W; lra|exact Z2|lra]. }
  assert (Q0 : 0 <= Rabs (B2R b) / sqrt (w * 2)) by (apply Rmult_le_pos; [lra|left; apply Rinv_0_lt_compat, Sp]).
  set (q := Rabs (B2R b) / sqrt (w * 2)) in *.
  assert (QU : q <= Q).
  { rewrite Eq. apply Rnot_lt_le. intros C. assert (Q * Q < sqrt ((Z - Rabs (B2R a)) * / 2) * sqrt ((Z - Rabs (B2R a)) * / 2)) by nra.
    rewrite sqrt_sqrt in H2 by nra. nra. }
  assert (QL : B2R b = 0 \/ 5 * lo <= q).
  { destruct (proj2 Hb) as [E0|E0]; [left; exact E0|right]. unfold q. apply Rmult_le_reg_r with (sqrt (w * 2)); [exact Sp|].
    replace (Rabs (B2R b) / sqrt (w * 2) * sqrt (w * 2)) with (Rabs (B2R b)) by (field; lra).
    apply Rle_trans with (5 * lo * (4 * Q)); [apply Rmult_le_compat_l; lra|].
    apply Rle_trans with (/ Q); [|lra]. apply Rmult_le_reg_r with Q; [lra|]. rewrite Rinv_l by lra. nra. }
  pose proof (rel_bounds _ _ _ R6) as B6.
  assert (KQ : 105 / 100 * (42 / 10 * u) * q <= 1 / 50 * q) by (apply Rmult_le_compat_r; lra).
  destruct (div_rel (Babs b) d) as (Fa & e5 & He5 & Ea).
  { rewrite is_finite_Babs. exact (proj1 Hb). }
  { lra. }
  { rewrite B2R_Babs. destruct QL as [E0|E0]; [left; rewrite E0, Rabs_R0; unfold Rdiv; ring|right].
    rewrite Rabs_pos_eq by lra. lra. }
  { rewrite B2R_Babs, Rabs_pos_eq by lra. nra. }
  fold alpha in Fa, Ea. split; [exact Fa|]. rewrite B2R_Babs in Ea.
  pose proof (rel_step _ _ _ _ _ R6 He5 Q0 ltac:(lra)) as R7. rewrite <- Ea in R7. rewrite <- Eq.
  eapply rel_weaken; [exact Q0| |exact R7]. nra.
Qed.
End Fmt.
