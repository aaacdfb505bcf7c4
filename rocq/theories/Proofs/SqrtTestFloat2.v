(** Squaring a computed complex square root: the second branch. *)
From Coq Require Import List ZArith Reals Bool Lia Lra Psatz.
From Flocq Require Import Core.Core IEEE754.BinarySingleNaN Relative Mult_error.
From Verif Require Import Base.Outcome Model.Traits Model.Float Model.Complex Spec.FloatErr
  Proofs.FloatErr Proofs.FloatRound Proofs.FloatRange Proofs.FloatInt Proofs.FloatSqrt Proofs.SqrtTest Proofs.SqrtTestFloat
  Props.FloatRangeProps Props.FloatSqrtProps.
Local Open Scope R_scope.

Lemma t_bound Y W Z t : 0 < Z -> 0 <= Y -> Y <= 4473 / 10000 * Z -> 189 / 100 * Z <= W -> t * (2 * W) = Y * Y -> 0 <= t <= 1 / 10 * Z.
Proof. intros. split; apply Rnot_lt_le; intros C; nra. Qed.
Lemma near_sq v t Z u : 0 < Z -> 0 < u <= 1 / 16000000 -> 0 <= t <= 1 / 10 * Z -> Rabs (v - t) <= 5001 / 1000 * u * t -> t / 2 <= v <= Z.
Proof. intros HZ U Ht H. apply Rabs_le_inv in H. assert (5001 / 1000 * u * t <= 1 / 1000 * t) by (apply Rmult_le_compat_r; lra). lra. Qed.

Lemma sq_le h c : 0 <= h -> 0 <= c -> h * h <= c * c -> h <= c.
Proof. intros. apply Rnot_lt_le. intros C. nra. Qed.
Lemma small_part V Y Z : 0 < Z -> 0 <= Y -> Z * Z = V * V + Y * Y -> 2 * Y < V -> Y <= 4473 / 10000 * Z /\ 8944 / 10000 * Z <= V.
Proof. intros. split; nra. Qed.

Section Fmt.
Context (prec emax : Z) {Hp : Prec_gt_0 prec} {He : Prec_lt_emax prec emax} (libm : FunOps (binary_float prec emax)).
Notation fl := (binary_float prec emax).
Notation FF := (float_field prec emax).
Notation FE := (float_fun prec emax libm).
Notation u := (unit_roundoff prec).
Notation rnd := (round radix2 (SpecFloat.fexp prec emax) (round_mode mode_NE)).
Notation add := (fl_add prec emax). Notation sub := (fl_sub prec emax).
Notation mul := (fl_mul prec emax). Notation div := (fl_div prec emax).
Notation one := (fl_int prec emax 1). Notation zero := (fl_int prec emax 0).
Notation lo := (bpow radix2 (2 - emax)).
Notation hi := (half_big emax).
Context (Hprec : (24 <= prec)%Z) (k : Z) (Hk0 : (0 <= k)%Z) (Hk3 : (3 * k + 20 <= emax)%Z).
Notation Q := (bpow radix2 k).

Notation Zabs a b := (sqrt (B2R a * B2R a + B2R b * B2R b)).
Notation u_tiny := (u_tiny prec Hprec).
Notation Hk2 := (Hk2 emax k Hk0 Hk3).
Notation Hp11 := (Hp11 prec Hprec).
Notation Q3 := (Q3 emax k Hk0 Hk3).
Notation abs_square := (abs_square prec emax Hprec k Hk0 Hk3).
Notation root_half_square := (root_half_square prec emax Hprec k Hk0 Hk3).
Notation two_exact := (two_exact prec emax Hprec k Hk0 Hk3).
Notation square_parts := (square_parts prec emax Hprec k Hk0 Hk3).
Notation squares_to := (squares_to prec emax).

Lemma squares2 (a b : fl) : in_range prec emax k a -> in_range prec emax k b -> 2 * Rabs (B2R b) < Rabs (B2R a) ->
  let A := Bsqrt mode_NE (fl_norm2 prec emax a b) in
  let s := add A (Babs a) in
  let alpha := div (Babs b) (Bsqrt mode_NE (mul s (add one one))) in
  let beta := Bsqrt mode_NE (mul s (div one (add one one))) in
  (0 <= B2R a -> squares_to (B2R a) (Rabs (B2R b)) (Zabs a b) beta alpha)
  /\ (B2R a < 0 -> squares_to (B2R a) (Rabs (B2R b)) (Zabs a b) alpha beta).
Proof.
  intros Ha Hb Hab A s alpha beta. destruct (abs_square a b Ha Hb) as (FA & A0 & SA). fold A in FA, A0, SA.
  destruct (Z_facts prec emax k Hk0 Hk2 a b Ha Hb) as (Z0 & Z2 & Za & Zb & Z1). set (Z := Zabs a b) in *.
  pose proof u_tiny as U. pose proof (Q_facts emax k Hk0 Hk2) as (Q1 & Q2 & Q4 & L0). pose proof Q3 as [Q6 Q5].
  set (X := B2R a) in *. set (Y := Rabs (B2R b)) in *. assert (Y0 : 0 <= Y) by apply Rabs_pos.
  assert (EZ : Z * Z = X * X + Y * Y) by (rewrite Z2; unfold Y; rewrite <- (abs_sq (B2R b)); ring).
  pose proof (Rabs_pos X) as X0. set (V := Rabs X) in *.
  assert (Zp : 0 < Z) by lra.
  assert (iQ : 100 * lo <= / Q).
  { apply Rmult_le_reg_r with (Q * Q); [nra|]. replace (/ Q * (Q * Q)) with Q by (field; lra). nra. }
  assert (ZL : / Q <= Z) by (destruct Z1; lra).
  pose proof (A_near u (proj1 U) (proj2 U) Z (B2R A) Zp A0 SA) as NA.
  assert (NA' : 999 / 1000 * Z <= B2R A <= 1001 / 1000 * Z) by nra.
  assert (EX : X * X = V * V) by apply abs_sq.
  destruct (small_part V Y Z Zp Y0 ltac:(lra) Hab) as [YU TX].
  set (W := B2R A + V) in *. assert (WB : 189 / 100 * Z <= W <= 2001 / 1000 * Z) by (unfold W; lra).
  destruct (add_rel prec emax A (Babs a) FA) as (Fs & e1 & He1 & E1).
  { rewrite is_finite_Babs. exact (proj1 Ha). }
  { rewrite B2R_Babs. fold X V W. rewrite Rabs_pos_eq by lra. nra. }
  rewrite B2R_Babs in E1. fold X V W s in E1. fold s in Fs.
  destruct (root_half_square s W e1 Fs ltac:(nra) E1 He1) as (Fb & e2 & He2 & Eb & be0 & Sb). fold beta in Fb, Eb, be0, Sb.
  pose proof He1 as He1'. apply Rabs_le_inv in He1'.
  assert (Ws : 188 / 100 * Z <= W * (1 + e1) <= 2002 / 1000 * Z) by nra.
  destruct (two_exact s Fs) as [Fm Em]. { rewrite E1, Rabs_pos_eq by lra. nra. }
  rewrite E1 in Em. destruct (sqrt_rel prec emax _ Fm) as (Fd & e3 & He3 & Ed); [rewrite Em; lra|]. rewrite Em in Ed.
  set (den := Bsqrt mode_NE (mul s (add one one))) in *.
  set (h := sqrt (W * (1 + e1) / 2)) in *.
  assert (Eh : sqrt (2 * (W * (1 + e1))) = 2 * h).
  { unfold h. rewrite <- (sqrt_square 2) at 2 by lra. rewrite <- sqrt_mult by lra. f_equal. field. }
  rewrite Eh in Ed. assert (hp : 0 < h) by (apply sqrt_lt_R0; lra).
  assert (hh : h * h = W * (1 + e1) / 2) by (apply sqrt_sqrt; lra).
  pose proof He3 as He3'. apply Rabs_le_inv in He3'.
  assert (Dp : 0 < B2R den) by (rewrite Ed; nra).
  assert (YY : 0 <= Y * Y) by (apply Rmult_le_pos; exact Y0). assert (QQ : 0 < Q * Q) by (apply Rmult_lt_0_compat; lra).
  assert (W10 : 2 * W <= 10 * Q) by lra.
  (* the quotient *)
  assert (QQ1 : 1 * Q <= Q * Q) by (apply Rmult_le_compat_r; lra).
  assert (h2 : h <= 2 * Q) by (apply sq_le; [lra|lra|rewrite hh; lra]).
  assert (qv : Rabs (B2R (Babs b) / B2R den) = Y / B2R den).
  { rewrite B2R_Babs. fold Y. apply Rabs_pos_eq. apply Rmult_le_pos; [exact Y0|left; apply Rinv_0_lt_compat, Dp]. }
  assert (dU : B2R den <= 5 * Q) by (rewrite Ed; assert (2 * h * (1 + e3) <= 2 * h * (1001 / 1000)) by (apply Rmult_le_compat_l; lra); lra).
  assert (YB : Y = 0 \/ / Q <= Y) by (unfold Y; destruct (proj2 Hb) as [->|]; [left; apply Rabs_R0|right; lra]).
  destruct (div_rel prec emax (Babs b) den) as (Fa & e4 & He4 & Ea).
  { rewrite is_finite_Babs. exact (proj1 Hb). } { lra. }
  { destruct YB as [YB|YB].
    - left. rewrite B2R_Babs. fold Y. rewrite YB. unfold Rdiv. ring.
    - right. rewrite qv. apply Rmult_le_reg_r with (B2R den); [exact Dp|]. replace (Y / B2R den * B2R den) with Y by (field; lra).
      apply Rle_trans with (lo * (5 * Q)); [apply Rmult_le_compat_l; lra|].
      apply Rle_trans with (/ Q); [|exact YB]. apply Rmult_le_reg_r with Q; [lra|]. rewrite Rinv_l by lra. replace (lo * (5 * Q) * Q) with (5 / 256 * (lo * 256 * (Q * Q))) by field. lra. }
  { rewrite qv. apply Rmult_le_reg_r with (B2R den); [exact Dp|]. replace (Y / B2R den * B2R den) with Y by (field; lra).
    assert (1 <= hi) by lra. assert (Y <= hi * h).
    { assert (Z <= 2 * (h * h)) by (rewrite hh; lra). assert (h * h <= h * (2 * Q)) by (apply Rmult_le_compat_l; lra). assert (Y <= h * (2 * Q)) by lra.
      apply Rle_trans with (h * (2 * Q)); [assumption|]. rewrite Rmult_comm. apply Rmult_le_compat_r; lra. }
    rewrite Ed. apply Rle_trans with (hi * h); [assumption|]. apply Rmult_le_compat_l; [lra|].
    assert (h * 1 <= h * (2 * (1 + e3))) by (apply Rmult_le_compat_l; lra). lra. }
  rewrite B2R_Babs in Ea. fold Y alpha in Ea. fold alpha in Fa.
  destruct (near_inv e3 u 1 U ltac:(lra) ltac:(lra)) as (e5 & He5 & E5).
  assert (Ea2 : B2R alpha = Y / (2 * h) * (1 + e5) * (1 + e4)).
  { rewrite Ea, Ed. rewrite <- E5. field. split; lra. }
  pose proof He4 as He4'. apply Rabs_le_inv in He4'. pose proof He5 as He5'. apply Rabs_le_inv in He5'.
  pose proof He2 as He2'. apply Rabs_le_inv in He2'.
  assert (q0 : 0 <= Y / (2 * h)) by (apply Rmult_le_pos; [exact Y0|left; apply Rinv_0_lt_compat; lra]).
  assert (al0 : 0 <= B2R alpha) by (rewrite Ea2; apply Rmult_le_pos; [apply Rmult_le_pos|]; lra).
  (* alpha * beta *)
  assert (Sab : Rabs (2 * (B2R alpha * B2R beta) - Y) <= 3001 / 1000 * u * Y).
  { apply (as_error _ _ ((1 + ((1 + e5) * (1 + e4) - 1)) * (1 + e2) - 1)); [exact Y0| |].
    - rewrite Ea2, Eb. field. lra.
    - pose proof (near_mul e5 e4 u (1 + 1 / 60000) 1 U ltac:(lra) ltac:(lra) He5 ltac:(lra)) as H.
      pose proof (near_mul _ e2 u (1 + 1 / 60000 + 1 + 1 / 60000) 1 U ltac:(lra) ltac:(lra) H ltac:(lra)) as H'. lra. }
  (* alpha^2 *)
  assert (Sa : Rabs (B2R alpha * B2R alpha - Y * Y / (2 * W)) <= 5001 / 1000 * u * (Y * Y / (2 * W))).
  { destruct (near_inv e1 u 1 U ltac:(lra) ltac:(lra)) as (e6 & He6 & E6).
    destruct (sq_near e4 u U He4) as (e7 & He7 & E7).
    pose proof (near_mul e5 e5 u (1 + 1 / 60000) (1 + 1 / 60000) U ltac:(lra) ltac:(lra) He5 He5) as H1.
    pose proof (near_mul _ e7 u (1 + 1 / 60000 + (1 + 1 / 60000) + 1 / 60000) (2 + 1 / 60000) U ltac:(lra) ltac:(lra) H1 He7) as H2.
    pose proof (near_mul _ e6 u (1 + 1 / 60000 + (1 + 1 / 60000) + 1 / 60000 + (2 + 1 / 60000) + 1 / 60000) (1 + 1 / 60000) U ltac:(lra) ltac:(lra) H2 He6) as H3.
    eapply as_error; [| |eapply Rle_trans; [exact H3|lra]].
    - apply Rmult_le_pos; [exact YY|left; apply Rinv_0_lt_compat; lra].
    - rewrite Ea2. replace (Y / (2 * h) * (1 + e5) * (1 + e4) * (Y / (2 * h) * (1 + e5) * (1 + e4)))
        with (Y * Y / (4 * (h * h)) * ((1 + e5) * (1 + e5)) * ((1 + e4) * (1 + e4))) by (field; lra).
      rewrite hh, E7. replace (Y * Y / (4 * (W * (1 + e1) / 2))) with (Y * Y / (2 * W) * / (1 + e1)) by (field; split; lra).
      rewrite E6. ring. }
  set (t := Y * Y / (2 * W)) in *.
  assert (Et : t * (2 * W) = Y * Y) by (unfold t; field; lra).
  pose proof (t_bound Y W Z t Zp Y0 YU (proj1 WB) Et) as Ht.
  assert (TL : Y = 0 \/ 2 * lo <= t).
  { destruct YB as [YB|YB]; [left; exact YB|right]. apply Rmult_le_reg_r with (2 * W); [lra|]. rewrite Et.
    apply Rle_trans with (/ Q * / Q); [|apply Rmult_le_compat; try lra; left; apply Rinv_0_lt_compat; lra].
    apply Rmult_le_reg_r with (Q * Q); [exact QQ|]. replace (/ Q * / Q * (Q * Q)) with 1 by (field; lra).
    apply Rle_trans with (2 * lo * (10 * Q) * (Q * Q)).
    - apply Rmult_le_compat_r; [lra|]. apply Rmult_le_compat_l; lra.
    - assert (0 <= lo * (Q * Q * Q)) by (apply Rmult_le_pos; [lra|apply Rmult_le_pos; lra]).
      replace (2 * lo * (10 * Q) * (Q * Q)) with (20 * (lo * (Q * Q * Q))) by ring. lra. }
  assert (Bb : 9 / 10 * Z <= B2R beta * B2R beta <= 11 / 10 * Z).
  { apply Rabs_le_inv in Sb. assert (3001 / 1000 * u * (W / 2) <= 1 / 1000 * (W / 2)) by (apply Rmult_le_compat_r; lra). lra. }
  pose proof (near_sq _ t Z u Zp U Ht Sa) as Ba2.
  assert (Ba : B2R alpha * B2R alpha <= Z) by lra.
  assert (La : B2R alpha = 0 \/ lo <= B2R alpha * B2R alpha).
  { destruct TL as [TL|TL]; [left; rewrite Ea, TL; unfold Rdiv; ring|right]. lra. }
  assert (Lab : B2R alpha * B2R beta = 0 \/ lo <= B2R alpha * B2R beta).
  { destruct YB as [YB|YB]; [left; rewrite Ea, YB; unfold Rdiv; ring|right]. apply Rabs_le_inv in Sab.
    assert (3001 / 1000 * u * Y <= 1 / 1000 * Y) by (apply Rmult_le_compat_r; lra). lra. }
  (* either order *)
  assert (Fin : forall (x y : fl), (x = beta /\ y = alpha \/ x = alpha /\ y = beta) -> forall sg (j : fl),
     sg = 1 \/ sg = -1 -> is_finite j = true -> B2R j = sg * B2R y ->
     let R := sub (mul x x) (mul j j) in let I := add (mul x j) (mul j x) in
     is_finite R = true /\ is_finite I = true /\ exists rr jj v,
     Rabs (rr - B2R x * B2R x) <= u * (B2R x * B2R x) /\ Rabs (jj - B2R y * B2R y) <= u * (B2R y * B2R y)
     /\ Rabs (v - B2R alpha * B2R beta) <= u * (B2R alpha * B2R beta) /\ Rabs (B2R R - (rr - jj)) <= u * Rabs (rr - jj) /\ sg * B2R I = 2 * v).
  { intros x y Hxy sg j Hs Fj Ej.
    assert (Fx : is_finite x = true) by (destruct Hxy as [[-> ->]|[-> ->]]; assumption).
    assert (x0 : 0 <= B2R x) by (destruct Hxy as [[-> ->]|[-> ->]]; assumption).
    assert (y0 : 0 <= B2R y) by (destruct Hxy as [[-> ->]|[-> ->]]; assumption).
    assert (xy : B2R x * B2R y = B2R alpha * B2R beta) by (destruct Hxy as [[-> ->]|[-> ->]]; ring).
    assert (jj : B2R j * B2R j = B2R y * B2R y) by (rewrite Ej; destruct Hs; subst sg; ring).
    assert (aj : Rabs (B2R j) = B2R y) by (rewrite Ej, Rabs_mult, (Rabs_pos_eq (B2R y) y0), (abs_sign sg Hs); ring).
    assert (Lb : B2R beta = 0 \/ lo <= B2R beta * B2R beta) by (right; lra).
    destruct (square_parts x j (11 / 10 * Z) Fx Fj) as (FR & FI & rr & jj' & v & H1 & H2 & H3 & H4 & H5).
    { apply Rle_trans with (11 / 10 * (2 * Q)); [lra|]. assert (1 * Q <= Q * Q) by (apply Rmult_le_compat_r; lra). lra. } { rewrite Rabs_pos_eq by exact x0. destruct Hxy as [[-> ->]|[-> ->]]; lra. }
    { rewrite aj. destruct Hxy as [[-> ->]|[-> ->]]; lra. }
    { destruct Hxy as [[-> ->]|[-> ->]]; assumption. }
    { rewrite jj, Ej. assert (L : B2R y = 0 \/ lo <= B2R y * B2R y) by (destruct Hxy as [[-> ->]|[-> ->]]; assumption).
      destruct L as [->|L]; [left; ring|right; exact L]. }
    { rewrite Rabs_mult, aj, (Rabs_pos_eq _ x0), xy. destruct Lab as [L|L]; [left|right; exact L].
      rewrite Ej. replace (B2R x * (sg * B2R y)) with (sg * (B2R x * B2R y)) by ring. rewrite xy, L. ring. }
    split; [exact FR|]. split; [exact FI|]. exists rr, jj', (sg * v). rewrite jj in H2.
    split; [exact H1|]. split; [exact H2|]. split.
    { rewrite <- xy. replace (sg * v - B2R x * B2R y) with (sg * (v - B2R x * B2R j)) by (rewrite Ej; destruct Hs; subst sg; ring).
      rewrite Rabs_mult. rewrite (abs_sign sg Hs).
      rewrite (Rabs_mult (B2R x) (B2R j)), aj, (Rabs_pos_eq _ x0) in H3. lra. }
    split; [exact H4|]. rewrite H5. ring. }
  split; intros SX.
  - split; [exact Fb|]. split; [exact be0|]. split; [exact Fa|]. split; [exact al0|]. intros sg j Hs Fj Ej.
    destruct (Fin beta alpha (or_introl (conj eq_refl eq_refl)) sg j Hs Fj Ej) as (FR & FI & rr & jj & v & H1 & H2 & H3 & H4 & H5).
    split; [exact FR|]. split; [exact FI|]. exists (65 / 10), (18 / 10).
    destruct (branch2_core u (proj1 U) (proj2 U) X Y Z (B2R A) Zp EZ Y0 A0 SA (B2R beta) (B2R alpha) rr jj v _ Hab be0 al0 Sb Sa Sab H1 H2 H3 H4) as [K1 K2].
    rewrite (Rabs_pos_eq X) in K1 by exact SX. split; [exact K1|]. split; [rewrite H5; exact K2|lra].
  - split; [exact Fa|]. split; [exact al0|]. split; [exact Fb|]. split; [exact be0|]. intros sg j Hs Fj Ej.
    destruct (Fin alpha beta (or_intror (conj eq_refl eq_refl)) sg j Hs Fj Ej) as (FR & FI & rr & jj & v & H1 & H2 & H3 & H4 & H5).
    split; [exact FR|]. split; [exact FI|]. exists (65 / 10), (18 / 10).
    set (RR := B2R (sub (mul alpha alpha) (mul j j))) in *.
    assert (H4' : Rabs (- RR - (jj - rr)) <= u * Rabs (jj - rr)).
    { rewrite (Rabs_minus_sym jj rr). replace (- RR - (jj - rr)) with (- (RR - (rr - jj))) by ring. rewrite Rabs_Ropp. exact H4. }
    destruct (branch2_core u (proj1 U) (proj2 U) X Y Z (B2R A) Zp EZ Y0 A0 SA (B2R beta) (B2R alpha) jj rr v (- RR) Hab be0 al0 Sb Sa Sab H2 H1 H3 H4') as [K1 K2].
    rewrite (Rabs_left X) in K1 by exact SX. replace (- RR - - X) with (- (RR - X)) in K1 by ring. rewrite Rabs_Ropp in K1.
    split; [exact K1|]. split; [rewrite H5; exact K2|lra].
Qed.
End Fmt.
