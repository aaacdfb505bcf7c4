(** Normwise error analysis of Complex<f32>/Complex<f64>. *)
From Coq Require Import List ZArith Reals Bool Lia Lra Psatz.
From Flocq Require Import Core.Core IEEE754.BinarySingleNaN.
From Verif Require Import Base.Outcome Model.Traits Model.Float Model.Polynomial Model.Complex
  Spec.Ring Spec.Sums Spec.Complex Spec.FloatErr Spec.ComplexErr Proofs.FloatErr Proofs.ComplexProofs Props.FloatProps.
Import ListNotations.
Local Open Scope R_scope.

(** ** The absolute value *)
Lemma sq_nonneg x : 0 <= x * x. Proof. apply Rle_0_sqr. Qed.
Lemma nsq_nonneg z : 0 <= fst z * fst z + snd z * snd z.
Proof. pose proof (sq_nonneg (fst z)). pose proof (sq_nonneg (snd z)). lra. Qed.
Lemma cnorm_nonneg z : 0 <= cnorm z. Proof. apply sqrt_pos. Qed.
Lemma cnorm_sq z : cnorm z * cnorm z = fst z * fst z + snd z * snd z.
Proof. apply sqrt_sqrt, nsq_nonneg. Qed.
Lemma sq_le x y : 0 <= y -> x * x <= y * y -> x <= y.
Proof. intros Hy H. destruct (Rle_lt_dec x y) as [L|L]; [exact L|]. exfalso. nra. Qed.
Lemma cnorm_c0 : cnorm c0 = 0.
Proof. unfold cnorm, c0. cbn [fst snd]. rewrite Rmult_0_l, Rplus_0_l. apply sqrt_0. Qed.
Lemma cnorm_mul z w : cnorm (cmul z w) = cnorm z * cnorm w.
Proof.
  unfold cnorm. rewrite <- sqrt_mult by apply nsq_nonneg. f_equal. unfold cmul. cbn [fst snd]. ring.
Qed.
Lemma cnorm_conj z : cnorm (cconj z) = cnorm z.
Proof. unfold cnorm, cconj. cbn [fst snd]. f_equal. ring. Qed.
Lemma cauchy a b c d : a * c + b * d <= cnorm (a, b) * cnorm (c, d).
Proof.
  apply sq_le; [apply Rmult_le_pos; apply cnorm_nonneg|].
  replace (cnorm (a, b) * cnorm (c, d) * (cnorm (a, b) * cnorm (c, d)))
    with ((cnorm (a, b) * cnorm (a, b)) * (cnorm (c, d) * cnorm (c, d))) by ring.
  rewrite !cnorm_sq. cbn [fst snd]. pose proof (sq_nonneg (a * d - b * c)). lra.
Qed.
Lemma cnorm_triangle z w : cnorm (cadd z w) <= cnorm z + cnorm w.
Proof.
  destruct z as [a b], w as [c d]. apply sq_le; [pose proof (cnorm_nonneg (a, b)); pose proof (cnorm_nonneg (c, d)); lra|].
  rewrite cnorm_sq. unfold cadd. cbn [fst snd].
  replace ((cnorm (a, b) + cnorm (c, d)) * (cnorm (a, b) + cnorm (c, d)))
    with (cnorm (a, b) * cnorm (a, b) + cnorm (c, d) * cnorm (c, d) + 2 * (cnorm (a, b) * cnorm (c, d))) by ring.
  rewrite !cnorm_sq. cbn [fst snd]. pose proof (cauchy a b c d). lra.
Qed.
Lemma cnorm_opp z : cnorm (- fst z, - snd z) = cnorm z.
Proof. unfold cnorm. cbn [fst snd]. f_equal. ring. Qed.
Lemma csub_triangle z y w : cnorm (csub z w) <= cnorm (csub z y) + cnorm (csub y w).
Proof.
  replace (csub z w) with (cadd (csub z y) (csub y w)); [apply cnorm_triangle|].
  unfold cadd, csub. cbn [fst snd]. f_equal; ring.
Qed.
Lemma cnorm_le_diff z w : cnorm z <= cnorm w + cnorm (csub z w).
Proof.
  replace z with (cadd w (csub z w)) at 1; [apply cnorm_triangle|].
  destruct z. unfold cadd, csub. cbn [fst snd]. f_equal; ring.
Qed.
(** Componentwise bounds give a bound of the absolute value. *)
Lemma cnorm_le2 z k : 0 <= k -> Rabs (fst z) <= k -> Rabs (snd z) <= k -> cnorm z <= sqrt 2 * k.
Proof.
  intros Hk H1 H2. apply sq_le; [apply Rmult_le_pos; [apply sqrt_pos|exact Hk]|]. rewrite cnorm_sq.
  replace (sqrt 2 * k * (sqrt 2 * k)) with ((sqrt 2 * sqrt 2) * (k * k)) by ring. rewrite sqrt_sqrt by lra.
  assert (Q : forall x, Rabs x <= k -> x * x <= k * k).
  { intros x Hx. replace (x * x) with (Rabs x * Rabs x) by (unfold Rabs; destruct (Rcase_abs x); ring).
    apply Rmult_le_compat; try apply Rabs_pos; exact Hx. }
  pose proof (Q _ H1). pose proof (Q _ H2). lra.
Qed.
Lemma cnorm_abs a b : cnorm (Rabs a, Rabs b) = cnorm (a, b).
Proof.
  unfold cnorm. cbn [fst snd]. f_equal. unfold Rabs. destruct (Rcase_abs a), (Rcase_abs b); ring.
Qed.
Lemma cnorm_swap a b : cnorm (b, a) = cnorm (a, b).
Proof. unfold cnorm. cbn [fst snd]. f_equal. ring. Qed.

(** Sums of complex numbers. *)
Lemma csum_ext n f g : (forall i, (i < n)%nat -> f i = g i) -> csum n f = csum n g.
Proof. induction n as [|n IH]; intros H; [reflexivity|]. cbn [csum]. rewrite IH, H by (intros; try apply H; lia). reflexivity. Qed.
Lemma csum_norm n f : cnorm (csum n f) <= rsum n (fun i => cnorm (f i)).
Proof.
  induction n as [|n IH]; cbn [csum rsum]; [rewrite cnorm_c0; lra|].
  eapply Rle_trans; [apply cnorm_triangle|]. lra.
Qed.
Lemma cpow_norm z n : cnorm (cpow z n) = cnorm z ^ n.
Proof.
  induction n as [|n IH]; cbn [cpow Rpow_def.pow].
  - unfold cnorm, c1. cbn [fst snd]. replace (1 * 1 + 0 * 0) with 1 by ring. apply sqrt_1.
  - rewrite cnorm_mul, IH. reflexivity.
Qed.
Lemma cadd_comm z w : cadd z w = cadd w z.
Proof. unfold cadd. f_equal; ring. Qed.
Lemma cadd_assoc x y z : cadd (cadd x y) z = cadd x (cadd y z).
Proof. unfold cadd. cbn [fst snd]. f_equal; ring. Qed.
Lemma cadd_0_l z : cadd c0 z = z.
Proof. destruct z. unfold cadd, c0. cbn [fst snd]. f_equal; ring. Qed.
Lemma csum_shift n f : csum (S n) f = cadd (f O) (csum n (fun i => f (S i))).
Proof.
  induction n as [|n IH]; [cbn [csum]; rewrite cadd_0_l; destruct (f O); unfold cadd, c0; cbn [fst snd]; f_equal; ring|].
  change (csum (S (S n)) f) with (cadd (csum (S n) f) (f (S n))). rewrite IH, cadd_assoc. reflexivity.
Qed.
Lemma csum_mul n c f : csum n (fun i => cmul c (f i)) = cmul c (csum n f).
Proof.
  induction n as [|n IH]; cbn [csum]; [|rewrite IH]; unfold cadd, cmul, c0; cbn [fst snd]; f_equal; ring.
Qed.

Section Fmt.
Context (prec emax : Z) {Hp : Prec_gt_0 prec} {He : Prec_lt_emax prec emax}.
Notation fl := (binary_float prec emax).
Notation FO := (float_ring prec emax).
Notation FS := (float_sig prec emax).
Notation CS := (complex_sig FS).
Notation u := (unit_roundoff prec).
Notation eta := (underflow_unit prec emax).
Notation k := (mul_roundoff prec).
Notation t := (mul_underflow prec emax).

Lemma k_nonneg : 0 <= k.
Proof. pose proof (u_pos prec). pose proof (pow2_ge_0 u). apply Rmult_le_pos; [apply sqrt_pos|]. lra. Qed.
Lemma t_nonneg : 0 <= t.
Proof. pose proof (u_pos prec). pose proof (eta_pos prec emax). apply Rmult_le_pos; [apply sqrt_pos|]. nra. Qed.

Lemma float_complex_implements : implements (complex_ops FO) CS.
Proof. apply complex_implements, float_implements. Qed.

(** ** One addition, one product *)
Lemma cadd_error z w : cfinite (sadd CS z w) ->
  cfinite z /\ cfinite w /\ cnorm (csub (cval (sadd CS z w)) (cadd (cval z) (cval w))) <= u * cnorm (cadd (cval z) (cval w)).
Proof.
  destruct z as [a b], w as [c d]. intros [F1 F2]. cbn [re im sadd complex_sig] in F1, F2.
  destruct (add_model prec emax _ _ F1) as (Fa & Fc & d1 & H1 & E1).
  destruct (add_model prec emax _ _ F2) as (Fb & Fd & d2 & H2 & E2).
  split; [split; assumption|]. split; [split; assumption|].
  pose proof (u_pos prec) as UP. apply sq_le; [apply Rmult_le_pos; [lra|apply cnorm_nonneg]|].
  replace (u * cnorm (cadd (cval (Cx a b)) (cval (Cx c d))) * (u * cnorm (cadd (cval (Cx a b)) (cval (Cx c d)))))
    with (u * u * (cnorm (cadd (cval (Cx a b)) (cval (Cx c d))) * cnorm (cadd (cval (Cx a b)) (cval (Cx c d))))) by ring.
  rewrite !cnorm_sq. unfold cval, cadd, csub. cbn [fst snd re im sadd complex_sig].
  change (sadd FS) with (fl_add prec emax). rewrite E1, E2.
  set (p := B2R a + B2R c). set (q := B2R b + B2R d).
  assert (Q : forall x e, Rabs e <= u -> (x * (1 + e) - x) * (x * (1 + e) - x) <= u * u * (x * x)).
  { intros x e Hee. replace ((x * (1 + e) - x) * (x * (1 + e) - x)) with ((x * x) * (Rabs e * Rabs e))
      by (unfold Rabs; destruct (Rcase_abs e); ring).
    rewrite (Rmult_comm (u * u)). apply Rmult_le_compat_l; [apply sq_nonneg|].
    apply Rmult_le_compat; try apply Rabs_pos; exact Hee. }
  pose proof (Q p d1 H1). pose proof (Q q d2 H2). lra.
Qed.

Lemma cmul_finite z w : cfinite (smul CS z w) -> cfinite z /\ cfinite w.
Proof.
  destruct z as [a b], w as [c d]. intros [F1 F2]. cbn [re im smul complex_sig] in F1, F2.
  change (sadd FS) with (fl_add prec emax) in *. change (ssub FS) with (fl_sub prec emax) in *.
  change (smul FS) with (fl_mul prec emax) in *.
  destruct (sub_model prec emax _ _ F1) as (G1 & G2 & _).
  destruct (mul_model prec emax _ _ G1) as (? & ? & _). destruct (mul_model prec emax _ _ G2) as (? & ? & _).
  split; split; assumption.
Qed.

(** The rounded sum or difference of two rounded products. *)
Lemma round_diff P Q e1 h1 e2 h2 e3 : Rabs e1 <= u -> Rabs h1 <= eta -> Rabs e2 <= u -> Rabs h2 <= eta -> Rabs e3 <= u ->
  Rabs (((P * (1 + e1) + h1) - (Q * (1 + e2) + h2)) * (1 + e3) - (P - Q))
  <= 2 * (u + u ^ 2) * ((Rabs P + Rabs Q + Rabs (P - Q)) / 2) + 2 * (1 + u) * eta.
Proof.
  intros H1 H2 H3 H4 H5. pose proof (u_pos prec) as UP.
  replace (((P * (1 + e1) + h1) - (Q * (1 + e2) + h2)) * (1 + e3) - (P - Q))
    with (P * (e1 * (1 + e3)) + - (Q * (e2 * (1 + e3))) + (P - Q) * e3 + (h1 + - h2) * (1 + e3)) by ring.
  assert (B3 : Rabs (1 + e3) <= 1 + u).
  { eapply Rle_trans; [apply Rabs_triang|]. rewrite (Rabs_pos_eq 1) by lra. lra. }
  assert (T : forall x e, Rabs e <= u -> Rabs (x * (e * (1 + e3))) <= (u + u ^ 2) * Rabs x).
  { intros x e Hx. rewrite !Rabs_mult, Rmult_comm. apply Rmult_le_compat_r; [apply Rabs_pos|].
    replace (u + u ^ 2) with (u * (1 + u)) by ring. apply Rmult_le_compat; try apply Rabs_pos; assumption. }
  pose proof (T P e1 H1) as T1. pose proof (T Q e2 H3) as T2.
  assert (T3 : Rabs ((P - Q) * e3) <= (u + u ^ 2) * Rabs (P - Q)).
  { rewrite Rabs_mult, Rmult_comm. apply Rmult_le_compat_r; [apply Rabs_pos|]. pose proof (pow2_ge_0 u). lra. }
  assert (T4 : Rabs ((h1 + - h2) * (1 + e3)) <= 2 * (1 + u) * eta).
  { rewrite Rabs_mult. replace (2 * (1 + u) * eta) with ((eta + eta) * (1 + u)) by ring.
    apply Rmult_le_compat; try apply Rabs_pos; [|exact B3]. eapply Rle_trans; [apply Rabs_triang|]. rewrite Rabs_Ropp. lra. }
  eapply Rle_trans; [apply Rabs_triang|]. eapply Rle_trans; [apply Rplus_le_compat_r, Rabs_triang|].
  eapply Rle_trans; [apply Rplus_le_compat_r, Rplus_le_compat_r, Rabs_triang|]. rewrite Rabs_Ropp. lra.
Qed.

(** (|P| + |Q| + |P - Q|)/2 is the larger of |P| and |Q| when the signs agree, |P - Q| otherwise. *)
Lemma half_sum P Q : let h := (Rabs P + Rabs Q + Rabs (P - Q)) / 2 in
  (0 <= P * Q -> h * h = P * P \/ h * h = Q * Q) /\ (P * Q <= 0 -> h * h = (P - Q) * (P - Q)).
Proof.
  cbv zeta. split; intros H.
  - destruct (Rle_lt_dec (P - Q) 0) as [L|L].
    + rewrite (Rabs_left1 (P - Q)) by exact L. unfold Rabs. destruct (Rcase_abs P), (Rcase_abs Q).
      * left. field. * destruct (Req_dec Q 0) as [->|N]; [left; field|]. exfalso. assert (0 < Q) by lra. nra.
      * exfalso. lra. * right. field.
    + rewrite (Rabs_pos_eq (P - Q)) by lra. unfold Rabs. destruct (Rcase_abs P), (Rcase_abs Q).
      * right. field. * exfalso. lra.
      * destruct (Req_dec P 0) as [->|N]; [right; field|]. exfalso. assert (0 < P) by lra. nra.
      * left. field.
  - destruct (Rle_lt_dec (P - Q) 0) as [L|L].
    + rewrite (Rabs_left1 (P - Q)) by exact L. unfold Rabs. destruct (Rcase_abs P), (Rcase_abs Q).
      * exfalso. assert (0 < - P * - Q) by (apply Rmult_lt_0_compat; lra). lra.
      * field. * exfalso. lra.
      * destruct (Req_dec P 0) as [->|N]; [field|]. assert (0 < P * Q) by (apply Rmult_lt_0_compat; lra). lra.
    + rewrite (Rabs_pos_eq (P - Q)) by lra. unfold Rabs. destruct (Rcase_abs P), (Rcase_abs Q).
      * exfalso. assert (0 < - P * - Q) by (apply Rmult_lt_0_compat; lra). lra.
      * exfalso. lra. * field.
      * destruct (Req_dec Q 0) as [->|N]; [field|]. assert (0 < P * Q) by (apply Rmult_lt_0_compat; lra). lra.
Qed.

(** The two parts cannot both be at their worst: 4/3 instead of 2. *)
Lemma both_parts a b c d :
  let X := (Rabs (a * c) + Rabs (b * d) + Rabs (a * c - b * d)) / 2 in
  let Y := (Rabs (a * d) + Rabs (b * c) + Rabs (a * d + b * c)) / 2 in
  X * X + Y * Y <= 4 / 3 * ((a * a + b * b) * (c * c + d * d)).
Proof.
  intros X Y. destruct (half_sum (a * c) (b * d)) as [X1 X2]. destruct (half_sum (a * d) (- (b * c))) as [Y1 Y2].
  rewrite Rabs_Ropp in Y1, Y2. unfold Rminus in Y1, Y2. rewrite Ropp_involutive in Y1, Y2. fold X in X1, X2. fold Y in Y1, Y2.
  destruct (Rle_lt_dec 0 (a * c * (b * d))) as [L|L].
  - assert (LY : a * d * - (b * c) <= 0) by lra. rewrite (Y2 LY).
    pose proof (sq_nonneg (a * d - b * c)) as S1. pose proof (sq_nonneg (a * c - 2 * (b * d))) as S2. pose proof (sq_nonneg (2 * (a * c) - b * d)) as S3.
    destruct (X1 L) as [->| ->]; lra.
  - assert (LY : 0 <= a * d * - (b * c)) by lra. rewrite X2 by lra.
    pose proof (sq_nonneg (a * c + b * d)) as S1. pose proof (sq_nonneg (a * d + 2 * (b * c))) as S2. pose proof (sq_nonneg (2 * (a * d) + b * c)) as S3.
    destruct (Y1 LY) as [->| ->]; lra.
Qed.

Lemma cmul_error z w : cfinite (smul CS z w) ->
  cnorm (csub (cval (smul CS z w)) (cmul (cval z) (cval w))) <= k * (cnorm (cval z) * cnorm (cval w)) + t.
Proof.
  destruct z as [a b], w as [c d]. intros [F1 F2]. cbn [re im smul complex_sig] in F1, F2. unfold cval. cbn [re im smul complex_sig].
  change (sadd FS) with (fl_add prec emax) in *. change (ssub FS) with (fl_sub prec emax) in *. change (smul FS) with (fl_mul prec emax) in *.
  destruct (sub_model prec emax _ _ F1) as (G1 & G2 & e3 & He3 & E3). destruct (add_model prec emax _ _ F2) as (G3 & G4 & e6 & He6 & E6).
  destruct (mul_model prec emax _ _ G1) as (_ & _ & e1 & h1 & He1 & Hh1 & E1). destruct (mul_model prec emax _ _ G2) as (_ & _ & e2 & h2 & He2 & Hh2 & E2).
  destruct (mul_model prec emax _ _ G3) as (_ & _ & e4 & h4 & He4 & Hh4 & E4). destruct (mul_model prec emax _ _ G4) as (_ & _ & e5 & h5 & He5 & Hh5 & E5).
  rewrite E1, E2 in E3. rewrite E4, E5 in E6. unfold csub, cmul. cbn [fst snd]. rewrite E3, E6.
  set (A := B2R a) in *. set (B := B2R b) in *. set (C := B2R c) in *. set (D := B2R d) in *.
  pose proof (round_diff (A * C) (B * D) e1 h1 e2 h2 e3 He1 Hh1 He2 Hh2 He3) as R1.
  assert (R2 : Rabs ((A * D * (1 + e4) + h4 + (B * C * (1 + e5) + h5)) * (1 + e6) - (A * D + B * C))
               <= 2 * (u + u ^ 2) * ((Rabs (A * D) + Rabs (B * C) + Rabs (A * D + B * C)) / 2) + 2 * (1 + u) * eta).
  { pose proof (round_diff (A * D) (- (B * C)) e4 h4 e5 (- h5) e6 He4 Hh4 He5) as X. rewrite !Rabs_Ropp in X. specialize (X Hh5 He6).
    replace (A * D - - (B * C)) with (A * D + B * C) in X by ring.
    replace (A * D * (1 + e4) + h4 - (- (B * C) * (1 + e5) + - h5)) with (A * D * (1 + e4) + h4 + (B * C * (1 + e5) + h5)) in X by ring. exact X. }
  pose proof (both_parts A B C D) as XY. cbv zeta in XY.
  set (X := (Rabs (A * C) + _ + _) / 2) in *. set (Y := (Rabs (A * D) + _ + _) / 2) in *.
  pose proof (u_pos prec) as UP. pose proof (eta_pos prec emax) as EP.
  set (v := 2 * (u + u ^ 2)) in *. set (s := 2 * (1 + u) * eta) in *.
  assert (Hv : 0 <= v) by (unfold v; pose proof (pow2_ge_0 u); lra). assert (Hs : 0 <= s) by (unfold s; apply Rmult_le_pos; lra).
  assert (HX : 0 <= X) by (unfold X; pose proof (Rabs_pos (A * C)); pose proof (Rabs_pos (B * D)); pose proof (Rabs_pos (A * C - B * D)); lra).
  assert (HY : 0 <= Y) by (unfold Y; pose proof (Rabs_pos (A * D)); pose proof (Rabs_pos (B * C)); pose proof (Rabs_pos (A * D + B * C)); lra).
  set (p := _ - (A * C - B * D)) in *. set (q := _ - (A * D + B * C)) in *.
  assert (VX : 0 <= v * X) by (apply Rmult_le_pos; assumption). assert (VY : 0 <= v * Y) by (apply Rmult_le_pos; assumption).
  (* the errors are below (v X + s, v Y + s) *)
  apply Rle_trans with (cnorm (cadd (v * X, v * Y) (s, s))).
  { apply sq_le; [apply cnorm_nonneg|]. rewrite !cnorm_sq. cbn [cadd fst snd].
    assert (Q : forall x m, Rabs x <= m -> x * x <= m * m).
    { intros x m Hx. replace (x * x) with (Rabs x * Rabs x) by (unfold Rabs; destruct (Rcase_abs x); ring).
      apply Rmult_le_compat; try apply Rabs_pos; exact Hx. }
    pose proof (Q _ _ R1). pose proof (Q _ _ R2). lra. }
  eapply Rle_trans; [apply cnorm_triangle|]. apply Rplus_le_compat.
  - unfold mul_roundoff. fold v. set (M := cnorm (A, B) * cnorm (C, D)).
    assert (HM : 0 <= M) by (apply Rmult_le_pos; apply cnorm_nonneg).
    pose proof (sqrt_pos (4 / 3)) as S0.
    apply sq_le; [apply Rmult_le_pos; [apply Rmult_le_pos; assumption|exact HM]|]. rewrite cnorm_sq. cbn [fst snd].
    replace (sqrt (4 / 3) * v * M * (sqrt (4 / 3) * v * M)) with (v * v * ((sqrt (4 / 3) * sqrt (4 / 3)) * (M * M))) by ring.
    rewrite sqrt_sqrt by lra.
    replace (M * M) with ((A * A + B * B) * (C * C + D * D)).
    2:{ unfold M. replace (cnorm (A, B) * cnorm (C, D) * (cnorm (A, B) * cnorm (C, D))) with ((cnorm (A, B) * cnorm (A, B)) * (cnorm (C, D) * cnorm (C, D))) by ring.
        rewrite !cnorm_sq. reflexivity. }
    replace (v * X * (v * X) + v * Y * (v * Y)) with (v * v * (X * X + Y * Y)) by ring.
    apply Rmult_le_compat_l; [apply sq_nonneg|exact XY].
  - unfold mul_underflow. fold s. apply cnorm_le2; [exact Hs|..]; cbn [fst snd]; rewrite Rabs_pos_eq; lra.
Qed.

(** ** Horner's rule *)
Notation g := ((1 + k) * (1 + u)).
Fixpoint c_horner (p : list (complex fl)) (x : complex fl) : complex fl :=
  match p with [] => sz CS | a :: p' => sadd CS (smul CS (c_horner p' x) x) a end.

Lemma cpoly_eval_horner p x : poly_eval (complex_ops FO) p x = Ok (c_horner p x).
Proof.
  unfold poly_eval, poly_eval_ref. induction p as [|a p IH]; [reflexivity|].
  simpl rev. rewrite for_each_app, IH. reflexivity.
Qed.

Definition ceval (p : list (complex fl)) (x : cplx) : cplx :=
  csum (length p) (fun i => cmul (centry p i) (cpow x i)).
Definition cabs_eval (p : list (complex fl)) (X : R) : R :=
  rsum (length p) (fun i => cnorm (centry p i) * X ^ i).

Lemma ceval_cons a p x : ceval (a :: p) x = cadd (cmul (ceval p x) x) (cval a).
Proof.
  unfold ceval. cbn [length]. rewrite csum_shift. change (centry (a :: p) 0) with (cval a).
  rewrite (csum_ext _ _ (fun i => cmul x (cmul (centry p i) (cpow x i)))).
  2:{ intros i _. change (centry (a :: p) (S i)) with (centry p i). cbn [cpow]. unfold cmul. cbn [fst snd]. f_equal; ring. }
  rewrite csum_mul. destruct (cval a) as [s r]. unfold cadd, cmul. cbn [fst snd cpow c1]. f_equal; ring.
Qed.
Lemma cabs_cons a p X : cabs_eval (a :: p) X = cabs_eval p X * X + cnorm (cval a).
Proof.
  unfold cabs_eval. cbn [length]. rewrite rsum_shift. change (centry (a :: p) 0) with (cval a).
  rewrite (rsum_ext _ _ (fun i => X * (cnorm (centry p i) * X ^ i))).
  2:{ intros i _. change (centry (a :: p) (S i)) with (centry p i). cbn [Rpow_def.pow]. ring. }
  rewrite rsum_scal. cbn [Rpow_def.pow]. ring.
Qed.
Lemma ceval_le p x : cnorm (ceval p x) <= cabs_eval p (cnorm x).
Proof.
  eapply Rle_trans; [apply csum_norm|]. apply rsum_le. intros i _. rewrite cnorm_mul, cpow_norm. lra.
Qed.

Lemma chorner_step Y X A G U e yh P Q :
  0 <= X -> 0 <= Y -> 0 <= A -> 1 <= G -> 0 <= U ->
  (* e: error of y; P: error of the product against yh x; Q: error of the sum *)
  e <= (G - 1) * Y + U -> yh <= Y + e -> P <= k * (yh * X) + t + e * X -> Q <= u * (Y * X + A + P) + P ->
  Q <= (G * g - 1) * (Y * X + A) + (U * g * X + (1 + u) * t).
Proof.
  intros HX HY HA HG HU He' Hyh HP HQ. pose proof (u_pos prec) as UP. pose proof k_nonneg as KP. pose proof t_nonneg as TP.
  assert (H1 : yh <= G * Y + U) by lra.
  assert (H2 : k * (yh * X) <= k * ((G * Y + U) * X)).
  { apply Rmult_le_compat_l; [exact KP|]. apply Rmult_le_compat_r; assumption. }
  assert (H3 : e * X <= ((G - 1) * Y + U) * X) by (apply Rmult_le_compat_r; assumption).
  set (P' := k * ((G * Y + U) * X) + t + ((G - 1) * Y + U) * X).
  assert (H4 : P <= P') by (unfold P'; lra).
  assert (H5 : Q <= u * (Y * X + A + P') + P').
  { eapply Rle_trans; [exact HQ|]. apply Rplus_le_compat; [|exact H4]. apply Rmult_le_compat_l; lra. }
  eapply Rle_trans; [exact H5|].
  assert (H6 : 0 <= (G * g - 1 - u) * A).
  { apply Rmult_le_pos; [|exact HA]. assert (1 * 1 * (1 + u) <= G * (1 + k) * (1 + u)).
    { apply Rmult_le_compat_r; [lra|]. apply Rmult_le_compat; lra. } lra. }
  unfold P'. apply Rminus_le. 
  match goal with |- ?l <= 0 => replace l with (- ((G * g - 1 - u) * A)) by ring end. lra.
Qed.

Definition cufl (X : R) (n : nat) : R := (1 + u) * t * rsum n (fun i => g ^ i * X ^ i).
Lemma g_ge_1 : 1 <= g.
Proof. pose proof (u_pos prec). pose proof k_nonneg. nra. Qed.
Lemma cufl_nonneg X n : 0 <= X -> 0 <= cufl X n.
Proof.
  intros HX. pose proof (u_pos prec). pose proof t_nonneg. pose proof g_ge_1.
  apply Rmult_le_pos; [apply Rmult_le_pos; lra|]. apply rsum_nonneg. intros.
  apply Rmult_le_pos; apply pow_le; lra.
Qed.
Lemma cufl_S X n : cufl X (S n) = cufl X n * g * X + (1 + u) * t.
Proof.
  unfold cufl. rewrite rsum_shift. rewrite (rsum_ext n _ (fun i => g * X * (g ^ i * X ^ i))) by (intros; cbn [Rpow_def.pow]; ring).
  rewrite rsum_scal. cbn [Rpow_def.pow]. ring.
Qed.

Lemma czero_mul x : cfinite x -> cfinite (smul CS (sz CS) x) /\ cval (smul CS (sz CS) x) = c0.
Proof.
  destruct x as [c d]. intros [Fc Fd]. cbn [re im] in Fc, Fd.
  destruct (zero_value prec emax) as [Z1 Z2].
  destruct (mul_0_l prec emax _ c Z1 Z2 Fc) as [F1 E1]. destruct (mul_0_l prec emax _ d Z1 Z2 Fd) as [F2 E2].
  destruct (add_0_l prec emax _ (fl_mul prec emax (fl_int prec emax 0) c) E2 F2 F1) as [_ _].
  assert (F3 : is_finite (Bopp (fl_mul prec emax (fl_int prec emax 0) d)) = true) by (rewrite opp_finite; exact F2).
  destruct (add_0_l prec emax _ _ E1 F1 F3) as [F4 E4]. rewrite B2R_Bopp, E2, Ropp_0 in E4.
  destruct (add_0_l prec emax _ _ E2 F2 F1) as [F5 E5]. rewrite E1 in E5.
  rewrite <- (sub_add prec emax) in F4, E4.
  split; [split; [exact F4|exact F5]|]. unfold cval, c0. f_equal; [exact E4|exact E5].
Qed.
Lemma cadd_zero_l x y : cval x = c0 -> cfinite x -> cfinite y -> cval (sadd CS x y) = cval y.
Proof.
  destruct x as [a b], y as [c d]. intros E [Fa Fb] [Fc Fd]. unfold cval in E |- *. cbn [re im] in *. injection E as Ea Eb.
  f_equal; [apply (add_0_l prec emax a c Ea Fa Fc)|apply (add_0_l prec emax b d Eb Fb Fd)].
Qed.

Lemma c_horner_finite p x : cfinite (c_horner p x) -> Forall cfinite p /\ (p <> [] -> cfinite x).
Proof.
  induction p as [|a p IH]; intros H; [split; [constructor|congruence]|].
  cbn [c_horner] in H. destruct (cadd_error _ _ H) as (F1 & F2 & _). destruct (cmul_finite _ _ F1) as [F3 F4].
  split; [constructor; [exact F2|apply IH, F3]|intros _; exact F4].
Qed.

Lemma c_horner_error p x : cfinite (c_horner p x) ->
  let n := (length p - 1)%nat in
  cnorm (csub (cval (c_horner p x)) (ceval p (cval x)))
  <= (g ^ n - 1) * cabs_eval p (cnorm (cval x)) + cufl (cnorm (cval x)) n.
Proof.
  pose proof t_nonneg as TP. intros F. cbv zeta. revert F. induction p as [|a p IH]; intros F.
  - cbn [length Nat.sub]. unfold ceval, cabs_eval, cufl. cbn [length csum rsum c_horner Rpow_def.pow].
    unfold cval. cbn [re im sz complex_sig]. change (sz FS) with (fl_int prec emax 0).
    rewrite (proj1 (zero_value prec emax)). unfold csub, c0. cbn [fst snd]. rewrite Rminus_0_r.
    change (0, 0) with c0. rewrite cnorm_c0. lra.
  - destruct p as [|b p].
    + clear IH. cbn [c_horner] in *. destruct (cadd_error _ _ F) as (F1 & F2 & _). destruct (cmul_finite _ _ F1) as [_ F4].
      destruct (czero_mul x F4) as [_ E0]. rewrite (cadd_zero_l _ _ E0 F1 F2).
      cbn [length Nat.sub]. rewrite ceval_cons. unfold ceval, cabs_eval, cufl. cbn [length csum rsum Rpow_def.pow].
      replace (csub (cval a) (cadd (cmul c0 (cval x)) (cval a))) with c0; [rewrite cnorm_c0; lra|].
      unfold csub, cadd, cmul, c0. cbn [fst snd]. f_equal; ring.
    + set (q := b :: p) in *. change (c_horner (a :: q) x) with (sadd CS (smul CS (c_horner q x) x) a) in *.
      destruct (cadd_error _ _ F) as (F1 & F2 & E1). destruct (cmul_finite _ _ F1) as [F3 F4].
      pose proof (cmul_error _ _ F1) as E2. specialize (IH F3).
      replace (length (a :: q) - 1)%nat with (S (length p)) by (simpl; lia).
      replace (length q - 1)%nat with (length p) in IH by (simpl; lia).
      rewrite ceval_cons, cabs_cons, cufl_S.
      replace (g ^ S (length p)) with (g ^ length p * g) by (cbn [Rpow_def.pow]; ring).
      set (y := ceval q (cval x)) in *. set (yh := c_horner q x) in *. set (P := smul CS yh x) in *.
      apply (chorner_step (cabs_eval q (cnorm (cval x))) (cnorm (cval x)) (cnorm (cval a)) (g ^ length p)
               (cufl (cnorm (cval x)) (length p)) (cnorm (csub (cval yh) y)) (cnorm (cval yh))
               (cnorm (csub (cval P) (cmul y (cval x))))).
      * apply cnorm_nonneg.
      * eapply Rle_trans; [apply cnorm_nonneg|apply (ceval_le q (cval x))].
      * apply cnorm_nonneg.
      * apply pow_ge_1, g_ge_1.
      * apply cufl_nonneg, cnorm_nonneg.
      * exact IH.
      * eapply Rle_trans; [apply (cnorm_le_diff _ y)|]. apply Rplus_le_compat_r. apply ceval_le.
      * eapply Rle_trans; [apply (csub_triangle _ (cmul (cval yh) (cval x)))|]. apply Rplus_le_compat; [exact E2|].
        replace (csub (cmul (cval yh) (cval x)) (cmul y (cval x))) with (cmul (csub (cval yh) y) (cval x)).
        2:{ unfold csub, cmul. cbn [fst snd]. f_equal; ring. }
        rewrite cnorm_mul. lra.
      * eapply Rle_trans; [apply (csub_triangle _ (cadd (cval P) (cval a)))|]. apply Rplus_le_compat.
        -- eapply Rle_trans; [exact E1|]. apply Rmult_le_compat_l; [apply Rlt_le, u_pos|].
           eapply Rle_trans; [apply cnorm_triangle|].
           pose proof (cnorm_le_diff (cval P) (cmul y (cval x))) as H1. rewrite cnorm_mul in H1.
           assert (cnorm y * cnorm (cval x) <= cabs_eval q (cnorm (cval x)) * cnorm (cval x))
             by (apply Rmult_le_compat_r; [apply cnorm_nonneg|apply ceval_le]). lra.
        -- replace (csub (cadd (cval P) (cval a)) (cadd (cmul y (cval x)) (cval a))) with (csub (cval P) (cmul y (cval x))); [lra|].
           unfold csub, cadd. cbn [fst snd]. f_equal; ring.
Qed.

(** ** Sums of products *)
Section Dot.
Context (a b : nat -> complex fl).
Notation exact n := (csum n (fun i => cmul (cval (a i)) (cval (b i)))).
Notation mags n := (rsum n (fun i => cnorm (cval (a i)) * cnorm (cval (b i)))).

Lemma cexact_le n : cnorm (exact n) <= mags n.
Proof. eapply Rle_trans; [apply csum_norm|]. apply rsum_le. intros. rewrite cnorm_mul. lra. Qed.
Lemma cmags_nonneg n : 0 <= mags n.
Proof. eapply Rle_trans; [apply cnorm_nonneg|apply cexact_le]. Qed.

Lemma cdot_next n s : cfinite (sadd CS s (smul CS (a (S n)) (b (S n)))) ->
  cnorm (csub (cval s) (exact (S n))) <= cdot_bound prec emax (S n) (mags (S n)) ->
  cnorm (csub (cval (sadd CS s (smul CS (a (S n)) (b (S n))))) (exact (S (S n)))) <= cdot_bound prec emax (S (S n)) (mags (S (S n))).
Proof.
  intros F B. destruct (cadd_error _ _ F) as (_ & F2 & E1). pose proof (cmul_error _ _ F2) as E2.
  set (P := smul CS (a (S n)) (b (S n))) in *. set (ab := cmul (cval (a (S n))) (cval (b (S n)))).
  change (exact (S (S n))) with (cadd (exact (S n)) ab).
  change (mags (S (S n))) with (mags (S n) + cnorm (cval (a (S n))) * cnorm (cval (b (S n)))).
  set (e := exact (S n)) in *. pose proof (cexact_le (S n)) as He'. fold e in He'. set (M := mags (S n)) in *.
  set (m := cnorm (cval (a (S n))) * cnorm (cval (b (S n)))) in *.
  assert (Em : cnorm ab = m) by (unfold ab, m; apply cnorm_mul).
  fold ab in E2.
  pose proof (u_pos prec) as UP. pose proof k_nonneg as KP. pose proof t_nonneg as TP.
  assert (0 <= M) by apply cmags_nonneg.
  assert (0 <= m) by (apply Rmult_le_pos; apply cnorm_nonneg).
  assert (D : cnorm (csub (cadd (cval s) (cval P)) (cadd e ab)) <= cnorm (csub (cval s) e) + cnorm (csub (cval P) ab)).
  { replace (csub (cadd (cval s) (cval P)) (cadd e ab)) with (cadd (csub (cval s) e) (csub (cval P) ab)); [apply cnorm_triangle|].
    unfold csub, cadd. cbn [fst snd]. f_equal; ring. }
  assert (S1 : cnorm (cadd e ab) <= M + m) by (eapply Rle_trans; [apply cnorm_triangle|]; lra).
  pose proof (cnorm_le_diff (cadd (cval s) (cval P)) (cadd e ab)) as S2.
  eapply Rle_trans; [apply (csub_triangle _ (cadd (cval s) (cval P)))|].
  set (d := cnorm (csub (cadd (cval s) (cval P)) (cadd e ab))) in *.
  assert (E3 : u * cnorm (cadd (cval s) (cval P)) <= u * (M + m + d)) by (apply Rmult_le_compat_l; lra).
  unfold cdot_bound in *. cbn [Nat.sub] in *. rewrite Nat.sub_0_r in B.
  set (w := (1 + u) ^ n) in *. replace ((1 + u) ^ S n) with ((1 + u) * w) by reflexivity.
  assert (W : 1 <= w) by (apply pow_ge_1; lra).
  set (B1 := ((1 + k) * w - 1) * M + INR (S n) * w * t) in *.
  assert (Hd : d <= B1 + (k * m + t)) by lra.
  assert (Hf : u * (M + m + d) + d <= u * (M + m) + (1 + u) * (B1 + (k * m + t))).
  { replace (u * (M + m + d) + d) with (u * (M + m) + (1 + u) * d) by ring. apply Rplus_le_compat_l, Rmult_le_compat_l; lra. }
  eapply Rle_trans; [apply Rplus_le_compat_r, E1|]. eapply Rle_trans; [apply Rplus_le_compat_r, E3|].
  eapply Rle_trans; [exact Hf|]. unfold B1.
  rewrite (S_INR (S n)). apply Rminus_le.
  match goal with |- ?l <= 0 => replace l with (- ((w - 1) * ((1 + u) * t) + (w - 1) * ((1 + u) * (1 + k) * m))) by ring end.
  assert (0 <= (w - 1) * ((1 + u) * t)) by (apply Rmult_le_pos; [lra|apply Rmult_le_pos; lra]).
  assert (0 <= (w - 1) * ((1 + u) * (1 + k) * m)) by (apply Rmult_le_pos; [lra|apply Rmult_le_pos; [apply Rmult_le_pos; lra|lra]]).
  lra.
Qed.

Definition cdot n : complex fl := sum_n CS n (fun i => smul CS (a i) (b i)).
Fixpoint cdot1 n : complex fl :=
  match n with
  | O => smul CS (a 0) (b 0)
  | S n' => sadd CS (cdot1 n') (smul CS (a n) (b n))
  end.

Lemma cdot_one : cfinite (smul CS (a 0) (b 0)) ->
  cnorm (csub (cval (smul CS (a 0) (b 0))) (exact 1)) <= cdot_bound prec emax 1 (mags 1).
Proof.
  intros F. pose proof (cmul_error _ _ F) as E. unfold cdot_bound. cbn [csum rsum Nat.sub Rpow_def.pow INR].
  rewrite cadd_0_l. lra.
Qed.

Lemma cdot_error n : cfinite (cdot n) -> cnorm (csub (cval (cdot n)) (exact n)) <= cdot_bound prec emax n (mags n).
Proof.
  pose proof (u_pos prec) as UP. pose proof k_nonneg as KP. induction n as [|n IH]; intros F.
  - unfold cdot, cdot_bound. cbn [csum rsum sum_n INR]. unfold cval. cbn [re im sz complex_sig].
    change (sz FS) with (fl_int prec emax 0). rewrite (proj1 (zero_value prec emax)).
    unfold csub, c0. cbn [fst snd]. rewrite Rminus_0_r. change (0, 0) with c0. rewrite cnorm_c0. lra.
  - destruct n as [|n].
    + change (cdot 1) with (sadd CS (sz CS) (smul CS (a 0) (b 0))) in *. destruct (cadd_error _ _ F) as (F0 & F2 & _).
      rewrite cadd_zero_l; [apply cdot_one, F2| |exact F0|exact F2].
      unfold cval. cbn [re im sz complex_sig]. change (sz FS) with (fl_int prec emax 0).
      rewrite (proj1 (zero_value prec emax)). reflexivity.
    + change (cdot (S (S n))) with (sadd CS (cdot (S n)) (smul CS (a (S n)) (b (S n)))) in *.
      apply cdot_next; [exact F|]. apply IH. apply (cadd_error _ _ F).
Qed.
Lemma cdot1_error n : cfinite (cdot1 n) -> cnorm (csub (cval (cdot1 n)) (exact (S n))) <= cdot_bound prec emax (S n) (mags (S n)).
Proof.
  induction n as [|n IH]; intros F.
  - apply cdot_one, F.
  - apply cdot_next; [exact F|]. apply IH. apply (cadd_error _ _ F).
Qed.
End Dot.
End Fmt.
