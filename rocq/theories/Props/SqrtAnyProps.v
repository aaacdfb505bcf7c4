(** Property C72, continued: the square root when only |z|, and not each component, is of moderate size. *)
From Coq Require Import List ZArith Reals Bool Lia Lra Psatz.
From Flocq Require Import Core.Core IEEE754.BinarySingleNaN Mult_error.
From Verif Require Import Base.Outcome Model.Traits Model.Float Model.Complex Spec.FloatErr Spec.ComplexErr
  Proofs.FloatErr Proofs.FloatRound Proofs.FloatRange Proofs.FloatSqrt Proofs.SqrtSized Proofs.ComplexErr Proofs.ComplexUndo Props.FloatRangeProps Props.FloatSqrtProps.
Local Open Scope R_scope.

Section Fmt.
Context (prec emax : Z) {Hp : Prec_gt_0 prec} {He : Prec_lt_emax prec emax} (libm : FunOps (binary_float prec emax)).
Notation fl := (binary_float prec emax).
Notation FF := (float_field prec emax).
Notation FE := (float_fun prec emax libm).
Notation u := (unit_roundoff prec).
Notation eta := (underflow_unit prec emax).

Lemma twice_any k (b : fl) : (0 <= k)%Z -> (2 * k + 10 <= emax)%Z -> (11 <= prec)%Z -> is_finite b = true -> Rabs (B2R b) <= bpow radix2 k ->
  let t := fl_mul prec emax (Babs b) (fl_add prec emax (fl_int prec emax 1) (fl_int prec emax 1)) in
  is_finite t = true /\ B2R t = 2 * Rabs (B2R b).
Proof.
  intros H0 Hk Hprec F UB t. destruct (two_value prec emax Hprec k H0 Hk) as [F2 E2].
  pose proof (Q_facts emax k H0 Hk) as (Q1 & Q2 & _).
  pose proof (Rabs_pos (B2R b)).
  destruct (mul_round prec emax (Babs b) (fl_add prec emax (fl_int prec emax 1) (fl_int prec emax 1))) as [Ft Et].
  { rewrite is_finite_Babs. exact F. } { exact F2. }
  { rewrite B2R_Babs, E2, Rabs_pos_eq by lra. nra. }
  split; [exact Ft|]. unfold t. rewrite Et, B2R_Babs, E2, Rmult_comm.
  rewrite round_generic; [reflexivity|apply valid_rnd_round_mode|].
  rewrite Rmult_comm. change 2 with (bpow radix2 1). rewrite <- B2R_Babs.
  apply (Mult_error.mult_bpow_pos_exact_FLT radix2 (SpecFloat.emin prec emax) prec).
  - apply generic_format_B2R. - lia.
Qed.

(** For every z with 2^-k <= |z| <= 2^k, however small one of its components: both components of the computed root exist,
    are finite and within 12 u, relatively, plus half the least subnormal number of the principal root's. *)
Theorem C72_sqrt_any_component : forall k (z : complex fl),
  (11 <= prec)%Z -> (0 <= k)%Z -> (2 * k + 10 <= emax)%Z -> cfinite z -> bpow radix2 (- k) <= cnorm (cval z) <= bpow radix2 k ->
  exists w p q, complex_sqrt FF FE z = Ok w
  /\ principal_root (B2R (re z)) (B2R (im z)) p q
  /\ is_finite (re w) = true /\ Rabs (B2R (re w) - p) <= 12 * u * Rabs p + eta
  /\ is_finite (im w) = true /\ Rabs (B2R (im w) - q) <= 12 * u * Rabs q + eta.
Proof.
  intros k [a b] Hprec Hk0 Hk [Ha Hb] HZ. cbn [re im] in *. unfold cnorm, cval in HZ. cbn [fst snd re im] in HZ. rewrite bpow_opp in HZ.
  assert (M : moderate prec emax k a b) by (split; [exact Ha|split; [exact Hb|exact HZ]]).
  assert (T0 : 0 < eta) by apply bpow_gt_0.
  destruct (modulus_facts prec emax k Hk0 Hk a b M) as (Z0 & Z2 & _ & Zb & _).
  destruct (twice_any k b Hk0 Hk Hprec Hb) as [Ft Et]; [lra|].
  pose proof (root_exists (B2R a) (B2R b) _ (proj1 Z0) Z2) as RE. cbn zeta in RE.
  set (Z := sqrt (B2R a * B2R a + B2R b * B2R b)) in *.
  set (one := fl_int prec emax 1) in *. set (two := fl_add prec emax one one) in *.
  set (A := Bsqrt mode_NE (fl_norm2 prec emax a b)).
  set (close := fun v w => Rabs (v - w) <= 12 * u * w + eta).
  assert (RC : forall v w, rel v w (12 * u) -> close v w) by (unfold rel, close; intros; lra).
  (* the two nonnegative parts, then the sign *)
  assert (Fin : forall r i : fl, is_finite r = true -> close (B2R r) (sqrt ((Z + B2R a) * / 2)) ->
     is_finite i = true -> close (B2R i) (sqrt ((Z - B2R a) * / 2)) ->
     exists w p q, bind (if Bltb b (fl_int prec emax 0) then Ok (Bopp i) else Ok i) (fun i' => Ok (complex_new r i')) = Ok w
     /\ principal_root (B2R a) (B2R b) p q
     /\ is_finite (re w) = true /\ Rabs (B2R (re w) - p) <= 12 * u * Rabs p + eta
     /\ is_finite (im w) = true /\ Rabs (B2R (im w) - q) <= 12 * u * Rabs q + eta).
  { intros r i Fr Hr Fi Hi. unfold close in *.
    rewrite (Bltb_correct prec emax b (fl_int prec emax 0) Hb eq_refl). change (B2R (fl_int prec emax 0)) with 0.
    destruct (Rlt_dec (B2R b) 0) as [S|S].
    - rewrite Rlt_bool_true by exact S. eexists _, _, _. split; [reflexivity|]. split; [exact RE|]. cbn [re im complex_new].
      split; [exact Fr|]. split; [rewrite (Rabs_pos_eq (sqrt _)) by apply sqrt_pos; exact Hr|].
      split; [rewrite opp_finite; exact Fi|]. rewrite B2R_Bopp, Rabs_Ropp, (Rabs_pos_eq (sqrt _)) by apply sqrt_pos.
      rewrite <- Rabs_Ropp. replace (- (- B2R i - - sqrt ((Z - B2R a) * / 2))) with (B2R i - sqrt ((Z - B2R a) * / 2)) by ring. exact Hi.
    - rewrite Rlt_bool_false by lra. eexists _, _, _. split; [reflexivity|]. split; [exact RE|]. cbn [re im complex_new].
      split; [exact Fr|]. split; [rewrite (Rabs_pos_eq (sqrt _)) by apply sqrt_pos; exact Hr|].
      split; [exact Fi|]. rewrite (Rabs_pos_eq (sqrt _)) by apply sqrt_pos. exact Hi. }
  unfold complex_sqrt.
  cbn [r_add r_sub r_mul r_one r_zero r_neg f_ring f_div float_field float_ring fn_abs fn_leb fn_ltb fn_sqrt float_fun bind re im].
  unfold complex_abs_ref, complex_sqr_norm.
  cbn [r_add r_sub r_mul r_one r_zero r_neg f_ring f_div float_field float_ring fn_abs fn_leb fn_ltb fn_sqrt float_fun bind re im].
  fold one. fold two. change (fl_add prec emax (fl_mul prec emax a a) (fl_mul prec emax b b)) with (fl_norm2 prec emax a b). fold A.
  rewrite (Bleb_correct prec emax (Babs a)) by (rewrite ?is_finite_Babs; try exact Ha; exact Ft).
  rewrite B2R_Babs. fold one in Et. fold two in Et. rewrite Et.
  destruct (Rle_dec (Rabs (B2R a)) (2 * Rabs (B2R b))) as [H|H].
  - rewrite Rle_bool_true by exact H. cbn [bind].
    destruct (parts1 prec emax Hprec k Hk0 Hk a b M H) as (F1 & R1 & F2 & R2).
    apply Fin; auto.
  - rewrite Rle_bool_false by lra.
    destruct (parts2 prec emax Hprec k Hk0 Hk a b M) as (F1 & R1 & F2 & R2); [lra|].
    rewrite (Bleb_correct prec emax (fl_int prec emax 0) a eq_refl Ha). change (B2R (fl_int prec emax 0)) with 0.
    destruct (Rle_dec 0 (B2R a)) as [S|S].
    + rewrite Rle_bool_true by exact S. cbn [bind]. rewrite (Rabs_pos_eq (B2R a)) in R1, R2 by exact S. apply Fin; auto.
    + rewrite Rle_bool_false by lra. cbn [bind].
      rewrite (Rabs_left (B2R a)) in R1, R2 by lra. apply Fin; auto.
      replace (Z + B2R a) with (Z - - B2R a) by ring. exact R2.
Qed.


(** Normwise: the computed root is within 12.1 u of the principal root, relative to its absolute value. *)
Theorem C72_sqrt_normwise : forall k (z : complex fl),
  (11 <= prec)%Z -> (0 <= k)%Z -> (2 * k + 10 <= emax)%Z -> cfinite z -> bpow radix2 (- k) <= cnorm (cval z) <= bpow radix2 k ->
  exists w p q, complex_sqrt FF FE z = Ok w /\ principal_root (B2R (re z)) (B2R (im z)) p q /\ cfinite w
  /\ cnorm (csub (cval w) (p, q)) <= 121 / 10 * u * cnorm (p, q) /\ cnorm (p, q) = sqrt (cnorm (cval z)).
Proof.
  intros k z Hprec Hk0 Hk Fz HZ. destruct (C72_sqrt_any_component k z Hprec Hk0 Hk Fz HZ) as (w & p & q & E & R & F1 & H1 & F2 & H2).
  exists w, p, q. split; [exact E|]. split; [exact R|]. split; [split; assumption|].
  assert (T0 : 0 < eta) by apply bpow_gt_0. pose proof (u_pos prec) as U.
  pose proof (Q_facts emax k Hk0 Hk) as (Q1 & _ & Q3 & L0). set (Q := bpow radix2 k) in *. set (lo := bpow radix2 (2 - emax)) in *.
  assert (N : cnorm (p, q) = sqrt (cnorm (cval z))).
  { destruct R as (A & B & _). unfold cnorm, cval. cbn [fst snd]. f_equal. rewrite <- A, <- B.
    replace ((p * p - q * q) * (p * p - q * q) + 2 * p * q * (2 * p * q)) with (Rsqr (p * p + q * q)) by (unfold Rsqr; ring).
    rewrite sqrt_Rsqr by nra. reflexivity. }
  split; [|exact N].
  pose proof (cnorm_perturb p q (B2R (re w)) (B2R (im w)) (12 * u) eta ltac:(lra) ltac:(lra) H1 H2) as P.
  change (cval w) with (B2R (re w), B2R (im w)). eapply Rle_trans; [exact P|].
  assert (L : / Q <= cnorm (p, q)).
  { rewrite bpow_opp in HZ. fold Q in HZ. rewrite N. pose proof (sqrt_pos (cnorm (cval z))) as S0. assert (iQ : 0 < / Q <= 1).
    { split; [apply Rinv_0_lt_compat; lra|]. rewrite <- Rinv_1. apply Rinv_le_contravar; lra. }
    pose proof (sqrt_sqrt (cnorm (cval z)) ltac:(lra)) as SS. apply Rnot_lt_le. intros C.
    assert (sqrt (cnorm (cval z)) * sqrt (cnorm (cval z)) < / Q * / Q) by (apply Rmult_le_0_lt_compat; lra).
    assert (/ Q * / Q <= 1 * / Q) by (apply Rmult_le_compat_r; lra). lra. }
  assert (QQ : 1 <= Q * Q) by nra.
  assert (LL : lo * 256 <= / Q).
  { apply Rmult_le_reg_r with (Q * Q); [lra|]. replace (/ Q * (Q * Q)) with Q by (field; lra). lra. }
  assert (ET : eta <= u * (/ 256 * cnorm (p, q))).
  { rewrite (eta_lo prec emax). fold lo. apply Rmult_le_compat_l; lra. }
  lra.
Qed.

(** A float that is not below -eta is not negative. *)
Lemma sign_of (x : fl) : (- eta <= B2R x -> 0 <= B2R x) /\ (B2R x <= eta -> B2R x <= 0).
Proof.
  assert (G : forall v, generic_format radix2 (SpecFloat.fexp prec emax) v -> 0 < v -> 2 * eta <= v).
  { intros v Gv V. replace (2 * eta) with (bpow radix2 (SpecFloat.emin prec emax)).
    - apply (generic_format_ge_bpow radix2 (SpecFloat.fexp prec emax)); [|exact V|exact Gv]. intros e. unfold SpecFloat.fexp. apply Z.le_max_r.
    - unfold underflow_unit. change 2 with (bpow radix2 1) at 1. rewrite <- bpow_plus. unfold SpecFloat.emin. f_equal. ring. }
  assert (T0 : 0 < eta) by apply bpow_gt_0.
  assert (GX : generic_format radix2 (SpecFloat.fexp prec emax) (B2R x)) by apply generic_format_B2R.
  split; intros H; apply Rnot_lt_le; intros C.
  - specialize (G (- B2R x) (generic_format_opp _ _ _ GX)). lra.
  - specialize (G (B2R x) GX). lra.
Qed.

(** The computed root is in the closed right half plane and never on the other side of the real axis. *)
Theorem C72_sqrt_closed_half_plane : forall k (z : complex fl),
  (11 <= prec)%Z -> (0 <= k)%Z -> (2 * k + 10 <= emax)%Z -> cfinite z -> bpow radix2 (- k) <= cnorm (cval z) <= bpow radix2 k ->
  exists w, complex_sqrt FF FE z = Ok w /\ 0 <= B2R (re w)
  /\ (B2R (im z) < 0 -> B2R (im w) <= 0) /\ (0 <= B2R (im z) -> 0 <= B2R (im w)).
Proof.
  intros k z Hprec Hk0 Hk Fz HZ. destruct (C72_sqrt_any_component k z Hprec Hk0 Hk Fz HZ) as (w & p & q & E & (A & B & P & S) & _ & H1 & _ & H2).
  exists w. split; [exact E|]. pose proof (u_small prec Hprec) as U.
  assert (C : forall t v, Rabs (v - t) <= 12 * u * Rabs t + eta -> (0 <= t -> - eta <= v) /\ (t <= 0 -> v <= eta)).
  { intros t v H. assert (12 * u * Rabs t <= 1 * Rabs t) by (apply Rmult_le_compat_r; [apply Rabs_pos|lra]). apply Rabs_le_inv in H. split; intros T.
    - rewrite (Rabs_pos_eq t T) in *. lra.
    - rewrite (Rabs_left1 t T) in *. lra. }
  destruct (C _ _ H1) as (R1 & _). destruct (C _ _ H2) as (I1 & I2).
  split; [apply sign_of, R1, P|]. split; intros Hb; apply sign_of; [apply I2|apply I1].
  - destruct P as [P|P]; [apply Rnot_lt_le; intros Q|subst p; lra]. assert (0 < p * q) by (apply Rmult_lt_0_compat; lra). lra.
  - destruct P as [P|P]; [apply Rnot_lt_le; intros Q|apply S; auto]. assert (0 < p * - q) by (apply Rmult_lt_0_compat; lra). lra.
Qed.
End Fmt.

(** f32 and f64: every finite z with 2^-59 <= |z| <= 2^59, respectively 2^-507 <= |z| <= 2^507. *)
Corollary C72_sqrt_any_f32 : forall libm (z : complex f32), cfinite z -> bpow radix2 (-59) <= cnorm (cval z) <= bpow radix2 59 ->
  exists w p q, complex_sqrt (float_field 24 128) (float_fun 24 128 libm) z = Ok w
  /\ principal_root (B2R (re z)) (B2R (im z)) p q /\ cfinite w
  /\ Rabs (B2R (re w) - p) <= 12 * / 2 ^ 24 * Rabs p + bpow radix2 (-150) /\ Rabs (B2R (im w) - q) <= 12 * / 2 ^ 24 * Rabs q + bpow radix2 (-150).
Proof.
  intros libm z F HZ.
  destruct (C72_sqrt_any_component 24 128 libm 59 z) as (w & p & q & E & R & F1 & H1 & F2 & H2); try lia; try assumption.
  exists w, p, q. replace (/ 2 ^ 24) with (unit_roundoff 24) by (unfold unit_roundoff; simpl; lra). repeat split; try assumption; apply R.
Qed.
Corollary C72_sqrt_any_f64 : forall libm (z : complex f64), cfinite z -> bpow radix2 (-507) <= cnorm (cval z) <= bpow radix2 507 ->
  exists w p q, complex_sqrt f64_field (float_fun 53 1024 libm) z = Ok w
  /\ principal_root (B2R (re z)) (B2R (im z)) p q /\ cfinite w
  /\ Rabs (B2R (re w) - p) <= 12 * / 2 ^ 53 * Rabs p + bpow radix2 (-1075) /\ Rabs (B2R (im w) - q) <= 12 * / 2 ^ 53 * Rabs q + bpow radix2 (-1075).
Proof.
  intros libm z F HZ.
  destruct (C72_sqrt_any_component 53 1024 libm 507 z) as (w & p & q & E & R & F1 & H1 & F2 & H2); try lia; try assumption.
  exists w, p, q. replace (/ 2 ^ 53) with (unit_roundoff 53) by (unfold unit_roundoff; simpl; lra). repeat split; try assumption; apply R.
Qed.

(** The absolute term is needed: the root of 1 + 2^-1074 i is computed as 1, with imaginary part zero instead of 2^-1075,
    and the root of 1 - 2^-1074 i as 1 too, so the computed roots no longer tell the two half planes apart. *)
Definition least (s : bool) : f64 := @B754_finite 53 1024 s 1 (-1074) eq_refl.
Theorem C72_sqrt_tiny_component_refuted : forall (libm : FunOps f64) (s : bool),
  B2R (least s) = (if s then - bpow radix2 (-1074) else bpow radix2 (-1074))
  /\ on_ok (complex_sqrt f64_field (float_fun 53 1024 libm) (Cx (f64_of_Z 1) (least s)))
       (fun w => Beqb (re w) (f64_of_Z 1) && Beqb (im w) (f64_of_Z 0)) = true.
Proof.
  intros libm s. split.
  - destruct s; unfold least, B2R, F2R; cbn [Fnum Fexp cond_Zopp Z.opp]; ring.
  - destruct s; vm_compute; reflexivity.
Qed.

(** A concrete case no earlier theorem of C72 covers: 1 + 2^-1074 i. *)
Example C72_case_any : cfinite (Cx (f64_of_Z 1) (least false)) /\ bpow radix2 (-507) <= cnorm (cval (Cx (f64_of_Z 1) (least false))) <= bpow radix2 507
  /\ ~ within 507 (least false).
Proof.
  assert (L : B2R (least false) = bpow radix2 (-1074)) by (apply (proj1 (C72_sqrt_tiny_component_refuted
    {| fn_exp := fun x => Ok x; fn_sin := fun x => Ok x; fn_cos := fun x => Ok x; fn_sinh := fun x => Ok x; fn_cosh := fun x => Ok x;
       fn_ln := fun x => Ok x; fn_atan2 := fun y x => Ok y; fn_sqrt := fun x => Ok x; fn_abs := fun x => Ok x; fn_leb := Bleb; fn_ltb := Bltb |} false))).
  assert (A : 0 < bpow radix2 (-1074) < bpow radix2 (-507)) by (split; [apply bpow_gt_0|apply bpow_lt; lia]).
  assert (B : bpow radix2 (-507) <= / 2) by (change (/ 2) with (bpow radix2 (-1)); apply bpow_le; lia).
  assert (G : 4 <= bpow radix2 507) by (change 4 with (bpow radix2 2); apply bpow_le; lia).
  split; [split; reflexivity|]. split.
  - unfold cnorm, cval. cbn [fst snd re im]. rewrite L. replace (B2R (f64_of_Z 1)) with 1 by (vm_compute; lra). set (x := bpow radix2 (-1074)) in *.
    assert (X : 0 < x <= / 2) by lra. assert (XX : 0 <= x * x <= / 2 * / 2) by (split; [|apply Rmult_le_compat]; nra). split.
    + apply Rle_trans with (sqrt 1); [rewrite sqrt_1; lra|apply sqrt_le_1_alt; lra].
    + apply Rle_trans with (sqrt (2 * 2)); [apply sqrt_le_1_alt; lra|rewrite sqrt_square; lra].
  - intros [_ [H|H]]; rewrite L in H; [lra|]. rewrite Rabs_pos_eq in H by lra. change (- (507))%Z with (-507)%Z in H. lra.
Qed.
Print Assumptions C72_sqrt_any_component.
Print Assumptions C72_sqrt_normwise.
Print Assumptions C72_sqrt_closed_half_plane.
Print Assumptions C72_sqrt_any_f32.
Print Assumptions C72_sqrt_any_f64.
Print Assumptions C72_sqrt_tiny_component_refuted.
