(** Property C72: accuracy of the square root of Complex<f32> and Complex<f64>. *)
From Coq Require Import List ZArith Reals Bool Lia Lra Psatz.
From Flocq Require Import Core.Core IEEE754.BinarySingleNaN Mult_error.
From Verif Require Import Base.Outcome Model.Traits Model.Float Model.Complex Spec.FloatErr
  Proofs.FloatErr Proofs.FloatRound Proofs.FloatRange Proofs.FloatSqrt Props.FloatRangeProps.
Local Open Scope R_scope.

(** The principal square root p + iq of a + ib. *)
Definition principal_root (a b p q : R) : Prop :=
  p * p - q * q = a /\ 2 * p * q = b /\ 0 <= p /\ (p = 0 -> 0 <= q).

(** A finite number that is zero or of magnitude between 2^-k and 2^k. *)
Definition within {prec emax} (k : Z) (x : binary_float prec emax) : Prop :=
  is_finite x = true /\ (B2R x = 0 \/ bpow radix2 (- k) <= Rabs (B2R x) <= bpow radix2 k).

Lemma root_exists a b Z : 0 <= Z -> Z * Z = a * a + b * b ->
  let q := sqrt ((Z - a) * / 2) in
  principal_root a b (sqrt ((Z + a) * / 2)) (if Rlt_dec b 0 then - q else q).
Proof.
  intros HZ E q. assert (A : Rabs a <= Z).
  { apply Rnot_lt_le. intros C. assert (Ea : a * a = Rabs a * Rabs a) by (rewrite <- Rabs_mult; symmetry; apply Rabs_pos_eq; nra). nra. }
  apply Rabs_le_inv in A. set (p := sqrt ((Z + a) * / 2)).
  assert (Ep : p * p = (Z + a) * / 2) by (apply sqrt_sqrt; lra).
  assert (Eq : q * q = (Z - a) * / 2) by (apply sqrt_sqrt; lra).
  assert (Pp : 0 <= p) by apply sqrt_pos. assert (Pq : 0 <= q) by apply sqrt_pos.
  assert (Epq : p * q = Rabs b / 2).
  { unfold p, q. rewrite <- sqrt_mult by lra. replace ((Z + a) * / 2 * ((Z - a) * / 2)) with (Rsqr (b / 2)).
    - rewrite sqrt_Rsqr_abs. unfold Rdiv. rewrite Rabs_mult, (Rabs_pos_eq (/ 2)) by lra. reflexivity.
    - unfold Rsqr. replace ((Z + a) * / 2 * ((Z - a) * / 2)) with ((Z * Z - a * a) / 4) by field. rewrite E. field. }
  unfold principal_root. destruct (Rlt_dec b 0) as [H|H].
  - rewrite Rabs_left in Epq by exact H. split; [lra|]. split; [lra|]. split; [lra|]. intros P0. rewrite P0 in Epq. lra.
  - rewrite Rabs_pos_eq in Epq by lra. split; [lra|]. split; [lra|]. split; [lra|]. intros _. exact Pq.
Qed.

(** It is unique, so the statements below pin the computed value down. *)
Lemma root_unique a b p q p' q' : principal_root a b p q -> principal_root a b p' q' -> p = p' /\ q = q'.
Proof.
  intros (A & B & P & S) (A' & B' & P' & S').
  assert (N : (p * p + q * q) * (p * p + q * q) = (p' * p' + q' * q') * (p' * p' + q' * q')).
  { replace ((p * p + q * q) * (p * p + q * q)) with ((p * p - q * q) * (p * p - q * q) + (2 * p * q) * (2 * p * q)) by ring.
    replace ((p' * p' + q' * q') * (p' * p' + q' * q')) with ((p' * p' - q' * q') * (p' * p' - q' * q') + (2 * p' * q') * (2 * p' * q')) by ring.
    rewrite A, B, A', B'. reflexivity. }
  assert (0 <= p * p + q * q) by nra. assert (0 <= p' * p' + q' * q') by nra.
  assert (M : p * p + q * q = p' * p' + q' * q') by nra.
  assert (E1 : p * p = p' * p') by lra. assert (E2 : q * q = q' * q') by lra.
  assert (Ep : p = p') by nra. split; [exact Ep|]. subst p'.
  destruct (Req_dec p 0) as [Z|Z]; [specialize (S Z); specialize (S' Z); nra|].
  assert (2 * p * q = 2 * p * q') by lra. apply Rmult_eq_reg_l with (2 * p); lra.
Qed.

Section Fmt.
Context (prec emax : Z) {Hp : Prec_gt_0 prec} {He : Prec_lt_emax prec emax} (libm : FunOps (binary_float prec emax)).
Notation fl := (binary_float prec emax).
Notation FF := (float_field prec emax).
Notation FE := (float_fun prec emax libm).
Notation u := (unit_roundoff prec).

Lemma twice_exact k (b : fl) : (0 <= k)%Z -> (2 * k + 10 <= emax)%Z -> (11 <= prec)%Z -> within k b ->
  let t := fl_mul prec emax (Babs b) (fl_add prec emax (fl_int prec emax 1) (fl_int prec emax 1)) in
  is_finite t = true /\ B2R t = 2 * Rabs (B2R b).
Proof.
  intros H0 Hk Hprec [F B] t. destruct (two_value prec emax Hprec k H0 Hk) as [F2 E2].
  pose proof (Q_facts emax k H0 Hk) as (Q1 & Q2 & _).
  assert (UB : Rabs (B2R b) <= bpow radix2 k) by (destruct B as [->|]; [rewrite Rabs_R0; lra|lra]).
  pose proof (Rabs_pos (B2R b)).
  destruct (mul_round prec emax (Babs b) (fl_add prec emax (fl_int prec emax 1) (fl_int prec emax 1))) as [Ft Et].
  { rewrite is_finite_Babs. exact F. } { exact F2. }
  { rewrite B2R_Babs, E2, Rabs_pos_eq by lra. nra. }
  split; [exact Ft|]. unfold t. rewrite Et, B2R_Babs, E2, Rmult_comm.
  rewrite round_generic; [reflexivity|apply valid_rnd_round_mode|].
  rewrite Rmult_comm. change 2 with (bpow radix2 1). rewrite <- B2R_Babs.
  apply (Mult_error.mult_bpow_pos_exact_FLT radix2 (SpecFloat.emin prec emax) prec).
  - apply generic_format_B2R. - lia.
Qed.

(** Componentwise relative error at most 12 units of roundoff. *)
Theorem C72_sqrt_accurate : forall k (z : complex fl),
  (11 <= prec)%Z -> (0 <= k)%Z -> (2 * k + 10 <= emax)%Z -> within k (re z) -> within k (im z) ->
  exists w p q, complex_sqrt FF FE z = Ok w
  /\ principal_root (B2R (re z)) (B2R (im z)) p q
  /\ is_finite (re w) = true /\ Rabs (B2R (re w) - p) <= 12 * u * Rabs p
  /\ is_finite (im w) = true /\ Rabs (B2R (im w) - q) <= 12 * u * Rabs q.
Proof.
  intros k [a b] Hprec Hk0 Hk Ha Hb. cbn [re im] in *.
  destruct (twice_exact k b Hk0 Hk Hprec Hb) as [Ft Et].
  assert (Ra : in_range prec emax k a).
  { split; [exact (proj1 Ha)|]. rewrite <- bpow_opp. exact (proj2 Ha). }
  assert (Rb : in_range prec emax k b).
  { split; [exact (proj1 Hb)|]. rewrite <- bpow_opp. exact (proj2 Hb). }
  destruct (Z_facts prec emax k Hk0 Hk a b Ra Rb) as (Z0 & Z2 & _).
  pose proof (root_exists (B2R a) (B2R b) _ (proj1 Z0) Z2) as RE. cbn zeta in RE.
  set (Z := sqrt (B2R a * B2R a + B2R b * B2R b)) in *.
  set (one := fl_int prec emax 1) in *. set (two := fl_add prec emax one one) in *.
  set (A := Bsqrt mode_NE (fl_norm2 prec emax a b)).
  (* the two nonnegative parts, then the sign *)
  assert (Fin : forall r i : fl, is_finite r = true -> rel (B2R r) (sqrt ((Z + B2R a) * / 2)) (12 * u) ->
     is_finite i = true -> rel (B2R i) (sqrt ((Z - B2R a) * / 2)) (12 * u) ->
     exists w p q, bind (if Bltb b (fl_int prec emax 0) then Ok (Bopp i) else Ok i) (fun i' => Ok (complex_new r i')) = Ok w
     /\ principal_root (B2R a) (B2R b) p q
     /\ is_finite (re w) = true /\ Rabs (B2R (re w) - p) <= 12 * u * Rabs p
     /\ is_finite (im w) = true /\ Rabs (B2R (im w) - q) <= 12 * u * Rabs q).
  { intros r i Fr Hr Fi Hi. unfold rel in *.
    rewrite (Bltb_correct prec emax b (fl_int prec emax 0) (proj1 Hb) eq_refl). change (B2R (fl_int prec emax 0)) with 0.
    destruct (Rlt_dec (B2R b) 0) as [S|S].
    - rewrite Rlt_bool_true by exact S. eexists _, _, _. split; [reflexivity|]. split; [exact RE|]. cbn [re im complex_new].
      split; [exact Fr|]. split; [rewrite (Rabs_pos_eq (sqrt _)) by apply sqrt_pos; exact Hr|].
      split; [rewrite opp_finite; exact Fi|]. rewrite B2R_Bopp, Rabs_Ropp, (Rabs_pos_eq (sqrt _)) by apply sqrt_pos.
      rewrite <- Rabs_Ropp. replace (- (- B2R i - - sqrt ((Z - B2R a) * / 2))) with (B2R i - sqrt ((Z - B2R a) * / 2)) by ring. exact Hi.
    - rewrite Rlt_bool_false by lra. eexists _, _, _. split; [reflexivity|]. split; [exact RE|]. cbn [re im complex_new].
      split; [exact Fr|]. split; [rewrite (Rabs_pos_eq (sqrt _)) by apply sqrt_pos; exact Hr|].
      split; [exact Fi|]. rewrite (Rabs_pos_eq (sqrt _)) by apply sqrt_pos. exact Hi. }
  unfold complex_sqrt.
  cbn [r_add r_sub r_mul r_one r_zero r_neg f_ring f_div float_field float_ring fn_abs fn_leb fn_ltb fn_sqrt float_fun bind re im].
  unfold complex_abs_ref, complex_sqr_norm.
  cbn [r_add r_sub r_mul r_one r_zero r_neg f_ring f_div float_field float_ring fn_abs fn_leb fn_ltb fn_sqrt float_fun bind re im].
  fold one. fold two. change (fl_add prec emax (fl_mul prec emax a a) (fl_mul prec emax b b)) with (fl_norm2 prec emax a b). fold A.
  rewrite (Bleb_correct prec emax (Babs a)) by (rewrite ?is_finite_Babs; try exact (proj1 Ha); exact Ft).
  rewrite B2R_Babs. fold one in Et. fold two in Et. rewrite Et.
  destruct (Rle_dec (Rabs (B2R a)) (2 * Rabs (B2R b))) as [H|H].
  - rewrite Rle_bool_true by exact H. cbn [bind].
    destruct (branch1 prec emax Hprec k Hk0 Hk a b Ra Rb H) as (F1 & R1 & F2 & R2).
    apply Fin; assumption.
  - rewrite Rle_bool_false by lra.
    destruct (branch2 prec emax Hprec k Hk0 Hk a b Ra Rb) as (F1 & R1 & F2 & R2); [lra|].
    rewrite (Bleb_correct prec emax (fl_int prec emax 0) a eq_refl (proj1 Ha)). change (B2R (fl_int prec emax 0)) with 0.
    destruct (Rle_dec 0 (B2R a)) as [S|S].
    + rewrite Rle_bool_true by exact S. cbn [bind]. rewrite (Rabs_pos_eq (B2R a)) in R1, R2 by exact S. apply Fin; assumption.
    + rewrite Rle_bool_false by lra. cbn [bind].
      rewrite (Rabs_left (B2R a)) in R1, R2 by lra. apply Fin; try assumption.
      replace (Z + B2R a) with (Z - - B2R a) by ring. exact R2.
Qed.

(** Consequences: the computed real part is never negative and the imaginary part has the sign of
    the argument's. *)
Theorem C72_sqrt_half_plane : forall k (z : complex fl),
  (11 <= prec)%Z -> (0 <= k)%Z -> (2 * k + 10 <= emax)%Z -> within k (re z) -> within k (im z) ->
  exists w, complex_sqrt FF FE z = Ok w /\ 0 <= B2R (re w)
  /\ (B2R (im z) < 0 -> B2R (im w) < 0) /\ (0 <= B2R (im z) -> 0 <= B2R (im w))
  /\ (B2R (re w) = 0 <-> B2R (im z) = 0 /\ B2R (re z) <= 0)
  /\ (B2R (im w) = 0 <-> B2R (im z) = 0 /\ 0 <= B2R (re z)).
Proof.
  intros k z Hprec Hk0 Hk Ha Hb.
  destruct (C72_sqrt_accurate k z Hprec Hk0 Hk Ha Hb) as (w & p & q & E & (A & B & P & S) & _ & Hr & _ & Hi).
  exists w. split; [exact E|]. pose proof (u_small prec Hprec) as U.
  assert (C : forall v t, Rabs (v - t) <= 12 * u * Rabs t -> (0 <= t -> 0 <= v) /\ (0 < t -> 0 < v) /\ (t < 0 -> v < 0) /\ (t = 0 -> v = 0)).
  { intros v t H. assert (H' : Rabs (v - t) <= 1 / 2 * Rabs t) by (eapply Rle_trans; [exact H|apply Rmult_le_compat_r; [apply Rabs_pos|lra]]).
    apply Rabs_le_inv in H'. repeat split; intros T.
    - rewrite (Rabs_pos_eq t) in H' by lra. lra.
    - rewrite (Rabs_pos_eq t) in H' by lra. lra.
    - rewrite (Rabs_left t) in H' by lra. lra.
    - rewrite T, Rabs_R0 in H'. lra. }
  destruct (C _ _ Hr) as (R1 & R2 & R3 & R4). destruct (C _ _ Hi) as (I1 & I2 & I3 & I4).
  split; [apply R1, P|].
  assert (Pz : p = 0 <-> B2R (im z) = 0 /\ B2R (re z) <= 0).
  { split; [intros ->; split; nra|]. intros [Zb Za]. destruct P as [P|P]; [|auto].
    assert (q = 0) by nra. subst q. nra. }
  assert (Qz : q = 0 <-> B2R (im z) = 0 /\ 0 <= B2R (re z)).
  { split; [intros ->; split; nra|]. intros [Zb Za]. destruct P as [P|P]; [nra|]. subst p. nra. }
  split; [intros Hlt; apply I3; destruct P as [P|P]; [nra|subst p; lra]|].
  split; [intros Hle; apply I1; destruct P as [P|P]; [nra|apply S; auto]|].
  split.
  - rewrite <- Pz. split; [|exact R4]. intros Z. destruct P as [P|P]; [apply R2 in P; lra|auto].
  - rewrite <- Qz. split; [|exact I4]. intros Z. destruct (Rtotal_order q 0) as [L|[Q|G]]; [apply I3 in L; lra|exact Q|apply I2 in G; lra].
Qed.
End Fmt.

(** f32: components zero or in [2^-59, 2^59]; f64: in [2^-507, 2^507]. *)
Corollary C72_sqrt_f32 : forall libm (z : complex f32), within 59 (re z) -> within 59 (im z) ->
  exists w p q, complex_sqrt (float_field 24 128) (float_fun 24 128 libm) z = Ok w
  /\ principal_root (B2R (re z)) (B2R (im z)) p q
  /\ Rabs (B2R (re w) - p) <= 12 * / 2 ^ 24 * Rabs p /\ Rabs (B2R (im w) - q) <= 12 * / 2 ^ 24 * Rabs q.
Proof.
  intros libm z Ha Hb.
  destruct (C72_sqrt_accurate 24 128 libm 59 z) as (w & p & q & E & R & _ & H1 & _ & H2); try lia; try assumption.
  exists w, p, q. replace (/ 2 ^ 24) with (unit_roundoff 24) by (unfold unit_roundoff; simpl; lra). auto.
Qed.
Corollary C72_sqrt_f64 : forall libm (z : complex f64), within 507 (re z) -> within 507 (im z) ->
  exists w p q, complex_sqrt f64_field (float_fun 53 1024 libm) z = Ok w
  /\ principal_root (B2R (re z)) (B2R (im z)) p q
  /\ Rabs (B2R (re w) - p) <= 12 * / 2 ^ 53 * Rabs p /\ Rabs (B2R (im w) - q) <= 12 * / 2 ^ 53 * Rabs q.
Proof.
  intros libm z Ha Hb.
  destruct (C72_sqrt_accurate 53 1024 libm 507 z) as (w & p & q & E & R & _ & H1 & _ & H2); try lia; try assumption.
  exists w, p, q. replace (/ 2 ^ 53) with (unit_roundoff 53) by (unfold unit_roundoff; simpl; lra). auto.
Qed.

(** Finding: on the negative real axis the sign of a zero imaginary part is ignored, so taking the
    root does not commute with conjugation there (C99 Annex G and num-complex do distinguish):
    sqrt(-4 - 0i) is +2i and not -2i. *)
Theorem C72_negative_zero_refuted : forall libm : FunOps f64,
  on_ok (complex_sqrt f64_field (float_fun 53 1024 libm) (Cx (f64_of_Z (-4)) (B754_zero true)))
    (fun w => Beqb (im w) (f64_of_Z 2) && Beqb (re w) (f64_of_Z 0)) = true
  /\ on_ok (complex_sqrt f64_field (float_fun 53 1024 libm) (Cx (f64_of_Z (-4)) (B754_zero false)))
    (fun w => Beqb (im w) (f64_of_Z 2) && Beqb (re w) (f64_of_Z 0)) = true.
Proof. intros libm. split; vm_compute; reflexivity. Qed.

(** The constant 12 is of the right order: for z = 8450013/2^22 + 8459464/2^23 i in f32 the imaginary part of the computed
    root is off by more than 8.9 units of roundoff. *)
Theorem C72_sqrt_error_reached : forall libm : FunOps (binary_float 24 128), exists (z w : complex (binary_float 24 128)) (p q : R),
  within 59 (re z) /\ within 59 (im z) /\ principal_root (B2R (re z)) (B2R (im z)) p q
  /\ complex_sqrt (float_field 24 128) (float_fun 24 128 libm) z = Ok w
  /\ 89 / 10 * / 2 ^ 24 * Rabs q < Rabs (B2R (im w) - q).
Proof.
  intros libm. set (a := fl_div 24 128 (fl_int 24 128 8450013) (fl_int 24 128 4194304)). set (b := fl_div 24 128 (fl_int 24 128 8459464) (fl_int 24 128 8388608)).
  assert (Ea : B2R a = 8450013 / 4194304) by (vm_compute; lra). assert (Eb : B2R b = 8459464 / 8388608) by (vm_compute; lra).
  set (A := B2R a) in *. set (B := B2R b) in *. set (Z := sqrt (A * A + B * B)).
  assert (E : bpow radix2 (- (59)) <= / 2) by (change (/ 2) with (bpow radix2 (-1)); apply bpow_le; lia).
  assert (G : 4 <= bpow radix2 59) by (change 4 with (bpow radix2 2); apply bpow_le; lia).
  assert (Wa : within 59 a) by (split; [reflexivity|right]; fold A; rewrite Ea, Rabs_pos_eq by lra; lra).
  assert (Wb : within 59 b) by (split; [reflexivity|right]; fold B; rewrite Eb, Rabs_pos_eq by lra; lra).
  assert (W : exists w, complex_sqrt (float_field 24 128) (float_fun 24 128 libm) (Cx a b) = Ok w /\ B2R (im w) = 11582352 / 33554432).
  { destruct (C72_sqrt_accurate 24 128 libm 59 (Cx a b) ltac:(lia) ltac:(lia) ltac:(lia) Wa Wb) as (w & _ & _ & Ew & _ & _ & _ & Fw & _). exists w. split; [exact Ew|].
    set (c := fl_div 24 128 (fl_int 24 128 11582352) (fl_int 24 128 33554432)).
    assert (C : on_ok (complex_sqrt (float_field 24 128) (float_fun 24 128 libm) (Cx a b)) (fun w => Beqb (im w) c) = true) by (vm_compute; reflexivity).
    rewrite Ew in C. cbn [on_ok] in C. rewrite (Beqb_correct 24 128 (im w) c Fw eq_refl) in C. apply Req_bool_true_iff in C || (destruct (Req_bool_spec (B2R (im w)) (B2R c)) as [C'|C']; [|discriminate C]; rename C into C0; rename C' into C). rewrite C. vm_compute. lra. }
  destruct W as (w & Ew & Iw). pose proof (root_exists A B Z (sqrt_pos _)) as R. cbv zeta in R.
  assert (ZZ : Z * Z = A * A + B * B) by (apply sqrt_sqrt; rewrite Ea, Eb; lra). specialize (R ZZ).
  set (p := sqrt ((Z + A) * / 2)) in *. set (q := if Rlt_dec B 0 then - sqrt ((Z - A) * / 2) else sqrt ((Z - A) * / 2)) in *.
  exists (Cx a b), w, p, q. cbn [re im]. fold A B. split; [exact Wa|]. split; [exact Wb|]. split; [exact R|]. split; [exact Ew|]. rewrite Iw.
  destruct R as (R1 & R2 & p0 & _).
  set (c := 11582352 / 33554432 * (16777216 / (16777216 - 89 / 10))) in *. assert (c0 : 0 < c) by (unfold c; lra).
  assert (q0 : 0 < q). { apply Rnot_le_lt. intros N. assert (0 <= p * - q) by (apply Rmult_le_pos; lra). lra. }
  assert (Q : c < q).
  { apply Rnot_le_lt. intros N. assert (PC : B <= 2 * (p * c)) by (assert (p * q <= p * c) by (apply Rmult_le_compat_l; lra); lra).
    assert (B0 : 0 < B) by (rewrite Eb; lra). assert (BB : B * B <= 2 * (p * c) * (2 * (p * c))) by (apply Rmult_le_compat; lra).
    assert (qq : q * q <= c * c) by (apply Rmult_le_compat; lra). assert (pp : p * p = A + q * q) by lra.
    assert (4 * (p * p) * (c * c) <= 4 * (A + c * c) * (c * c)) by (apply Rmult_le_compat_r; [apply Rmult_le_pos; lra|lra]).
    assert (B * B <= 4 * (A + c * c) * (c * c)) by lra. rewrite Ea, Eb in *. unfold c in *. lra. }
  rewrite (Rabs_pos_eq q) by lra. rewrite Rabs_left by (unfold c in Q; lra). unfold c in Q. simpl (2 ^ 24). lra.
Qed.

(** A concrete case: -3/4 + i in f64, whose principal root is 1/2 + i. *)
Example C72_case :
  within 507 (fl_div 53 1024 (f64_of_Z (-3)) (f64_of_Z 4)) /\ within 507 (f64_of_Z 1)
  /\ principal_root (-3 / 4) 1 (1 / 2) 1.
Proof.
  assert (E : bpow radix2 (- (507)) <= / 2).
  { change (/ 2) with (bpow radix2 (-1)). apply bpow_le. lia. }
  assert (G : 1 <= bpow radix2 507).
  { change 1 with (bpow radix2 0). apply bpow_le. lia. }
  split; [|split].
  - split; [reflexivity|right]. replace (B2R (fl_div 53 1024 (f64_of_Z (-3)) (f64_of_Z 4))) with (- (3 / 4)) by (vm_compute; lra).
    rewrite Rabs_Ropp, Rabs_pos_eq by lra. lra.
  - split; [reflexivity|right]. replace (B2R (f64_of_Z 1)) with 1 by (vm_compute; lra).
    rewrite Rabs_R1. lra.
  - unfold principal_root. lra.
Qed.
Print Assumptions C72_sqrt_accurate.
Print Assumptions C72_sqrt_half_plane.
Print Assumptions C72_sqrt_f32.
Print Assumptions C72_sqrt_f64.
Print Assumptions C72_negative_zero_refuted.
Print Assumptions C72_sqrt_error_reached.
