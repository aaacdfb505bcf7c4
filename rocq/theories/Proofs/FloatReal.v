(** sqrt(fl(x^2)) = |x| for binary floats whose square does not underflow or overflow. *)
From Coq Require Import List ZArith Reals Bool Lia Lra Psatz.
From Flocq Require Import Core.Core IEEE754.BinarySingleNaN.
From Verif Require Import Base.Outcome Base.Array Model.Traits Model.Float
  Spec.Ring Spec.Sums Spec.FloatErr Proofs.FloatErr Proofs.FloatRound Proofs.FloatSpecial Proofs.FloatMono.
Import ListNotations.
Local Open Scope R_scope.

Section Fmt.
Context (prec emax : Z) {Hp : Prec_gt_0 prec} {He : Prec_lt_emax prec emax}.
Notation fl := (binary_float prec emax).
Notation fexp := (SpecFloat.fexp prec emax).
Notation rnd := (round radix2 fexp ZnearestE).
Notation F := (generic_format radix2 fexp).
Notation emin := (SpecFloat.emin prec emax).

Local Instance Hv : Valid_exp fexp.
Proof. apply fexp_correct, Hp. Qed.
Local Instance Hm : Monotone_exp fexp.
Proof. apply fexp_monotone. Qed.

Lemma fexp_normal e : (emin + prec <= e)%Z -> fexp e = (e - prec)%Z.
Proof. intros H. unfold SpecFloat.fexp. lia. Qed.

(** [x] positive, in [2^(e-1), 2^e), its square at least 2^(emin+prec-1) *)
Lemma sqrt_square_pos x e : (1 < prec)%Z -> F x -> bpow radix2 (e - 1) <= x < bpow radix2 e ->
  (emin + prec <= 2 * e)%Z -> (emin + prec <= e)%Z ->
  rnd (sqrt (rnd (x * x))) = x.
Proof.
  intros Hp2 Fx [L U] H2 H1. pose proof (bpow_gt_0 radix2 (e - 1)) as P.
  assert (Px : 0 < x) by lra.
  assert (Ex : mag radix2 x = e :> Z) by (apply mag_unique_pos; split; assumption).
  assert (Fp : F (bpow radix2 (2 * e - 2))).
  { apply generic_format_bpow. unfold SpecFloat.fexp. lia. }
  assert (Sq : bpow radix2 (2 * e - 2) = bpow radix2 (e - 1) * bpow radix2 (e - 1)) by (rewrite <- bpow_plus; f_equal; lia).
  assert (Low : bpow radix2 (2 * e - 2) <= rnd (x * x)).
  { apply round_ge_generic; [exact Hv|apply valid_rnd_N|exact Fp|]. rewrite Sq. nra. }
  destruct (Req_dec x (bpow radix2 (e - 1))) as [E|N].
  { rewrite E, <- Sq. rewrite (round_generic radix2 fexp ZnearestE _ Fp), Sq, sqrt_square by lra.
    rewrite <- E. apply round_generic; [apply valid_rnd_N|exact Fx]. }
  assert (L' : bpow radix2 (e - 1) < x) by lra.
  set (v := sqrt (rnd (x * x))).
  assert (V : v * v = rnd (x * x)) by (apply sqrt_sqrt; pose proof (bpow_gt_0 radix2 (2 * e - 2)); lra).
  assert (Lv : bpow radix2 (e - 1) <= v).
  { apply Rsqr_incr_0_var; [|apply sqrt_pos]. unfold Rsqr. rewrite V, <- Sq. exact Low. }
  assert (Ulp : ulp radix2 fexp x = bpow radix2 (e - prec)).
  { rewrite ulp_neq_0 by lra. unfold cexp. rewrite Ex, fexp_normal by lia. reflexivity. }
  assert (Eb : bpow radix2 e = 2 * bpow radix2 (e - 1)).
  { replace e with (1 + (e - 1))%Z at 1 by lia. rewrite bpow_plus. simpl. lra. }
  assert (Err : Rabs (v * v - x * x) <= bpow radix2 (e - prec) * bpow radix2 (e - 1)).
  { rewrite V. eapply Rle_trans; [apply error_le_half_ulp; exact Hv|].
    assert (Px2 : 0 < x * x) by nra.
    assert (Mx : (mag radix2 (x * x) <= 2 * e)%Z).
    { apply mag_le_bpow; [lra|]. rewrite Rabs_pos_eq by lra. replace (2 * e)%Z with (e + e)%Z by lia. rewrite bpow_plus. nra. }
    rewrite ulp_neq_0 by lra. unfold cexp.
    assert (B : bpow radix2 (fexp (mag radix2 (x * x))) <= bpow radix2 (2 * e - prec)).
    { apply bpow_le. transitivity (fexp (2 * e)); [apply Hm, Mx|]. rewrite fexp_normal by lia. lia. }
    replace (2 * e - prec)%Z with ((e - prec) + (1 + (e - 1)))%Z in B by lia. rewrite !bpow_plus in B. change (bpow radix2 1) with 2 in B.
    unfold Zminus in B |- *. rewrite !bpow_plus in B |- *. lra. }
  assert (D : Rabs (v - x) < bpow radix2 (e - prec) / 2).
  { assert (S : bpow radix2 e < v + x) by lra.
    assert (Ep : Rabs (v * v - x * x) = Rabs (v - x) * (v + x)).
    { replace (v * v - x * x) with ((v - x) * (v + x)) by ring. rewrite Rabs_mult, (Rabs_pos_eq (v + x)) by lra. reflexivity. }
    rewrite Ep in Err. pose proof (bpow_gt_0 radix2 (e - prec)) as Pu.
    destruct (Rlt_or_le (Rabs (v - x)) (bpow radix2 (e - prec) / 2)) as [G|G]; [exact G|]. exfalso.
    assert (bpow radix2 (e - prec) / 2 * (v + x) <= Rabs (v - x) * (v + x)) by (apply Rmult_le_compat_r; lra).
    assert (bpow radix2 (e - prec) / 2 * bpow radix2 e < bpow radix2 (e - prec) / 2 * (v + x)) by (apply Rmult_lt_compat_l; lra).
    rewrite Eb in *. lra. }
  apply Rabs_def2 in D.
  apply Rle_antisym.
  - apply round_N_le_midp; [exact Hv|exact Fx|]. rewrite succ_eq_pos by lra. rewrite Ulp. lra.
  - apply round_N_ge_midp; [exact Hv|exact Fx|]. rewrite pred_eq_pos by lra. unfold pred_pos. rewrite Ex.
    rewrite Req_bool_false by exact N. rewrite Ulp. lra.
Qed.

(** The same for machine numbers: the square root of the square is the absolute value, as long
    as the square is not subnormal and does not overflow. *)
Lemma sqrt_square (x : fl) : (1 < prec)%Z -> is_finite x = true ->
  bpow radix2 (2 - emax) <= B2R x * B2R x -> is_finite (fl_mul prec emax x x) = true ->
  Bsqrt mode_NE (fl_mul prec emax x x) = Babs x.
Proof.
  intros Hp2 Fx Hlow Fm.
  destruct (mul_rounded prec emax x x Fx Fx) as [(_ & _ & Vm)|[(_ & E)|(_ & E)]]; [|rewrite E in Fm; discriminate..].
  change (round_mode mode_NE) with ZnearestE in Vm.
  pose proof (bpow_gt_0 radix2 (2 - emax)) as P.
  assert (N0 : B2R x <> 0) by (intros E; rewrite E in Hlow; lra).
  assert (Pm : 0 <= B2R (fl_mul prec emax x x)) by (rewrite Vm; apply (rnd_nonneg prec emax); apply Rle_0_sqr).
  destruct (sqrt_round prec emax _ Fm Pm) as [Fs Vs]. change (round_mode mode_NE) with ZnearestE in Vs.
  assert (V : B2R (Bsqrt mode_NE (fl_mul prec emax x x)) = B2R (Babs x)).
  { rewrite Vs, Vm, B2R_Babs.
    set (y := Rabs (B2R x)).
    assert (Ey : B2R x * B2R x = y * y).
    { unfold y. rewrite <- Rabs_mult. symmetry. apply Rabs_pos_eq, Rle_0_sqr. }
    rewrite Ey in *. assert (Py : 0 < y) by (apply Rabs_pos_lt, N0).
    destruct (mag radix2 y) as [e M]. specialize (M ltac:(lra)). rewrite (Rabs_pos_eq y) in M by lra.
    assert (E2 : (emin + prec <= 2 * e)%Z).
    { assert (B : bpow radix2 (2 - emax) < bpow radix2 (2 * e)).
      { eapply Rle_lt_trans; [exact Hlow|]. replace (2 * e)%Z with (e + e)%Z by lia. rewrite bpow_plus. nra. }
      apply lt_bpow in B. unfold SpecFloat.emin. lia. }
    apply (sqrt_square_pos y e); [exact Hp2| |exact M|exact E2|].
    - unfold y. rewrite <- B2R_Babs. apply generic_format_B2R.
    - unfold SpecFloat.emin in *. unfold Prec_gt_0, Prec_lt_emax in *. lia. }
  apply B2R_Bsign_inj; [exact Fs|rewrite is_finite_Babs; exact Fx|exact V|].
  rewrite Bsign_Babs. 
  destruct (Bsqrt mode_NE (fl_mul prec emax x x)) as [s|s| |s m e B] eqn:E; try discriminate Fs.
  - exfalso. rewrite B2R_Babs in V. simpl in V. pose proof (Rabs_pos_lt _ N0). lra.
  - simpl. destruct s; [|reflexivity]. exfalso. pose proof (Rabs_pos (B2R x)). rewrite B2R_Babs in V.
    assert (B2R (B754_finite true m e B) < 0) by (apply F2R_lt_0; reflexivity). lra.
Qed.
End Fmt.
