(** Property C108: the tangent of complex floats near its zeros: no lower bound on sin z is needed, the error is then absolute. *)
From Coq Require Import List ZArith Reals Bool Lia Lra Psatz.
From Flocq Require Import Core.Core IEEE754.BinarySingleNaN.
From Verif Require Import Base.Outcome Model.Traits Model.Float Model.Complex Model.RealInstance Spec.FloatErr Spec.ComplexErr Spec.CTan
  Proofs.FloatErr Proofs.FloatRound Proofs.FloatRange Proofs.PiE Proofs.ComplexReal Proofs.ComplexErr Props.ComplexErrProps
  Props.FloatFunProps Proofs.TrigTest Props.TrigTestProps Proofs.ComplexUndo Props.ComplexUndoProps Proofs.ExpLn Props.ExpLnProps Props.PolarProps Proofs.TanTest
  Props.TanRangeProps Proofs.DivBelow.
Local Open Scope R_scope.

Section Zeros.
Context (prec emax : Z) {Hp : Prec_gt_0 prec} {He : Prec_lt_emax prec emax} (libm : FunOps (binary_float prec emax)).
Notation fl := (binary_float prec emax).
Notation FF := (float_field prec emax).
Notation FE := (float_fun prec emax libm).
Notation u := (unit_roundoff prec).
Notation eta := (underflow_unit prec emax).
Notation mul := (fl_mul prec emax).
Context (Hprec : (24 <= prec)%Z) (k : Z) (Hk0 : (1 <= k)%Z) (Hk : (4 * k + 26 <= emax)%Z).
Context (d : R) (Hd : u <= d) (Hdk : d * (IZR k + 3) <= / 400) (HL : libm_error prec emax libm d).
Notation mid := (mid k).
Notation dr := (dr prec Hprec k Hk0 d Hd Hdk).
Notation lo := (bpow radix2 (- (2 * k))).
Notation up := (bpow radix2 (2 * k)).

Notation lo_up := (lo_up prec emax k Hk0 Hk).

Lemma sin_cos_any (z : complex fl) : cfinite z -> cosh (B2R (im z)) <= up -> lo <= cnorm (ccs (cval z)) ->
  exists s c, complex_tan FF FE z = complex_div FF s c /\ cfinite s /\ cfinite c
    /\ cnorm (csub (cval s) (csn (cval z))) <= 303 / 100 * d * Rmax (cnorm (csn (cval z))) lo
    /\ cnorm (csub (cval c) (ccs (cval z))) <= 303 / 100 * d * cnorm (ccs (cval z)).
Proof.
  intros [Fa Fb] Hb LC. destruct dr as (U & D & K). destruct lo_up as (L0 & LU & L1 & LL & UU & ET & UQ). pose proof (eta_pos prec emax) as T0.
  destruct (proj1 HL (re z) Fa) as (_ & Ls & Lc & _). destruct (proj1 HL (im z) Fb) as (_ & _ & _ & LH). destruct (LH (Rle_trans _ _ _ Hb UQ)) as [Lsh Lch].
  unfold csn, ccs in *. change (fst (cval z)) with (B2R (re z)) in *. change (snd (cval z)) with (B2R (im z)) in *.
  set (a := B2R (re z)) in *. set (b := B2R (im z)) in *. pose proof (cosh_ge_1 b) as C1. set (C := cosh b) in *.
  pose proof (sin_le_1 a) as S1. pose proof (cos_le_1 a) as K1. pose proof (sinh_le_cosh b) as H1. fold C in H1.
  assert (CA : Rabs C <= C) by (rewrite Rabs_pos_eq; lra). assert (S1C : Rabs (sin a) <= C) by lra. assert (K1C : Rabs (cos a) <= C) by lra.
  assert (bnd : forall x y, Rabs x <= 1 -> Rabs y <= C -> Rabs (x * y) <= C). { intros x y Hx Hy. rewrite Rabs_mult. replace C with (1 * C) by ring. apply Rmult_le_compat; try apply Rabs_pos; assumption. }
  assert (M1 : mid C).
  { assert (bpow radix2 (- (4 * k)) <= bpow radix2 0) by (apply bpow_le; lia). change (bpow radix2 0) with 1 in *. assert (up <= up * up) by (rewrite <- (Rmult_1_r up) at 1; apply Rmult_le_compat_l; lra).
    split; [lra|]. rewrite <- UU. lra. }
  pose proof (PolarProps.libm_product prec emax Hprec k Hk0 Hk d Hd Hdk) as LP.
  destruct (LP _ _ _ _ C Ls Lch C1 M1 S1C CA (bnd _ _ S1 CA)) as (s & ch & Es & Ech & G1 & D1).
  destruct (LP _ _ _ _ C Lc Lsh C1 M1 K1C H1 (bnd _ _ K1 H1)) as (c & sh & Ec & Esh & G2 & D2).
  destruct (LP _ _ _ _ C Lc Lch C1 M1 K1C CA (bnd _ _ K1 CA)) as (c' & ch' & Ec' & Ech' & G3 & D3).
  destruct (LP _ _ _ _ C Ls Lsh C1 M1 S1C H1 (bnd _ _ S1 H1)) as (s' & sh' & Es' & Esh' & G4 & D4).
  rewrite Ec in Ec'. injection Ec' as <-. rewrite Ech in Ech'. injection Ech' as <-. rewrite Es in Es'. injection Es' as <-. rewrite Esh in Esh'. injection Esh' as <-.
  set (S := Cx (mul s ch) (mul c sh) : complex fl). set (Kc := Cx (mul c ch) (Bopp (mul s sh)) : complex fl). exists S, Kc.
  split.
  { unfold complex_tan, complex_sin, complex_cos. change (fn_sin FE (re z)) with (fn_sin libm (re z)). change (fn_cosh FE (im z)) with (fn_cosh libm (im z)).
    change (fn_cos FE (re z)) with (fn_cos libm (re z)). change (fn_sinh FE (im z)) with (fn_sinh libm (im z)). rewrite Es, Ech, Ec, Esh. reflexivity. }
  split; [split; assumption|]. split; [split; [exact G3|cbn [im Kc]; rewrite is_finite_Bopp; exact G4]|].
  assert (SM : forall N, lo <= N -> 302 / 100 * d * N + 3 / 2 * (5 * eta * C) <= 303 / 100 * d * N).
  { intros N HN. assert (eta * C <= eta * up) by (apply Rmult_le_compat_l; lra). assert (u * lo <= d * N) by (apply Rmult_le_compat; lra). assert (0 <= d * N) by (apply Rmult_le_pos; lra). replace (5 * eta * C) with (5 * (eta * C)) by ring. replace (302 / 100 * d * N) with (302 / 100 * (d * N)) by ring. replace (303 / 100 * d * N) with (303 / 100 * (d * N)) by ring. lra. }
  assert (e0 : 0 <= 5 * eta * C) by (apply Rmult_le_pos; [apply Rmult_le_pos|]; lra).
  split; [eapply Rle_trans; [|apply SM, Rmax_r]|eapply Rle_trans; [|apply SM; exact LC]].
  - eapply Rle_trans; [|apply Rplus_le_compat_r, Rmult_le_compat_l; [lra|apply Rmax_l]]. apply cnorm_perturb; [lra|exact e0|exact D1|exact D2].
  - change (cval Kc) with (B2R (mul c ch), B2R (Bopp (mul s sh))). apply cnorm_perturb; [lra|exact e0|exact D3|].
    rewrite B2R_Bopp, Rabs_Ropp. replace (- B2R (mul s sh) - - (sin a * sinh b)) with (- (B2R (mul s sh) - sin a * sinh b)) by ring. rewrite Rabs_Ropp. exact D4.
Qed.

Theorem C108_tangent_near_zeros : forall z : complex fl, cfinite z -> cosh (B2R (im z)) <= up -> lo <= cnorm (ccs (cval z)) ->
  exists q t, complex_tan FF FE z = Ok q /\ cfinite q /\ is_tan t (cval z)
    /\ cnorm (csub (cval q) t) * cnorm (ccs (cval z)) <= 25 / 2 * d * Rmax (cnorm (csn (cval z))) lo.
Proof.
  intros z Fz Hb LC. destruct (sin_cos_any z Fz Hb LC) as (s & c & Tan & Fs & Fc & DS & DC).
  destruct dr as (U & D & K). destruct lo_up as (L0 & LU & L1 & LL & UU & _ & _). set (S0 := cnorm (csn (cval z))) in *. set (W := cnorm (ccs (cval z))) in *.
  assert (NC : ccs (cval z) <> c0) by (intros E; unfold W in LC; rewrite E, cnorm_c0 in LC; lra).
  destruct (tan_exists (cval z) NC) as [t Ht]. pose proof (tan_size t (cval z) Ht) as Sz. fold S0 W in Sz.
  assert (Up : forall X, 0 <= X -> X * X <= cosh (B2R (im z)) * cosh (B2R (im z)) -> X <= up).
  { intros X X0 H. apply sq_le; [lra|]. eapply Rle_trans; [exact H|]. pose proof (cosh_pos (B2R (im z))). apply Rmult_le_compat; lra. }
  pose proof (sc (fst (cval z))) as SC. pose proof (sq_hyp (snd (cval z))) as Hy. pose proof (csn_norm (cval z)) as QS. pose proof (ccs_norm (cval z)) as QC. fold S0 in QS. fold W in QC.
  change (snd (cval z)) with (B2R (im z)) in *. pose proof (Rle_0_sqr (sin (fst (cval z)))) as sq1. pose proof (Rle_0_sqr (cos (fst (cval z)))) as sq2. unfold Rsqr in sq1, sq2.
  assert (SU0 : S0 <= up) by (apply Up; [apply cnorm_nonneg|lra]). assert (WU : W <= up) by (apply Up; [apply cnorm_nonneg|lra]). set (S := Rmax S0 lo) in *.
  assert (SU : S <= up) by (apply Rmax_lub; lra). assert (LS : lo <= S) by apply Rmax_r. assert (S0S : S0 <= S) by apply Rmax_l. assert (S00 : 0 <= S0) by apply cnorm_nonneg. clear Up sq1 sq2 SC Hy QS QC.
  assert (dS : d * S <= / 1600 * S) by (apply Rmult_le_compat_r; lra). assert (dW : d * W <= / 1600 * W) by (apply Rmult_le_compat_r; lra).
  set (s' := cval s) in *. set (c' := cval c) in *. set (S' := cnorm s'). set (W' := cnorm c').
  assert (W'b : 998 / 1000 * W <= W' <= 1002 / 1000 * W).
  { pose proof (cnorm_le_diff c' (ccs (cval z))) as M1. pose proof (cnorm_le_diff (ccs (cval z)) c') as M2. rewrite (csub_norm_sym (ccs (cval z))) in M2. fold W W' in M1, M2. lra. }
  assert (S'b : S' <= 1002 / 1000 * S) by (pose proof (cnorm_le_diff s' (csn (cval z))) as M1; fold S0 S' in M1; lra).
  assert (W0 : 0 < W) by lra. assert (W'0 : 0 < W') by lra.
  assert (pr : forall x y : R, 998 / 1000 * lo <= x <= 1002 / 1000 * up -> 998 / 1000 * lo <= y <= 1002 / 1000 * up -> mid (x * y)).
  { intros x y Hx Hy. unfold ComplexUndo.mid. rewrite <- LL, <- UU. split.
    - apply Rle_trans with (998 / 1000 * lo * (998 / 1000 * lo)); [|apply Rmult_le_compat; lra]. assert (0 < lo * lo) by (apply Rmult_lt_0_compat; lra). lra.
    - apply Rle_trans with (1002 / 1000 * up * (1002 / 1000 * up)); [apply Rmult_le_compat; lra|]. assert (0 < up * up) by (apply Rmult_lt_0_compat; lra). lra. }
  assert (inv : forall x : R, 998 / 1000 * lo <= x <= 1002 / 1000 * up -> 997 / 1000 * lo <= / x <= 1003 / 1000 * up).
  { intros x Hx. assert (x0 : 0 < x) by lra. assert (EX : x * / x = 1) by (apply Rinv_r; lra). pose proof (Rinv_0_lt_compat x x0) as I0. split; apply Rnot_lt_le; intros N.
    - assert (x * / x <= 1002 / 1000 * up * (997 / 1000 * lo)) by (apply Rmult_le_compat; lra). lra.
    - assert (998 / 1000 * lo * (1003 / 1000 * up) <= x * / x) by (apply Rmult_le_compat; lra). lra. }
  assert (pr' : forall x y : R, 997 / 1000 * lo <= x <= 1003 / 1000 * up -> 997 / 1000 * lo <= y <= 1003 / 1000 * up -> mid (x * y)).
  { intros x y Hx Hy. unfold ComplexUndo.mid. rewrite <- LL, <- UU. split.
    - apply Rle_trans with (997 / 1000 * lo * (997 / 1000 * lo)); [|apply Rmult_le_compat; lra]. assert (0 < lo * lo) by (apply Rmult_lt_0_compat; lra). lra.
    - apply Rle_trans with (1003 / 1000 * up * (1003 / 1000 * up)); [apply Rmult_le_compat; lra|]. assert (0 < up * up) by (apply Rmult_lt_0_compat; lra). lra. }
  assert (RW : 998 / 1000 * lo <= W' <= 1002 / 1000 * up) by lra. set (Z := 1002 / 1000 * S) in *. assert (RS : 998 / 1000 * lo <= Z <= 1002 / 1000 * up) by (unfold Z; lra). assert (Z0 : 0 < Z) by lra. pose proof (inv _ RW) as IW.
  assert (B3 : mid (/ (W' * W'))) by (rewrite Rinv_mult; apply pr'; exact IW).
  assert (B4 : mid (Z * / W')) by (apply pr'; [lra|exact IW]).
  destruct (div_below prec emax Hprec k Hk s c Z Fs Fc S'b (pr _ _ RW RW) (pr _ _ RS RW) B3 B4 W'0 Z0) as (q & Eq & Fq & Dq).
  exists q, t. rewrite Tan. repeat (split; [assumption|]). fold s' c' in Dq. set (q' := cval q) in *. set (T := cnorm t) in *. fold S' in Dq.
  set (e := cnorm (csub q' t)). assert (uS : u * Z <= d * (1002 / 1000 * S)) by (apply Rmult_le_compat; unfold Z; lra).
  assert (Main : e * W <= 632 / 100 * u * Z + 303 / 100 * d * S + (T + e) * (303 / 100 * d * W)).
  { replace (e * W) with (cnorm (cmul (csub q' t) (ccs (cval z)))) by (rewrite cnorm_mul; reflexivity). rewrite <- csub_mul. destruct Ht as [Et _]. rewrite Et.
    eapply Rle_trans; [apply (csub_triangle _ (cmul q' c'))|]. rewrite (csub_norm_sym (cmul q' (ccs (cval z)))).
    replace (csub (cmul q' c') (cmul q' (ccs (cval z)))) with (cmul q' (csub c' (ccs (cval z)))) by (unfold cmul, csub; cbn [fst snd]; f_equal; ring). rewrite cnorm_mul.
    assert (cnorm q' * cnorm (csub c' (ccs (cval z))) <= (T + e) * (303 / 100 * d * W)).
    { apply Rmult_le_compat; try apply cnorm_nonneg; [apply cnorm_le_diff|exact DC]. }
    pose proof (csub_triangle (cmul q' c') s' (csn (cval z))). lra. }
  assert (TW : T * W = S0) by exact Sz. fold W e. change (Rmax S0 lo) with S.
  assert (e0 : 0 <= e) by apply cnorm_nonneg. assert (eW0 : 0 <= e * W) by (apply Rmult_le_pos; lra).
  assert (deW : d * (e * W) <= / 1600 * (e * W)) by (apply Rmult_le_compat_r; lra). assert (dS0 : 0 <= d * S) by (apply Rmult_le_pos; lra).
  assert (ddS : d * (d * S) <= / 1600 * (d * S)) by (apply Rmult_le_compat_r; lra). assert (dTW : d * (T * W) <= d * S) by (rewrite TW; apply Rmult_le_compat_l; lra).
  replace ((T + e) * (303 / 100 * d * W)) with (303 / 100 * (d * (T * W)) + 303 / 100 * (d * (e * W))) in Main by ring.
  replace (25 / 2 * d * S) with (25 / 2 * (d * S)) by ring.
  assert (First : e * W <= 13 * (d * S)) by lra.
  assert (d * (e * W) <= d * (13 * (d * S))) by (apply Rmult_le_compat_l; lra). lra.
Qed.
End Zeros.

(** f32 and f64: in a wide strip around the real axis the tangent is finite and close to the exact one except around the poles;
    zeros of the tangent, and z = 0 itself, are included. *)
Corollary C108_f32_strip : forall (libm : FunOps f32) (d : R), unit_roundoff 24 <= d <= / 20000 -> libm_error 24 128 libm d ->
  forall z, cfinite z -> Rabs (B2R (im z)) <= 35 -> / 2 ^ 50 <= cnorm (ccs (cval z)) ->
  exists q t, complex_tan f32_f (float_fun 24 128 libm) z = Ok q /\ cfinite q /\ is_tan t (cval z)
    /\ cnorm (csub (cval q) t) * cnorm (ccs (cval z)) <= 25 / 2 * d * Rmax (cnorm (csn (cval z))) (/ 2 ^ 50).
Proof.
  intros libm d Hd HL z Fz Hy HC. assert (H3 : d * (IZR 25 + 3) <= / 400) by lra.
  assert (LO : bpow radix2 (- (2 * 25)) = / 2 ^ 50) by (rewrite (pow_IZR 2 50); reflexivity).
  assert (UP : cosh (B2R (im z)) <= bpow radix2 (2 * 25)).
  { change (bpow radix2 (2 * 25)) with (IZR (2 ^ 50)). apply (cosh_upto 35); [simpl; lra|vm_compute; discriminate]. }
  rewrite <- LO in HC |- *.
  apply (C108_tangent_near_zeros 24 128 libm ltac:(lia) 25 ltac:(lia) ltac:(lia) d (proj1 Hd) H3 HL z Fz UP HC).
Qed.

Corollary C108_f64_strip : forall (libm : FunOps f64) (d : R), unit_roundoff 53 <= d <= / 200000 -> libm_error 53 1024 libm d ->
  forall z, cfinite z -> Rabs (B2R (im z)) <= 345 -> / 2 ^ 498 <= cnorm (ccs (cval z)) ->
  exists q t, complex_tan f64_f (float_fun 53 1024 libm) z = Ok q /\ cfinite q /\ is_tan t (cval z)
    /\ cnorm (csub (cval q) t) * cnorm (ccs (cval z)) <= 25 / 2 * d * Rmax (cnorm (csn (cval z))) (/ 2 ^ 498).
Proof.
  intros libm d Hd HL z Fz Hy HC. assert (H3 : d * (IZR 249 + 3) <= / 400) by lra.
  assert (LO : bpow radix2 (- (2 * 249)) = / 2 ^ 498) by (rewrite (pow_IZR 2 498); reflexivity).
  assert (UP : cosh (B2R (im z)) <= bpow radix2 (2 * 249)).
  { change (bpow radix2 (2 * 249)) with (IZR (2 ^ 498)). apply (cosh_upto 345); [rewrite INR_IZR_INZ; exact Hy|vm_compute; discriminate]. }
  rewrite <- LO in HC |- *.
  apply (C108_tangent_near_zeros 53 1024 libm ltac:(lia) 249 ltac:(lia) ltac:(lia) d (proj1 Hd) H3 HL z Fz UP HC).
Qed.

(** A correctly rounded libm, at z = 0: the tangent is within 2^-70 of 0. *)
Example C108_zero_case :
  exists q, complex_tan f32_f (float_fun 24 128 (rounded_libm 24 128)) (Cx (fl_int 24 128 0) (fl_int 24 128 0)) = Ok q
    /\ cfinite q /\ cnorm (cval q) <= / 2 ^ 70.
Proof.
  assert (U : unit_roundoff 24 = / 16777216) by (unfold unit_roundoff; simpl; lra).
  assert (B : libm_error 24 128 (rounded_libm 24 128) (11 / 10 * unit_roundoff 24)).
  { apply rounded_libm_error; [lia|lia|]. apply Rle_trans with (bpow radix2 10); [simpl; lra|apply bpow_le; lia]. }
  set (z := Cx (fl_int 24 128 0) (fl_int 24 128 0)). assert (V : cval z = c0) by (unfold z, cval; cbn [re im]; vm_compute; reflexivity).
  assert (VC : ccs c0 = (1, 0)) by (unfold ccs, c0; cbn [fst snd]; rewrite sin_0, cos_0, cosh_0; f_equal; ring).
  assert (VS : csn c0 = c0) by (unfold csn, c0; cbn [fst snd]; rewrite sin_0, sinh_0; f_equal; ring).
  assert (N1 : cnorm (1, 0) = 1) by (unfold cnorm; cbn [fst snd]; replace (1 * 1 + 0 * 0) with 1 by ring; apply sqrt_1).
  assert (P50 : 0 < / 2 ^ 50 <= 1). { split; [apply Rinv_0_lt_compat, pow_lt; lra|]. rewrite <- Rinv_1. apply Rinv_le; [lra|apply pow_R1_Rle; lra]. }
  destruct (C108_f32_strip (rounded_libm 24 128) (11 / 10 * unit_roundoff 24) ltac:(lra) B z) as (q & t & E & Fq & [Ht _] & D).
  - split; reflexivity.
  - change (B2R (im z)) with 0. rewrite Rabs_R0. lra.
  - rewrite V, VC, N1. lra.
  - exists q. split; [exact E|]. split; [exact Fq|]. rewrite V, VC, VS in *. rewrite N1 in D.
    assert (T : t = c0). { rewrite <- Ht. destruct t. unfold cmul. cbn [fst snd]. f_equal; ring. }
    rewrite T, cnorm_c0 in D. replace (csub (cval q) c0) with (cval q) in D by (destruct (cval q); unfold csub, c0; cbn [fst snd]; f_equal; ring).
    rewrite Rmax_right in D by lra. rewrite U in D. assert (2 ^ 70 = 1048576 * 2 ^ 50) by (simpl; lra). rewrite H, Rinv_mult. lra.
Qed.

Print Assumptions C108_tangent_near_zeros.
Print Assumptions C108_f32_strip.
Print Assumptions C108_f64_strip.
