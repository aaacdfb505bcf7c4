(** Property C101 for Complex floats: the triangle inequality and the reverse triangle inequality of computed absolute
    values, up to rounding; with the parallelogram law. *)
From Coq Require Import List Arith ZArith NArith Reals Bool Lia Lra.
From Flocq Require Import Core.Core IEEE754.BinarySingleNaN.
From Verif Require Import Base.Outcome Model.Traits Model.Float Model.Complex Spec.FloatErr Spec.ComplexErr
  Proofs.FloatErr Proofs.FloatRange Proofs.FloatSpecial Proofs.ComplexErr Props.FloatProps Props.FloatGeometryProps.
Local Open Scope R_scope.

Section Fmt.
Context (prec emax : Z) {Hp : Prec_gt_0 prec} {He : Prec_lt_emax prec emax} (libm : FunOps (binary_float prec emax)).
Notation fl := (binary_float prec emax).
Notation FF := (float_field prec emax).
Notation FO := (float_ring prec emax).
Notation FE := (float_fun prec emax libm).
Notation u := (unit_roundoff prec).
Notation eta := (underflow_unit prec emax).
Notation norm2 z := (fl_norm2 prec emax (re z) (im z)).
(** The underflow term of an absolute value. *)
Definition abs_tiny : R := (1 + u) * sqrt (2 * (1 + u) * eta).

Lemma abs_tiny_nonneg : 0 <= abs_tiny.
Proof. unfold abs_tiny. pose proof (u_pos prec). apply Rmult_le_pos; [lra|apply sqrt_pos]. Qed.

(** The computed |z|. *)
Lemma abs_accurate (z : complex fl) : is_finite (norm2 z) = true ->
  exists m, complex_abs FF FE z = Ok m /\ is_finite m = true /\ Rabs (B2R m - cnorm (cval z)) <= ((1 + u) ^ 3 - 1) * cnorm (cval z) + abs_tiny.
Proof.
  intros F. destruct (norm2_error prec emax (re z) (im z) F) as (_ & _ & B). pose proof (norm2_nonneg prec emax (re z) (im z) F) as NN.
  set (x := fun i : nat => match i with O => B2R (re z) | _ => B2R (im z) end).
  assert (Tn : tiny prec emax 2 = 2 * (1 + u) * eta) by (unfold tiny; simpl; ring).
  destruct (root_of_squares prec emax _ 2 x F NN) as [Fs Bs].
  { rewrite Tn. cbn [rsum x]. rewrite Rplus_0_l. exact B. }
  eexists. split; [reflexivity|]. split; [exact Fs|]. rewrite Tn in Bs. fold abs_tiny in Bs.
  replace (cnorm (cval z)) with (length_R 2 x); [exact Bs|]. unfold length_R, cnorm, cval. f_equal. cbn [rsum x fst snd]. ring.
Qed.

Definition cgrow : R := (1 + u) ^ 4 - 1.
Lemma grow_3 : 0 <= (1 + u) ^ 3 - 1 <= cgrow.
Proof.
  unfold cgrow. pose proof (u_pos prec) as U. assert (1 <= (1 + u) ^ 3) by (apply pow_R1_Rle; lra).
  replace ((1 + u) ^ 4) with ((1 + u) ^ 3 * (1 + u)) by ring. assert (0 <= (1 + u) ^ 3 * u) by (apply Rmult_le_pos; lra). lra.
Qed.
Lemma abs_weak (z : complex fl) m : complex_abs FF FE z = Ok m -> is_finite (norm2 z) = true ->
  Rabs (B2R m - cnorm (cval z)) <= cgrow * cnorm (cval z) + abs_tiny.
Proof.
  intros E F. destruct (abs_accurate z F) as (m' & E' & _ & B). rewrite E in E'. injection E' as <-. pose proof grow_3.
  pose proof (cnorm_nonneg (cval z)) as N. eapply Rle_trans; [exact B|]. apply Rplus_le_compat_r, Rmult_le_compat_r; lra.
Qed.

(** x <= y + z for the exact absolute values, hence for the computed ones. *)
Lemma triangle_transfer X Y Z x y z : 0 <= X -> 0 <= Y -> cgrow < 1 -> Z <= X + Y ->
  Rabs (x - X) <= cgrow * X + abs_tiny -> Rabs (y - Y) <= cgrow * Y + abs_tiny -> Rabs (z - Z) <= cgrow * Z + abs_tiny ->
  (1 - cgrow) * (z - abs_tiny) <= (1 + cgrow) * (x + y + 2 * abs_tiny).
Proof.
  intros X0 Y0 G1 T D1 D2 D3. pose proof grow_3 as G0. set (G := cgrow) in *. set (t := abs_tiny) in *. apply Rabs_le_inv in D1, D2, D3.
  assert (A1 : (1 - G) * X <= x + t) by lra. assert (A2 : (1 - G) * Y <= y + t) by lra. assert (A3 : z - t <= (1 + G) * Z) by lra.
  apply Rle_trans with ((1 - G) * ((1 + G) * (X + Y))).
  - apply Rmult_le_compat_l; [lra|]. eapply Rle_trans; [exact A3|]. apply Rmult_le_compat_l; lra.
  - replace ((1 - G) * ((1 + G) * (X + Y))) with ((1 + G) * ((1 - G) * X + (1 - G) * Y)) by ring. apply Rmult_le_compat_l; lra.
Qed.

(** |z + w| <= |z| + |w|, |z - w| <= |z| + |w| and |z| <= |z - w| + |w|, up to rounding, for any computed absolute values
    whose squared norms do not overflow. *)
Theorem C101_complex_triangle : forall z w : complex fl, cgrow < 1 ->
  exists s d lz lw ls ld, complex_add (r_add FO) z w = Ok s /\ complex_sub (r_sub FO) z w = Ok d
  /\ complex_abs FF FE z = Ok lz /\ complex_abs FF FE w = Ok lw /\ complex_abs FF FE s = Ok ls /\ complex_abs FF FE d = Ok ld
  /\ (is_finite (norm2 z) = true -> is_finite (norm2 w) = true ->
      (is_finite (norm2 s) = true -> (1 - cgrow) * (B2R ls - abs_tiny) <= (1 + cgrow) * (B2R lz + B2R lw + 2 * abs_tiny))
      /\ (is_finite (norm2 d) = true -> (1 - cgrow) * (B2R ld - abs_tiny) <= (1 + cgrow) * (B2R lz + B2R lw + 2 * abs_tiny)
          /\ (1 - cgrow) * (B2R lz - abs_tiny) <= (1 + cgrow) * (B2R ld + B2R lw + 2 * abs_tiny))).
Proof.
  intros z w G1. destruct (C101_complex_distance prec emax libm z w) as (s & d & ls & ld & Es & Ed & Els & Eld & Bs & Bd).
  exists s, d. do 2 eexists. exists ls, ld. split; [exact Es|]. split; [exact Ed|]. split; [reflexivity|]. split; [reflexivity|]. split; [exact Els|]. split; [exact Eld|].
  intros Fz Fw. pose proof (abs_weak z _ eq_refl Fz) as Bz. pose proof (abs_weak w _ eq_refl Fw) as Bw.
  assert (NS : sqrt ((B2R (re z) + B2R (re w)) ^ 2 + (B2R (im z) + B2R (im w)) ^ 2) = cnorm (cadd (cval z) (cval w))) by (unfold cnorm, cadd, cval; cbn [fst snd]; f_equal; ring).
  assert (ND : sqrt ((B2R (re z) - B2R (re w)) ^ 2 + (B2R (im z) - B2R (im w)) ^ 2) = cnorm (csub (cval z) (cval w))) by (unfold cnorm, csub, cval; cbn [fst snd]; f_equal; ring).
  cbv zeta in Bs, Bd. rewrite NS in Bs. rewrite ND in Bd. fold abs_tiny in Bs, Bd. fold cgrow in Bs, Bd.
  pose proof (cnorm_nonneg (cval z)) as Z0. pose proof (cnorm_nonneg (cval w)) as W0. split.
  - intros F. apply (triangle_transfer (cnorm (cval z)) (cnorm (cval w)) (cnorm (cadd (cval z) (cval w)))); try assumption; [apply cnorm_triangle|apply (Bs F)].
  - intros F. destruct (Bd F) as [_ D]. split.
    + apply (triangle_transfer (cnorm (cval z)) (cnorm (cval w)) (cnorm (csub (cval z) (cval w)))); try assumption.
      pose proof (cnorm_triangle (cval z) (csub c0 (cval w))) as T.
      replace (cadd (cval z) (csub c0 (cval w))) with (csub (cval z) (cval w)) in T by (unfold cadd, csub, c0; cbn [fst snd]; f_equal; ring).
      replace (cnorm (csub c0 (cval w))) with (cnorm (cval w)) in T; [exact T|]. unfold cnorm, csub, c0. cbn [fst snd]. f_equal. ring.
    + apply (triangle_transfer (cnorm (csub (cval z) (cval w))) (cnorm (cval w)) (cnorm (cval z))); try assumption; [apply cnorm_nonneg|].
      replace (cnorm (cval z)) with (cnorm (cadd (csub (cval z) (cval w)) (cval w))); [apply cnorm_triangle|].
      f_equal. unfold cadd, csub. cbn [fst snd]. destruct (cval z). cbn [fst snd]. f_equal; ring.
Qed.

Lemma square_close p e x : Rabs e <= u -> x = p * (1 + e) -> Rabs (x * x - p * p) <= ((1 + u) ^ 2 - 1) * (p * p).
Proof.
  intros H ->. replace (p * (1 + e) * (p * (1 + e)) - p * p) with ((e * (2 + e)) * (p * p)) by ring. pose proof (u_pos prec) as U.
  rewrite Rabs_mult, (Rabs_pos_eq (p * p)) by apply Rle_0_sqr. apply Rmult_le_compat_r; [apply Rle_0_sqr|].
  rewrite Rabs_mult. replace ((1 + u) ^ 2 - 1) with (u * (2 + u)) by ring. apply Rmult_le_compat; try apply Rabs_pos; [exact H|].
  apply Rabs_le_inv in H. apply Rabs_le. lra.
Qed.
Lemma two_squares p q e f x y v : Rabs e <= u -> Rabs f <= u -> x = p * (1 + e) -> y = q * (1 + f) ->
  Rabs (v - (x * x + y * y)) <= ((1 + u) ^ 2 - 1) * (x * x + y * y) + 2 * (1 + u) * eta ->
  Rabs (v - (p * p + q * q)) <= ((1 + u) ^ 4 - 1) * (p * p + q * q) + 2 * (1 + u) * eta.
Proof.
  intros H1 H2 Ex Ey H. pose proof (square_close p e x H1 Ex) as A. pose proof (square_close q f y H2 Ey) as B. clear Ex Ey H1 H2.
  pose proof (u_pos prec) as U. assert (G : 0 <= (1 + u) ^ 2 - 1) by (assert (1 <= (1 + u) ^ 2) by (apply pow_R1_Rle; lra); lra).
  replace ((1 + u) ^ 4 - 1) with (((1 + u) ^ 2 - 1) * (1 + ((1 + u) ^ 2 - 1)) + ((1 + u) ^ 2 - 1)) by ring.
  set (g := (1 + u) ^ 2 - 1) in *. set (t := 2 * (1 + u) * eta) in *. set (X := x * x + y * y) in *. set (P := p * p + q * q) in *.
  apply Rabs_le_inv in A, B. assert (XP : X <= P + g * P /\ P - g * P <= X) by (unfold X, P; lra).
  assert (g * X <= g * (P + g * P)) by (apply Rmult_le_compat_l; lra). apply Rabs_le_inv in H. apply Rabs_le. lra.
Qed.

(** |z + w|^2 + |z - w|^2 = 2 (|z|^2 + |w|^2) for the computed squared norms. *)
Theorem C101_complex_parallelogram : forall z w : complex fl,
  exists s d, complex_add (r_add FO) z w = Ok s /\ complex_sub (r_sub FO) z w = Ok d
  /\ (is_finite (norm2 z) = true -> is_finite (norm2 w) = true -> is_finite (norm2 s) = true -> is_finite (norm2 d) = true ->
      let N := B2R (re z) ^ 2 + B2R (im z) ^ 2 + B2R (re w) ^ 2 + B2R (im w) ^ 2 in
      Rabs (B2R (norm2 s) + B2R (norm2 d) - 2 * (B2R (norm2 z) + B2R (norm2 w))) <= 2 * ((1 + u) ^ 4 - 1 + ((1 + u) ^ 2 - 1)) * N + 12 * (1 + u) * eta).
Proof.
  intros z w. exists (Cx (fl_add prec emax (re z) (re w)) (fl_add prec emax (im z) (im w))), (Cx (fl_sub prec emax (re z) (re w)) (fl_sub prec emax (im z) (im w))).
  split; [reflexivity|]. split; [reflexivity|]. cbn [re im]. intros Fz Fw Fs Fd.
  destruct (norm2_error prec emax _ _ Fz) as (_ & _ & Bz). destruct (norm2_error prec emax _ _ Fw) as (_ & _ & Bw).
  destruct (norm2_error prec emax _ _ Fs) as (Fp & Fq & Bs). destruct (norm2_error prec emax _ _ Fd) as (Fp' & Fq' & Bd).
  destruct (add_model prec emax _ _ Fp) as (_ & _ & e1 & H1 & E1). destruct (add_model prec emax _ _ Fq) as (_ & _ & e2 & H2 & E2).
  destruct (sub_model prec emax _ _ Fp') as (_ & _ & e3 & H3 & E3). destruct (sub_model prec emax _ _ Fq') as (_ & _ & e4 & H4 & E4).
  pose proof (two_squares _ _ _ _ _ _ _ H1 H2 E1 E2 Bs) as Ps. pose proof (two_squares _ _ _ _ _ _ _ H3 H4 E3 E4 Bd) as Pd.
  clear - Ps Pd Bz Bw.
  set (g := (1 + u) ^ 2 - 1) in *. set (g4 := (1 + u) ^ 4 - 1) in *. set (t := 2 * (1 + u) * eta) in *.
  replace (12 * (1 + u) * eta) with (6 * t) by (unfold t; ring).
  set (a := B2R (re z)) in *. set (b := B2R (im z)) in *. set (c := B2R (re w)) in *. set (e := B2R (im w)) in *.
  assert (PL : ((a + c) * (a + c) + (b + e) * (b + e)) + ((a - c) * (a - c) + (b - e) * (b - e)) = 2 * (a ^ 2 + b ^ 2 + c ^ 2 + e ^ 2)) by ring.
  assert (QL : (a * a + b * b) + (c * c + e * e) = a ^ 2 + b ^ 2 + c ^ 2 + e ^ 2) by ring.
  set (S := (a + c) * (a + c) + (b + e) * (b + e)) in *. set (D := (a - c) * (a - c) + (b - e) * (b - e)) in *.
  set (X := a * a + b * b) in *. set (Y := c * c + e * e) in *. rewrite <- QL. rewrite <- QL in PL.
  assert (P4 : g4 * S + g4 * D = 2 * g4 * (X + Y)) by (rewrite <- Rmult_plus_distr_l, PL; ring).
  assert (P2 : g * X + g * Y = g * (X + Y)) by ring. replace (2 * (g4 + g) * (X + Y)) with (2 * g4 * (X + Y) + 2 * (g * (X + Y))) by ring.
  apply Rabs_le_inv in Ps, Pd, Bz, Bw. apply Rabs_le. lra.
Qed.
End Fmt.

(** 1/3 + 3i and 4 + i/3 in f64: every hypothesis is met. *)
Example C101_complex_case : let z := Cx third (f64_of_Z 3) in let w := Cx (f64_of_Z 4) third in let n2 := fun v : complex f64 => fl_norm2 53 1024 (re v) (im v) in
  cgrow 53 < 1 /\ is_finite (n2 z) = true /\ is_finite (n2 w) = true
  /\ on_ok (complex_add (r_add f64_ring) z w) (fun s => is_finite (n2 s)) = true /\ on_ok (complex_sub (r_sub f64_ring) z w) (fun s => is_finite (n2 s)) = true.
Proof.
  cbv zeta. split.
  - unfold cgrow. destruct C101_small as [U1 U2]. set (v := unit_roundoff 53) in *. assert ((1 + v) ^ 2 <= 1 + / 100) by (cbn; nra). assert (0 <= (1 + v) ^ 2) by (cbn; nra).
    replace ((1 + v) ^ 4) with ((1 + v) ^ 2 * (1 + v) ^ 2) by ring. nra.
  - vm_compute. repeat split; reflexivity.
Qed.

Print Assumptions C101_complex_triangle.
Print Assumptions C101_complex_parallelogram.
