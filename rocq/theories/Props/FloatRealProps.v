(** Property C81: on the real axis, Complex<f32>/Complex<f64> computes what f32/f64 compute.

    [x ~ y]: the same float, except that a zero may have the other sign. *)
From Coq Require Import List ZArith NArith Reals Bool Lia Lra Psatz.
From Flocq Require Import Core.Core IEEE754.BinarySingleNaN.
From Verif Require Import Base.Outcome Base.Array Base.Sim Model.Traits Model.Float Model.Polynomial Model.Complex
  Model.SVector Model.SMatrix
  Spec.Ring Spec.Sums Spec.FloatErr
  Proofs.FloatErr Proofs.FloatInt Proofs.FloatComm Proofs.FloatRound Proofs.FloatSpecial Proofs.FloatMono Proofs.FloatReal Proofs.FloatRange
  Proofs.RingSim Proofs.PolyExact Proofs.SMatrixProofs Proofs.FloatSqrt Props.FloatProps Props.FloatSqrtProps.
Import ListNotations.
Local Open Scope R_scope.

Section Fmt.
Context (prec emax : Z) {Hp : Prec_gt_0 prec} {He : Prec_lt_emax prec emax}.
Notation fl := (binary_float prec emax).
Notation FO := (float_ring prec emax).
Notation FF := (float_field prec emax).
Notation CO := (complex_ops FO).
Notation zero := (fl_int prec emax 0).
Notation one := (fl_int prec emax 1).
Notation add := (fl_add prec emax).
Notation sub := (fl_sub prec emax).
Notation mul := (fl_mul prec emax).
Notation is_zero := (is_zero prec emax).
Notation "x <=. y" := (Bleb x y = true) (at level 70).
Notation "x ~ y" := (same_up_to_zero x y) (at level 70).

(** [c] is the real number [x] as a complex number. *)
Definition is_real (x : fl) (c : complex fl) : Prop := re c ~ x /\ (exists s, im c = B754_zero s).

(** ** Ring operations: as long as the real results are finite *)
Definition real_if_finite (x : fl) (c : complex fl) : Prop := is_finite x = true -> is_real x c.

Lemma zero_add_zero x y : is_zero x -> is_zero y -> is_zero (add x y).
Proof. intros Hx Hy. eapply zero_same; [|apply add_zero_l, Hx]. exact Hy. Qed.
Lemma zero_sub_zero x y : is_zero x -> is_zero y -> is_zero (sub x y).
Proof. intros Hx Hy. rewrite fl_sub_def. apply zero_add_zero; [exact Hx|apply opp_zero, Hy]. Qed.
Lemma same_finite (x y : fl) : x ~ y -> is_finite x = is_finite y.
Proof. intros [->|(s & t & -> & ->)]; reflexivity. Qed.
Lemma mul_same x x' y y' : x ~ x' -> y ~ y' -> mul x y ~ mul x' y'.
Proof. intros H1 H2. eapply same_trans; [apply mul_same_l, H1|apply mul_same_r, H2]. Qed.
Lemma add_same x x' y y' : x ~ x' -> y ~ y' -> add x y ~ add x' y'.
Proof. intros H1 H2. eapply same_trans; [apply add_same_l, H1|apply add_same_r, H2]. Qed.

Lemma real_sim : ring_sim (fun _ => False) real_if_finite FO CO.
Proof.
  constructor; cbn [complex_ops r_zero r_one r_add r_sub r_mul r_neg].
  - intros _. split; [apply same_refl|]. eexists. reflexivity.
  - intros _. split; [apply same_refl|]. eexists. reflexivity.
  - intros x1 [a b] y1 [c d] Hx Hy. apply sim_ok. intros F. cbn [re im].
    destruct (add_model prec emax _ _ F) as (F1 & F2 & _).
    destruct (Hx F1) as [E1 Z1], (Hy F2) as [E2 Z2]. split; [apply add_same; assumption|apply zero_add_zero; assumption].
  - intros x1 [a b] y1 [c d] Hx Hy. apply sim_ok. intros F. cbn [re im].
    rewrite fl_sub_def in F. destruct (add_model prec emax _ _ F) as (F1 & F2 & _). rewrite is_finite_Bopp in F2.
    destruct (Hx F1) as [E1 Z1], (Hy F2) as [E2 Z2]. split; [|apply zero_sub_zero; assumption].
    rewrite !fl_sub_def. apply add_same; [assumption|apply opp_same; assumption].
  - intros x1 [a b] y1 [c d] Hx Hy. apply sim_ok. intros F. cbn [re im complex_new].
    destruct (mul_model prec emax _ _ F) as (F1 & F2 & _).
    destruct (Hx F1) as [E1 Z1], (Hy F2) as [E2 Z2]. cbn [re im] in *.
    pose proof (same_finite _ _ E1) as Fa. pose proof (same_finite _ _ E2) as Fc.
    assert (Fz : forall z, is_zero z -> is_finite z = true) by (intros z (s & ->); reflexivity).
    split.
    + rewrite fl_sub_def. eapply same_trans; [apply add_zero_r, opp_zero, mul_zero_l; [exact Z1|apply Fz, Z2]|].
      apply mul_same; assumption.
    + apply zero_add_zero; [apply mul_zero_r; [exact Z2|congruence]|apply mul_zero_l; [exact Z1|congruence]].
  - intros x1 [a b] Hx. apply sim_ok. intros F. rewrite is_finite_Bopp in F. destruct (Hx F) as [E1 Z1].
    split; cbn [re im complex_new]; [apply opp_same, E1|apply opp_zero, Z1].
Qed.

Lemma forall2_real (p : list fl) (P : list (complex fl)) : Forall2 is_real p P -> Forall2 real_if_finite p P.
Proof. induction 1; constructor; auto. intros _. assumption. Qed.

Lemma forall2_finite (l : list fl) L : Forall (fun x => is_finite x = true) l -> Forall2 real_if_finite l L -> Forall2 is_real l L.
Proof. intros F H. induction H; constructor; inversion F; subst; auto. Qed.

(** Evaluating a polynomial with real coefficients at a real point. *)
Theorem C81_evaluation :
  forall (p : poly fl) (P : poly (complex fl)) (x : fl) (c : complex fl),
  Forall2 is_real p P -> is_real x c ->
  exists r R, poly_eval FO p x = Ok r /\ poly_eval CO P c = Ok R /\ (is_finite r = true -> is_real r R).
Proof.
  intros p P x c HP Hx. pose proof (sim_poly_eval _ _ _ _ real_sim p P x c (forall2_real _ _ HP) (fun _ => Hx)) as H.
  unfold poly_eval. rewrite (poly_eval_horner prec emax p x) in H. destruct H as (R & E & H). 
  exists (fl_horner prec emax p x), R. split; [apply poly_eval_horner|]. auto.
Qed.

(** Products of polynomials with real coefficients, coefficient by coefficient. *)
Theorem C81_products :
  forall (p q : poly fl) (P Q : poly (complex fl)), Forall2 is_real p P -> Forall2 is_real q Q ->
  exists r R, poly_mul FO p q = Ok r /\ poly_mul CO P Q = Ok R
  /\ Forall2 (fun x c => is_finite x = true -> is_real x c) r R.
Proof.
  intros p q P Q HP HQ. pose proof (sim_poly_mul _ _ _ _ real_sim p P q Q (forall2_real _ _ HP) (forall2_real _ _ HQ)) as H.
  destruct (poly_mul_ref FO p q) as [r|pn|] eqn:E.
  - destruct H as (R & E' & H). exists r, R. auto.
  - exfalso. destruct (poly_mul_exact FO _ (float_implements prec emax) p q) as (r & Hr & _). congruence.
  - exfalso. destruct (poly_mul_exact FO _ (float_implements prec emax) p q) as (r & Hr & _). congruence.
Qed.

(** Dot products and matrix products with real entries. *)
Theorem C81_linear_algebra :
  forall (L M N : nat) (a : smatrix fl L M) (b : smatrix fl M N) (u v : svector fl M)
         (A : smatrix (complex fl) L M) (B : smatrix (complex fl) M N) (U V : svector (complex fl) M),
  Forall2 (fun r R => Forall2 is_real (entries r) (entries R)) (entries a) (entries A) ->
  Forall2 (fun r R => Forall2 is_real (entries r) (entries R)) (entries b) (entries B) ->
  Forall2 is_real (entries u) (entries U) -> Forall2 is_real (entries v) (entries V) ->
  exists d D c C w W,
  svector_dot FO u v = Ok d /\ svector_dot CO U V = Ok D /\ (is_finite d = true -> is_real d D)
  /\ smatrix_mul FO a b = Ok c /\ smatrix_mul CO A B = Ok C
  /\ Forall2 (fun r R => Forall2 (fun x z => is_finite x = true -> is_real x z) (entries r) (entries R)) (entries c) (entries C)
  /\ smatrix_mul_vec FO a v = Ok w /\ smatrix_mul_vec CO A V = Ok W
  /\ Forall2 (fun x z => is_finite x = true -> is_real x z) (entries w) (entries W).
Proof.
  intros L M N a b u v A B U V Ha Hb Hu Hv.
  assert (Mx : forall l l', Forall2 (fun (r : svector fl M) R => Forall2 is_real (entries r) (entries R)) l l' ->
                 Forall2 (arel real_if_finite) l l').
  { induction 1; constructor; auto. apply forall2_real. assumption. }
  assert (Mx' : forall l l', Forall2 (fun (r : svector fl N) R => Forall2 is_real (entries r) (entries R)) l l' ->
                 Forall2 (arel real_if_finite) l l').
  { induction 1; constructor; auto. apply forall2_real. assumption. }
  pose proof (sim_svector_dot _ _ _ _ real_sim M u U v V (forall2_real _ _ Hu) (forall2_real _ _ Hv)) as H1.
  pose proof (sim_smatrix_mul _ _ _ _ real_sim L M N a A b B (Mx _ _ Ha) (Mx' _ _ Hb)) as H2.
  pose proof (sim_smatrix_mul_vec _ _ _ _ real_sim L M a A v V (Mx _ _ Ha) (forall2_real _ _ Hv)) as H3.
  pose proof (svector_dot_total FO _ (float_implements prec emax) u v) as T1.
  pose proof (smatrix_mul_total FO _ (float_implements prec emax) a b) as T2.
  pose proof (smatrix_mul_vec_total FO _ (float_implements prec emax) a v) as T3.
  rewrite T1 in H1. rewrite T2 in H2. rewrite T3 in H3.
  destruct H1 as (D & E1 & R1), H2 as (C & E2 & R2), H3 as (W & E3 & R3).
  do 6 eexists. split; [exact T1|]. split; [exact E1|]. split; [exact R1|]. split; [exact T2|]. split; [exact E2|].
  split; [exact R2|]. split; [exact T3|]. split; [exact E3|]. exact R3.
Qed.

(** Multiplying by a real number with [*] is scaling, for finite operands (overflow allowed). *)
Theorem C81_scaling :
  forall (z c : complex fl) (x : fl), is_real x c -> is_finite x = true ->
  is_finite (re z) = true -> is_finite (im z) = true ->
  exists p s, complex_mul FO z c = Ok p /\ complex_mul_scalar FO z x = Ok s /\ complex_same_up_to_zero prec emax p s.
Proof.
  intros [a b] [c d] x [E (s & Z)] Fx Fa Fb. cbn [re im] in *. subst d.
  do 2 eexists. split; [reflexivity|]. split; [reflexivity|]. split; cbn [re im complex_new].
  - rewrite fl_sub_def. eapply same_trans; [apply add_zero_r, opp_zero, mul_zero_r; [eexists; reflexivity|exact Fb]|].
    apply mul_same_r, E.
  - eapply same_trans; [apply add_zero_l, mul_zero_r; [eexists; reflexivity|exact Fa]|]. apply mul_same_r, E.
Qed.

(** ** Absolute value and square root *)
Section Roots.
Context (libm : FunOps fl).
Notation FE := (float_fun prec emax libm).

Lemma within_square k x : (1 < prec)%Z -> (2 * k + 2 <= emax)%Z -> within k x -> B2R x <> 0 ->
  Bsqrt mode_NE (mul x x) = Babs x.
Proof.
  intros H1 Hk [F W] N0. destruct W as [W|[W1 W2]]; [contradiction|].
  pose proof (bpow_gt_0 radix2 (- k)) as Pk. pose proof (Rabs_pos (B2R x)) as Pa.
  assert (Ey : B2R x * B2R x = Rabs (B2R x) * Rabs (B2R x)).
  { rewrite <- Rabs_mult. symmetry. apply Rabs_pos_eq, Rle_0_sqr. }
  apply sqrt_square; [exact H1|exact F| |].
  - rewrite Ey. apply Rle_trans with (bpow radix2 (- k) * bpow radix2 (- k)).
    + rewrite <- bpow_plus. apply bpow_le. lia.
    + apply Rmult_le_compat; lra.
  - destruct (mul_round prec emax x x F F) as [Fm _]; [|exact Fm].
    rewrite Ey. apply Rle_trans with (bpow radix2 k * bpow radix2 k).
    + rewrite Rabs_pos_eq by (apply Rmult_le_pos; assumption). apply Rmult_le_compat; lra.
    + rewrite <- bpow_plus. unfold half_big. apply bpow_le. lia.
Qed.

Lemma nonzero_add_zero m z : is_finite m = true -> B2R m <> 0 -> is_zero z -> add m z = m /\ add z m = m.
Proof. intros F N (s & ->). destruct m; try discriminate F; [elim N; reflexivity|split; reflexivity]. Qed.

Lemma square_zero z : is_zero z -> mul z z = B754_zero false.
Proof. intros (s & ->). destruct s; reflexivity. Qed.

Lemma square_nonzero k x : (1 < prec)%Z -> (2 * k + 2 <= emax)%Z -> within k x -> B2R x <> 0 ->
  is_finite (mul x x) = true /\ B2R (mul x x) <> 0.
Proof.
  intros H1 Hk W N0. pose proof (within_square k x H1 Hk W N0) as E.
  assert (Fa : is_finite (Babs x) = true) by (rewrite is_finite_Babs; apply W).
  assert (Na : B2R (Babs x) <> 0) by (rewrite B2R_Babs; apply Rabs_no_R0, N0).
  destruct (mul x x) as [s|s| |s m e B].
  - elim Na. rewrite <- E. reflexivity.
  - rewrite <- E in Fa. destruct s; discriminate.
  - rewrite <- E in Fa. discriminate.
  - split; [reflexivity|]. simpl. intros H. apply eq_0_F2R in H. destruct s; discriminate.
Qed.

Lemma zero_or (x : fl) : is_finite x = true -> is_zero x \/ B2R x <> 0.
Proof.
  destruct x as [s|s| |s m e B]; intros F; try discriminate; [left; eexists; reflexivity|].
  right. intros H. apply eq_0_F2R in H. destruct s; discriminate.
Qed.

Lemma norm_axis k x z : (1 < prec)%Z -> (2 * k + 2 <= emax)%Z -> within k x -> is_zero z ->
  Bsqrt mode_NE (fl_norm2 prec emax x z) = Babs x /\ Bsqrt mode_NE (fl_norm2 prec emax z x) = Babs x.
Proof.
  intros H1 Hk W Hz. unfold fl_norm2. rewrite (square_zero z Hz).
  destruct (zero_or x (proj1 W)) as [Zx|N].
  - rewrite (square_zero x Zx). destruct Zx as (s & ->). split; reflexivity.
  - destruct (square_nonzero k x H1 Hk W N) as [Fm Nm].
    destruct (nonzero_add_zero _ (B754_zero false) Fm Nm) as [-> ->]; [eexists; reflexivity|].
    rewrite (within_square k x H1 Hk W N). auto.
Qed.

(** |x + 0i| and |0 + xi| are exactly |x|. *)
Theorem C81_abs_on_axes :
  forall k (x : fl) (s : bool), (1 < prec)%Z -> (2 * k + 2 <= emax)%Z -> within k x ->
  complex_abs FF FE (Cx x (B754_zero s)) = Ok (Babs x) /\ complex_abs FF FE (Cx (B754_zero s) x) = Ok (Babs x)
  /\ complex_abs_ref FF FE (Cx x (B754_zero s)) = Ok (Babs x) /\ complex_abs_ref FF FE (Cx (B754_zero s) x) = Ok (Babs x).
Proof.
  intros k x s H1 Hk W. destruct (norm_axis k x (B754_zero s) H1 Hk W) as [A B]; [eexists; reflexivity|].
  assert (A' : complex_abs FF FE (Cx x (B754_zero s)) = Ok (Babs x)) by (rewrite <- A; reflexivity).
  assert (B' : complex_abs FF FE (Cx (B754_zero s) x) = Ok (Babs x)) by (rewrite <- B; reflexivity).
  auto.
Qed.

(** |re z| <= |z| and |im z| <= |z| after rounding, if the larger one is not tiny; large, even
    infinite components are allowed. *)
Theorem C81_abs_at_least_components :
  forall (z : complex fl), (1 < prec)%Z -> is_nan (re z) = false -> is_nan (im z) = false ->
  is_finite (re z) = false \/ is_finite (im z) = false
  \/ bpow radix2 (2 - emax) <= B2R (re z) * B2R (re z) \/ bpow radix2 (2 - emax) <= B2R (im z) * B2R (im z) ->
  exists a, complex_abs FF FE z = Ok a /\ Babs (re z) <=. a /\ Babs (im z) <=. a.
Proof.
  intros [x y] H1 Nx Ny H. cbn [re im] in *. eexists. split; [reflexivity|]. cbn [re im].
  change (add (mul x x) (mul y y)) with (fl_norm2 prec emax x y).
  assert (NX : x <> B754_nan) by (intros ->; discriminate). assert (NY : y <> B754_nan) by (intros ->; discriminate).
  pose proof (nonneg_leb prec emax _ (square_nonneg prec emax x NX)) as [Sx Mx].
  pose proof (nonneg_leb prec emax _ (square_nonneg prec emax y NY)) as [Sy My].
  assert (Ab : forall t : fl, is_nan t = false -> is_nan (Babs t) = false) by (intros t E; destruct t; (reflexivity || discriminate)).
  (* the norm is at least each square *)
  assert (Lx : mul x x <=. fl_norm2 prec emax x y).
  { unfold fl_norm2. eapply leb_trans; [|apply (add_mono prec emax (mul x x) (mul x x) zero (mul y y)); auto].
    - destruct (mul x x) as [s|s| |s m e B] eqn:E; try discriminate Mx; try (destruct s; try discriminate Sx; reflexivity).
      all: apply leb_refl; reflexivity.
    - apply leb_refl, Mx.
    - destruct (mul x x); try discriminate Mx; try reflexivity. destruct s; reflexivity.
    - eapply nonneg_zero_num, add_nonneg; assumption. }
  assert (Ly : mul y y <=. fl_norm2 prec emax x y).
  { unfold fl_norm2. rewrite (fl_add_comm prec emax (mul x x)). eapply leb_trans; [|apply (add_mono prec emax (mul y y) (mul y y) zero (mul x x)); auto].
    - destruct (mul y y) as [s|s| |s m e B] eqn:E; try discriminate My; try (destruct s; try discriminate Sy; reflexivity).
      all: apply leb_refl; reflexivity.
    - apply leb_refl, My.
    - destruct (mul y y); try discriminate My; try reflexivity. destruct s; reflexivity.
    - eapply nonneg_zero_num, add_nonneg; assumption. }
  assert (Big : forall t, is_nan t = false -> is_finite t = false \/ bpow radix2 (2 - emax) <= B2R t * B2R t ->
     zero <=. mul t t -> mul t t <=. fl_norm2 prec emax x y -> Babs t <=. Bsqrt mode_NE (fl_norm2 prec emax x y)).
  { intros t Nt Ht P L. eapply leb_trans; [|apply (sqrt_mono prec emax _ _ P L)].
    destruct t as [s|s| |s m e B]; try discriminate Nt.
    - exfalso. destruct Ht as [Ht|Ht]; [discriminate|]. cbn [B2R] in Ht. pose proof (bpow_gt_0 radix2 (2 - emax)). lra.
    - destruct s; reflexivity.
    - destruct Ht as [Ht|Ht]; [discriminate|].
      destruct (is_finite (mul (B754_finite s m e B) (B754_finite s m e B))) eqn:F.
      + rewrite sqrt_square by (auto; reflexivity). apply leb_refl. reflexivity.
      + apply nonneg_iff in P as (Np & [E|(F' & _)]); [|congruence]. rewrite E. reflexivity. }
  (* the larger of the two is not tiny *)
  assert (T : Babs x <=. Babs y \/ Babs y <=. Babs x).
  { destruct x as [s|s| |s m e B], y as [t|t| |t m' e' B']; try discriminate; try (left; reflexivity); try (right; reflexivity).
    destruct (Rle_or_lt (B2R (Babs (B754_finite s m e B))) (B2R (Babs (B754_finite t m' e' B')))) as [G|G]; [left|right]; apply leb_finite; auto; lra. }
  assert (Tiny : forall s t : fl, is_nan s = false -> is_nan t = false -> Babs s <=. Babs t ->
     is_finite s = false \/ bpow radix2 (2 - emax) <= B2R s * B2R s -> is_finite t = false \/ bpow radix2 (2 - emax) <= B2R t * B2R t).
  { intros s t Ns Nt L D. destruct (is_finite t) eqn:Ft; [right|auto].
    assert (Fs : is_finite s = true).
    { apply leb_iff in L as (_ & _ & [E|[E|(Fs & _)]]).
      - destruct s; discriminate. - destruct t; discriminate. - rewrite is_finite_Babs in Fs. exact Fs. }
    destruct D as [D|D]; [congruence|].
    apply leb_finite in L; [|rewrite is_finite_Babs; assumption..]. rewrite !B2R_Babs in L.
    assert (Q : forall v, v * v = Rabs v * Rabs v) by (intros v; rewrite <- Rabs_mult; symmetry; apply Rabs_pos_eq, Rle_0_sqr).
    rewrite Q in D |- *. pose proof (Rabs_pos (B2R s)). apply Rle_trans with (1 := D). apply Rmult_le_compat; assumption. }
  destruct T as [T|T].
  - assert (By : Babs y <=. Bsqrt mode_NE (fl_norm2 prec emax x y)).
    { apply Big; auto. destruct H as [H|[H|[H|H]]]; auto; apply (Tiny x y); auto. }
    split; [|exact By]. eapply leb_trans; eassumption.
  - assert (Bx : Babs x <=. Bsqrt mode_NE (fl_norm2 prec emax x y)).
    { apply Big; auto. destruct H as [H|[H|[H|H]]]; auto; apply (Tiny y x); auto. }
    split; [exact Bx|]. eapply leb_trans; eassumption.
Qed.

(** The square root of a positive real number is the correctly rounded real square root, that of
    a negative one is purely imaginary. *)
Lemma abs_finite_sign k x : within k x -> B2R x <> 0 -> exists m e B, Babs x = @B754_finite prec emax false m e B.
Proof.
  intros [F _] N. destruct x as [s|s| |s m e B]; try discriminate; [elim N; reflexivity|]. eexists _, _, _. reflexivity.
Qed.

Lemma value_inj (x y : fl) : is_finite x = true -> is_finite y = true -> B2R x = B2R y -> B2R y <> 0 -> x = y.
Proof.
  intros Fx Fy E N. apply B2R_inj; [..|exact E].
  - destruct x; try discriminate; [|reflexivity]. elim N. rewrite <- E. reflexivity.
  - destruct y; try discriminate; [|reflexivity]. elim N. reflexivity.
Qed.

Lemma double_exact k x : (11 <= prec)%Z -> (0 <= k)%Z -> (2 * k + 10 <= emax)%Z -> within k x -> B2R x <> 0 ->
  let ax := Babs x in
  is_finite (add ax ax) = true /\ B2R (add ax ax) = 2 * Rabs (B2R x)
  /\ mul (add ax ax) (fl_div prec emax one (add one one)) = ax.
Proof.
  intros Hprec H0 Hk [F W] N ax. destruct W as [W|[W1 W2]]; [contradiction|].
  destruct (half_value prec emax Hprec k H0 Hk) as [Fh Eh].
  assert (Fa : is_finite ax = true) by (unfold ax; rewrite is_finite_Babs; exact F).
  assert (Ea : B2R ax = Rabs (B2R x)) by apply B2R_Babs.
  assert (HB : 2 * bpow radix2 k <= half_big emax).
  { unfold half_big. change 2 with (bpow radix2 1). rewrite <- bpow_plus. apply bpow_le. lia. }
  pose proof (Rabs_pos (B2R x)) as Pa.
  destruct (add_round prec emax ax ax Fa Fa) as [Fs Es]; [rewrite Ea, Rabs_pos_eq by lra; lra|].
  assert (Vs : B2R (add ax ax) = 2 * Rabs (B2R x)).
  { rewrite Es, Ea. replace (Rabs (B2R x) + Rabs (B2R x)) with (Rabs (B2R x) * bpow radix2 1) by (simpl; lra).
    rewrite round_generic; [simpl; lra|apply valid_rnd_round_mode|]. rewrite <- Ea.
    apply (Mult_error.mult_bpow_pos_exact_FLT radix2 (SpecFloat.emin prec emax) prec); [apply generic_format_B2R|lia]. }
  split; [exact Fs|]. split; [exact Vs|].
  destruct (mul_round prec emax (add ax ax) (fl_div prec emax one (add one one)) Fs Fh) as [Fm Em].
  { rewrite Vs, Eh. replace (2 * Rabs (B2R x) * / 2) with (Rabs (B2R x)) by field. rewrite Rabs_Rabsolu. lra. }
  apply value_inj; [exact Fm|exact Fa| |rewrite Ea; apply Rabs_no_R0, N].
  rewrite Em, Vs, Eh. replace (2 * Rabs (B2R x) * / 2) with (B2R ax) by (rewrite Ea; field).
  apply round_generic; [apply valid_rnd_round_mode|apply generic_format_B2R].
Qed.

Theorem C81_sqrt_on_real_axis :
  forall k (x : fl) (s : bool), (11 <= prec)%Z -> (0 <= k)%Z -> (2 * k + 10 <= emax)%Z -> within k x -> B2R x <> 0 ->
  complex_sqrt FF FE (Cx x (B754_zero s))
  = Ok (if Rlt_dec 0 (B2R x) then Cx (Bsqrt mode_NE x) (B754_zero false)
        else Cx (B754_zero false) (Bsqrt mode_NE (Bopp x))).
Proof.
  intros k x s Hprec H0 Hk W N.
  destruct (double_exact k x Hprec H0 Hk W N) as (Fd & Vd & Eh).
  destruct (norm_axis k x (B754_zero s)) as [A _]; [lia|lia|exact W|eexists; reflexivity|].
  destruct (two_value prec emax Hprec k H0 Hk) as [F2 V2].
  pose proof (Rabs_pos_lt _ N) as Pa.
  unfold complex_sqrt.
  cbn [r_add r_sub r_mul r_one r_zero r_neg f_ring f_div float_field float_ring fn_abs fn_leb fn_ltb fn_sqrt float_fun bind re im].
  unfold complex_abs_ref, complex_sqr_norm.
  cbn [r_add r_sub r_mul r_one r_zero r_neg f_ring f_div float_field float_ring fn_abs fn_leb fn_ltb fn_sqrt float_fun bind re im].
  change (add (mul x x) (mul (B754_zero s) (B754_zero s))) with (fl_norm2 prec emax x (B754_zero s)). rewrite A.
  assert (Tw : mul (Babs (B754_zero s)) (add one one) = B754_zero false).
  { change (Babs (B754_zero s)) with (@B754_zero prec emax false).
    destruct (add one one) as [t|t| |t m e B]; try discriminate F2.
    - simpl in V2. lra.
    - destruct t; [|reflexivity]. exfalso. assert (B2R (B754_finite true m e B) < 0) by (apply F2R_lt_0; reflexivity). lra. }
  rewrite Tw.
  assert (Le : Bleb (Babs x) (B754_zero false) = false).
  { rewrite Bleb_correct by (rewrite ?is_finite_Babs; try reflexivity; apply W). rewrite B2R_Babs. simpl. apply Rle_bool_false, Pa. }
  rewrite Le. rewrite Eh.
  (* the denominator is positive *)
  assert (Fm : is_finite (mul (add (Babs x) (Babs x)) (add one one)) = true
               /\ B2R (mul (add (Babs x) (Babs x)) (add one one)) = 4 * Rabs (B2R x)).
  { destruct W as [F [W|[W1 W2]]]; [contradiction|].
    assert (HB : 4 * bpow radix2 k <= half_big emax).
    { unfold half_big. change 4 with (bpow radix2 2). rewrite <- bpow_plus. apply bpow_le. lia. }
    destruct (mul_round prec emax (add (Babs x) (Babs x)) (add one one) Fd F2) as [G E].
    { rewrite Vd, V2, Rabs_pos_eq by lra. lra. }
    split; [exact G|]. rewrite E, Vd, V2. replace (2 * Rabs (B2R x) * 2) with (Rabs (B2R x) * bpow radix2 2) by (simpl; lra).
    rewrite round_generic; [simpl; lra|apply valid_rnd_round_mode|]. rewrite <- B2R_Babs.
    apply (Mult_error.mult_bpow_pos_exact_FLT radix2 (SpecFloat.emin prec emax) prec); [apply generic_format_B2R|lia]. }
  destruct Fm as [Fm Vm].
  destruct (sqrt_round prec emax _ Fm) as [Fs Vs]; [rewrite Vm; lra|].
  assert (Al : fl_div prec emax (Babs (B754_zero s)) (Bsqrt mode_NE (mul (add (Babs x) (Babs x)) (add one one))) = B754_zero false).
  { change (Babs (B754_zero s)) with (@B754_zero prec emax false).
    pose proof (sqrt_lt_R0 (4 * Rabs (B2R x)) ltac:(lra)) as Ps.
    assert (Nn : nonneg prec emax (mul (add (Babs x) (Babs x)) (add one one))).
    { destruct (mul (add (Babs x) (Babs x)) (add one one)) as [t|t| |t m e B]; try discriminate Fm.
      - left. eexists. reflexivity.
      - destruct t; [|right; left; eauto]. exfalso. assert (B2R (B754_finite true m e B) < 0) by (apply F2R_lt_0; reflexivity). lra. }
    destruct (sqrt_nonneg prec emax _ Nn) as [(t & E)|[(m & e & B & ->)|E]].
    - exfalso. change (exists t, Bsqrt mode_NE (mul (add (Babs x) (Babs x)) (add one one)) = B754_zero t) in E || idtac.
      assert (L : bpow radix2 (- k) <= B2R (Bsqrt mode_NE (mul (add (Babs x) (Babs x)) (add one one)))).
      { rewrite Vs, Vm. change (round_mode mode_NE) with ZnearestE.
        assert (V : Valid_exp (SpecFloat.fexp prec emax)) by (apply fexp_correct, Hp).
        apply round_ge_generic; [exact V|apply valid_rnd_N| |].
        - apply generic_format_bpow. unfold SpecFloat.fexp, SpecFloat.emin. unfold Prec_lt_emax in He. lia.
        - destruct W as [_ [W|[W1 _]]]; [contradiction|]. pose proof (bpow_gt_0 radix2 (- k)) as Pk.
          assert (bpow radix2 (- k) <= 1) by (change 1 with (bpow radix2 0); apply bpow_le; lia).
          apply Rsqr_incr_0_var; [|apply sqrt_pos]. unfold Rsqr. rewrite sqrt_sqrt by lra.
          apply Rle_trans with (bpow radix2 (- k) * 1); [apply Rmult_le_compat_l; lra|lra]. }
      rewrite E in L. cbn [B2R] in L. pose proof (bpow_gt_0 radix2 (- k)). lra.
    - reflexivity.
    - rewrite E in Fs. discriminate. }
  rewrite Al. cbn [bind].
  rewrite (Bleb_correct prec emax zero x eq_refl (proj1 W)). change (B2R zero) with 0.
  assert (Lt : Bltb (B754_zero s) zero = false) by reflexivity.
  destruct (Rlt_dec 0 (B2R x)) as [P|P].
  - rewrite Rle_bool_true by lra. cbn [bind]. rewrite Lt. cbn [bind]. unfold complex_new. do 2 f_equal.
    destruct x as [t|t| |t m e B]; try discriminate (proj1 W); [elim N; reflexivity|]. destruct t; [|reflexivity].
    exfalso. assert (B2R (B754_finite true m e B) < 0) by (apply F2R_lt_0; reflexivity). lra.
  - rewrite Rle_bool_false by lra. cbn [bind]. rewrite Lt. cbn [bind]. unfold complex_new. do 2 f_equal.
    destruct x as [t|t| |t m e B]; try discriminate (proj1 W); [elim N; reflexivity|]. destruct t; [reflexivity|].
    exfalso. assert (0 < B2R (B754_finite false m e B)) by (apply F2R_gt_0; reflexivity). lra.
Qed.

(** Square roots of imaginary numbers: both components are the rounded root of |y|/2, which is exact. *)
Theorem C81_sqrt_on_imaginary_axis :
  forall k (y : fl) (s : bool), (11 <= prec)%Z -> (0 <= k)%Z -> (2 * k + 10 <= emax)%Z -> within k y -> B2R y <> 0 ->
  exists h, is_finite h = true /\ B2R h = Rabs (B2R y) / 2
  /\ complex_sqrt FF FE (Cx (B754_zero s) y)
     = Ok (Cx (Bsqrt mode_NE h) (if Rlt_dec (B2R y) 0 then Bopp (Bsqrt mode_NE h) else Bsqrt mode_NE h)).
Proof.
  intros k y s Hprec H0 Hk W N.
  destruct (norm_axis k y (B754_zero s)) as [_ A]; [lia|lia|exact W|eexists; reflexivity|].
  destruct (half_value prec emax Hprec k H0 Hk) as [Fh Vh]. destruct (two_value prec emax Hprec k H0 Hk) as [F2 V2].
  pose proof (Rabs_pos_lt _ N) as Pa.
  assert (Fa : is_finite (Babs y) = true) by (rewrite is_finite_Babs; apply W).
  assert (Na : B2R (Babs y) <> 0) by (rewrite B2R_Babs; apply Rabs_no_R0, N).
  exists (mul (Babs y) (fl_div prec emax one (add one one))).
  assert (M : is_finite (mul (Babs y) (fl_div prec emax one (add one one))) = true
              /\ B2R (mul (Babs y) (fl_div prec emax one (add one one))) = Rabs (B2R y) / 2).
  { pose proof W as W'. destruct W as [F [W|[W1 W2]]]; [contradiction|].
    assert (HB : bpow radix2 k <= half_big emax) by (unfold half_big; apply bpow_le; lia).
    destruct (mul_round prec emax (Babs y) (fl_div prec emax one (add one one)) Fa Fh) as [G E].
    { rewrite B2R_Babs, Vh, Rabs_pos_eq by lra. lra. }
    split; [exact G|]. rewrite E, B2R_Babs, Vh. change (/ 2) with (bpow radix2 (-1)).
    rewrite round_generic; [simpl; lra|apply valid_rnd_round_mode|]. rewrite <- B2R_Babs.
    apply (Mult_error.mult_bpow_exact_FLT radix2 (SpecFloat.emin prec emax) prec); [apply generic_format_B2R|].
    rewrite B2R_Babs, mag_abs. 
    assert (G1 : (- k < mag radix2 (B2R y))%Z) by (apply mag_gt_bpow; exact W1).
    unfold SpecFloat.emin. lia. }
  destruct M as [Fm Vm]. split; [exact Fm|]. split; [exact Vm|].
  unfold complex_sqrt.
  cbn [r_add r_sub r_mul r_one r_zero r_neg f_ring f_div float_field float_ring fn_abs fn_leb fn_ltb fn_sqrt float_fun bind re im].
  unfold complex_abs_ref, complex_sqr_norm.
  cbn [r_add r_sub r_mul r_one r_zero r_neg f_ring f_div float_field float_ring fn_abs fn_leb fn_ltb fn_sqrt float_fun bind re im].
  change (add (mul (B754_zero s) (B754_zero s)) (mul y y)) with (fl_norm2 prec emax (B754_zero s) y). rewrite A.
  assert (Ft : is_finite (mul (Babs y) (add one one)) = true /\ 0 <= B2R (mul (Babs y) (add one one))).
  { pose proof W as [F [W'|[W1 W2]]]; [contradiction|].
    assert (HB : 2 * bpow radix2 k <= half_big emax).
    { unfold half_big. change 2 with (bpow radix2 1). rewrite <- bpow_plus. apply bpow_le. lia. }
    destruct (mul_round prec emax (Babs y) (add one one) Fa F2) as [G E].
    { rewrite B2R_Babs, V2, Rabs_pos_eq by lra. lra. }
    split; [exact G|]. rewrite E. apply (rnd_nonneg prec emax). rewrite B2R_Babs, V2. lra. }
  destruct Ft as [Ft Pt].
  assert (Le : Bleb (Babs (B754_zero s)) (mul (Babs y) (add one one)) = true).
  { rewrite Bleb_correct by (try reflexivity; exact Ft). change (B2R (Babs (B754_zero s))) with 0. apply Rle_bool_true, Pt. }
  rewrite Le. cbn [bind].
  rewrite fl_sub_def.
  destruct (nonzero_add_zero (Babs y) (B754_zero s) Fa Na) as [-> _]; [eexists; reflexivity|].
  destruct (nonzero_add_zero (Babs y) (Bopp (B754_zero s)) Fa Na) as [-> _]; [apply opp_zero; eexists; reflexivity|].
  rewrite (Bltb_correct prec emax y zero (proj1 W) eq_refl). change (B2R zero) with 0.
  destruct (Rlt_dec (B2R y) 0) as [P|P].
  - rewrite Rlt_bool_true by exact P. reflexivity.
  - rewrite Rlt_bool_false by lra. reflexivity.
Qed.

(** ** Elementary functions, for a libm that is exact at 0 (as the C standard requires) *)
Definition exact_at_zero : Prop := forall s,
  fn_cos libm (B754_zero s) = Ok one /\ fn_cosh libm (B754_zero s) = Ok one
  /\ fn_sin libm (B754_zero s) = Ok (B754_zero s) /\ fn_sinh libm (B754_zero s) = Ok (B754_zero s).

Theorem C81_functions_on_real_axis :
  exact_at_zero -> forall (x : fl) (t : bool) e s c sh ch,
  fn_exp libm x = Ok e -> fn_sin libm x = Ok s -> fn_cos libm x = Ok c -> fn_sinh libm x = Ok sh -> fn_cosh libm x = Ok ch ->
  let z := Cx x (B754_zero t) in
  (is_finite e = true -> exists i, complex_exp FF FE z = Ok (Cx e (B754_zero i)))
  /\ (is_finite c = true -> exists i, complex_sin FF FE z = Ok (Cx s (B754_zero i)))
  /\ (is_finite s = true -> exists i, complex_cos FF FE z = Ok (Cx c (B754_zero i)))
  /\ (is_finite ch = true -> exists i, complex_sinh FF FE z = Ok (Cx sh (B754_zero i)))
  /\ (is_finite sh = true -> exists i, complex_cosh FF FE z = Ok (Cx ch (B754_zero i))).
Proof.
  intros H x t e s c sh ch He' Hs Hc Hsh Hch z. destruct (H t) as (Z1 & Z2 & Z3 & Z4).
  assert (Z : forall v : fl, is_finite v = true -> exists i, mul v (B754_zero t) = B754_zero i).
  { intros v F. apply (mul_zero_r prec emax (B754_zero t) v); [eexists; reflexivity|exact F]. }
  repeat split; intros F; destruct (Z _ F) as (i & Ei);
    unfold complex_exp, complex_sin, complex_cos, complex_sinh, complex_cosh, z;
    cbn [fn_exp fn_sin fn_cos fn_sinh fn_cosh float_fun re im];
    rewrite ?He', ?Hs, ?Hc, ?Hsh, ?Hch, ?Z1, ?Z2, ?Z3, ?Z4; cbn [bind r_mul r_neg f_ring float_field float_ring];
    rewrite ?He', ?Hs, ?Hc, ?Hsh, ?Hch, ?Z1, ?Z2, ?Z3, ?Z4; cbn [bind r_mul r_neg f_ring float_field float_ring];
    rewrite ?Ei, ?mul_one_r; cbn [Bopp]; eexists; reflexivity.
Qed.

(** Finding: where the real exponential overflows, the complex one of the same number is not
    real any more: its imaginary part is NaN (infinity * 0). *)
Theorem C81_exp_overflow_refuted :
  exact_at_zero -> forall (x : fl) (t : bool), fn_exp libm x = Ok (B754_infinity false) ->
  complex_exp FF FE (Cx x (B754_zero t)) = Ok (Cx (B754_infinity false) B754_nan).
Proof.
  intros H x t E. destruct (H t) as (Z1 & Z2 & Z3 & Z4).
  unfold complex_exp. cbn [fn_exp fn_sin fn_cos float_fun re im]. rewrite E, Z1, Z3.
  cbn [bind r_mul f_ring float_field float_ring]. rewrite mul_one_r. reflexivity.
Qed.
End Roots.
End Fmt.

(** A toy libm, exact at 0, whose exponential overflows for large arguments. *)
Definition toy_libm : FunOps f64 := {|
  fn_exp := fun x => Ok (fl_mul 53 1024 x x); fn_sin := fun x => Ok x; fn_cos := fun x => Ok (f64_of_Z 1);
  fn_sinh := fun x => Ok x; fn_cosh := fun x => Ok (f64_of_Z 1); fn_ln := fun x => Ok x; fn_atan2 := fun y x => Ok y;
  fn_sqrt := fun x => Ok x; fn_abs := fun x => Ok x; fn_leb := Bleb; fn_ltb := Bltb |}.

Example C81_case_libm : exact_at_zero 53 1024 toy_libm
  /\ on_ok (fn_exp toy_libm (f64_of_Z 3)) (fun e => is_finite e) = true
  /\ on_ok (fn_exp toy_libm (B754_infinity false)) (fun e => negb (is_finite e)) = true.
Proof. split; [|split; vm_compute; reflexivity]. intros s. repeat split; reflexivity. Qed.

(** 1/3 and -7 are in range; sqrt(-7 + 0i) = 0 + sqrt(7) i, |1/3 + 0i| = 1/3 in f64. *)
Example C81_case :
  on_ok (complex_sqrt f64_field (float_fun 53 1024 toy_libm) (Cx (f64_of_Z (-7)) (f64_of_Z 0))) (fun w =>
    Beqb (re w) (f64_of_Z 0) && Beqb (im w) (Bsqrt mode_NE (f64_of_Z 7))) = true
  /\ on_ok (complex_abs f64_field (float_fun 53 1024 toy_libm) (Cx (f64_of_Z 0) third)) (fun a => Beqb a third) = true
  /\ on_ok (poly_eval f64_ring [third; f64_of_Z 7; third] third) (fun r => is_finite r &&
       on_ok (poly_eval (complex_ops f64_ring) (map (fun x => Cx x (f64_of_Z 0)) [third; f64_of_Z 7; third]) (Cx third (f64_of_Z 0)))
         (fun R => Beqb (re R) r && Beqb (im R) (f64_of_Z 0))) = true.
Proof. repeat split; vm_compute; reflexivity. Qed.
Example C81_case_within : within 507 (f64_of_Z (-7)) /\ B2R (f64_of_Z (-7)) <> 0.
Proof.
  destruct (fl_int_exact 53 1024 (-7)) as [F E]; [lia|]. change (f64_of_Z (-7)) with (fl_int 53 1024 (-7)).
  split; [|rewrite E; apply (IZR_neq _ 0); discriminate]. split; [exact F|]. right. rewrite E.
  assert (A : Rabs (IZR (-7)) = 7) by (rewrite Rabs_left1; [|apply (IZR_le _ 0); discriminate]; rewrite <- opp_IZR; reflexivity).
  rewrite A. split.
  - apply Rle_trans with (bpow radix2 0); [apply bpow_le; lia|simpl; lra].
  - apply Rle_trans with (bpow radix2 3); [simpl; lra|apply bpow_le; lia].
Qed.

Print Assumptions C81_evaluation.
Print Assumptions C81_products.
Print Assumptions C81_linear_algebra.
Print Assumptions C81_scaling.
Print Assumptions C81_abs_on_axes.
Print Assumptions C81_abs_at_least_components.
Print Assumptions C81_sqrt_on_real_axis.
Print Assumptions C81_sqrt_on_imaginary_axis.
Print Assumptions C81_functions_on_real_axis.
Print Assumptions C81_exp_overflow_refuted.
