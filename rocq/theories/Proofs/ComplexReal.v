(** Complex elementary functions over the reals. *)
From Coq Require Import Reals Lra Psatz.
From Verif Require Import Base.Outcome Model.Traits Model.Complex Model.RealInstance
  Spec.Ring Spec.Complex Proofs.RingTheory Proofs.ComplexProofs Proofs.RealRing.
Open Scope R_scope.

Notation C := (complex R).
Definition CS : ring_sig C := complex_sig real_sig.

Lemma complex_ext (z w : C) : re z = re w -> im z = im w -> z = w.
Proof. destruct z, w; simpl; intros; subst; reflexivity. Qed.

Lemma same_eq (z w : C) : same CS z w <-> z = w.
Proof.
  split.
  - intros (H1 & H2). apply complex_ext; assumption.
  - intros ->. split; reflexivity.
Qed.

(** Closed forms of what the code computes. *)
Definition norm2 (z : C) : R := re z * re z + im z * im z.

Lemma norm2_nonneg z : 0 <= norm2 z.
Proof. unfold norm2. nra. Qed.

Lemma norm2_zero z : norm2 z = 0 -> z = Cx 0 0.
Proof. unfold norm2. intros H. apply complex_ext; simpl; nra. Qed.

Lemma norm2_pos z : z <> Cx 0 0 -> 0 < norm2 z.
Proof.
  intros H. pose proof (norm2_nonneg z). destruct (Req_dec (norm2 z) 0); [|lra].
  exfalso. apply H. apply norm2_zero. assumption.
Qed.

Lemma sqr_norm_ok z : complex_sqr_norm real_ring z = Ok (norm2 z).
Proof. reflexivity. Qed.

Lemma sqrt_ok x : 0 <= x -> fn_sqrt real_fun x = Ok (sqrt x).
Proof. intros H. simpl. destruct (Rle_dec 0 x); [reflexivity|contradiction]. Qed.

Lemma abs_ok z : complex_abs real_field real_fun z = Ok (sqrt (norm2 z)).
Proof.
  unfold complex_abs. cbn [f_ring real_field]. rewrite sqr_norm_ok. cbn [bind].
  apply sqrt_ok, norm2_nonneg.
Qed.

Lemma abs_ref_ok z : complex_abs_ref real_field real_fun z = Ok (sqrt (norm2 z)).
Proof. exact (abs_ok z). Qed.

Definition cexp (z : C) : C := Cx (exp (re z) * cos (im z)) (exp (re z) * sin (im z)).
Lemma exp_ok z : complex_exp real_field real_fun z = Ok (cexp z).
Proof. reflexivity. Qed.

Definition csin (z : C) : C := Cx (sin (re z) * cosh (im z)) (cos (re z) * sinh (im z)).
Lemma sin_ok z : complex_sin real_field real_fun z = Ok (csin z).
Proof. reflexivity. Qed.

Definition ccos (z : C) : C := Cx (cos (re z) * cosh (im z)) (- (sin (re z) * sinh (im z))).
Lemma cos_ok z : complex_cos real_field real_fun z = Ok (ccos z).
Proof. reflexivity. Qed.

Definition csinh (z : C) : C := Cx (sinh (re z) * cos (im z)) (cosh (re z) * sin (im z)).
Lemma sinh_ok z : complex_sinh real_field real_fun z = Ok (csinh z).
Proof. reflexivity. Qed.

Definition ccosh (z : C) : C := Cx (cosh (re z) * cos (im z)) (sinh (re z) * sin (im z)).
Lemma cosh_ok z : complex_cosh real_field real_fun z = Ok (ccosh z).
Proof. reflexivity. Qed.

(** ** Absolute value *)
Lemma norm2_mul z w : norm2 (smul CS z w) = norm2 z * norm2 w.
Proof. unfold norm2. simpl. ring. Qed.

Lemma abs_mul z w : sqrt (norm2 (smul CS z w)) = sqrt (norm2 z) * sqrt (norm2 w).
Proof. rewrite norm2_mul. apply sqrt_mult; apply norm2_nonneg. Qed.

Lemma abs_triangle z w : sqrt (norm2 (sadd CS z w)) <= sqrt (norm2 z) + sqrt (norm2 w).
Proof.
  pose proof (sqrt_pos (norm2 z)). pose proof (sqrt_pos (norm2 w)).
  rewrite <- (sqrt_Rsqr (sqrt (norm2 z) + sqrt (norm2 w))) by lra.
  apply sqrt_le_1_alt. unfold Rsqr.
  replace ((sqrt (norm2 z) + sqrt (norm2 w)) * (sqrt (norm2 z) + sqrt (norm2 w)))
    with (sqrt (norm2 z) * sqrt (norm2 z) + sqrt (norm2 w) * sqrt (norm2 w)
          + 2 * (sqrt (norm2 z) * sqrt (norm2 w))) by ring.
  rewrite !sqrt_sqrt by apply norm2_nonneg.
  rewrite <- sqrt_mult by apply norm2_nonneg.
  assert (Hd : re z * re w + im z * im w <= sqrt (norm2 z * norm2 w)).
  { destruct (Rle_dec (re z * re w + im z * im w) 0) as [Hn|Hp].
    - pose proof (sqrt_pos (norm2 z * norm2 w)). lra.
    - rewrite <- (sqrt_Rsqr (re z * re w + im z * im w)) by lra.
      apply sqrt_le_1_alt. unfold Rsqr, norm2.
      pose proof (Rle_0_sqr (re z * im w - im z * re w)) as Hs. unfold Rsqr in Hs. nra. }
  unfold norm2 in *. simpl. nra.
Qed.

Lemma sqrt_norm2_zero z : sqrt (norm2 z) = 0 <-> z = Cx 0 0.
Proof.
  split.
  - intros H. apply norm2_zero. apply sqrt_eq_0; [apply norm2_nonneg|exact H].
  - intros ->. unfold norm2. simpl. replace (0 * 0 + 0 * 0) with 0 by ring. apply sqrt_0.
Qed.

(** ** atan2 *)
Lemma sqrt_1_tan x y : x <> 0 -> sqrt (1 + Rsqr (y / x)) = sqrt (x * x + y * y) / Rabs x.
Proof.
  intros Hx. replace (1 + Rsqr (y / x)) with ((x * x + y * y) / Rsqr x)
    by (unfold Rsqr; field; exact Hx).
  rewrite sqrt_div_alt; [|apply Rsqr_pos_lt; exact Hx].
  rewrite sqrt_Rsqr_abs. reflexivity.
Qed.

Lemma polar y x : let r := sqrt (x * x + y * y) in
  r * cos (atan2 y x) = x /\ r * sin (atan2 y x) = y.
Proof.
  intros r.
  assert (Hr : 0 <= x * x + y * y) by nra.
  unfold atan2. destruct (Rlt_dec 0 x) as [Hx|Hx].
  - assert (Hrp : 0 < r) by (apply sqrt_lt_R0; nra).
    rewrite cos_atan, sin_atan. rewrite (sqrt_1_tan x y) by lra. fold r.
    rewrite Rabs_pos_eq by lra. split; field; lra.
  - destruct (Rlt_dec x 0) as [Hx'|Hx'].
    + assert (Hrp : 0 < r) by (apply sqrt_lt_R0; nra).
      destruct (Rle_dec 0 y) as [Hy|Hy].
      * rewrite neg_cos, neg_sin, cos_atan, sin_atan.
        rewrite (sqrt_1_tan x y) by lra. fold r.
        rewrite (Rabs_left x) by lra. split; field; lra.
      * replace (atan (y / x) - PI) with (- (PI - atan (y / x))) by ring.
        rewrite cos_neg, sin_neg.
        replace (PI - atan (y / x)) with (- atan (y / x) + PI) by ring.
        rewrite neg_cos, neg_sin, cos_neg, sin_neg, cos_atan, sin_atan.
        rewrite (sqrt_1_tan x y) by lra. fold r.
        rewrite (Rabs_left x) by lra. split; field; lra.
    + assert (x = 0) by lra. subst x.
      assert (Hr0 : r = Rabs y).
      { unfold r. replace (0 * 0 + y * y) with (Rsqr y) by (unfold Rsqr; ring).
        apply sqrt_Rsqr_abs. }
      rewrite Hr0. destruct (Rlt_dec 0 y) as [Hy|Hy].
      * rewrite cos_PI2, sin_PI2, Rabs_pos_eq by lra. lra.
      * destruct (Rlt_dec y 0) as [Hy'|Hy'].
        -- rewrite cos_neg, sin_neg, cos_PI2, sin_PI2, Rabs_left by lra. lra.
        -- assert (y = 0) by lra. subst y. rewrite Rabs_R0. lra.
Qed.

Lemma atan2_range y x : - PI < atan2 y x <= PI.
Proof.
  pose proof PI_RGT_0 as HP. unfold atan2.
  destruct (Rlt_dec 0 x) as [Hx|Hx].
  - pose proof (atan_bound (y / x)). lra.
  - destruct (Rlt_dec x 0) as [Hx'|Hx'].
    + destruct (Rle_dec 0 y) as [Hy|Hy].
      * pose proof (atan_bound (y / x)) as Hb.
        assert (atan (y / x) <= 0).
        { destruct (Req_dec y 0) as [->|Hne].
          - unfold Rdiv. rewrite Rmult_0_l, atan_0. lra.
          - rewrite <- atan_0. left. apply atan_increasing.
            unfold Rdiv. assert (/ x < 0) by (apply Rinv_lt_0_compat; lra). nra. }
        lra.
      * pose proof (atan_bound (y / x)) as Hb.
        assert (0 < atan (y / x)).
        { rewrite <- atan_0. apply atan_increasing.
          unfold Rdiv. assert (/ x < 0) by (apply Rinv_lt_0_compat; lra). nra. }
        lra.
    + destruct (Rlt_dec 0 y); [lra|]. destruct (Rlt_dec y 0); lra.
Qed.

Lemma angle_unique a b : - PI < a <= PI -> - PI < b <= PI ->
  cos a = cos b -> sin a = sin b -> a = b.
Proof.
  intros Ha Hb Hc Hs.
  assert (H1 : cos (a - b) = 1).
  { rewrite cos_minus, Hc, Hs. pose proof (sin2_cos2 b) as H. unfold Rsqr in H. lra. }
  assert (H2 : sin ((a - b) / 2) = 0).
  { replace (a - b) with (2 * ((a - b) / 2)) in H1 by field.
    rewrite cos_2a_sin in H1. nra. }
  destruct (Rtotal_order ((a - b) / 2) 0) as [Hlt|[He|Hgt]]; [|lra|].
  - pose proof (sin_gt_0 (- ((a - b) / 2))) as H3. rewrite sin_neg in H3. lra.
  - pose proof (sin_gt_0 ((a - b) / 2)) as H3. lra.
Qed.

(** ** Logarithm *)
Definition cln (z : C) : C := Cx (ln (norm2 z) / 2) (atan2 (im z) (re z)).

Lemma ln_ok z : z <> Cx 0 0 -> complex_ln real_field real_fun z = Ok (cln z).
Proof.
  intros Hz. pose proof (norm2_pos z Hz) as Hn.
  unfold complex_ln. cbn [f_ring real_field r_add r_one real_ring bind].
  change (complex_sqr_norm _ z) with (Ok (norm2 z)).
  cbn [bind fn_ln real_fun]. destruct (Rlt_dec 0 (norm2 z)); [|contradiction].
  replace (1 + 1) with 2 by ring. rewrite bind_ok.
  change (f_div real_field (ln (norm2 z)) 2) with (real_div (ln (norm2 z)) 2).
  unfold real_div. destruct (Req_EM_T 2 0); [lra|]. reflexivity.
Qed.

Lemma ln_zero_domain : complex_ln real_field real_fun (Cx 0 0) = Panic DomainError.
Proof.
  unfold complex_ln. cbn. destruct (Rlt_dec 0 (0 * 0 + 0 * 0)) as [H|H]; [lra|reflexivity].
Qed.

Lemma exp_half_ln x : 0 < x -> exp (ln x / 2) = sqrt x.
Proof.
  intros Hx.
  assert (H : Rsqr (exp (ln x / 2)) = x).
  { unfold Rsqr. rewrite <- exp_plus. replace (ln x / 2 + ln x / 2) with (ln x) by field.
    apply exp_ln. exact Hx. }
  rewrite <- H at 2. rewrite sqrt_Rsqr; [reflexivity|]. left. apply exp_pos.
Qed.

Lemma exp_cln z : z <> Cx 0 0 -> cexp (cln z) = z.
Proof.
  intros Hz. pose proof (norm2_pos z Hz) as Hn. destruct (polar (im z) (re z)) as (H1 & H2).
  apply complex_ext; simpl; rewrite exp_half_ln by exact Hn; unfold norm2; assumption.
Qed.

Lemma norm2_cexp z : norm2 (cexp z) = exp (re z) * exp (re z).
Proof.
  unfold norm2, cexp. simpl.
  pose proof (sin2_cos2 (im z)) as H. unfold Rsqr in H.
  replace (_ + _) with (exp (re z) * exp (re z) *
    (sin (im z) * sin (im z) + cos (im z) * cos (im z))) by ring.
  rewrite H. ring.
Qed.

Lemma sqrt_norm2_cexp z : sqrt (norm2 (cexp z)) = exp (re z).
Proof. rewrite norm2_cexp. apply sqrt_square. left. apply exp_pos. Qed.

Lemma cexp_nonzero z : cexp z <> Cx 0 0.
Proof.
  intros H. assert (Hn : norm2 (cexp z) = 0) by (rewrite H; unfold norm2; simpl; ring).
  rewrite norm2_cexp in Hn. pose proof (exp_pos (re z)). nra.
Qed.

Lemma cln_cexp z : - PI < im z <= PI -> cln (cexp z) = z.
Proof.
  intros Hz. apply complex_ext; simpl.
  - rewrite norm2_cexp, ln_mult, ln_exp by apply exp_pos. field.
  - apply angle_unique; [apply atan2_range|exact Hz| |].
    + destruct (polar (exp (re z) * sin (im z)) (exp (re z) * cos (im z))) as (H1 & _).
      pose proof (sqrt_norm2_cexp z) as Hr. unfold norm2, cexp in Hr. simpl in Hr.
      cbv zeta in H1. rewrite Hr in H1. pose proof (exp_pos (re z)). nra.
    + destruct (polar (exp (re z) * sin (im z)) (exp (re z) * cos (im z))) as (_ & H1).
      pose proof (sqrt_norm2_cexp z) as Hr. unfold norm2, cexp in Hr. simpl in Hr.
      cbv zeta in H1. rewrite Hr in H1. pose proof (exp_pos (re z)). nra.
Qed.

Lemma cexp_add z w : cexp (sadd CS z w) = smul CS (cexp z) (cexp w).
Proof.
  apply complex_ext; simpl; rewrite exp_plus; [rewrite cos_plus|rewrite sin_plus]; ring.
Qed.

(** ** Square root *)
Definition principal (w : C) : Prop := 0 < re w \/ (re w = 0 /\ 0 <= im w).

Lemma sqrt_ok' x : 0 <= x -> (if Rle_dec 0 x then Ok (sqrt x) else Panic DomainError) = Ok (sqrt x).
Proof. exact (sqrt_ok x). Qed.

Ltac cc := cbn [bind f_ring real_field real_ring r_add r_sub r_mul r_neg r_zero r_one f_div
  fn_abs fn_leb fn_ltb fn_sqrt real_fun re im].

(** The real functions with the comparison replaced. *)
Definition real_fun_leb (leb : R -> R -> bool) : FunOps R := {|
  fn_exp := fn_exp real_fun; fn_sin := fn_sin real_fun; fn_cos := fn_cos real_fun; fn_sinh := fn_sinh real_fun;
  fn_cosh := fn_cosh real_fun; fn_ln := fn_ln real_fun; fn_atan2 := fn_atan2 real_fun; fn_sqrt := fn_sqrt real_fun;
  fn_abs := fn_abs real_fun; fn_leb := leb; fn_ltb := fn_ltb real_fun |}.

(** Whichever branch is taken. *)
Lemma sqrt_spec_any leb (Hleb : forall v, leb 0 v = Rleb 0 v) z : exists s, complex_sqrt real_field (real_fun_leb leb) z = Ok s
  /\ smul CS s s = z /\ principal s.
Proof.
  destruct z as [x y].
  unfold complex_sqrt, real_fun_leb. cc.
  unfold real_div. destruct (Req_EM_T (1 + 1) 0) as [H|_]; [lra|]. cc.
  match goal with |- context [complex_abs_ref ?F ?E ?z] => change (complex_abs_ref F E z) with (complex_abs_ref real_field real_fun z) end.
  rewrite abs_ref_ok. cc.
  set (n := norm2 (Cx x y)). set (a := sqrt n).
  assert (Hn : n = x * x + y * y) by reflexivity.
  assert (Hn0 : 0 <= n) by (rewrite Hn; nra).
  assert (Ha0 : 0 <= a) by apply sqrt_pos.
  assert (Haa : a * a = x * x + y * y) by (unfold a; rewrite sqrt_sqrt; assumption).
  assert (Hax : Rabs x <= a).
  { unfold a. rewrite <- sqrt_Rsqr_abs. apply sqrt_le_1_alt. unfold Rsqr. nra. }
  assert (Hax1 : x <= a) by (pose proof (Rle_abs x); lra).
  assert (Hax2 : - x <= a) by (pose proof (Rle_abs (- x)); rewrite Rabs_Ropp in *; lra).
  destruct (leb (Rabs x) (Rabs y * (1 + 1))) eqn:Hb.
  - (* plain branch *)
    cc.
    rewrite sqrt_ok' by nra. cc.
    set (p := sqrt ((a + x) * (1 / (1 + 1)))).
    rewrite sqrt_ok' by nra. cc.
    set (q := sqrt ((a - x) * (1 / (1 + 1)))).
    assert (Hp : p * p = (a + x) / 2) by (unfold p; rewrite sqrt_sqrt; nra).
    assert (Hq : q * q = (a - x) / 2) by (unfold q; rewrite sqrt_sqrt; nra).
    assert (Hp0 : 0 <= p) by apply sqrt_pos.
    assert (Hq0 : 0 <= q) by apply sqrt_pos.
    assert (Hpq : p * q = Rabs y / 2).
    { unfold p, q. rewrite <- sqrt_mult by nra.
      replace ((a + x) * (1 / (1 + 1)) * ((a - x) * (1 / (1 + 1)))) with (Rsqr (y / 2)).
      - rewrite sqrt_Rsqr_abs. unfold Rdiv. rewrite Rabs_mult.
        rewrite (Rabs_pos_eq (/ 2)) by lra. reflexivity.
      - unfold Rsqr. nra. }
    cc. unfold Rltb. destruct (Rlt_dec y 0) as [Hy|Hy]; cc.
    + exists (complex_new p (- q)). split; [reflexivity|]. rewrite Rabs_left in Hpq by lra.
      split; [apply complex_ext; simpl; nra|]. left. simpl. nra.
    + exists (complex_new p q). split; [reflexivity|]. rewrite Rabs_pos_eq in Hpq by lra.
      split; [apply complex_ext; simpl; nra|]. unfold principal. simpl. lra.
  - (* numerically stable branch *)
    assert (Hx : 0 < Rabs x).
    { destruct (Rabs_pos x) as [H|H]; [exact H|]. exfalso. rewrite <- H, Hleb in Hb. unfold Rleb in Hb.
      destruct (Rle_dec 0 (Rabs y * (1 + 1))) as [_|H']; [discriminate|]. apply H'. pose proof (Rabs_pos y). lra. }
    cc.
    rewrite sqrt_ok' by lra. cc.
    set (d := sqrt ((a + Rabs x) * (1 + 1))).
    assert (Hd : 0 < d) by (apply sqrt_lt_R0; lra).
    assert (Hdd : d * d = 2 * (a + Rabs x)) by (unfold d; rewrite sqrt_sqrt; lra).
    destruct (Req_EM_T d 0) as [H0|_]; [lra|]. cc.
    rewrite sqrt_ok' by lra. cc.
    set (b := sqrt ((a + Rabs x) * (1 / (1 + 1)))).
    assert (Hb0 : 0 < b) by (apply sqrt_lt_R0; lra).
    assert (Hbd : b = d / 2).
    { unfold b, d. replace ((a + Rabs x) * (1 / (1 + 1))) with ((a + Rabs x) * (1 + 1) / (2 * 2)) by field.
      rewrite sqrt_div_alt by lra. rewrite sqrt_square by lra. reflexivity. }
    set (al := Rabs y / d).
    assert (Hal : al * d = Rabs y) by (unfold al; field; lra).
    assert (Hal0 : 0 <= al).
    { unfold al. apply Rmult_le_pos; [apply Rabs_pos|]. left. apply Rinv_0_lt_compat. lra. }
    assert (Hxx : Rabs x * Rabs x = x * x) by (rewrite <- Rabs_mult; apply Rabs_pos_eq; nra).
    assert (Hyy : Rabs y * Rabs y = y * y) by (rewrite <- Rabs_mult; apply Rabs_pos_eq; nra).
    assert (Hdiff : b * b - al * al = Rabs x).
    { assert (E : (b * b - al * al) * (d * d) = Rabs x * (d * d)).
      { rewrite Hbd. replace ((d / 2 * (d / 2) - al * al) * (d * d))
          with ((d * d) * (d * d) / 4 - (al * d) * (al * d)) by field.
        rewrite Hal, Hdd, Hyy. nra. }
      apply Rmult_eq_reg_r in E; [exact E|nra]. }
    assert (Hprod : 2 * (b * al) = Rabs y) by (rewrite Hbd, <- Hal; field).
    rewrite Hleb. unfold Rleb. destruct (Rle_dec 0 x) as [Hx0|Hx0]; cc; unfold Rltb;
      destruct (Rlt_dec y 0) as [Hy|Hy]; cc.
    + exists (complex_new b (- al)). split; [reflexivity|].
      rewrite (Rabs_left y) in * by lra. rewrite (Rabs_pos_eq x) in * by lra.
      split; [apply complex_ext; simpl; nra|]. left. simpl. lra.
    + exists (complex_new b al). split; [reflexivity|].
      rewrite (Rabs_pos_eq y) in * by lra. rewrite (Rabs_pos_eq x) in * by lra.
      split; [apply complex_ext; simpl; nra|]. left. simpl. lra.
    + exists (complex_new al (- b)). split; [reflexivity|].
      rewrite (Rabs_left y) in * by lra. rewrite (Rabs_left x) in * by lra.
      split; [apply complex_ext; simpl; nra|]. left. simpl.
      destruct (Req_dec al 0) as [H0|H0]; [rewrite H0 in Hal; lra|lra].
    + exists (complex_new al b). split; [reflexivity|].
      rewrite (Rabs_pos_eq y) in * by lra. rewrite (Rabs_left x) in * by lra.
      split; [apply complex_ext; simpl; nra|]. unfold principal. simpl. lra.
Qed.

Lemma sqrt_spec z : exists s, complex_sqrt real_field real_fun z = Ok s
  /\ smul CS s s = z /\ principal s.
Proof. exact (sqrt_spec_any Rleb (fun _ => eq_refl) z). Qed.

Lemma sqrt_unique (v w : C) : smul CS v v = smul CS w w -> principal v -> principal w -> v = w.
Proof.
  destruct v as [a b], w as [c d]. unfold principal. simpl. intros H Hv Hw.
  injection H as H1 H2.
  assert (E : (a - c) * (a + c) = (b - d) * (b + d)) by lra.
  assert (E2 : a * b = c * d) by lra.
  (* (v - w)(v + w) = 0 *)
  assert (Z : ((a - c) * (a - c) + (b - d) * (b - d)) * ((a + c) * (a + c) + (b + d) * (b + d)) = 0).
  { assert (P1 : (a - c) * (a + c) - (b - d) * (b + d) = 0) by lra.
    assert (P2 : (a - c) * (b + d) + (b - d) * (a + c) = 0) by lra.
    replace (((a - c) * (a - c) + (b - d) * (b - d)) * ((a + c) * (a + c) + (b + d) * (b + d)))
      with (((a - c) * (a + c) - (b - d) * (b + d)) * ((a - c) * (a + c) - (b - d) * (b + d))
          + ((a - c) * (b + d) + (b - d) * (a + c)) * ((a - c) * (b + d) + (b - d) * (a + c))) by ring.
    rewrite P1, P2. ring. }
  apply Rmult_integral in Z as [Z|Z].
  - apply Rplus_sqr_eq_0 in Z as (Z1 & Z2). apply complex_ext; simpl; lra.
  - apply Rplus_sqr_eq_0 in Z as (Z1 & Z2). apply complex_ext; simpl; lra.
Qed.

(** ** Trigonometric and hyperbolic functions *)
Definition ci : C := Cx 0 1.

Lemma cosh_neg x : cosh (- x) = cosh x.
Proof. unfold cosh. rewrite Ropp_involutive. lra. Qed.
Lemma sinh_neg x : sinh (- x) = - sinh x.
Proof. unfold sinh. rewrite Ropp_involutive. lra. Qed.
Lemma cosh_plus x y : cosh (x + y) = cosh x * cosh y + sinh x * sinh y.
Proof.
  unfold cosh, sinh. replace (- (x + y)) with (- x + - y) by ring. rewrite !exp_plus. field.
Qed.
Lemma sinh_plus x y : sinh (x + y) = sinh x * cosh y + cosh x * sinh y.
Proof.
  unfold cosh, sinh. replace (- (x + y)) with (- x + - y) by ring. rewrite !exp_plus. field.
Qed.
Lemma cosh2_sinh2 x : cosh x * cosh x - sinh x * sinh x = 1.
Proof.
  unfold cosh, sinh.
  replace (_ - _) with (exp x * exp (- x)) by field.
  rewrite <- exp_plus. replace (x + - x) with 0 by ring. apply exp_0.
Qed.
Lemma sin2cos2 x : sin x * sin x + cos x * cos x = 1.
Proof. pose proof (sin2_cos2 x) as H. unfold Rsqr in H. exact H. Qed.

Lemma csin_exp z :
  smul CS (Cx 0 2) (csin z) = ssub CS (cexp (smul CS ci z)) (cexp (sneg CS (smul CS ci z))).
Proof.
  destruct z as [x y]. apply complex_ext; cbn.
  - replace (0 * x - 1 * y) with (- y) by ring. replace (0 * y + 1 * x) with x by ring.
    rewrite Ropp_involutive, cos_neg. unfold sinh. field.
  - replace (0 * x - 1 * y) with (- y) by ring. replace (0 * y + 1 * x) with x by ring.
    rewrite Ropp_involutive, sin_neg. unfold cosh. field.
Qed.

Lemma ccos_exp z :
  smul CS (Cx 2 0) (ccos z) = sadd CS (cexp (smul CS ci z)) (cexp (sneg CS (smul CS ci z))).
Proof.
  destruct z as [x y]. apply complex_ext; cbn.
  - replace (0 * x - 1 * y) with (- y) by ring. replace (0 * y + 1 * x) with x by ring.
    rewrite Ropp_involutive, cos_neg. unfold cosh. field.
  - replace (0 * x - 1 * y) with (- y) by ring. replace (0 * y + 1 * x) with x by ring.
    rewrite Ropp_involutive, sin_neg. unfold sinh. field.
Qed.

Lemma csinh_exp z : smul CS (Cx 2 0) (csinh z) = ssub CS (cexp z) (cexp (sneg CS z)).
Proof.
  destruct z as [x y]. apply complex_ext; cbn; rewrite ?cos_neg, ?sin_neg;
    unfold sinh, cosh; field.
Qed.

Lemma ccosh_exp z : smul CS (Cx 2 0) (ccosh z) = sadd CS (cexp z) (cexp (sneg CS z)).
Proof.
  destruct z as [x y]. apply complex_ext; cbn; rewrite ?cos_neg, ?sin_neg;
    unfold sinh, cosh; field.
Qed.

Lemma euler z : cexp (smul CS ci z) = sadd CS (ccos z) (smul CS ci (csin z)).
Proof.
  destruct z as [x y]. apply complex_ext; cbn;
    replace (0 * x - 1 * y) with (- y) by ring; replace (0 * y + 1 * x) with x by ring;
    unfold sinh, cosh; field.
Qed.

Lemma csin2_ccos2 z : sadd CS (smul CS (csin z) (csin z)) (smul CS (ccos z) (ccos z)) = so CS.
Proof.
  destruct z as [x y]. pose proof (sin2cos2 x) as H1. pose proof (cosh2_sinh2 y) as H2.
  apply complex_ext; cbn; [|ring].
  replace (_ + _) with ((sin x * sin x + cos x * cos x) * (cosh y * cosh y - sinh y * sinh y)) by ring.
  rewrite H1, H2. ring.
Qed.

Lemma ccosh2_csinh2 z : ssub CS (smul CS (ccosh z) (ccosh z)) (smul CS (csinh z) (csinh z)) = so CS.
Proof.
  destruct z as [x y]. pose proof (sin2cos2 y) as H1. pose proof (cosh2_sinh2 x) as H2.
  apply complex_ext; cbn; [|ring].
  replace (_ - _) with ((sin y * sin y + cos y * cos y) * (cosh x * cosh x - sinh x * sinh x)) by ring.
  rewrite H1, H2. ring.
Qed.

Lemma csin_add z w : csin (sadd CS z w) =
  sadd CS (smul CS (csin z) (ccos w)) (smul CS (ccos z) (csin w)).
Proof.
  apply complex_ext; cbn; rewrite ?sin_plus, ?cos_plus, ?cosh_plus, ?sinh_plus; ring.
Qed.
Lemma ccos_add z w : ccos (sadd CS z w) =
  ssub CS (smul CS (ccos z) (ccos w)) (smul CS (csin z) (csin w)).
Proof.
  apply complex_ext; cbn; rewrite ?sin_plus, ?cos_plus, ?cosh_plus, ?sinh_plus; ring.
Qed.
Lemma csinh_add z w : csinh (sadd CS z w) =
  sadd CS (smul CS (csinh z) (ccosh w)) (smul CS (ccosh z) (csinh w)).
Proof.
  apply complex_ext; cbn; rewrite ?sin_plus, ?cos_plus, ?cosh_plus, ?sinh_plus; ring.
Qed.
Lemma ccosh_add z w : ccosh (sadd CS z w) =
  sadd CS (smul CS (ccosh z) (ccosh w)) (smul CS (csinh z) (csinh w)).
Proof.
  apply complex_ext; cbn; rewrite ?sin_plus, ?cos_plus, ?cosh_plus, ?sinh_plus; ring.
Qed.

(** ** Tangent *)
Lemma tan_spec z : ccos z <> Cx 0 0 ->
  exists t, complex_tan real_field real_fun z = Ok t /\ smul CS t (ccos z) = csin z.
Proof.
  intros Hc. unfold complex_tan. rewrite sin_ok, cos_ok. cbn [bind].
  destruct (complex_div_spec real_field real_sig real_is_field (csin z) (ccos z)) as (t & Ht & Hs).
  - intros H. apply Hc. apply norm2_zero. exact H.
  - exists t. split; [exact Ht|]. apply same_eq. exact Hs.
Qed.

Lemma cmul_integral (z w : C) : smul CS z w = Cx 0 0 -> z = Cx 0 0 \/ w = Cx 0 0.
Proof.
  intros H. assert (Hn : norm2 z * norm2 w = 0).
  { rewrite <- norm2_mul, H. unfold norm2. simpl. ring. }
  apply Rmult_integral in Hn as [Hn|Hn]; [left|right]; apply norm2_zero; exact Hn.
Qed.

Lemma cmul_cancel (a b w : C) : w <> Cx 0 0 -> smul CS a w = smul CS b w -> a = b.
Proof.
  intros Hw H. assert (H0 : smul CS (ssub CS a b) w = Cx 0 0).
  { injection H as H1 H2. apply complex_ext; simpl; lra. }
  apply cmul_integral in H0 as [H0|H0]; [|contradiction].
  injection H0 as H1 H2. apply complex_ext; lra.
Qed.

Lemma tan_add z w t u v :
  ccos z <> Cx 0 0 -> ccos w <> Cx 0 0 -> ccos (sadd CS z w) <> Cx 0 0 ->
  smul CS t (ccos z) = csin z -> smul CS u (ccos w) = csin w ->
  smul CS v (ccos (sadd CS z w)) = csin (sadd CS z w) ->
  smul CS v (ssub CS (so CS) (smul CS t u)) = sadd CS t u.
Proof.
  intros Hz Hw Hzw Ht Hu Hv.
  apply (cmul_cancel _ _ (ccos z) Hz). apply (cmul_cancel _ _ (ccos w) Hw).
  rewrite ccos_add in Hv. rewrite csin_add in Hv. rewrite <- Ht, <- Hu in Hv.
  clear Ht Hu Hzw Hz Hw.
  set (a := ccos z) in *. set (b := ccos w) in *. clearbody a b.
  destruct t as [t1 t2], u as [u1 u2], v as [v1 v2], a as [a1 a2], b as [b1 b2].
  injection Hv as H1 H2. apply complex_ext; simpl; nra.
Qed.
