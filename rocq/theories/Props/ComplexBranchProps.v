(** Properties C69 and C70: branches, symmetries, periods and zeros of the elementary functions
    of Complex<T> in exact real arithmetic (notations as in Props/ComplexFunProps.v). *)
From Coq Require Import Reals Lra Lia ZArith Psatz.
From Verif Require Import Base.Outcome Model.Traits Model.Complex Model.RealInstance
  Spec.Ring Spec.Complex Proofs.ComplexProofs Proofs.RealRing Proofs.ComplexReal Props.ComplexFunProps.
Open Scope R_scope.
#[local] Arguments Cx {T} (re im)%R_scope.

(** ** Auxiliary facts *)
Lemma cos_1_period d : cos d = 1 -> exists k : Z, d = 2 * PI * IZR k.
Proof.
  intros H. assert (E : sin (d / 2) = 0).
  { pose proof (cos_2a_sin (d / 2)) as E. replace (2 * (d / 2)) with d in E by field. nra. }
  apply sin_eq_0_0 in E as (k & E). exists k. lra.
Qed.

Lemma cos_period_Z x (k : Z) : cos (x + 2 * PI * IZR k) = cos x.
Proof.
  assert (N : forall n y, cos (y + 2 * PI * INR n) = cos y).
  { intros n y. replace (2 * PI * INR n) with (2 * INR n * PI) by ring. apply cos_period. }
  destruct k as [|p|p].
  - rewrite Rmult_0_r, Rplus_0_r. reflexivity.
  - replace (IZR (Z.pos p)) with (INR (Pos.to_nat p)); [apply N|].
    rewrite INR_IZR_INZ, positive_nat_Z. reflexivity.
  - replace (IZR (Z.neg p)) with (- INR (Pos.to_nat p)).
    + rewrite <- (N (Pos.to_nat p)). f_equal. ring.
    + rewrite INR_IZR_INZ, positive_nat_Z. rewrite <- opp_IZR. reflexivity.
Qed.

Lemma sin_period_Z x (k : Z) : sin (x + 2 * PI * IZR k) = sin x.
Proof.
  rewrite <- !cos_shift. replace (PI / 2 - (x + 2 * PI * IZR k)) with (PI / 2 - x + 2 * PI * IZR (- k)).
  - apply cos_period_Z.
  - rewrite opp_IZR. ring.
Qed.

Lemma same_angle a b : cos a = cos b -> sin a = sin b -> exists k : Z, a = b + 2 * PI * IZR k.
Proof.
  intros Hc Hs. destruct (cos_1_period (a - b)) as (k & E).
  - rewrite cos_minus, Hc, Hs. rewrite Rplus_comm. apply sin2cos2.
  - exists k. lra.
Qed.

Lemma cexp_eq z w : cexp z = cexp w <-> exists k : Z, z = sadd CS w (Cx 0 (2 * PI * IZR k)).
Proof.
  split.
  - intros H. assert (E : exp (re z) = exp (re w)) by (rewrite <- !sqrt_norm2_cexp, H; reflexivity).
    apply exp_inv in E. pose proof (exp_pos (re w)) as P. injection H as H1 H2. rewrite E in H1, H2.
    apply Rmult_eq_reg_l in H1; [|lra]. apply Rmult_eq_reg_l in H2; [|lra].
    destruct (same_angle _ _ H1 H2) as (k & Hk). exists k.
    apply complex_ext; cbn; lra.
  - intros (k & ->). apply complex_ext; cbn; rewrite Rplus_0_r, ?cos_period_Z, ?sin_period_Z; reflexivity.
Qed.

Lemma sinh_pos_le y : y <= 0 -> sinh y <= 0.
Proof. intros H. unfold sinh. destruct (Req_dec y 0) as [->|N]. rewrite Ropp_0; lra. assert (exp y < exp (- y)) by (apply exp_increasing; lra). lra. Qed.
Lemma sinh_0_iff y : sinh y = 0 <-> y = 0.
Proof.
  split; [|intros ->; apply sinh_0]. intros H. unfold sinh in H.
  assert (E : exp y = exp (- y)) by lra. apply exp_inv in E. lra.
Qed.

Lemma cosh_ge_1 y : 1 <= cosh y.
Proof. pose proof (cosh2_sinh2 y). assert (0 < cosh y) by (unfold cosh; pose proof (exp_pos y); pose proof (exp_pos (- y)); lra). nra. Qed.

Lemma norm2_csin z : norm2 (csin z) = sin (re z) * sin (re z) + sinh (im z) * sinh (im z).
Proof.
  unfold norm2. cbn. pose proof (cosh2_sinh2 (im z)). pose proof (sin2cos2 (re z)).
  set (s := sin (re z)) in *. set (c := cos (re z)) in *. set (sh := sinh (im z)) in *. set (ch := cosh (im z)) in *.
  replace (s * ch * (s * ch) + c * sh * (c * sh)) with (s * s * (ch * ch) + c * c * (sh * sh)) by ring.
  replace (ch * ch) with (1 + sh * sh) by lra. replace (c * c) with (1 - s * s) by lra. ring.
Qed.
Lemma norm2_ccos z : norm2 (ccos z) = cos (re z) * cos (re z) + sinh (im z) * sinh (im z).
Proof.
  unfold norm2. cbn. pose proof (cosh2_sinh2 (im z)). pose proof (sin2cos2 (re z)).
  set (s := sin (re z)) in *. set (c := cos (re z)) in *. set (sh := sinh (im z)) in *. set (ch := cosh (im z)) in *.
  replace (c * ch * (c * ch) + - (s * sh) * - (s * sh)) with (c * c * (ch * ch) + s * s * (sh * sh)) by ring.
  replace (ch * ch) with (1 + sh * sh) by lra. replace (s * s) with (1 - c * c) by lra. ring.
Qed.

Lemma sq_sum_0 a b : a * a + b * b = 0 -> a = 0 /\ b = 0.
Proof. intros H. split; nra. Qed.

Lemma cos_0_iff x : cos x = 0 <-> exists k : Z, x = (IZR k + / 2) * PI.
Proof.
  split.
  - intros H. apply cos_eq_0_0 in H as (k & H). exists k. lra.
  - intros (k & H). apply cos_eq_0_1. exists k. lra.
Qed.

Lemma csin_0 z : csin z = Cx 0 0 <-> exists k : Z, z = Cx (IZR k * PI) 0.
Proof.
  split.
  - intros H. assert (E : norm2 (csin z) = 0) by (rewrite H; unfold norm2; cbn; ring).
    rewrite norm2_csin in E. apply sq_sum_0 in E as (E1 & E2).
    apply (proj1 (sinh_0_iff _)) in E2. apply sin_eq_0_0 in E1 as (k & E1). exists k. apply complex_ext; assumption.
  - intros (k & ->). apply norm2_zero. rewrite norm2_csin. cbn [re im]. rewrite sinh_0.
    rewrite (sin_eq_0_1 (IZR k * PI)) by (exists k; reflexivity). ring.
Qed.
Lemma ccos_0 z : ccos z = Cx 0 0 <-> exists k : Z, z = Cx ((IZR k + / 2) * PI) 0.
Proof.
  split.
  - intros H. assert (E : norm2 (ccos z) = 0) by (rewrite H; unfold norm2; cbn; ring).
    rewrite norm2_ccos in E. apply sq_sum_0 in E as (E1 & E2).
    apply (proj1 (sinh_0_iff _)) in E2. apply (proj1 (cos_0_iff _)) in E1 as (k & E1). exists k. apply complex_ext; assumption.
  - intros (k & ->). apply norm2_zero. rewrite norm2_ccos. cbn [re im]. rewrite sinh_0.
    rewrite (proj2 (cos_0_iff _)) by (exists k; reflexivity). ring.
Qed.

Lemma cln_unique z l : z <> Cx 0 0 -> cexp l = z -> - PI < im l <= PI -> cln z = l.
Proof. intros _ <- H. apply cln_cexp, H. Qed.

(** ** C69: branches of ln and sqrt *)

(** [ln(z*w)] is [ln z + ln w] up to [-2*pi*i, 0, 2*pi*i], and which of the three is decided by
    the sum of the imaginary parts leaving the principal strip. *)
Theorem C69_ln_of_product :
  forall (z w a b : complex R), z <> 0%C -> w <> 0%C -> Ln z = Ok a -> Ln w = Ok b ->
  exists k : Z,
    Ln (z * w)%C = Ok (a + b + Cx 0 (2 * PI * IZR k))%C
    /\ ((- PI < im a + im b <= PI /\ k = 0%Z)
        \/ (PI < im a + im b /\ k = (-1)%Z)
        \/ (im a + im b <= - PI /\ k = 1%Z)).
Proof.
  intros z w a b Hz Hw Ha Hb. rewrite ln_ok in Ha, Hb by assumption.
  injection Ha as Ha. injection Hb as Hb.
  assert (Hzw : (z * w)%C <> 0%C). { intros E. apply cmul_integral in E as [E|E]; contradiction. }
  pose proof (atan2_range (im z) (re z)) as Rz. pose proof (atan2_range (im w) (re w)) as Rw.
  change (atan2 (im z) (re z)) with (im (cln z)) in Rz. change (atan2 (im w) (re w)) with (im (cln w)) in Rw.
  rewrite Ha in Rz. rewrite Hb in Rw.
  assert (E : forall k : Z, cexp (a + b + Cx 0 (2 * PI * IZR k))%C = (z * w)%C).
  { intros k. transitivity (cexp (a + b)%C).
    - apply cexp_eq. exists k. reflexivity.
    - change (a + b)%C with (sadd CS a b). rewrite cexp_add. rewrite <- Ha, <- Hb, !exp_cln by assumption. reflexivity. }
  assert (G : forall k : Z, - PI < im a + im b + 2 * PI * IZR k <= PI ->
    Ln (z * w)%C = Ok (a + b + Cx 0 (2 * PI * IZR k))%C).
  { intros k Hk. rewrite ln_ok by exact Hzw. f_equal. apply cln_unique; [exact Hzw|apply E|exact Hk]. }
  destruct (Rle_dec (im a + im b) (- PI)) as [L|L]; [|destruct (Rlt_dec PI (im a + im b)) as [U|U]].
  - exists 1%Z. split; [apply G; lra|]. right; right. auto.
  - exists (-1)%Z. split; [apply G; lra|]. right; left. auto.
  - exists 0%Z. split; [apply G; lra|]. left. split; [lra|reflexivity].
Qed.

(** [ln z] has the logarithm of [|z|] as real and [arg z] as imaginary part. *)
Theorem C69_ln_parts :
  forall (z l : complex R) (r phi : R), z <> 0%C -> Ln z = Ok l -> Abs z = Ok r -> Arg z = Ok phi ->
  re l = ln r /\ im l = phi.
Proof.
  intros z l r phi Hz Hl Hr Hp. rewrite ln_ok in Hl by exact Hz. injection Hl as <-.
  rewrite abs_ok in Hr. injection Hr as <-. injection Hp as <-. split; [|reflexivity].
  cbn. rewrite <- (exp_half_ln (norm2 z)) by (apply norm2_pos; exact Hz). rewrite ln_exp. reflexivity.
Qed.

(** The principal root is [exp(ln(z)/2)]. *)
Theorem C69_sqrt_is_half_ln :
  forall (z l : complex R), z <> 0%C -> Ln z = Ok l ->
  exists s, Sqrt z = Ok s /\ Exp (Cx (re l / 2) (im l / 2)) = Ok s.
Proof.
  intros z l Hz Hl. rewrite ln_ok in Hl by exact Hz. injection Hl as <-.
  destruct (sqrt_spec z) as (s & Hs & Hsq & Hp). exists s. split; [exact Hs|].
  rewrite exp_ok. f_equal. pose proof (atan2_range (im z) (re z)) as Rz.
  apply sqrt_unique.
  - rewrite Hsq, <- cexp_add. transitivity (cexp (cln z)); [|apply exp_cln; exact Hz].
    f_equal. apply complex_ext; cbn; field.
  - unfold principal. cbn [re im cexp]. change (im (cln z)) with (atan2 (im z) (re z)).
    pose proof (exp_pos (re (cln z) / 2)) as P. set (t := atan2 (im z) (re z)) in *.
    destruct (Req_dec t PI) as [->|N].
    + right. rewrite cos_PI2, sin_PI2. lra.
    + left. apply Rmult_lt_0_compat; [exact P|]. apply cos_gt_0; lra.
  - exact Hp.
Qed.

(** [sqrt(z*w)] is [sqrt z * sqrt w] or its negative; for non-zero arguments the angle of the
    factors decides which. *)
Theorem C69_sqrt_of_product :
  forall (z w s t : complex R), Sqrt z = Ok s -> Sqrt w = Ok t ->
  (Sqrt (z * w)%C = Ok (s * t)%C \/ Sqrt (z * w)%C = Ok (- (s * t))%C)
  /\ (forall p q, z <> 0%C -> w <> 0%C -> Arg z = Ok p -> Arg w = Ok q ->
        (- PI < p + q <= PI -> Sqrt (z * w)%C = Ok (s * t)%C)
        /\ (p + q <= - PI \/ PI < p + q -> Sqrt (z * w)%C = Ok (- (s * t))%C)).
Proof.
  intros z w s t Hs Ht.
  destruct (sqrt_spec z) as (s' & Es & Ss & Ps). rewrite Hs in Es. injection Es as <-.
  destruct (sqrt_spec w) as (t' & Et & St & Pt). rewrite Ht in Et. injection Et as <-.
  destruct (sqrt_spec (smul CS z w)) as (u & Eu & Su & Pu).
  change (z * w)%C with (smul CS z w). rewrite Eu.
  assert (D : u = smul CS s t \/ u = sneg CS (smul CS s t)).
  { assert (E : smul CS (ssub CS u (smul CS s t)) (sadd CS u (smul CS s t)) = Cx 0 0).
    { transitivity (ssub CS (smul CS u u) (smul CS (smul CS s s) (smul CS t t))).
      - apply complex_ext; cbn; ring.
      - rewrite Su, Ss, St. apply complex_ext; cbn; ring. }
    apply cmul_integral in E as [E|E]; injection E as E1 E2; [left|right]; apply complex_ext; cbn; lra. }
  split; [destruct D as [->| ->]; auto|].
  intros p q Hz Hw Hp Hq. injection Hp as <-. injection Hq as <-.
  destruct (C69_sqrt_is_half_ln z (cln z) Hz (ln_ok z Hz)) as (s2 & E1 & E2).
  rewrite Hs in E1. injection E1 as <-. rewrite exp_ok in E2. injection E2 as E2. pose proof (f_equal re E2) as E2x. pose proof (f_equal im E2) as E2y.
  destruct (C69_sqrt_is_half_ln w (cln w) Hw (ln_ok w Hw)) as (t2 & E3 & E4).
  rewrite Ht in E3. injection E3 as <-. rewrite exp_ok in E4. injection E4 as E4. pose proof (f_equal re E4) as E4x. pose proof (f_equal im E4) as E4y.
  cbn [re im cln cexp] in E2x, E2y, E4x, E4y. clear E2 E4.
  pose proof (atan2_range (im z) (re z)) as Rz. pose proof (atan2_range (im w) (re w)) as Rw.
  set (p := atan2 (im z) (re z)) in *. set (q := atan2 (im w) (re w)) in *.
  set (e1 := exp (ln (norm2 z) / 2 / 2)) in *. set (e2 := exp (ln (norm2 w) / 2 / 2)) in *.
  assert (P1 : 0 < e1) by apply exp_pos. assert (P2 : 0 < e2) by apply exp_pos.
  assert (P : 0 < e1 * e2) by nra.
  assert (Hre : re (smul CS s t) = e1 * e2 * cos ((p + q) / 2)).
  { cbn. rewrite <- E2x, <- E2y, <- E4x, <- E4y. replace ((p + q) / 2) with (p / 2 + q / 2) by field.
    rewrite cos_plus. ring. }
  assert (Him : im (smul CS s t) = e1 * e2 * sin ((p + q) / 2)).
  { cbn. rewrite <- E2x, <- E2y, <- E4x, <- E4y. replace ((p + q) / 2) with (p / 2 + q / 2) by field.
    rewrite sin_plus. ring. }
  assert (S2 : smul CS (smul CS s t) (smul CS s t) = smul CS u u).
  { rewrite Su, <- Ss, <- St. apply complex_ext; cbn; ring. }
  split; intros H; f_equal.
  - symmetry. apply sqrt_unique; [exact S2| |exact Pu]. change (principal (smul CS s t)). unfold principal. rewrite Hre, Him.
    destruct (Req_dec (p + q) PI) as [E|N].
    + right. rewrite E, cos_PI2, sin_PI2. lra.
    + left. apply Rmult_lt_0_compat; [exact P|]. apply cos_gt_0; lra.
  - symmetry. apply sqrt_unique; [|unfold principal|exact Pu].
    { rewrite <- S2. apply complex_ext; cbn; ring. }
    change (0 < - re (smul CS s t) \/ - re (smul CS s t) = 0 /\ 0 <= - im (smul CS s t)).
    rewrite Hre, Him. pose proof PI_RGT_0. destruct H as [H|H].
    + destruct (Req_dec (p + q) (- PI)) as [E|N].
      * right. rewrite E. replace (- PI / 2) with (- (PI / 2)) by field. rewrite cos_neg, sin_neg, cos_PI2, sin_PI2. lra.
      * left. assert (C : cos ((p + q) / 2) < 0).
        { rewrite <- cos_neg. apply cos_lt_0; lra. } nra.
    + left. assert (C : cos ((p + q) / 2) < 0) by (apply cos_lt_0; lra). nra.
Qed.

(** Conjugation commutes with [ln] and [sqrt] off the negative real axis; on it both functions
    return the value of the upper side. *)
Lemma conj_ok z : Conj z = Ok (Cx (re z) (- im z)). Proof. reflexivity. Qed.

Theorem C69_conjugate :
  forall (z cz : complex R), Conj z = Ok cz ->
  (~ (im z = 0 /\ re z < 0) -> z <> 0%C ->
     forall l cl, Ln z = Ok l -> Conj l = Ok cl -> Ln cz = Ok cl)
  /\ (~ (im z = 0 /\ re z < 0) -> forall s cs, Sqrt z = Ok s -> Conj s = Ok cs -> Sqrt cz = Ok cs)
  /\ (im z = 0 -> re z < 0 ->
        Ln cz = Ln z /\ Ln z = Ok (Cx (ln (- re z)) PI)
        /\ Sqrt cz = Sqrt z /\ Sqrt z = Ok (Cx 0 (sqrt (- re z)))).
Proof.
  intros z cz Hc. injection Hc as <-. split; [|split].
  - intros Hn Hz l cl Hl Hcl. rewrite ln_ok in Hl by exact Hz. injection Hl as <-. injection Hcl as <-.
    rewrite ln_ok.
    2:{ intros E. injection E as E1 E2. apply Hz. apply complex_ext; cbn; lra. }
    f_equal. apply cln_unique.
    { intros E. injection E as E1 E2. apply Hz. apply complex_ext; cbn; lra. }
    + apply complex_ext; cbn; rewrite ?cos_neg, ?sin_neg;
        pose proof (exp_cln z Hz) as E; apply (f_equal (fun w => (re w, im w))) in E; injection E as E1 E2;
        cbn [re im cexp] in E1, E2; [exact E1|]. transitivity (- (exp (ln (norm2 z) / 2) * sin (atan2 (im z) (re z)))); [ring|]. rewrite E2. reflexivity.
    + cbn. pose proof (atan2_range (im z) (re z)) as Rz.
      assert (N : atan2 (im z) (re z) <> PI); [|lra].
      intros E. destruct (polar (im z) (re z)) as (H1 & H2). rewrite E, cos_PI in H1. rewrite E, sin_PI in H2.
      apply Hn. set (r := sqrt (re z * re z + im z * im z)) in *.
      assert (0 <= r) by apply sqrt_pos. split; [lra|].
      destruct (Req_dec (re z) 0) as [E0|N0]; [|lra]. exfalso. apply Hz. apply complex_ext; cbn; lra.
  - intros Hn s cs Hs Hcs. injection Hcs as <-.
    destruct (sqrt_spec z) as (s' & Es & Ss & Ps). rewrite Hs in Es. injection Es as <-.
    destruct (sqrt_spec (Cx (re z) (- im z))) as (u & Eu & Su & Pu). etransitivity; [exact Eu|]. apply f_equal.
    apply sqrt_unique; [|exact Pu|].
    + rewrite Su, <- Ss. apply complex_ext; cbn; ring.
    + unfold principal in *. cbn. destruct Ps as [P|(P1 & P2)]; [left; exact P|right].
      split; [exact P1|]. assert (im s = 0); [|lra].
      destruct (Req_dec (im s) 0) as [E|N]; [exact E|]. exfalso. apply Hn.
      rewrite <- Ss. cbn. rewrite P1. split; [ring|]. nra.
  - intros Hi Hr. assert (E : Cx (re z) (- im z) = z) by (apply complex_ext; cbn; lra). change (complex_new (re z) (- im z)) with (Cx (re z) (- im z)). rewrite E.
    assert (Hz : z <> 0%C) by (intros ->; cbn in Hr; lra).
    split; [reflexivity|]. split; [|split; [reflexivity|]].
    + rewrite ln_ok by exact Hz. f_equal. apply cln_unique; [exact Hz| |cbn; pose proof PI_RGT_0; lra].
      apply complex_ext; cbn; rewrite exp_ln, ?cos_PI, ?sin_PI by lra; lra.
    + destruct (sqrt_spec z) as (s & Es & Ss & Ps). rewrite Es. f_equal.
      apply sqrt_unique; [|exact Ps|].
      * rewrite Ss. apply complex_ext; cbn; [|lra]. rewrite sqrt_sqrt by lra. ring.
      * unfold principal. right. cbn. split; [reflexivity|apply sqrt_pos].
Qed.

(** Just below the negative real axis the imaginary part of [ln] is below [-pi/2] and that of
    [sqrt] negative, on and above it they are above [pi/2] and non-negative. *)
Theorem C69_branch_cut :
  forall (z l s : complex R), re z < 0 -> Ln z = Ok l -> Sqrt z = Ok s ->
  (0 <= im z -> PI / 2 < im l <= PI /\ 0 < im s)
  /\ (im z < 0 -> - PI < im l < - (PI / 2) /\ im s < 0).
Proof.
  intros z l s Hr Hl Hs. assert (Hz : z <> 0%C) by (intros ->; cbn in Hr; lra).
  destruct (C69_sqrt_is_half_ln z l Hz Hl) as (s' & E1 & E2). rewrite Hs in E1. injection E1 as <-.
  rewrite exp_ok in E2. injection E2 as <-. rewrite ln_ok in Hl by exact Hz. injection Hl as <-.
  cbn [re im cexp]. set (e := exp (re (cln z) / 2)). assert (Pe : 0 < e) by apply exp_pos.
  change (im (cln z)) with (atan2 (im z) (re z)). pose proof (atan2_range (im z) (re z)) as Rg.
  pose proof PI_RGT_0.
  assert (A : (0 <= im z -> PI / 2 < atan2 (im z) (re z)) /\ (im z < 0 -> atan2 (im z) (re z) < - (PI / 2))).
  { unfold atan2. destruct (Rlt_dec 0 (re z)); [lra|]. destruct (Rlt_dec (re z) 0); [|lra].
    pose proof (atan_bound (im z / re z)). destruct (Rle_dec 0 (im z)); split; intros; lra. }
  destruct A as [A1 A2]. split; intros Hi.
  - specialize (A1 Hi). split; [lra|]. apply Rmult_lt_0_compat; [exact Pe|]. apply sin_gt_0; lra.
  - specialize (A2 Hi). split; [lra|].
    assert (sin (atan2 (im z) (re z) / 2) < 0) by (apply sin_lt_0_var; lra). nra.
Qed.

Example C69_case : (* (-1)*(-1): the logarithms add up to 2*pi*i, the roots multiply to -1 *)
  Ln (Cx (-1) 0) = Ok (Cx 0 PI) /\ Ln (Cx (-1) 0 * Cx (-1) 0)%C = Ok (Cx 0 0)
  /\ Sqrt (Cx (-1) 0) = Ok i /\ Sqrt (Cx (-1) 0 * Cx (-1) 0)%C = Ok (- (i * i))%C.
Proof.
  assert (N : Cx (-1) 0 <> 0%C) by (intros E; injection E; lra).
  destruct (C69_conjugate (Cx (-1) 0) (Cx (-1) (-0)) eq_refl) as (_ & _ & H).
  destruct (H eq_refl) as (_ & L & _ & S); [cbn; lra|]. cbn [re] in L, S.
  replace (- (-1)) with 1 in L, S by ring. rewrite ln_1 in L. rewrite sqrt_1 in S.
  pose proof PI_RGT_0 as HP.
  split; [exact L|]. split; [|split; [exact S|]].
  - destruct (C69_ln_of_product _ _ _ _ N N L L) as (k & E & D). rewrite E. f_equal.
    cbn [im] in D. destruct D as [[D _]|[[_ ->]|[D _]]]; [lra| |lra].
    apply complex_ext; cbn; [ring|]. lra.
  - destruct (C69_sqrt_of_product _ _ _ _ S S) as (_ & G).
    assert (A : Arg (Cx (-1) 0) = Ok PI).
    { unfold complex_arg. cbn. f_equal. rewrite ln_ok in L by exact N. injection L as _ L. exact L. }
    apply (proj2 (G PI PI N N A A)). right. lra.
Qed.

(** ** C70: symmetries, periods and zeros *)
Lemma div_by_zero z : complex_div real_field z (Cx 0 0) = Panic DomainError.
Proof.
  unfold complex_div, complex_div_ref. cbn. unfold real_div.
  destruct (Req_EM_T (0 * 0 + 0 * 0) 0) as [_|N]; [reflexivity|exfalso; apply N; ring].
Qed.

(** Two numbers have the same exponential exactly when they differ by a multiple of [2*pi*i];
    every non-zero number is an exponential. *)
Theorem C70_exp_fibres :
  (forall z w : complex R, Exp z = Exp w <-> exists k : Z, z = (w + Cx 0 (2 * PI * IZR k))%C)
  /\ (forall w : complex R, w <> 0%C <-> exists z, Exp z = Ok w).
Proof.
  split.
  - intros z w. rewrite !exp_ok. split.
    + intros H. injection H as H1 H2. apply cexp_eq. apply complex_ext; assumption.
    + intros H. f_equal. apply cexp_eq. exact H.
  - intros w. split.
    + intros H. exists (cln w). rewrite exp_ok, exp_cln by exact H. reflexivity.
    + intros (z & H). rewrite exp_ok in H. injection H as <-. apply cexp_nonzero.
Qed.

(** Zeros, all on the real resp. imaginary axis. *)
Theorem C70_zeros :
  forall z : complex R,
  (Sin z = Ok 0%C <-> exists k : Z, z = Cx (IZR k * PI) 0)
  /\ (Cos z = Ok 0%C <-> exists k : Z, z = Cx ((IZR k + / 2) * PI) 0)
  /\ (Sinh z = Ok 0%C <-> exists k : Z, z = Cx 0 (IZR k * PI))
  /\ (Cosh z = Ok 0%C <-> exists k : Z, z = Cx 0 ((IZR k + / 2) * PI)).
Proof.
  intros z. rewrite sin_ok, cos_ok, sinh_ok, cosh_ok.
  assert (Hs : csinh z = 0%C <-> csin (Cx (- im z) (re z)) = 0%C).
  { unfold csinh, csin. cbn. rewrite sin_neg, cos_neg.
    split; intros H; injection H as H1 H2; apply complex_ext; cbn; lra. }
  assert (Hc : ccosh z = 0%C <-> ccos (Cx (- im z) (re z)) = 0%C).
  { unfold ccosh, ccos. cbn. rewrite sin_neg, cos_neg.
    split; intros H; injection H as H1 H2; apply complex_ext; cbn; lra. }
  assert (OK : forall a : complex R, Ok a = Ok 0%C <-> a = 0%C) by (split; congruence).
  rewrite !OK, Hs, Hc, !csin_0, !ccos_0. split; [reflexivity|]. split; [reflexivity|]. split; split; intros (k & H).
  - injection H as H1 H2. exists (- k)%Z. apply complex_ext; cbn; [lra|]. rewrite opp_IZR. lra.
  - rewrite H. cbn. exists (- k)%Z. rewrite opp_IZR. apply complex_ext; cbn; lra.
  - injection H as H1 H2. exists (- k - 1)%Z. apply complex_ext; cbn; [lra|]. rewrite minus_IZR, opp_IZR. lra.
  - rewrite H. cbn. exists (- k - 1)%Z. rewrite minus_IZR, opp_IZR. apply complex_ext; cbn; lra.
Qed.

(** [tan] divides by zero exactly at [(k + 1/2)*pi], and nowhere else; it has period [pi]. *)
Theorem C70_tan_domain :
  forall z : complex R,
  ((exists k : Z, z = Cx ((IZR k + / 2) * PI) 0) -> Tan z = Panic DomainError)
  /\ (~ (exists k : Z, z = Cx ((IZR k + / 2) * PI) 0) -> exists t, Tan z = Ok t)
  /\ (forall k : Z, Tan (z + Cx (IZR k * PI) 0)%C = Tan z).
Proof.
  intros z. split; [|split].
  - intros H. apply ccos_0 in H. unfold complex_tan. rewrite sin_ok, cos_ok, H. apply div_by_zero.
  - intros H. rewrite <- ccos_0 in H. destruct (tan_spec z H) as (t & Ht & _). eauto.
  - intros k. assert (Sk : sin (IZR k * PI) = 0) by (apply sin_eq_0_1; exists k; reflexivity).
    set (e := cos (IZR k * PI)). assert (He : e * e = 1) by (pose proof (sin2cos2 (IZR k * PI)); unfold e; nra).
    assert (Ec : ccos (z + Cx (IZR k * PI) 0)%C = smul CS (Cx e 0) (ccos z)).
    { apply complex_ext; cbn; rewrite !Rplus_0_r, ?cos_plus, ?sin_plus, Sk; fold e; ring. }
    assert (Es : csin (z + Cx (IZR k * PI) 0)%C = smul CS (Cx e 0) (csin z)).
    { apply complex_ext; cbn; rewrite !Rplus_0_r, ?cos_plus, ?sin_plus, Sk; fold e; ring. }
    assert (Ne : Cx e 0 <> Cx 0 0) by (intros E; injection E as E; rewrite E in He; lra).
    assert (X : ccos z = Cx 0 0 \/ ccos z <> Cx 0 0).
    { destruct (Req_dec (norm2 (ccos z)) 0) as [E|N]; [left; apply norm2_zero, E|right].
      intros E. apply N. rewrite E. unfold norm2. cbn. ring. }
    destruct X as [X|X].
    + unfold complex_tan. rewrite !sin_ok, !cos_ok, Ec, X.
      replace (smul CS (Cx e 0) (Cx 0 0)) with (Cx 0 0) by (apply complex_ext; cbn; ring).
      cbn [bind]. rewrite !div_by_zero. reflexivity.
    + destruct (tan_spec z X) as (t & Ht & Et). rewrite Ht.
      destruct (tan_spec (z + Cx (IZR k * PI) 0)%C) as (t' & Ht' & Et').
      { rewrite Ec. intros E. apply cmul_integral in E as [E|E]; contradiction. }
      rewrite Ht'. f_equal. rewrite Ec, Es in Et'. apply (cmul_cancel _ _ (ccos z) X).
      rewrite Et. apply (cmul_cancel _ _ (Cx e 0) Ne).
      transitivity (smul CS t' (smul CS (Cx e 0) (ccos z))); [apply complex_ext; cbn; ring|].
      rewrite Et'. apply complex_ext; cbn; ring.
Qed.

(** Parity, rotation by [i] and conjugation. *)
Theorem C70_symmetries :
  forall (z cz s c sh ch : complex R),
    Conj z = Ok cz -> Sin z = Ok s -> Cos z = Ok c -> Sinh z = Ok sh -> Cosh z = Ok ch ->
  (Sin (- z)%C = Ok (- s)%C /\ Cos (- z)%C = Ok c /\ Sinh (- z)%C = Ok (- sh)%C /\ Cosh (- z)%C = Ok ch)
  /\ (Sin (i * z)%C = Ok (i * sh)%C /\ Cos (i * z)%C = Ok ch
      /\ Sinh (i * z)%C = Ok (i * s)%C /\ Cosh (i * z)%C = Ok c)
  /\ (Sin cz = Conj s /\ Cos cz = Conj c /\ Sinh cz = Conj sh /\ Cosh cz = Conj ch)
  /\ (forall t, Tan z = Ok t -> Tan (- z)%C = Ok (- t)%C /\ Tan cz = Conj t).
Proof.
  intros z cz s c sh ch H0 H1 H2 H3 H4.
  injection H0 as <-. injection H1 as <-. injection H2 as <-. injection H3 as <-. injection H4 as <-.
  change (complex_new (re z) (- im z)) with (Cx (re z) (- im z)).
  assert (N1 : csin (- z)%C = (- csin z)%C)
    by (apply complex_ext; cbn; rewrite ?sin_neg, ?cos_neg, ?sinh_neg, ?cosh_neg; ring).
  assert (N2 : ccos (- z)%C = ccos z)
    by (apply complex_ext; cbn; rewrite ?sin_neg, ?cos_neg, ?sinh_neg, ?cosh_neg; ring).
  assert (C1 : csin (Cx (re z) (- im z)) = Cx (re (csin z)) (- im (csin z)))
    by (apply complex_ext; cbn; rewrite ?sin_neg, ?cos_neg, ?sinh_neg, ?cosh_neg; ring).
  assert (C2 : ccos (Cx (re z) (- im z)) = Cx (re (ccos z)) (- im (ccos z)))
    by (apply complex_ext; cbn; rewrite ?sin_neg, ?cos_neg, ?sinh_neg, ?cosh_neg; ring).
  split; [|split; [|split]].
  - rewrite !sin_ok, !cos_ok, !sinh_ok, !cosh_ok, N1, N2. repeat split; f_equal; apply complex_ext; cbn;
      rewrite ?sin_neg, ?cos_neg, ?sinh_neg, ?cosh_neg; ring.
  - rewrite !sin_ok, !cos_ok, !sinh_ok, !cosh_ok.
    repeat split; f_equal; apply complex_ext; cbn;
      replace (0 * re z - 1 * im z) with (- im z) by ring; replace (0 * im z + 1 * re z) with (re z) by ring;
      rewrite ?sin_neg, ?cos_neg, ?sinh_neg, ?cosh_neg; ring.
  - rewrite !sin_ok, !cos_ok, !sinh_ok, !cosh_ok, C1, C2.
    repeat split; cbn; f_equal; apply complex_ext; cbn; rewrite ?sin_neg, ?cos_neg, ?sinh_neg, ?cosh_neg; ring.
  - intros t Ht. assert (X : ccos z <> Cx 0 0).
    { intros E. unfold complex_tan in Ht. rewrite sin_ok, cos_ok, E in Ht. cbn [bind] in Ht.
      rewrite div_by_zero in Ht. discriminate. }
    destruct (tan_spec z X) as (t' & Ht' & Et). rewrite Ht in Ht'. injection Ht' as <-. split.
    + destruct (tan_spec (- z)%C) as (u & Hu & Eu); [rewrite N2; exact X|]. rewrite Hu. f_equal.
      rewrite N1, N2 in Eu. apply (cmul_cancel _ _ _ X). rewrite Eu, <- Et. apply complex_ext; cbn; ring.
    + assert (X' : ccos (Cx (re z) (- im z)) <> Cx 0 0).
      { rewrite C2. intros E. injection E as E1 E2. apply X. apply complex_ext; cbn in *; lra. }
      destruct (tan_spec (Cx (re z) (- im z)) X') as (u & Hu & Eu). rewrite Hu, conj_ok. f_equal.
      apply (cmul_cancel _ _ _ X'). rewrite Eu, C1, C2. rewrite <- Et. apply complex_ext; cbn; ring.
Qed.

(** [sin z = sin w] exactly when [z = w + 2*pi*k] or [z = pi - w + 2*pi*k];
    [cos z = cos w] exactly when [z = w + 2*pi*k] or [z = -w + 2*pi*k]; both take every value. *)
Lemma csin_diff a b : ssub CS (csin (sadd CS a b)) (csin (ssub CS a b)) = smul CS (Cx 2 0) (smul CS (ccos a) (csin b)).
Proof.
  apply complex_ext; cbn; replace (re a - re b) with (re a + - re b) by ring; replace (im a - im b) with (im a + - im b) by ring;
  rewrite ?sin_plus, ?cos_plus, ?sinh_plus, ?cosh_plus, ?sin_neg, ?cos_neg, ?sinh_neg, ?cosh_neg; ring.
Qed.
Lemma ccos_diff a b : ssub CS (ccos (ssub CS a b)) (ccos (sadd CS a b)) = smul CS (Cx 2 0) (smul CS (csin a) (csin b)).
Proof.
  apply complex_ext; cbn; replace (re a - re b) with (re a + - re b) by ring; replace (im a - im b) with (im a + - im b) by ring;
  rewrite ?sin_plus, ?cos_plus, ?sinh_plus, ?cosh_plus, ?sin_neg, ?cos_neg, ?sinh_neg, ?cosh_neg; ring.
Qed.

Theorem C70_equal_values :
  forall z w : complex R,
  (Sin z = Sin w <-> exists k : Z, z = (w + Cx (2 * PI * IZR k) 0)%C \/ z = (Cx PI 0 - w + Cx (2 * PI * IZR k) 0)%C)
  /\ (Cos z = Cos w <-> exists k : Z, z = (w + Cx (2 * PI * IZR k) 0)%C \/ z = (- w + Cx (2 * PI * IZR k) 0)%C).
Proof.
  intros z w. rewrite !sin_ok, !cos_ok.
  set (a := Cx ((re z + re w) / 2) ((im z + im w) / 2)). set (b := Cx ((re z - re w) / 2) ((im z - im w) / 2)).
  assert (Ez : z = sadd CS a b) by (apply complex_ext; cbn; field).
  assert (Ew : w = ssub CS a b) by (apply complex_ext; cbn; field).
  assert (N2 : Cx 2 0 <> Cx 0 0) by (intros E; injection E; lra).
  assert (P : forall v (k : Z), csin (v + Cx (2 * PI * IZR k) 0)%C = csin v /\ ccos (v + Cx (2 * PI * IZR k) 0)%C = ccos v).
  { intros v k. split; apply complex_ext; cbn; rewrite Rplus_0_r, ?cos_period_Z, ?sin_period_Z; reflexivity. }
  split; split.
  - intros H. assert (E : csin z = csin w) by (injection H as H1 H2; apply complex_ext; assumption).
    assert (D : smul CS (Cx 2 0) (smul CS (ccos a) (csin b)) = Cx 0 0).
    { rewrite <- csin_diff, <- Ez, <- Ew, E. apply complex_ext; cbn; ring. }
    apply cmul_integral in D as [D|D]; [contradiction|]. apply cmul_integral in D as [D|D].
    + apply ccos_0 in D as (k & D). unfold a in D. injection D as D1 D2. exists k. right. apply complex_ext; cbn; lra.
    + apply csin_0 in D as (k & D). unfold b in D. injection D as D1 D2. exists k. left. apply complex_ext; cbn; lra.
  - intros (k & [->| ->]); f_equal; rewrite (proj1 (P _ k)); [reflexivity|].
    apply complex_ext; cbn; replace (0 - im w) with (- im w) by ring; rewrite ?sinh_neg, ?cosh_neg.
    + rewrite sin_minus, sin_PI, cos_PI. ring.
    + rewrite cos_minus, sin_PI, cos_PI. ring.
  - intros H. assert (E : ccos z = ccos w) by (injection H as H1 H2; apply complex_ext; cbn; lra).
    assert (D : smul CS (Cx 2 0) (smul CS (csin a) (csin b)) = Cx 0 0).
    { rewrite <- ccos_diff, <- Ez, <- Ew, E. apply complex_ext; cbn; ring. }
    apply cmul_integral in D as [D|D]; [contradiction|]. apply cmul_integral in D as [D|D].
    + apply csin_0 in D as (k & D). unfold a in D. injection D as D1 D2. exists k. right. apply complex_ext; cbn; lra.
    + apply csin_0 in D as (k & D). unfold b in D. injection D as D1 D2. exists k. left. apply complex_ext; cbn; lra.
  - intros (k & [->| ->]); f_equal; rewrite (proj2 (P _ k)); [reflexivity|].
    apply complex_ext; cbn; rewrite ?sin_neg, ?cos_neg, ?sinh_neg, ?cosh_neg; ring.
Qed.

Theorem C70_surjective :
  forall w : complex R,
  (exists z, Sin z = Ok w) /\ (exists z, Cos z = Ok w) /\ (exists z, Sinh z = Ok w) /\ (exists z, Cosh z = Ok w).
Proof.
  assert (Hsh : forall w, exists z, csinh z = w).
  { intros w. destruct (sqrt_spec (sadd CS (smul CS w w) (so CS))) as (s & _ & Hs & _).
    set (e := sadd CS w s).
    assert (M : smul CS e (ssub CS s w) = Cx 1 0).
    { transitivity (ssub CS (smul CS s s) (smul CS w w)); [apply complex_ext; cbn; ring|].
      rewrite Hs. apply complex_ext; cbn; ring. }
    assert (Ne : e <> Cx 0 0).
    { intros E. rewrite E in M. injection M as M1 M2. lra. }
    exists (cln e). apply (cmul_cancel _ _ (Cx 2 0)); [intros E; injection E; lra|].
    assert (C2 : forall u, smul CS u (Cx 2 0) = smul CS (Cx 2 0) u) by (intros; apply complex_ext; cbn; ring).
    rewrite C2, csinh_exp, exp_cln by exact Ne.
    assert (I : cexp (sneg CS (cln e)) = ssub CS s w).
    { apply (cmul_cancel _ _ e Ne).
      transitivity (cexp (sadd CS (sneg CS (cln e)) (cln e))).
      - rewrite cexp_add, exp_cln by exact Ne. reflexivity.
      - transitivity (Cx 1 0); [|rewrite <- M; apply complex_ext; cbn; ring].
        apply complex_ext; cbn; rewrite !Rplus_opp_l, exp_0, ?cos_0, ?sin_0; ring. }
    rewrite I. unfold e. apply complex_ext; cbn; ring. }
  assert (Hs : forall w, exists z, csin z = w).
  { intros w. destruct (Hsh (Cx (- im w) (re w))) as (z & Hz).
    exists (Cx (im z) (- re z)). injection Hz as H1 H2. apply complex_ext; cbn; rewrite ?cosh_neg, ?sinh_neg; lra. }
  assert (Hc : forall w, exists z, ccos z = w).
  { intros w. destruct (Hs w) as (z & Hz). exists (Cx (PI / 2 - re z) (- im z)). rewrite <- Hz.
    apply complex_ext; cbn; rewrite ?cos_shift, ?sin_shift, ?cosh_neg, ?sinh_neg; ring. }
  assert (Hch : forall w, exists z, ccosh z = w).
  { intros w. destruct (Hc w) as (z & Hz). exists (Cx (- im z) (re z)). rewrite <- Hz.
    apply complex_ext; cbn; rewrite ?cosh_neg, ?sinh_neg; ring. }
  intros w. destruct (Hs w) as (a & <-). destruct (Hc (csin a)) as (b & Hb).
  destruct (Hsh (csin a)) as (c & Hc'). destruct (Hch (csin a)) as (d & Hd).
  split; [exists a; reflexivity|]. split; [exists b; rewrite cos_ok; congruence|].
  split; [exists c; rewrite sinh_ok; congruence|exists d; rewrite cosh_ok; congruence].
Qed.

(** On real arguments the complex functions are the real ones. *)
Theorem C70_real_arguments :
  forall x : R,
  Exp (Cx x 0) = Ok (Cx (exp x) 0) /\ Sin (Cx x 0) = Ok (Cx (sin x) 0) /\ Cos (Cx x 0) = Ok (Cx (cos x) 0)
  /\ Sinh (Cx x 0) = Ok (Cx (sinh x) 0) /\ Cosh (Cx x 0) = Ok (Cx (cosh x) 0)
  /\ Abs (Cx x 0) = Ok (Rabs x)
  /\ (cos x <> 0 -> Tan (Cx x 0) = Ok (Cx (tan x) 0))
  /\ (0 < x -> Ln (Cx x 0) = Ok (Cx (ln x) 0))
  /\ (0 <= x -> Sqrt (Cx x 0) = Ok (Cx (sqrt x) 0)).
Proof.
  intros x. rewrite exp_ok, sin_ok, cos_ok, sinh_ok, cosh_ok, abs_ok.
  assert (H0 : sinh 0 = 0) by apply sinh_0. assert (H1 : cosh 0 = 1) by apply cosh_0.
  assert (Es : csin (Cx x 0) = Cx (sin x) 0) by (apply complex_ext; cbn; rewrite ?H0, ?H1; ring).
  assert (Ec : ccos (Cx x 0) = Cx (cos x) 0) by (apply complex_ext; cbn; rewrite ?H0, ?H1; ring).
  split; [f_equal; apply complex_ext; cbn; rewrite ?cos_0, ?sin_0; ring|].
  split; [rewrite Es; reflexivity|]. split; [rewrite Ec; reflexivity|].
  split; [f_equal; apply complex_ext; cbn; rewrite ?cos_0, ?sin_0; ring|].
  split; [f_equal; apply complex_ext; cbn; rewrite ?cos_0, ?sin_0; ring|].
  split; [f_equal; unfold norm2; cbn; replace (x * x + 0 * 0) with (Rsqr x) by (unfold Rsqr; ring); apply sqrt_Rsqr_abs|].
  split; [|split].
  - intros Hc. destruct (tan_spec (Cx x 0)) as (t & Ht & Et).
    { rewrite Ec. intros E. injection E as E. contradiction. }
    rewrite Ht. f_equal. rewrite Es, Ec in Et. injection Et as E1 E2.
    apply complex_ext; cbn.
    + unfold tan. apply (Rmult_eq_reg_r (cos x)); [|exact Hc]. rewrite <- E1. field. exact Hc.
    + apply (Rmult_eq_reg_r (cos x)); [|exact Hc]. lra.
  - intros Hx. assert (Hz : Cx x 0 <> Cx 0 0) by (intros E; injection E; lra).
    rewrite ln_ok by exact Hz. f_equal. apply cln_unique; [exact Hz| |cbn; pose proof PI_RGT_0; lra].
    apply complex_ext; cbn; rewrite exp_ln, ?cos_0, ?sin_0 by exact Hx; ring.
  - intros Hx. destruct (sqrt_spec (Cx x 0)) as (s & Es' & Ss & Ps). rewrite Es'. f_equal.
    apply sqrt_unique; [|exact Ps|].
    + rewrite Ss. apply complex_ext; cbn; [rewrite <- (sqrt_sqrt x) at 1 by exact Hx; ring|ring].
    + unfold principal. cbn. pose proof (sqrt_pos x). destruct (Req_dec (sqrt x) 0); [right; lra|left; lra].
Qed.

Example C70_case :
  Tan (Cx (PI / 2) 0) = Panic DomainError /\ Tan (Cx PI 0) = Ok (Cx 0 0)
  /\ Sin (Cx (PI / 2 + 2 * PI) 0) = Sin (Cx (PI / 2) 0)
  /\ ~ (exists k : Z, Cx 0 1 = Cx ((IZR k + / 2) * PI) 0).
Proof.
  split; [|split; [|split]].
  - apply (proj1 (C70_tan_domain (Cx (PI / 2) 0))). exists 0%Z. apply complex_ext; cbn; lra.
  - destruct (C70_real_arguments PI) as (_ & _ & _ & _ & _ & _ & H & _).
    rewrite H by (rewrite cos_PI; lra). f_equal. unfold tan. rewrite sin_PI. apply complex_ext; cbn; lra.
  - apply (proj2 (proj1 (C70_equal_values (Cx (PI / 2 + 2 * PI) 0) (Cx (PI / 2) 0)))). exists 1%Z. left. apply complex_ext; cbn; lra.
  - intros (k & E). injection E as _ E. lra.
Qed.

Print Assumptions C69_ln_of_product.
Print Assumptions C69_ln_parts.
Print Assumptions C69_sqrt_is_half_ln.
Print Assumptions C69_sqrt_of_product.
Print Assumptions C69_conjugate.
Print Assumptions C69_branch_cut.
Print Assumptions C70_exp_fibres.
Print Assumptions C70_zeros.
Print Assumptions C70_tan_domain.
Print Assumptions C70_symmetries.
Print Assumptions C70_equal_values.
Print Assumptions C70_surjective.
Print Assumptions C70_real_arguments.
