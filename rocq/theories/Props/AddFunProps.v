(** Property C106: the addition theorems of sin, cos, sinh and cosh hold for Complex<f32> and Complex<f64> up to rounding,
    given the accuracy of libm. *)
From Coq Require Import List ZArith Reals Bool Lia Lra Psatz.
From Flocq Require Import Core.Core IEEE754.BinarySingleNaN.
From Verif Require Import Base.Outcome Model.Traits Model.Float Model.Complex Model.RealInstance Spec.FloatErr Spec.ComplexErr
  Proofs.FloatErr Proofs.FloatRound Proofs.FloatRange Proofs.ComplexReal Proofs.ComplexErr Props.ComplexErrProps Props.ComplexBranchProps
  Props.FloatSqrtProps Props.FloatFunProps Props.FloatProps Proofs.TrigTest Props.TrigTestProps Proofs.LnTest Proofs.ComplexUndo Props.ComplexUndoProps Proofs.ExpLn Props.ExpLnProps Props.PolarProps.
Local Open Scope R_scope.

(** ** The exact functions *)
Definition csin (z : cplx) : cplx := (sin (fst z) * cosh (snd z), cos (fst z) * sinh (snd z)).
Definition ccos (z : cplx) : cplx := (cos (fst z) * cosh (snd z), - (sin (fst z) * sinh (snd z))).
Definition csinh (z : cplx) : cplx := (sinh (fst z) * cos (snd z), cosh (fst z) * sin (snd z)).
Definition ccosh (z : cplx) : cplx := (cosh (fst z) * cos (snd z), sinh (fst z) * sin (snd z)).

(** They are what the exponential series says: e^(iz) = cos z + i sin z, e^z = cosh z + sinh z. *)
Lemma euler z : cexp (- snd z, fst z) = (fst (ccos z) - snd (csin z), snd (ccos z) + fst (csin z)) /\ cexp z = cadd (ccosh z) (csinh z).
Proof.
  unfold cexp, ccos, csin, ccosh, csinh, cadd, cosh, sinh. cbn [fst snd]. rewrite Ropp_involutive || idtac. split; f_equal; field.
Qed.

Lemma cosh_add x y : cosh (x + y) = cosh x * cosh y + sinh x * sinh y.
Proof. unfold cosh, sinh. rewrite Ropp_plus_distr, !exp_plus. field. Qed.
Lemma sinh_add x y : sinh (x + y) = sinh x * cosh y + cosh x * sinh y.
Proof. unfold cosh, sinh. rewrite Ropp_plus_distr, !exp_plus. field. Qed.

Lemma csin_add z w : csin (cadd z w) = cadd (cmul (csin z) (ccos w)) (cmul (ccos z) (csin w)).
Proof. unfold csin, ccos, cadd, cmul. cbn [fst snd]. rewrite sin_plus, cos_plus, cosh_add, sinh_add. f_equal; ring. Qed.
Lemma ccos_add z w : ccos (cadd z w) = csub (cmul (ccos z) (ccos w)) (cmul (csin z) (csin w)).
Proof. unfold csin, ccos, cadd, csub, cmul. cbn [fst snd]. rewrite sin_plus, cos_plus, cosh_add, sinh_add. f_equal; ring. Qed.
Lemma csinh_add z w : csinh (cadd z w) = cadd (cmul (csinh z) (ccosh w)) (cmul (ccosh z) (csinh w)).
Proof. unfold csinh, ccosh, cadd, cmul. cbn [fst snd]. rewrite sin_plus, cos_plus, cosh_add, sinh_add. f_equal; ring. Qed.
Lemma ccosh_add z w : ccosh (cadd z w) = cadd (cmul (ccosh z) (ccosh w)) (cmul (csinh z) (csinh w)).
Proof. unfold csinh, ccosh, cadd, cmul. cbn [fst snd]. rewrite sin_plus, cos_plus, cosh_add, sinh_add. f_equal; ring. Qed.

(** A small change of the argument. *)
Lemma half_sum_norm (e g : cplx) :
  cnorm ((fst e + fst g) / 2, (snd e + snd g) / 2) <= (cnorm e + cnorm g) / 2
  /\ cnorm ((fst e - fst g) / 2, (snd e - snd g) / 2) <= (cnorm e + cnorm g) / 2
  /\ cnorm ((snd e - snd g) / 2, (fst g - fst e) / 2) <= (cnorm e + cnorm g) / 2.
Proof.
  assert (H : forall z, cnorm (fst z / 2, snd z / 2) = cnorm z / 2).
  { intros z. replace (fst z / 2, snd z / 2) with (cmul z (/ 2, 0)) by (unfold cmul; cbn [fst snd]; f_equal; field).
    rewrite cnorm_mul. unfold Rdiv. f_equal. unfold cnorm. cbn [fst snd]. replace (/ 2 * / 2 + 0 * 0) with (/ 2 * / 2) by ring. apply sqrt_square. lra. }
  assert (M : cnorm (csub e g) <= cnorm e + cnorm g).
  { replace (csub e g) with (cadd e (- fst g, - snd g)) by (unfold csub, cadd; cbn [fst snd]; f_equal; ring).
    eapply Rle_trans; [apply cnorm_triangle|]. rewrite cnorm_opp. lra. }
  pose proof (cnorm_triangle e g) as P.
  pose proof (H (cadd e g)) as H1. pose proof (H (csub e g)) as H2. cbn [cadd csub fst snd] in H1, H2. repeat split.
  - rewrite H1. change (fst e + fst g, snd e + snd g) with (cadd e g). lra.
  - rewrite H2. change (fst e - fst g, snd e - snd g) with (csub e g). lra.
  - rewrite <- cnorm_swap. replace (cnorm ((fst g - fst e) / 2, (snd e - snd g) / 2)) with (cnorm ((fst e - fst g) / 2, (snd e - snd g) / 2)).
    + rewrite H2. change (fst e - fst g, snd e - snd g) with (csub e g). lra.
    + unfold cnorm. cbn [fst snd]. f_equal. field.
Qed.

Lemma cosh_exp y : exp y + exp (- y) = 2 * cosh y. Proof. unfold cosh. field. Qed.

Lemma trig_moved z w : Rabs (snd w - snd z) <= 1 / 50 ->
  let r := 103 / 100 * (Rabs (fst w - fst z) + Rabs (snd w - snd z)) * cosh (snd z) in
  cnorm (csub (csin w) (csin z)) <= r /\ cnorm (csub (ccos w) (ccos z)) <= r.
Proof.
  intros H r. set (E v := cexp (- snd v, fst v)). set (G v := cexp (snd v, - fst v)).
  pose proof (cexp_moved (- snd z, fst z) (- snd w, fst w)) as M1. pose proof (cexp_moved (snd z, - fst z) (snd w, - fst w)) as M2. cbn [fst snd] in M1, M2.
  replace (- snd w - - snd z) with (- (snd w - snd z)) in M1 by ring. replace (- fst w - - fst z) with (- (fst w - fst z)) in M2 by ring. rewrite Rabs_Ropp in M1, M2.
  specialize (M1 H). specialize (M2 H). fold (E w) (E z) in M1. fold (G w) (G z) in M2.
  destruct (half_sum_norm (csub (E w) (E z)) (csub (G w) (G z))) as (A1 & _ & A3).
  pose proof (cosh_exp (snd z)) as CE.
  assert (B : (cnorm (csub (E w) (E z)) + cnorm (csub (G w) (G z))) / 2 <= r).
  { unfold r. set (q := Rabs (fst w - fst z) + Rabs (snd w - snd z)) in *. replace (Rabs (snd w - snd z) + Rabs (fst w - fst z)) with q in * by (unfold q; ring).
    replace (103 / 100 * q * cosh (snd z)) with ((103 / 100 * q * exp (- snd z) + 103 / 100 * q * exp (snd z)) / 2).
    - lra.
    - replace (cosh (snd z)) with ((exp (snd z) + exp (- snd z)) / 2) by lra. field. }
  split.
  - eapply Rle_trans; [|exact B]. eapply Rle_trans; [|exact A3]. right. f_equal.
    unfold csub, csin, E, G, cexp, cosh, sinh. cbn [fst snd]. rewrite !cos_neg, !sin_neg. f_equal; field.
  - eapply Rle_trans; [|exact B]. eapply Rle_trans; [|exact A1]. right. f_equal.
    unfold csub, ccos, E, G, cexp, cosh, sinh. cbn [fst snd]. rewrite !cos_neg, !sin_neg. f_equal; field.
Qed.

Lemma hyp_moved z w : Rabs (fst w - fst z) <= 1 / 50 ->
  let r := 103 / 100 * (Rabs (fst w - fst z) + Rabs (snd w - snd z)) * cosh (fst z) in
  cnorm (csub (csinh w) (csinh z)) <= r /\ cnorm (csub (ccosh w) (ccosh z)) <= r.
Proof.
  intros H r. set (E v := cexp (fst v, snd v)). set (G v := cexp (- fst v, - snd v)).
  pose proof (cexp_moved (fst z, snd z) (fst w, snd w)) as M1. pose proof (cexp_moved (- fst z, - snd z) (- fst w, - snd w)) as M2. cbn [fst snd] in M1, M2.
  replace (- fst w - - fst z) with (- (fst w - fst z)) in M2 by ring. replace (- snd w - - snd z) with (- (snd w - snd z)) in M2 by ring. rewrite !Rabs_Ropp in M2.
  specialize (M1 H). specialize (M2 H). fold (E w) (E z) in M1. fold (G w) (G z) in M2.
  destruct (half_sum_norm (csub (E w) (E z)) (csub (G w) (G z))) as (A1 & A2 & _).
  pose proof (cosh_exp (fst z)) as CE.
  assert (B : (cnorm (csub (E w) (E z)) + cnorm (csub (G w) (G z))) / 2 <= r).
  { unfold r. set (q := Rabs (fst w - fst z) + Rabs (snd w - snd z)) in *.
    replace (103 / 100 * q * cosh (fst z)) with ((103 / 100 * q * exp (- fst z) + 103 / 100 * q * exp (fst z)) / 2).
    - lra.
    - replace (cosh (fst z)) with ((exp (fst z) + exp (- fst z)) / 2) by lra. field. }
  split.
  - eapply Rle_trans; [|exact B]. eapply Rle_trans; [|exact A2]. right. f_equal.
    unfold csub, csinh, E, G, cexp, cosh, sinh. cbn [fst snd]. rewrite !cos_neg, !sin_neg. f_equal; field.
  - eapply Rle_trans; [|exact B]. eapply Rle_trans; [|exact A1]. right. f_equal.
    unfold csub, ccosh, E, G, cexp, cosh, sinh. cbn [fst snd]. rewrite !cos_neg, !sin_neg. f_equal; field.
Qed.

Lemma cosh_moved x y : Rabs (y - x) <= 1 / 50 -> cosh y <= 103 / 100 * cosh x.
Proof.
  intros H. assert (E : forall s t, Rabs (t - s) <= 1 / 50 -> exp t <= 103 / 100 * exp s).
  { intros s t L. pose proof (exp_near (t - s) L) as N. apply Rabs_le_inv in N. replace t with (s + (t - s)) at 1 by ring. rewrite exp_plus.
    pose proof (exp_pos s). apply Rle_trans with (exp s * (103 / 100)); [apply Rmult_le_compat_l; lra|lra]. }
  pose proof (E x y H). pose proof (E (- x) (- y)) as E2. replace (- y - - x) with (- (y - x)) in E2 by ring. rewrite Rabs_Ropp in E2. specialize (E2 H). unfold cosh. lra.
Qed.
Lemma cosh_sum_le x y : cosh (x + y) <= 2 * (cosh x * cosh y).
Proof.
  unfold cosh. rewrite Ropp_plus_distr, !exp_plus. pose proof (exp_pos x). pose proof (exp_pos y). pose proof (exp_pos (- x)). pose proof (exp_pos (- y)).
  assert (0 < exp x * exp (- y)) by (apply Rmult_lt_0_compat; assumption). assert (0 < exp (- x) * exp y) by (apply Rmult_lt_0_compat; assumption).
  replace (2 * ((exp x + exp (- x)) / 2 * ((exp y + exp (- y)) / 2))) with ((exp x * exp y + exp (- x) * exp (- y)) / 2 + (exp x * exp (- y) + exp (- x) * exp y) / 2) by field. lra.
Qed.

Section Fmt.
Context (prec emax : Z) {Hp : Prec_gt_0 prec} {He : Prec_lt_emax prec emax} (libm : FunOps (binary_float prec emax)).
Notation fl := (binary_float prec emax).
Notation FF := (float_field prec emax).
Notation FR := (float_ring prec emax).
Notation FE := (float_fun prec emax libm).
Notation u := (unit_roundoff prec).
Notation eta := (underflow_unit prec emax).
Notation add := (fl_add prec emax). Notation sub := (fl_sub prec emax).
Notation mul := (fl_mul prec emax).
Notation hi := (half_big emax).
Context (Hprec : (24 <= prec)%Z) (k : Z) (Hk0 : (1 <= k)%Z) (Hk : (4 * k + 26 <= emax)%Z).
Context (d : R) (Hd : u <= d) (Hdk : d * (IZR k + 3) <= / 400) (HL : libm_error prec emax libm d).
Notation mid := (mid k).
Notation dr := (dr prec Hprec k Hk0 d Hd Hdk).

Lemma cosh_wide b : Rabs b <= 2 * IZR k + 1 -> 1 <= cosh b /\ mid (cosh b) /\ cosh b <= bpow radix2 (emax - 2).
Proof.
  intros Hb. pose proof (cosh_ge_1 b) as C1. pose proof (cosh_le_exp b) as CE. pose proof (exp_le _ _ Hb) as E1. destruct dr as (U & D & K).
  assert (M : mid (cosh b)).
  { apply (mid_between prec Hprec k Hk0 d Hd Hdk). split; [|lra]. rewrite <- exp_0 in C1. eapply Rle_trans; [|exact C1]. apply exp_le. lra. }
  split; [exact C1|]. split; [exact M|].
  pose proof (mid_hi emax k Hk _ M) as Mh. unfold half_big in Mh. replace (emax - 1)%Z with ((emax - 2) + 1)%Z in Mh by lia. rewrite bpow_plus in Mh. change (bpow radix2 1) with 2 in Mh. lra.
Qed.

(** ** sin and cos, sinh and cosh of one number *)
Lemma trig_near (z : complex fl) : cfinite z -> Rabs (B2R (im z)) <= 2 * IZR k + 1 ->
  let C := cosh (B2R (im z)) in
  exists s c, complex_sin FF FE z = Ok s /\ complex_cos FF FE z = Ok c /\ cfinite s /\ cfinite c
    /\ cnorm (csub (cval s) (csin (cval z))) <= 303 / 100 * d * C /\ cnorm (csub (cval c) (ccos (cval z))) <= 303 / 100 * d * C
    /\ cnorm (csin (cval z)) <= C /\ cnorm (ccos (cval z)) <= C.
Proof.
  intros [Fa Fb] Hb. destruct dr as (U & D & K). destruct (cosh_wide _ Hb) as (C1 & M1 & Q).
  destruct (proj1 HL (re z) Fa) as (_ & Ls & Lc & _). destruct (proj1 HL (im z) Fb) as (_ & _ & _ & LH). destruct (LH Q) as [Lsh Lch].
  unfold csin, ccos. change (fst (cval z)) with (B2R (re z)). change (snd (cval z)) with (B2R (im z)).
  set (a := B2R (re z)) in *. set (b := B2R (im z)) in *. set (C := cosh b) in *. cbv zeta.
  pose proof (sin_le_1 a) as S1. pose proof (cos_le_1 a) as K1. pose proof (sinh_le_cosh b) as H1. fold C in H1.
  assert (CA : Rabs C <= C) by (rewrite Rabs_pos_eq; lra). assert (S1C : Rabs (sin a) <= C) by lra. assert (K1C : Rabs (cos a) <= C) by lra.
  assert (bnd : forall x y, Rabs x <= 1 -> Rabs y <= C -> Rabs (x * y) <= C). { intros x y Hx Hy. rewrite Rabs_mult. replace C with (1 * C) by ring. apply Rmult_le_compat; try apply Rabs_pos; assumption. }
  pose proof (libm_product prec emax Hprec k Hk0 Hk d Hd Hdk) as LP. pose proof (products_near prec emax Hprec k Hk0 Hk d Hd Hdk) as PN.
  destruct (LP _ _ _ _ C Ls Lch C1 M1 S1C CA (bnd _ _ S1 CA)) as (s & ch & Es & Ech & G1 & D1).
  destruct (LP _ _ _ _ C Lc Lsh C1 M1 K1C H1 (bnd _ _ K1 H1)) as (c & sh & Ec & Esh & G2 & D2).
  destruct (LP _ _ _ _ C Lc Lch C1 M1 K1C CA (bnd _ _ K1 CA)) as (c' & ch' & Ec' & Ech' & G3 & D3).
  destruct (LP _ _ _ _ C Ls Lsh C1 M1 S1C H1 (bnd _ _ S1 H1)) as (s' & sh' & Es' & Esh' & G4 & D4).
  rewrite Ec in Ec'. injection Ec' as <-. rewrite Ech in Ech'. injection Ech' as <-. rewrite Es in Es'. injection Es' as <-. rewrite Esh in Esh'. injection Esh' as <-.
  pose proof (sin2_cos2 a) as SC. unfold Rsqr in SC. destruct (trig_norm b (cos a) (sin a) ltac:(lra)) as (N1 & N2 & _ & _). fold C in N1, N2.
  set (S := Cx (mul s ch) (mul c sh) : complex fl). set (Kc := Cx (mul c ch) (Bopp (mul s sh)) : complex fl). exists S, Kc.
  assert (ES : complex_sin FF FE z = Ok S).
  { unfold complex_sin. change (fn_sin FE (re z)) with (fn_sin libm (re z)). change (fn_cosh FE (im z)) with (fn_cosh libm (im z)). change (fn_cos FE (re z)) with (fn_cos libm (re z)). change (fn_sinh FE (im z)) with (fn_sinh libm (im z)).
    rewrite Es, Ech, Ec, Esh. reflexivity. }
  assert (EK : complex_cos FF FE z = Ok Kc).
  { unfold complex_cos. change (fn_sin FE (re z)) with (fn_sin libm (re z)). change (fn_cosh FE (im z)) with (fn_cosh libm (im z)). change (fn_cos FE (re z)) with (fn_cos libm (re z)). change (fn_sinh FE (im z)) with (fn_sinh libm (im z)).
    rewrite Es, Ech, Ec, Esh. reflexivity. }
  assert (DS : cnorm (csub (cval S) (sin a * C, cos a * sinh b)) <= 303 / 100 * d * C) by (apply PN; assumption).
  assert (DK : cnorm (csub (cval Kc) (cos a * C, - (sin a * sinh b))) <= 303 / 100 * d * C).
  { apply PN; try assumption. change (im Kc) with (Bopp (mul s sh)). rewrite B2R_Bopp, Rabs_Ropp. replace (- B2R (mul s sh) - - (sin a * sinh b)) with (- (B2R (mul s sh) - sin a * sinh b)) by ring. rewrite Rabs_Ropp. exact D4. }
  assert (FS : cfinite S) by (split; assumption). assert (FK : cfinite Kc) by (split; [exact G3|cbn [im Kc]; rewrite is_finite_Bopp; exact G4]).
  repeat (split; [assumption|]). assumption.
Qed.

Lemma hyp_near (z : complex fl) : cfinite z -> Rabs (B2R (re z)) <= 2 * IZR k + 1 ->
  let C := cosh (B2R (re z)) in
  exists s c, complex_sinh FF FE z = Ok s /\ complex_cosh FF FE z = Ok c /\ cfinite s /\ cfinite c
    /\ cnorm (csub (cval s) (csinh (cval z))) <= 303 / 100 * d * C /\ cnorm (csub (cval c) (ccosh (cval z))) <= 303 / 100 * d * C
    /\ cnorm (csinh (cval z)) <= C /\ cnorm (ccosh (cval z)) <= C.
Proof.
  intros [Fa Fb] Ha. destruct dr as (U & D & K). destruct (cosh_wide _ Ha) as (C1 & M1 & Q).
  destruct (proj1 HL (im z) Fb) as (_ & Ls & Lc & _). destruct (proj1 HL (re z) Fa) as (_ & _ & _ & LH). destruct (LH Q) as [Lsh Lch].
  unfold csinh, ccosh. change (fst (cval z)) with (B2R (re z)). change (snd (cval z)) with (B2R (im z)).
  set (a := B2R (re z)) in *. set (b := B2R (im z)) in *. set (C := cosh a) in *. cbv zeta.
  pose proof (sin_le_1 b) as S1. pose proof (cos_le_1 b) as K1. pose proof (sinh_le_cosh a) as H1. fold C in H1.
  assert (CA : Rabs C <= C) by (rewrite Rabs_pos_eq; lra). assert (S1C : Rabs (sin b) <= C) by lra. assert (K1C : Rabs (cos b) <= C) by lra.
  assert (bnd : forall x y, Rabs x <= C -> Rabs y <= 1 -> Rabs (x * y) <= C). { intros x y Hx Hy. rewrite Rabs_mult. replace C with (C * 1) by ring. apply Rmult_le_compat; try apply Rabs_pos; assumption. }
  pose proof (libm_product prec emax Hprec k Hk0 Hk d Hd Hdk) as LP. pose proof (products_near prec emax Hprec k Hk0 Hk d Hd Hdk) as PN.
  destruct (LP _ _ _ _ C Lsh Lc C1 M1 H1 K1C (bnd _ _ H1 K1)) as (sh & c & Esh & Ec & G1 & D1).
  destruct (LP _ _ _ _ C Lch Ls C1 M1 CA S1C (bnd _ _ CA S1)) as (ch & s & Ech & Es & G2 & D2).
  destruct (LP _ _ _ _ C Lch Lc C1 M1 CA K1C (bnd _ _ CA K1)) as (ch' & c' & Ech' & Ec' & G3 & D3).
  destruct (LP _ _ _ _ C Lsh Ls C1 M1 H1 S1C (bnd _ _ H1 S1)) as (sh' & s' & Esh' & Es' & G4 & D4).
  rewrite Ec in Ec'. injection Ec' as <-. rewrite Ech in Ech'. injection Ech' as <-. rewrite Es in Es'. injection Es' as <-. rewrite Esh in Esh'. injection Esh' as <-.
  pose proof (sin2_cos2 b) as SC. unfold Rsqr in SC. destruct (trig_norm a (cos b) (sin b) ltac:(lra)) as (_ & _ & N1 & N2). fold C in N1, N2.
  set (S := Cx (mul sh c) (mul ch s) : complex fl). set (Kc := Cx (mul ch c) (mul sh s) : complex fl). exists S, Kc.
  assert (ES : complex_sinh FF FE z = Ok S).
  { unfold complex_sinh. change (fn_sin FE (im z)) with (fn_sin libm (im z)). change (fn_cosh FE (re z)) with (fn_cosh libm (re z)). change (fn_cos FE (im z)) with (fn_cos libm (im z)). change (fn_sinh FE (re z)) with (fn_sinh libm (re z)).
    rewrite Es, Ech, Ec, Esh. reflexivity. }
  assert (EK : complex_cosh FF FE z = Ok Kc).
  { unfold complex_cosh. change (fn_sin FE (im z)) with (fn_sin libm (im z)). change (fn_cosh FE (re z)) with (fn_cosh libm (re z)). change (fn_cos FE (im z)) with (fn_cos libm (im z)). change (fn_sinh FE (re z)) with (fn_sinh libm (re z)).
    rewrite Es, Ech, Ec, Esh. reflexivity. }
  assert (DS : cnorm (csub (cval S) (sinh a * cos b, C * sin b)) <= 303 / 100 * d * C) by (apply PN; assumption).
  assert (DK : cnorm (csub (cval Kc) (C * cos b, sinh a * sin b)) <= 303 / 100 * d * C) by (apply PN; assumption).
  assert (FS : cfinite S) by (split; assumption). assert (FK : cfinite Kc) by (split; assumption).
  repeat (split; [assumption|]). assumption.
Qed.

(** ** Products of two such results *)
Lemma mul_near (z w : complex fl) (e f : cplx) C1 C2 : cfinite z -> cfinite w -> 1 <= C1 -> 1 <= C2 -> mid (11 / 10 * (C1 * C2)) ->
  cnorm e <= C1 -> cnorm f <= C2 -> cnorm (csub (cval z) e) <= 303 / 100 * d * C1 -> cnorm (csub (cval w) f) <= 303 / 100 * d * C2 ->
  exists p, complex_mul FR z w = Ok p /\ cfinite p /\ cnorm (csub (cval p) (cmul e f)) <= 42 / 5 * d * (C1 * C2) /\ cnorm (cval p) <= 102 / 100 * (C1 * C2).
Proof.
  intros Fz Fw H1 H2 M Ne Nf De Df. destruct dr as (U & D & K). assert (CC : 1 * 1 <= C1 * C2) by (apply Rmult_le_compat; lra).
  assert (dC1 : d * C1 <= / 1600 * C1) by (apply Rmult_le_compat_r; lra). assert (dC2 : d * C2 <= / 1600 * C2) by (apply Rmult_le_compat_r; lra).
  pose proof (cnorm_nonneg (cval z)) as z0. pose proof (cnorm_nonneg (cval w)) as w0. pose proof (cnorm_nonneg e) as e0. pose proof (cnorm_nonneg f) as f0.
  pose proof (cnorm_le_diff (cval z) e) as Nz. pose proof (cnorm_le_diff (cval w) f) as Nw.
  assert (Nz' : cnorm (cval z) <= 1002 / 1000 * C1) by lra. assert (Nw' : cnorm (cval w) <= 1002 / 1000 * C2) by lra.
  set (P := C1 * C2) in *.
  assert (ZZ : cnorm (cval z) * cnorm (cval w) <= 1005 / 1000 * P).
  { apply Rle_trans with (1002 / 1000 * C1 * (1002 / 1000 * C2)); [apply Rmult_le_compat; lra|]. replace (1002 / 1000 * C1 * (1002 / 1000 * C2)) with (1002 / 1000 * (1002 / 1000) * P) by (unfold P; ring). lra. }
  assert (dCC : d * P <= / 1600 * P) by (apply Rmult_le_compat_r; lra). assert (uCC : u * P <= d * P) by (apply Rmult_le_compat_r; lra). assert (dCC0 : 0 < d * P) by (apply Rmult_lt_0_compat; lra).
  assert (Mz : mid (1005 / 1000 * P)).
  { destruct M as [M1 M2]. split; [|lra]. apply Rle_trans with 1; [|lra]. assert (bpow radix2 (- (4 * k)) <= bpow radix2 0) by (apply bpow_le; lia). change (bpow radix2 0) with 1 in *. lra. }
  destruct (mul_bounded prec emax Hprec k Hk z w (1005 / 1000 * P) Fz Fw Mz ZZ) as (p & Ep & Fp & Hpp).
  assert (D1 : cnorm (csub (cmul (cval z) (cval w)) (cmul e f)) <= 607 / 100 * (d * P)).
  { eapply Rle_trans; [apply (csub_triangle _ (cmul e (cval w)))|].
    replace (csub (cmul (cval z) (cval w)) (cmul e (cval w))) with (cmul (csub (cval z) e) (cval w)) by (unfold csub, cmul; cbn [fst snd]; f_equal; ring).
    replace (csub (cmul e (cval w)) (cmul e f)) with (cmul e (csub (cval w) f)) by (unfold csub, cmul; cbn [fst snd]; f_equal; ring).
    rewrite !cnorm_mul. pose proof (cnorm_nonneg (csub (cval z) e)). pose proof (cnorm_nonneg (csub (cval w) f)).
    assert (cnorm (csub (cval z) e) * cnorm (cval w) <= 303 / 100 * d * C1 * (1002 / 1000 * C2)) by (apply Rmult_le_compat; lra).
    assert (cnorm e * cnorm (csub (cval w) f) <= C1 * (303 / 100 * d * C2)) by (apply Rmult_le_compat; lra).
    replace (303 / 100 * d * C1 * (1002 / 1000 * C2)) with (303 / 100 * (1002 / 1000) * (d * P)) in * by (unfold P; ring).
    replace (C1 * (303 / 100 * d * C2)) with (303 / 100 * (d * P)) in * by (unfold P; ring). lra. }
  exists p. split; [exact Ep|]. split; [exact Fp|].
  assert (H : cnorm (csub (cval p) (cmul e f)) <= 42 / 5 * d * P) by (eapply Rle_trans; [apply (csub_triangle _ (cmul (cval z) (cval w)))|]; lra).
  split; [exact H|]. eapply Rle_trans; [apply (cnorm_le_diff _ (cmul e f))|]. rewrite cnorm_mul. assert (cnorm e * cnorm f <= P) by (apply Rmult_le_compat; lra). lra.
Qed.

(** z1 w1 + z2 w2 and z1 w1 - z2 w2. *)
Lemma two_near (z1 w1 z2 w2 : complex fl) (e1 f1 e2 f2 : cplx) C1 C2 : cfinite z1 -> cfinite w1 -> cfinite z2 -> cfinite w2 -> 1 <= C1 -> 1 <= C2 -> mid (11 / 10 * (C1 * C2)) ->
  cnorm e1 <= C1 -> cnorm f1 <= C2 -> cnorm e2 <= C1 -> cnorm f2 <= C2 ->
  cnorm (csub (cval z1) e1) <= 303 / 100 * d * C1 -> cnorm (csub (cval w1) f1) <= 303 / 100 * d * C2 ->
  cnorm (csub (cval z2) e2) <= 303 / 100 * d * C1 -> cnorm (csub (cval w2) f2) <= 303 / 100 * d * C2 ->
  exists p q, complex_mul FR z1 w1 = Ok p /\ complex_mul FR z2 w2 = Ok q
  /\ (exists r, complex_add (r_add FR) p q = Ok r /\ cfinite r /\ cnorm (csub (cval r) (cadd (cmul e1 f1) (cmul e2 f2))) <= 19 * d * (C1 * C2))
  /\ (exists r, complex_sub (r_sub FR) p q = Ok r /\ cfinite r /\ cnorm (csub (cval r) (csub (cmul e1 f1) (cmul e2 f2))) <= 19 * d * (C1 * C2)).
Proof.
  intros. destruct (mul_near z1 w1 e1 f1 C1 C2) as (p & Ep & Fp & Dp & Np); try assumption. destruct (mul_near z2 w2 e2 f2 C1 C2) as (q & Eq & Fq & Dq & Nq); try assumption.
  exists p, q. split; [exact Ep|]. split; [exact Eq|]. assert (CC : 1 * 1 <= C1 * C2) by (apply Rmult_le_compat; lra).
  set (C := sqrt (C1 * C2)). assert (CS : C * C = C1 * C2) by (apply sqrt_sqrt; lra). assert (C1' : 1 <= C) by (rewrite <- sqrt_1; apply sqrt_le_1_alt; lra).
  rewrite <- CS in *. apply (squares_near prec emax Hprec k Hk0 Hk d Hd Hdk p q _ _ C); assumption.
Qed.

(** The sum of the arguments. *)
Lemma sum_near (z w : complex fl) : cfinite z -> cfinite w -> let S := Rabs (B2R (re z) + B2R (re w)) + Rabs (B2R (im z) + B2R (im w)) in d * S <= / 100 ->
  exists s, complex_add (r_add FR) z w = Ok s /\ cfinite s
  /\ Rabs (fst (cval s) - fst (cadd (cval z) (cval w))) + Rabs (snd (cval s) - snd (cadd (cval z) (cval w))) <= d * S + / 1000 * d.
Proof.
  intros Fz Fw S HS. destruct dr as (U & D & K). pose proof (eta_tiny_u prec emax Hprec k Hk0 Hk) as T. pose proof (eta_pos prec emax) as T0.
  set (a := B2R (re z) + B2R (re w)) in *. set (b := B2R (im z) + B2R (im w)) in *.
  pose proof (Rabs_pos a) as A0. pose proof (Rabs_pos b) as B0. assert (S0 : 0 <= S) by (unfold S; lra).
  assert (uS : u * S <= d * S) by (apply Rmult_le_compat_r; lra).
  assert (Sb : S <= hi). { assert (B : S <= bpow radix2 prec).
    { apply Rmult_le_reg_l with u; [lra|]. unfold unit_roundoff at 2. rewrite <- bpow_plus. replace (- prec + prec)%Z with 0%Z by lia. simpl. lra. }
    unfold half_big. eapply Rle_trans; [exact B|]. apply bpow_le. unfold Prec_lt_emax in He. lia. }
  destruct (add_round prec emax (re z) (re w) (proj1 Fz) (proj1 Fw)) as [F1 V1]; [fold a; unfold S in Sb; lra|].
  destruct (add_round prec emax (im z) (im w) (proj2 Fz) (proj2 Fw)) as [F2 V2]; [fold b; unfold S in Sb; lra|]. fold a in V1. fold b in V2.
  pose proof (rnd_err prec emax a) as R1. pose proof (rnd_err prec emax b) as R2. rewrite <- V1 in R1. rewrite <- V2 in R2.
  exists (Cx (add (re z) (re w)) (add (im z) (im w))). split; [reflexivity|]. split; [split; assumption|].
  cbn [cval cadd fst snd re im]. fold a b. assert (u * Rabs a + u * Rabs b <= d * S) by (rewrite <- Rmult_plus_distr_l; fold S; exact uS). lra.
Qed.

Lemma cosh_pair x y : Rabs x <= IZR k -> Rabs y <= IZR k -> 1 <= cosh x /\ 1 <= cosh y /\ mid (11 / 10 * (cosh x * cosh y)).
Proof.
  intros Hx Hy. destruct dr as (U & D & K). pose proof (cosh_ge_1 x) as X1. pose proof (cosh_ge_1 y) as Y1. split; [exact X1|]. split; [exact Y1|].
  pose proof (cosh_le_exp x) as XE. pose proof (cosh_le_exp y) as YE. pose proof (exp_le _ _ Hx) as E1. pose proof (exp_le _ _ Hy) as E2. pose proof exp_1_ge as E3.
  set (X := exp (IZR k)) in *. assert (EX : exp (2 * IZR k + 1) = X * X * exp 1). { unfold X. rewrite <- !exp_plus. f_equal. ring. }
  assert (CC : cosh x * cosh y <= X * X) by (apply Rmult_le_compat; lra). assert (C2 : 1 * 1 <= cosh x * cosh y) by (apply Rmult_le_compat; lra).
  assert (XE' : X * X * 2 <= X * X * exp 1) by (apply Rmult_le_compat_l; lra).
  apply (mid_between prec Hprec k Hk0 d Hd Hdk). rewrite exp_Ropp, EX. assert (/ (X * X * exp 1) <= / 1) by (apply Rinv_le; lra). lra.
Qed.

Notation size z w := (Rabs (B2R (re z) + B2R (re w)) + Rabs (B2R (im z) + B2R (im w))).

(** From the exact value at the exact sum to the computed value at the computed sum. *)
Lemma close_up (v r e e' : cplx) x S C : 1 <= C -> 0 <= S -> x <= 2 * C ->
  cnorm (csub v e') <= 303 / 100 * d * (103 / 100 * x) -> cnorm (csub e' e) <= 103 / 100 * (d * S + / 1000 * d) * x -> cnorm (csub r e) <= 19 * d * C ->
  cnorm (csub v r) <= (21 / 10 * S + 26) * d * C.
Proof.
  intros H1 H2 H3 A B E. destruct dr as (U & D & K).
  assert (dS : 0 <= d * S) by (apply Rmult_le_pos; lra). assert (dC : 0 < d * C) by (apply Rmult_lt_0_compat; lra). assert (dSC : 0 <= d * S * C) by (apply Rmult_le_pos; lra).
  assert (A1 : 303 / 100 * d * (103 / 100 * x) <= 303 / 100 * d * (103 / 100 * (2 * C))) by (apply Rmult_le_compat_l; lra).
  assert (B1 : 103 / 100 * (d * S + / 1000 * d) * x <= 103 / 100 * (d * S + / 1000 * d) * (2 * C)) by (apply Rmult_le_compat_l; lra).
  eapply Rle_trans; [apply (csub_triangle _ e')|]. eapply Rle_trans; [apply Rplus_le_compat_l, (csub_triangle _ e)|]. rewrite (csub_norm_sym e r). lra.
Qed.

(** ** The addition theorems *)
Theorem C106_sin_cos_of_sum : forall z w : complex fl, cfinite z -> cfinite w -> Rabs (B2R (im z)) <= IZR k -> Rabs (B2R (im w)) <= IZR k -> d * size z w <= / 100 ->
  let C := cosh (B2R (im z)) * cosh (B2R (im w)) in
  exists s ss cs sz cz sw cw, complex_add (r_add FR) z w = Ok s /\ complex_sin FF FE s = Ok ss /\ complex_cos FF FE s = Ok cs
    /\ complex_sin FF FE z = Ok sz /\ complex_cos FF FE z = Ok cz /\ complex_sin FF FE w = Ok sw /\ complex_cos FF FE w = Ok cw /\ cfinite ss /\ cfinite cs
    /\ (exists p q r, complex_mul FR sz cw = Ok p /\ complex_mul FR cz sw = Ok q /\ complex_add (r_add FR) p q = Ok r /\ cfinite r
          /\ cnorm (csub (cval ss) (cval r)) <= (21 / 10 * size z w + 26) * d * C)
    /\ (exists p q r, complex_mul FR cz cw = Ok p /\ complex_mul FR sz sw = Ok q /\ complex_sub (r_sub FR) p q = Ok r /\ cfinite r
          /\ cnorm (csub (cval cs) (cval r)) <= (21 / 10 * size z w + 26) * d * C).
Proof.
  intros z w Fz Fw Hz Hw HS C. destruct dr as (U & D & K). destruct (sum_near z w Fz Fw HS) as (s & Es & Fs & Ds). cbv zeta in Ds.
  set (S := size z w) in *. assert (S0 : 0 <= S) by (unfold S; pose proof (Rabs_pos (B2R (re z) + B2R (re w))); pose proof (Rabs_pos (B2R (im z) + B2R (im w))); lra).
  assert (dS : 0 <= d * S) by (apply Rmult_le_pos; lra).
  set (y := B2R (im z) + B2R (im w)) in *. assert (Hy : Rabs y <= 2 * IZR k) by (unfold y; eapply Rle_trans; [apply Rabs_triang|]; lra).
  change (snd (cadd (cval z) (cval w))) with y in Ds. pose proof (Rabs_pos (fst (cval s) - fst (cadd (cval z) (cval w)))) as P1. pose proof (Rabs_pos (snd (cval s) - y)) as P2.
  assert (M : Rabs (snd (cval s) - y) <= 1 / 50) by lra.
  assert (Hs : Rabs (B2R (im s)) <= 2 * IZR k + 1).
  { change (B2R (im s)) with (snd (cval s)). replace (snd (cval s)) with ((snd (cval s) - y) + y) by ring. eapply Rle_trans; [apply Rabs_triang|]. lra. }
  destruct (cosh_pair _ _ Hz Hw) as (C1 & C2 & MM). assert (CC : 1 * 1 <= C) by (apply Rmult_le_compat; lra).
  destruct (trig_near s Fs Hs) as (ss & cs & Ess & Ecs & Fss & Fcs & Dss & Dcs & _ & _).
  destruct (trig_near z Fz ltac:(lra)) as (sz & cz & Esz & Ecz & Fsz & Fcz & Dsz & Dcz & Nsz & Ncz).
  destruct (trig_near w Fw ltac:(lra)) as (sw & cw & Esw & Ecw & Fsw & Fcw & Dsw & Dcw & Nsw & Ncw).
  exists s, ss, cs, sz, cz, sw, cw. do 9 (split; [assumption|]).
  pose proof (cosh_moved _ _ M) as CM. change (snd (cval s)) with (B2R (im s)) in CM. pose proof (cosh_sum_le (B2R (im z)) (B2R (im w))) as CL. fold y in CL. fold C in CL.
  destruct (trig_moved (cadd (cval z) (cval w)) (cval s) M) as [V1 V2]. change (snd (cadd (cval z) (cval w))) with y in V1, V2.
  pose proof (cosh_ge_1 y) as Y1.
  assert (VB : 103 / 100 * (Rabs (fst (cval s) - fst (cadd (cval z) (cval w))) + Rabs (snd (cval s) - y)) * cosh y <= 103 / 100 * (d * S + / 1000 * d) * cosh y) by (apply Rmult_le_compat_r; lra).
  assert (DB : 303 / 100 * d * cosh (B2R (im s)) <= 303 / 100 * d * (103 / 100 * cosh y)) by (apply Rmult_le_compat_l; lra).
  split.
  - destruct (two_near sz cw cz sw _ _ _ _ _ _ Fsz Fcw Fcz Fsw C1 C2 MM Nsz Ncw Ncz Nsw Dsz Dcw Dcz Dsw) as (p & q & Ep & Eq & (r & Er & Fr & Dr) & _).
    exists p, q, r. do 4 (split; [assumption|]). rewrite <- csin_add in Dr. fold C in Dr.
    apply (close_up _ _ (csin (cadd (cval z) (cval w))) (csin (cval s)) (cosh y)); lra || assumption.
  - destruct (two_near cz cw sz sw _ _ _ _ _ _ Fcz Fcw Fsz Fsw C1 C2 MM Ncz Ncw Nsz Nsw Dcz Dcw Dsz Dsw) as (p & q & Ep & Eq & _ & (r & Er & Fr & Dr)).
    exists p, q, r. do 4 (split; [assumption|]). rewrite <- ccos_add in Dr. fold C in Dr.
    apply (close_up _ _ (ccos (cadd (cval z) (cval w))) (ccos (cval s)) (cosh y)); lra || assumption.
Qed.

Theorem C106_sinh_cosh_of_sum : forall z w : complex fl, cfinite z -> cfinite w -> Rabs (B2R (re z)) <= IZR k -> Rabs (B2R (re w)) <= IZR k -> d * size z w <= / 100 ->
  let C := cosh (B2R (re z)) * cosh (B2R (re w)) in
  exists s ss cs sz cz sw cw, complex_add (r_add FR) z w = Ok s /\ complex_sinh FF FE s = Ok ss /\ complex_cosh FF FE s = Ok cs
    /\ complex_sinh FF FE z = Ok sz /\ complex_cosh FF FE z = Ok cz /\ complex_sinh FF FE w = Ok sw /\ complex_cosh FF FE w = Ok cw /\ cfinite ss /\ cfinite cs
    /\ (exists p q r, complex_mul FR sz cw = Ok p /\ complex_mul FR cz sw = Ok q /\ complex_add (r_add FR) p q = Ok r /\ cfinite r
          /\ cnorm (csub (cval ss) (cval r)) <= (21 / 10 * size z w + 26) * d * C)
    /\ (exists p q r, complex_mul FR cz cw = Ok p /\ complex_mul FR sz sw = Ok q /\ complex_add (r_add FR) p q = Ok r /\ cfinite r
          /\ cnorm (csub (cval cs) (cval r)) <= (21 / 10 * size z w + 26) * d * C).
Proof.
  intros z w Fz Fw Hz Hw HS C. destruct dr as (U & D & K). destruct (sum_near z w Fz Fw HS) as (s & Es & Fs & Ds). cbv zeta in Ds.
  set (S := size z w) in *. assert (S0 : 0 <= S) by (unfold S; pose proof (Rabs_pos (B2R (re z) + B2R (re w))); pose proof (Rabs_pos (B2R (im z) + B2R (im w))); lra).
  assert (dS : 0 <= d * S) by (apply Rmult_le_pos; lra).
  set (y := B2R (re z) + B2R (re w)) in *. assert (Hy : Rabs y <= 2 * IZR k) by (unfold y; eapply Rle_trans; [apply Rabs_triang|]; lra).
  change (fst (cadd (cval z) (cval w))) with y in Ds. pose proof (Rabs_pos (snd (cval s) - snd (cadd (cval z) (cval w)))) as P1. pose proof (Rabs_pos (fst (cval s) - y)) as P2.
  assert (M : Rabs (fst (cval s) - y) <= 1 / 50) by lra.
  assert (Hs : Rabs (B2R (re s)) <= 2 * IZR k + 1).
  { change (B2R (re s)) with (fst (cval s)). replace (fst (cval s)) with ((fst (cval s) - y) + y) by ring. eapply Rle_trans; [apply Rabs_triang|]. lra. }
  destruct (cosh_pair _ _ Hz Hw) as (C1 & C2 & MM). assert (CC : 1 * 1 <= C) by (apply Rmult_le_compat; lra).
  destruct (hyp_near s Fs Hs) as (ss & cs & Ess & Ecs & Fss & Fcs & Dss & Dcs & _ & _).
  destruct (hyp_near z Fz ltac:(lra)) as (sz & cz & Esz & Ecz & Fsz & Fcz & Dsz & Dcz & Nsz & Ncz).
  destruct (hyp_near w Fw ltac:(lra)) as (sw & cw & Esw & Ecw & Fsw & Fcw & Dsw & Dcw & Nsw & Ncw).
  exists s, ss, cs, sz, cz, sw, cw. do 9 (split; [assumption|]).
  pose proof (cosh_moved _ _ M) as CM. change (fst (cval s)) with (B2R (re s)) in CM. pose proof (cosh_sum_le (B2R (re z)) (B2R (re w))) as CL. fold y in CL. fold C in CL.
  destruct (hyp_moved (cadd (cval z) (cval w)) (cval s) M) as [V1 V2]. change (fst (cadd (cval z) (cval w))) with y in V1, V2.
  pose proof (cosh_ge_1 y) as Y1.
  assert (VB : 103 / 100 * (Rabs (fst (cval s) - y) + Rabs (snd (cval s) - snd (cadd (cval z) (cval w)))) * cosh y <= 103 / 100 * (d * S + / 1000 * d) * cosh y) by (apply Rmult_le_compat_r; lra).
  assert (DB : 303 / 100 * d * cosh (B2R (re s)) <= 303 / 100 * d * (103 / 100 * cosh y)) by (apply Rmult_le_compat_l; lra).
  split.
  - destruct (two_near sz cw cz sw _ _ _ _ _ _ Fsz Fcw Fcz Fsw C1 C2 MM Nsz Ncw Ncz Nsw Dsz Dcw Dcz Dsw) as (p & q & Ep & Eq & (r & Er & Fr & Dr) & _).
    exists p, q, r. do 4 (split; [assumption|]). rewrite <- csinh_add in Dr. fold C in Dr.
    apply (close_up _ _ (csinh (cadd (cval z) (cval w))) (csinh (cval s)) (cosh y)); lra || assumption.
  - destruct (two_near cz cw sz sw _ _ _ _ _ _ Fcz Fcw Fsz Fsw C1 C2 MM Ncz Ncw Nsz Nsw Dcz Dcw Dsz Dsw) as (p & q & Ep & Eq & (r & Er & Fr & Dr) & _).
    exists p, q, r. do 4 (split; [assumption|]). rewrite <- ccosh_add in Dr. fold C in Dr.
    apply (close_up _ _ (ccosh (cadd (cval z) (cval w))) (ccosh (cval s)) (cosh y)); lra || assumption.
Qed.
End Fmt.

(** ** f32: arguments up to 25 in the direction in which the functions grow. *)
Notation size z w := (Rabs (B2R (re z) + B2R (re w)) + Rabs (B2R (im z) + B2R (im w))).
Corollary C106_f32 : forall (libm : FunOps f32) (d : R), unit_roundoff 24 <= d <= / 20000 -> libm_error 24 128 libm d ->
  let FE := float_fun 24 128 libm in let FR := float_ring 24 128 in
  forall z w : complex f32, cfinite z -> cfinite w -> Rabs (B2R (im z)) <= 25 -> Rabs (B2R (im w)) <= 25 -> d * size z w <= / 100 ->
  exists s ss sz cz sw cw p q r, complex_add (r_add FR) z w = Ok s /\ complex_sin f32_f FE s = Ok ss
    /\ complex_sin f32_f FE z = Ok sz /\ complex_cos f32_f FE z = Ok cz /\ complex_sin f32_f FE w = Ok sw /\ complex_cos f32_f FE w = Ok cw
    /\ complex_mul FR sz cw = Ok p /\ complex_mul FR cz sw = Ok q /\ complex_add (r_add FR) p q = Ok r /\ cfinite ss /\ cfinite r
    /\ cnorm (csub (cval ss) (cval r)) <= (21 / 10 * size z w + 26) * d * (cosh (B2R (im z)) * cosh (B2R (im w))).
Proof.
  intros libm d Hd HL FE FR z w Fz Fw Hz Hw HS. assert (H3 : d * (IZR 25 + 3) <= / 400) by lra.
  destruct (C106_sin_cos_of_sum 24 128 libm ltac:(lia) 25 ltac:(lia) ltac:(lia) d (proj1 Hd) H3 HL z w Fz Fw Hz Hw HS)
    as (s & ss & cs & sz & cz & sw & cw & E1 & E2 & _ & E4 & E5 & E6 & E7 & F1 & _ & (p & q & r & G1 & G2 & G3 & F3 & B) & _).
  exists s, ss, sz, cz, sw, cw, p, q, r. repeat (split; [assumption|]). exact B.
Qed.

(** f64, a correctly rounded libm and z = 1 + 4i, w = 1 + i: every hypothesis is met. *)
Definition z11 : complex f64 := Cx (fint 1) (fint 1).
Example C106_case : let FE := float_fun 53 1024 round64 in let FR := float_ring 53 1024 in let d := 11 / 10 * unit_roundoff 53 in
  (exists s cs sz cz sw cw p q r, complex_add (r_add FR) z14 z11 = Ok s /\ complex_cos f64_f FE s = Ok cs
    /\ complex_sin f64_f FE z14 = Ok sz /\ complex_cos f64_f FE z14 = Ok cz /\ complex_sin f64_f FE z11 = Ok sw /\ complex_cos f64_f FE z11 = Ok cw
    /\ complex_mul FR cz cw = Ok p /\ complex_mul FR sz sw = Ok q /\ complex_sub (r_sub FR) p q = Ok r
    /\ cnorm (csub (cval cs) (cval r)) <= (21 / 10 * 7 + 26) * d * (cosh 4 * cosh 1))
  /\ (exists s ss sz cz sw cw p q r, complex_add (r_add FR) z14 z11 = Ok s /\ complex_sinh f64_f FE s = Ok ss
    /\ complex_sinh f64_f FE z14 = Ok sz /\ complex_cosh f64_f FE z14 = Ok cz /\ complex_sinh f64_f FE z11 = Ok sw /\ complex_cosh f64_f FE z11 = Ok cw
    /\ complex_mul FR sz cw = Ok p /\ complex_mul FR cz sw = Ok q /\ complex_add (r_add FR) p q = Ok r
    /\ cnorm (csub (cval ss) (cval r)) <= (21 / 10 * 7 + 26) * d * (cosh 1 * cosh 1)).
Proof.
  intros FE FR d. destruct C96_case as (_ & HL & _). assert (U : unit_roundoff 53 <= / 9007199254740992 /\ 0 < unit_roundoff 53) by (unfold unit_roundoff; simpl; lra).
  assert (V1 : B2R (fint 1) = 1) by (vm_compute; lra). assert (V4 : B2R (fint 4) = 4) by (vm_compute; lra).
  assert (H1 : unit_roundoff 53 <= d) by (unfold d; lra). assert (H3 : d * (IZR 249 + 3) <= / 400) by (unfold d; lra).
  assert (F14 : cfinite z14) by (split; reflexivity). assert (F11 : cfinite z11) by (split; reflexivity).
  assert (R14 : B2R (re z14) = 1) by exact V1. assert (I14 : B2R (im z14) = 4) by exact V4. assert (R11 : B2R (re z11) = 1) by exact V1. assert (I11 : B2R (im z11) = 1) by exact V1.
  assert (SZ : size z14 z11 = 7) by (rewrite R14, I14, R11, I11, !Rabs_pos_eq; lra).
  assert (HS : d * size z14 z11 <= / 100) by (rewrite SZ; unfold d; lra).
  split.
  - destruct (C106_sin_cos_of_sum 53 1024 round64 ltac:(lia) 249 ltac:(lia) ltac:(lia) d H1 H3 HL z14 z11 F14 F11) as (s & ss & cs & sz & cz & sw & cw & E1 & _ & E3 & E4 & E5 & E6 & E7 & _ & _ & _ & (p & q & r & G1 & G2 & G3 & _ & B)).
    + rewrite I14, Rabs_pos_eq; lra.
    + rewrite I11, Rabs_pos_eq; lra.
    + exact HS.
    + exists s, cs, sz, cz, sw, cw, p, q, r. rewrite SZ, I14, I11 in B. repeat (split; [assumption|]). exact B.
  - destruct (C106_sinh_cosh_of_sum 53 1024 round64 ltac:(lia) 249 ltac:(lia) ltac:(lia) d H1 H3 HL z14 z11 F14 F11) as (s & ss & cs & sz & cz & sw & cw & E1 & E2 & _ & E4 & E5 & E6 & E7 & _ & _ & (p & q & r & G1 & G2 & G3 & _ & B) & _).
    + rewrite R14, Rabs_pos_eq; lra.
    + rewrite R11, Rabs_pos_eq; lra.
    + exact HS.
    + exists s, ss, sz, cz, sw, cw, p, q, r. rewrite SZ, R14, R11 in B. repeat (split; [assumption|]). exact B.
Qed.

Print Assumptions C106_sin_cos_of_sum.
Print Assumptions C106_sinh_cosh_of_sum.
Print Assumptions C106_f32.
