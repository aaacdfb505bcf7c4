(** Properties C12-C18: elementary functions of Complex<T> in exact real arithmetic.

    [Abs], [Exp], ... below are the modelled trait methods of Complex<f64> with rounding
    idealised away (Model/RealInstance.v); a result [Ok _] also says that no division by zero,
    square root of a negative number or logarithm of a non-positive number happened on the way.
    [z + w], [z * w], ... in scope %C is textbook complex arithmetic (Spec/Complex.v). *)
From Coq Require Import Reals Lra Psatz.
From Verif Require Import Base.Outcome Model.Traits Model.Complex Model.RealInstance
  Spec.Ring Spec.Complex Proofs.ComplexProofs Proofs.RealRing Proofs.ComplexReal.
Open Scope R_scope.

Notation Abs := (complex_abs real_field real_fun).
Notation AbsRef := (complex_abs_ref real_field real_fun).
Notation Arg := (complex_arg real_fun).
Notation Exp := (complex_exp real_field real_fun).
Notation Ln := (complex_ln real_field real_fun).
Notation Sqrt := (complex_sqrt real_field real_fun).
Notation Sin := (complex_sin real_field real_fun).
Notation Cos := (complex_cos real_field real_fun).
Notation Sinh := (complex_sinh real_field real_fun).
Notation Cosh := (complex_cosh real_field real_fun).
Notation Tan := (complex_tan real_field real_fun).
Notation Conj := (complex_conj (r_neg real_ring)).

#[local] Arguments Cx {T} (re im)%R_scope.
Declare Scope C_scope.
Delimit Scope C_scope with C.
Notation RC := (complex_sig real_sig).
Infix "+" := (sadd RC) : C_scope.
Infix "-" := (ssub RC) : C_scope.
Infix "*" := (smul RC) : C_scope.
Notation "- z" := (sneg RC z) : C_scope.
Notation "0" := (Cx 0 0) : C_scope.
Notation "1" := (Cx 1 0) : C_scope.
Notation i := (Cx 0 1).

(** ** C12 *)
Theorem C12_abs_is_a_multiplicative_norm :
  forall z w : complex R, exists az aw,
    Abs z = Ok az /\ AbsRef z = Ok az /\ Abs w = Ok aw
    /\ az = sqrt (re z * re z + im z * im z)
    /\ 0 <= az /\ (az = 0 <-> z = 0%C)
    /\ Abs (z * w)%C = Ok (az * aw)
    /\ (exists s, Abs (z + w)%C = Ok s /\ s <= az + aw)
    /\ (exists cz, Conj z = Ok cz /\ Abs cz = Ok az).
Proof.
  intros z w. exists (sqrt (norm2 z)), (sqrt (norm2 w)).
  split; [apply abs_ok|]. split; [apply abs_ref_ok|]. split; [apply abs_ok|].
  split; [reflexivity|]. split; [apply sqrt_pos|]. split; [apply sqrt_norm2_zero|].
  split; [|split].
  - rewrite abs_ok. f_equal. apply abs_mul.
  - eexists. split; [apply abs_ok|]. apply abs_triangle.
  - eexists. split; [reflexivity|]. rewrite abs_ok. do 2 f_equal. unfold norm2. simpl. ring.
Qed.

Example C12_case : Abs (Cx 3 4) = Ok 5.
Proof.
  rewrite abs_ok. f_equal. unfold norm2. simpl.
  replace (3 * 3 + 4 * 4) with (5 * 5) by ring. apply sqrt_square. lra.
Qed.

(** ** C13 *)
Theorem C13_exponential_laws :
  forall z w : complex R, exists ez ew,
    Exp z = Ok ez /\ Exp w = Ok ew
    /\ Exp (z + w)%C = Ok (ez * ew)%C
    /\ Exp 0%C = Ok 1%C
    /\ ez <> 0%C
    /\ Abs ez = Ok (exp (re z))
    /\ (exists cz cez, Conj z = Ok cz /\ Conj ez = Ok cez /\ Exp cz = Ok cez)
    /\ Exp (z + Cx 0 (2 * PI))%C = Ok ez
    /\ (im z = 0 -> ez = Cx (exp (re z)) 0).
Proof.
  intros z w. exists (cexp z), (cexp w).
  split; [reflexivity|]. split; [reflexivity|].
  split; [rewrite exp_ok; f_equal; apply cexp_add|].
  split; [rewrite exp_ok; f_equal; apply complex_ext; simpl; rewrite exp_0, ?cos_0, ?sin_0; ring|].
  split; [apply cexp_nonzero|].
  split; [rewrite abs_ok; f_equal; apply sqrt_norm2_cexp|].
  split; [|split].
  - eexists. eexists. split; [reflexivity|]. split; [reflexivity|].
    rewrite exp_ok. f_equal. apply complex_ext; simpl; [rewrite cos_neg|rewrite sin_neg]; ring.
  - rewrite exp_ok. f_equal. apply complex_ext; simpl; rewrite Rplus_0_r.
    + rewrite cos_plus, cos_2PI, sin_2PI. ring.
    + rewrite sin_plus, cos_2PI, sin_2PI. ring.
  - intros H. apply complex_ext; simpl; rewrite H, ?cos_0, ?sin_0; ring.
Qed.

Example C13_case : Exp (Cx 0 PI) = Ok (Cx (-1) 0).
Proof. rewrite exp_ok. f_equal. apply complex_ext; simpl; rewrite exp_0, ?cos_PI, ?sin_PI; ring. Qed.

(** ** C14 *)
Theorem C14_logarithm_is_principal :
  forall z : complex R, z <> 0%C ->
  exists l, Ln z = Ok l /\ Exp l = Ok z /\ - PI < im l <= PI
    /\ forall l', Exp l' = Ok z -> - PI < im l' <= PI -> l' = l.
Proof.
  intros z Hz. exists (cln z). split; [apply ln_ok; exact Hz|].
  split; [rewrite exp_ok; f_equal; apply exp_cln; exact Hz|].
  split; [apply atan2_range|].
  intros l' He Hl. rewrite exp_ok in He. injection He as He.
  rewrite <- (cln_cexp l' Hl). f_equal. exact He.
Qed.

Theorem C14_ln_of_exp :
  forall z ez : complex R, - PI < im z <= PI -> Exp z = Ok ez -> Ln ez = Ok z.
Proof.
  intros z ez Hz He. rewrite exp_ok in He. injection He as <-.
  change (Cx (exp (re z) * cos (im z)) (exp (re z) * sin (im z))) with (cexp z).
  rewrite ln_ok by apply cexp_nonzero. f_equal. apply cln_cexp. exact Hz.
Qed.

Example C14_case : Ln (Cx (-1) 0) = Ok (Cx 0 PI).
Proof.
  apply (C14_ln_of_exp (Cx 0 PI)).
  - simpl. pose proof PI_RGT_0. lra.
  - exact C13_case.
Qed.

(** ** C15 *)
Theorem C15_square_root_is_principal :
  forall z : complex R, exists s,
    Sqrt z = Ok s /\ (s * s)%C = z
    /\ 0 <= re s /\ (re s = 0 -> 0 <= im s)
    /\ forall s', (s' * s')%C = z -> 0 <= re s' -> (re s' = 0 -> 0 <= im s') -> s' = s.
Proof.
  intros z. destruct (sqrt_spec z) as (s & Hs & Hsq & Hp).
  exists s. split; [exact Hs|]. split; [exact Hsq|].
  split; [destruct Hp as [|(?&?)]; lra|].
  split; [destruct Hp as [|(?&?)]; intros; [lra|assumption]|].
  intros s' Hsq' H1 H2. apply sqrt_unique.
  - change (smul CS s' s' = smul CS s s). etransitivity; [exact Hsq'|symmetry; exact Hsq].
  - unfold principal. destruct (Req_dec (re s') 0) as [E|E]; [right; auto|left; lra].
  - exact Hp.
Qed.

(** The plain and the numerically stable formula compute the same value: replacing the condition that chooses
    between them, [self.re.abs() <= self.im.abs() * 2], by any other (the comparison [0 <= _] being kept) changes no result. *)
Theorem C15_branches_agree :
  forall leb : R -> R -> bool, (forall v, leb 0 v = Rleb 0 v) ->
  forall z : complex R, complex_sqrt real_field (real_fun_leb leb) z = Sqrt z.
Proof.
  intros leb Hleb z. destruct (sqrt_spec_any leb Hleb z) as (s & Hs & Hsq & Hp). destruct (sqrt_spec z) as (t & Ht & Htq & Hq).
  rewrite Hs, Ht. f_equal. apply sqrt_unique; [congruence|exact Hp|exact Hq].
Qed.

(** Always the stable formula, except on the imaginary axis. *)
Example C15_branches_case : let leb := fun x v => if Req_EM_T x 0 then Rleb x v else false in
  (forall v, leb 0 v = Rleb 0 v) /\ leb 1 (2 * 5) = false /\ Rleb 1 (2 * 5) = true.
Proof.
  intros leb. unfold leb, Rleb. split; [|split].
  - intros v. destruct (Req_EM_T 0 0); [reflexivity|lra].
  - destruct (Req_EM_T 1 0); [lra|reflexivity].
  - destruct (Rle_dec 1 (2 * 5)); [reflexivity|lra].
Qed.

Example C15_case : Sqrt (Cx (-4) 0) = Ok (Cx 0 2).
Proof.
  destruct (C15_square_root_is_principal (Cx (-4) 0)) as (s & Hs & _ & _ & _ & Hu).
  rewrite Hs. f_equal. symmetry. apply Hu.
  - apply complex_ext; simpl; ring.
  - simpl. lra.
  - simpl. lra.
Qed.

(** ** C16 *)
Theorem C16_definitions_by_exponentials :
  forall z : complex R, exists s c sh ch e1 e2 e3 e4,
    Sin z = Ok s /\ Cos z = Ok c /\ Sinh z = Ok sh /\ Cosh z = Ok ch
    /\ Exp (i * z)%C = Ok e1 /\ Exp (- (i * z))%C = Ok e2
    /\ Exp z = Ok e3 /\ Exp (- z)%C = Ok e4
    /\ (Cx 0 2 * s)%C = (e1 - e2)%C
    /\ (Cx 2 0 * c)%C = (e1 + e2)%C
    /\ (Cx 2 0 * sh)%C = (e3 - e4)%C
    /\ (Cx 2 0 * ch)%C = (e3 + e4)%C
    /\ e1 = (c + i * s)%C.
Proof.
  intros z.
  exists (csin z), (ccos z), (csinh z), (ccosh z),
    (cexp (smul CS ci z)), (cexp (sneg CS (smul CS ci z))), (cexp z), (cexp (sneg CS z)).
  do 8 (split; [reflexivity|]).
  split; [apply csin_exp|]. split; [apply ccos_exp|]. split; [apply csinh_exp|].
  split; [apply ccosh_exp|]. apply euler.
Qed.

Theorem C16_identities :
  forall z w s c sh ch s' c' sh' ch',
    Sin z = Ok s -> Cos z = Ok c -> Sinh z = Ok sh -> Cosh z = Ok ch ->
    Sin w = Ok s' -> Cos w = Ok c' -> Sinh w = Ok sh' -> Cosh w = Ok ch' ->
    (s * s + c * c)%C = 1%C /\ (ch * ch - sh * sh)%C = 1%C
    /\ Sin (z + w)%C = Ok (s * c' + c * s')%C
    /\ Cos (z + w)%C = Ok (c * c' - s * s')%C
    /\ Sinh (z + w)%C = Ok (sh * ch' + ch * sh')%C
    /\ Cosh (z + w)%C = Ok (ch * ch' + sh * sh')%C.
Proof.
  intros z w s c sh ch s' c' sh' ch' H1 H2 H3 H4 H5 H6 H7 H8.
  injection H1 as <-. injection H2 as <-. injection H3 as <-. injection H4 as <-.
  injection H5 as <-. injection H6 as <-. injection H7 as <-. injection H8 as <-.
  split; [apply csin2_ccos2|]. split; [apply ccosh2_csinh2|].
  rewrite sin_ok, cos_ok, sinh_ok, cosh_ok. 
  split; [f_equal; apply csin_add|]. split; [f_equal; apply ccos_add|].
  split; [f_equal; apply csinh_add|]. f_equal; apply ccosh_add.
Qed.

Example C16_case : Sin (Cx (PI / 2) 0) = Ok (Cx 1 0).
Proof.
  rewrite sin_ok. f_equal. apply complex_ext; simpl;
    rewrite ?sin_PI2, ?cos_PI2, ?sinh_0, ?cosh_0; ring.
Qed.

(** ** C17 *)
Theorem C17_tangent :
  forall z s c, Sin z = Ok s -> Cos z = Ok c -> c <> 0%C ->
  exists t, Tan z = Ok t /\ (t * c)%C = s.
Proof.
  intros z s c Hs Hc Hne. injection Hs as <-. injection Hc as <-.
  apply tan_spec. exact Hne.
Qed.

Theorem C17_tangent_addition :
  forall z w c c' c'' t u v,
    Cos z = Ok c -> Cos w = Ok c' -> Cos (z + w)%C = Ok c'' ->
    c <> 0%C -> c' <> 0%C -> c'' <> 0%C ->
    Tan z = Ok t -> Tan w = Ok u -> Tan (z + w)%C = Ok v ->
    (v * (1 - t * u))%C = (t + u)%C.
Proof.
  intros z w c c' c'' t u v Hc Hc' Hc'' Hn Hn' Hn'' Ht Hu Hv.
  injection Hc as <-. injection Hc' as <-. injection Hc'' as <-.
  destruct (tan_spec z Hn) as (t' & Ht' & Et). rewrite Ht in Ht'. injection Ht' as <-.
  destruct (tan_spec w Hn') as (u' & Hu' & Eu). rewrite Hu in Hu'. injection Hu' as <-.
  destruct (tan_spec (sadd CS z w) Hn'') as (v' & Hv' & Ev).
  change (sadd CS z w) with (z + w)%C in Hv'. rewrite Hv in Hv'. injection Hv' as <-.
  exact (tan_add z w t u v Hn Hn' Hn'' Et Eu Ev).
Qed.

Example C17_case : Tan 0%C = Ok 0%C.
Proof.
  destruct (tan_spec 0%C) as (t & Ht & E).
  - intros H. injection H as H _. rewrite cos_0, cosh_0 in H. lra.
  - rewrite Ht. f_equal. destruct t as [t1 t2]. injection E as E1 E2.
    rewrite cos_0, sin_0, cosh_0, sinh_0 in *. apply complex_ext; simpl; lra.
Qed.

(** ** C18 *)
Theorem C18_polar_form :
  forall z : complex R, exists r phi,
    Abs z = Ok r /\ Arg z = Ok phi /\ - PI < phi <= PI
    /\ z = Cx (r * cos phi) (r * sin phi).
Proof.
  intros z. exists (sqrt (norm2 z)), (atan2 (im z) (re z)).
  split; [apply abs_ok|]. split; [reflexivity|]. split; [apply atan2_range|].
  destruct (polar (im z) (re z)) as (H1 & H2).
  apply complex_ext; simpl; symmetry; assumption.
Qed.

(** ... and arg is determined by the polar form. *)
Theorem C18_arg_unique :
  forall (z : complex R) (r phi : R),
    0 < r -> - PI < phi <= PI -> z = Cx (r * cos phi) (r * sin phi) ->
    Abs z = Ok r /\ Arg z = Ok phi.
Proof.
  intros z r phi Hr Hphi ->.
  assert (En : norm2 (Cx (r * cos phi) (r * sin phi)) = r * r).
  { unfold norm2. simpl. pose proof (sin2cos2 phi).
    replace (_ + _) with (r * r * (sin phi * sin phi + cos phi * cos phi)) by ring.
    rewrite H. ring. }
  assert (Ea : sqrt (r * r) = r) by (apply sqrt_square; lra).
  split.
  - rewrite abs_ok, En, Ea. reflexivity.
  - unfold complex_arg. cbn [fn_atan2 real_fun im re]. f_equal.
    destruct (polar (r * sin phi) (r * cos phi)) as (H1 & H2). cbv zeta in *.
    unfold norm2 in En. simpl in En. rewrite En, Ea in H1, H2.
    apply angle_unique; [apply atan2_range|exact Hphi| |]; nra.
Qed.

Example C18_case : Arg (Cx (-1) 0) = Ok PI.
Proof.
  apply (C18_arg_unique (Cx (-1) 0) 1 PI).
  - lra.
  - pose proof PI_RGT_0. lra.
  - rewrite cos_PI, sin_PI. apply complex_ext; simpl; ring.
Qed.

Print Assumptions C12_abs_is_a_multiplicative_norm.
Print Assumptions C13_exponential_laws.
Print Assumptions C14_logarithm_is_principal.
Print Assumptions C14_ln_of_exp.
Print Assumptions C15_square_root_is_principal.
Print Assumptions C15_branches_agree.
Print Assumptions C16_definitions_by_exponentials.
Print Assumptions C16_identities.
Print Assumptions C17_tangent.
Print Assumptions C17_tangent_addition.
Print Assumptions C18_polar_form.
Print Assumptions C18_arg_unique.
