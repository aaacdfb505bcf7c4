(** Property C104: the reflection symmetries of the complex elementary functions hold bit for bit in f32/f64, given a libm
    with the parities of the real functions; the square root ignores the sign of a zero imaginary part, and so it takes
    the other side of its cut than the logarithm does. *)
From Coq Require Import List ZArith Reals Bool Lia Lra.
From Flocq Require Import Core.Core IEEE754.BinarySingleNaN.
From Verif Require Import Base.Outcome Model.Traits Model.Float Model.Complex Model.RealInstance Spec.FloatErr
  Proofs.FloatErr Proofs.FloatComm Props.FloatProps Props.FloatPolyProps Props.FloatFunProps Props.FloatSignProps.
Local Open Scope Z_scope.

Section Fmt.
Context (prec emax : Z) {Hp : Prec_gt_0 prec} {He : Prec_lt_emax prec emax}.
Notation fl := (binary_float prec emax).
Notation FF := (float_field prec emax).
Notation FO := (float_ring prec emax).
Notation mul := (fl_mul prec emax).
Notation minus := (@Bopp prec emax).
Notation cminus := (cminus prec emax).
Notation cconj := (cconj prec emax).
Notation times_i := (times_i prec emax).
Notation "z ~~ w" := (complex_same_up_to_zero prec emax z w) (at level 70).

(** ** What is assumed of libm *)
Definition odd_fun (f : fl -> outcome fl) : Prop := forall x y, f x = Ok y -> f (minus x) = Ok (minus y).
Definition even_fun (f : fl -> outcome fl) : Prop := forall x, f (minus x) = f x.
(** sin and sinh are odd, cos and cosh even. *)
Definition parities (libm : FunOps fl) : Prop :=
  odd_fun (fn_sin libm) /\ even_fun (fn_cos libm) /\ odd_fun (fn_sinh libm) /\ even_fun (fn_cosh libm).
(** atan2(-y, x) = -atan2(y, x); for y = 0 this distinguishes the two zeros. *)
Definition angle_parity (libm : FunOps fl) : Prop := forall x, odd_fun (fun y => fn_atan2 libm y x).

Context (libm : FunOps fl).
Notation FE := (float_fun prec emax libm).

(** Taking a computation apart: the call at hand has returned. *)
Ltac step H := match type of H with
  | context [bind (fn_sin libm ?x) _] => let v := fresh "v" in let E := fresh "E" in destruct (fn_sin libm x) as [v| |] eqn:E; [|discriminate H|discriminate H]
  | context [bind (fn_cos libm ?x) _] => let v := fresh "v" in let E := fresh "E" in destruct (fn_cos libm x) as [v| |] eqn:E; [|discriminate H|discriminate H]
  | context [bind (fn_sinh libm ?x) _] => let v := fresh "v" in let E := fresh "E" in destruct (fn_sinh libm x) as [v| |] eqn:E; [|discriminate H|discriminate H]
  | context [bind (fn_cosh libm ?x) _] => let v := fresh "v" in let E := fresh "E" in destruct (fn_cosh libm x) as [v| |] eqn:E; [|discriminate H|discriminate H]
  | context [bind (fn_exp libm ?x) _] => let v := fresh "v" in let E := fresh "E" in destruct (fn_exp libm x) as [v| |] eqn:E; [|discriminate H|discriminate H]
  | context [bind (fn_ln libm ?x) _] => let v := fresh "v" in let E := fresh "E" in destruct (fn_ln libm x) as [v| |] eqn:E; [|discriminate H|discriminate H]
  | context [bind (fn_atan2 libm ?y ?x) _] => let v := fresh "v" in let E := fresh "E" in destruct (fn_atan2 libm y x) as [v| |] eqn:E; [|discriminate H|discriminate H]
  end; cbn [bind] in H.
Ltac open H := cbn [fn_exp fn_sin fn_cos fn_sinh fn_cosh fn_ln fn_atan2 float_fun r_mul r_neg r_add r_one f_div f_ring float_ring float_field re im bind] in H; repeat step H; injection H as <-.
Ltac show := cbn [fn_exp fn_sin fn_cos fn_sinh fn_cosh fn_ln fn_atan2 float_fun r_mul r_neg r_add r_one f_div f_ring float_ring float_field re im bind FloatSignProps.cminus FloatSignProps.cconj FloatSignProps.times_i complex_new].

Section Parity.
Context (HP : parities libm).

Lemma p_sin x y : fn_sin libm x = Ok y -> fn_sin libm (minus x) = Ok (minus y). Proof. apply HP. Qed.
Lemma p_sinh x y : fn_sinh libm x = Ok y -> fn_sinh libm (minus x) = Ok (minus y). Proof. apply HP. Qed.
Lemma p_cos x : fn_cos libm (minus x) = fn_cos libm x. Proof. apply HP. Qed.
Lemma p_cosh x : fn_cosh libm (minus x) = fn_cosh libm x. Proof. apply HP. Qed.
Lemma cx_eq (a b c d : fl) : a = c -> b = d -> Ok (Cx a b) = Ok (Cx c d). Proof. intros -> ->. reflexivity. Qed.
Ltac use := rewrite ?p_cos, ?p_cosh; repeat (match goal with
  | E : fn_sin libm ?x = Ok _ |- context [fn_sin libm (Bopp ?x)] => rewrite (p_sin _ _ E)
  | E : fn_sinh libm ?x = Ok _ |- context [fn_sinh libm (Bopp ?x)] => rewrite (p_sinh _ _ E)
  | E : fn_sin libm ?x = Ok _ |- context [fn_sin libm ?x] => rewrite E
  | E : fn_cos libm ?x = Ok _ |- context [fn_cos libm ?x] => rewrite E
  | E : fn_sinh libm ?x = Ok _ |- context [fn_sinh libm ?x] => rewrite E
  | E : fn_cosh libm ?x = Ok _ |- context [fn_cosh libm ?x] => rewrite E
  | E : fn_exp libm ?x = Ok _ |- context [fn_exp libm ?x] => rewrite E
  end; cbn [bind]); unfold FloatSignProps.cconj, FloatSignProps.cminus, FloatSignProps.times_i, complex_new; cbn [re im];
  rewrite ?fl_mul_opp_l, ?fl_mul_opp_r, ?fl_opp_opp; apply cx_eq; first [reflexivity | apply fl_mul_comm | f_equal; apply fl_mul_comm].

Lemma sin_conj z w : complex_sin FF FE z = Ok w -> complex_sin FF FE (cconj z) = Ok (cconj w).
Proof. destruct z as [a b]. intros H. unfold complex_sin in *. open H. show. use. Qed.
Lemma cos_conj z w : complex_cos FF FE z = Ok w -> complex_cos FF FE (cconj z) = Ok (cconj w).
Proof. destruct z as [a b]. intros H. unfold complex_cos in *. open H. show. use. Qed.
Lemma sin_minus z w : complex_sin FF FE z = Ok w -> complex_sin FF FE (cminus z) = Ok (cminus w).
Proof. destruct z as [a b]. intros H. unfold complex_sin in *. open H. show. use. Qed.
Lemma cos_minus z w : complex_cos FF FE z = Ok w -> complex_cos FF FE (cminus z) = Ok w.
Proof. destruct z as [a b]. intros H. unfold complex_cos in *. open H. show. use. Qed.

(** ** f(conj z) = conj f(z) *)
Theorem C104_conjugation : forall z w : complex fl,
  (complex_exp FF FE z = Ok w -> complex_exp FF FE (cconj z) = Ok (cconj w))
  /\ (complex_sin FF FE z = Ok w -> complex_sin FF FE (cconj z) = Ok (cconj w))
  /\ (complex_cos FF FE z = Ok w -> complex_cos FF FE (cconj z) = Ok (cconj w))
  /\ (complex_sinh FF FE z = Ok w -> complex_sinh FF FE (cconj z) = Ok (cconj w))
  /\ (complex_cosh FF FE z = Ok w -> complex_cosh FF FE (cconj z) = Ok (cconj w))
  /\ (complex_tan FF FE z = Ok w -> exists w', complex_tan FF FE (cconj z) = Ok w' /\ w' ~~ cconj w).
Proof.
  intros z w. repeat split.
  - destruct z as [a b]. intros H. unfold complex_exp in *. open H. show. use.
  - apply sin_conj.
  - apply cos_conj.
  - destruct z as [a b]. intros H. unfold complex_sinh in *. open H. show. use.
  - destruct z as [a b]. intros H. unfold complex_cosh in *. open H. show. use.
  - unfold complex_tan. intros H. destruct (complex_sin FF FE z) as [s| |] eqn:Es; try discriminate. cbn [bind] in H. destruct (complex_cos FF FE z) as [c| |] eqn:Ec; try discriminate. cbn [bind] in H.
    rewrite (sin_conj _ _ Es), (cos_conj _ _ Ec). cbn [bind]. destruct (C80_complex_quotients prec emax s c) as (p & _ & _ & p3 & E & _ & _ & E3 & _ & _ & S3 & _).
    rewrite E in H. injection H as <-. exists p3. split; assumption.
Qed.

(** ** f(-z) *)
Theorem C104_parity : forall z w : complex fl,
  (complex_sin FF FE z = Ok w -> complex_sin FF FE (cminus z) = Ok (cminus w))
  /\ (complex_cos FF FE z = Ok w -> complex_cos FF FE (cminus z) = Ok w)
  /\ (complex_sinh FF FE z = Ok w -> complex_sinh FF FE (cminus z) = Ok (cminus w))
  /\ (complex_cosh FF FE z = Ok w -> complex_cosh FF FE (cminus z) = Ok w)
  /\ (complex_tan FF FE z = Ok w -> exists w', complex_tan FF FE (cminus z) = Ok w' /\ w' ~~ cminus w).
Proof.
  intros z w. repeat split.
  - apply sin_minus.
  - apply cos_minus.
  - destruct z as [a b]. intros H. unfold complex_sinh in *. open H. show. use.
  - destruct z as [a b]. intros H. unfold complex_cosh in *. open H. show. use.
  - unfold complex_tan. intros H. destruct (complex_sin FF FE z) as [s| |] eqn:Es; try discriminate. cbn [bind] in H. destruct (complex_cos FF FE z) as [c| |] eqn:Ec; try discriminate. cbn [bind] in H.
    rewrite (sin_minus _ _ Es), (cos_minus _ _ Ec). cbn [bind]. destruct (C80_complex_quotients prec emax s c) as (p & p1 & _ & _ & E & E1 & _ & _ & S1 & _).
    rewrite E in H. injection H as <-. exists p1. split; assumption.
Qed.

(** ** f(i z): [times_i z] is i z without rounding. *)
Theorem C104_rotation : forall z w : complex fl,
  (complex_sinh FF FE z = Ok w -> complex_sin FF FE (times_i z) = Ok (times_i w))
  /\ (complex_sin FF FE z = Ok w -> complex_sinh FF FE (times_i z) = Ok (times_i w))
  /\ (complex_cosh FF FE z = Ok w -> complex_cos FF FE (times_i z) = Ok w)
  /\ (complex_cos FF FE z = Ok w -> complex_cosh FF FE (times_i z) = Ok w).
Proof.
  intros [a b] w. unfold complex_sin, complex_cos, complex_sinh, complex_cosh. repeat split; intros H; open H; show; use.
Qed.
End Parity.

(** ** Logarithm and argument *)
Theorem C104_logarithm : angle_parity libm -> forall z w : complex fl,
  (complex_ln FF FE z = Ok w -> complex_ln FF FE (cconj z) = Ok (cconj w))
  /\ (forall t, complex_arg FE z = Ok t -> complex_arg FE (cconj z) = Ok (minus t)).
Proof.
  intros HA [a b] w. split.
  - intros H. unfold complex_ln, complex_sqr_norm in *. open H. show. rewrite square_opp, E. cbn [bind]. rewrite (HA a b v0 E0). reflexivity.
  - intros t H. exact (HA a b t H).
Qed.

(** ** Square root *)
(** The imaginary part is not a zero of either sign. *)
Definition off_axis (z : complex fl) : Prop := forall s, im z <> B754_zero s.

Lemma abs_opp (x : fl) : Babs (minus x) = Babs x.
Proof. destruct x; reflexivity. Qed.
Lemma neg_zero_flip (x : fl) : (forall s, x <> B754_zero s) -> is_nan x = false ->
  Bltb (minus x) (fl_int prec emax 0) = negb (Bltb x (fl_int prec emax 0)).
Proof.
  change (fl_int prec emax 0) with (B754_zero false : fl). intros N1 N2. destruct x as [s|s| |s m e B]; [destruct (N1 s eq_refl)|destruct s; reflexivity|discriminate|destruct s; reflexivity].
Qed.

(** Everything but the sign of the imaginary part. *)
Definition root_parts (z : complex fl) : fl * fl :=
  let two := fl_add prec emax (fl_int prec emax 1) (fl_int prec emax 1) in
  let half := fl_div prec emax (fl_int prec emax 1) two in
  let r := Bsqrt mode_NE (fl_add prec emax (mul (re z) (re z)) (mul (im z) (im z))) in
  if Bleb (Babs (re z)) (mul (Babs (im z)) two)
  then (Bsqrt mode_NE (mul (fl_add prec emax r (re z)) half), Bsqrt mode_NE (mul (fl_sub prec emax r (re z)) half))
  else let alpha := fl_div prec emax (Babs (im z)) (Bsqrt mode_NE (mul (fl_add prec emax r (Babs (re z))) two)) in
       let beta := Bsqrt mode_NE (mul (fl_add prec emax r (Babs (re z))) half) in
       if Bleb (fl_int prec emax 0) (re z) then (beta, alpha) else (alpha, beta).
Lemma root_shape z : complex_sqrt FF FE z = Ok (Cx (fst (root_parts z)) (if Bltb (im z) (fl_int prec emax 0) then minus (snd (root_parts z)) else snd (root_parts z))).
Proof.
  destruct z as [a b]. unfold complex_sqrt, root_parts, complex_abs_ref, complex_sqr_norm. cbn [re im].
  cbn [fn_sqrt fn_abs fn_leb fn_ltb float_fun r_mul r_neg r_add r_sub r_one r_zero f_div f_ring float_ring float_field bind].
  destruct (Bleb (Babs a) _); [|destruct (Bleb _ a)]; cbn [bind fst snd]; destruct (Bltb b _); reflexivity.
Qed.
Lemma root_parts_conj z : root_parts (cconj z) = root_parts z.
Proof. destruct z as [a b]. unfold root_parts. cbn [re im FloatSignProps.cconj]. rewrite abs_opp, square_opp. reflexivity. Qed.

Lemma root_nan z : im z = B754_nan -> root_parts z = (B754_nan, B754_nan).
Proof.
  destruct z as [a b]. cbn [im]. intros ->. unfold root_parts. cbn [re im]. 
  replace (fl_add prec emax (mul a a) (mul B754_nan B754_nan)) with (B754_nan : fl) by (destruct (mul a a); reflexivity). 
  replace (Bleb (Babs a) (mul (Babs B754_nan) (fl_add prec emax (fl_int prec emax 1) (fl_int prec emax 1)))) with false by (destruct a; reflexivity).
  destruct (Bleb (fl_int prec emax 0) a); reflexivity.
Qed.

Theorem C104_square_root : forall z : complex fl,
  (off_axis z -> exists w, complex_sqrt FF FE z = Ok w /\ complex_sqrt FF FE (cconj z) = Ok (cconj w))
  /\ (~ off_axis z -> complex_sqrt FF FE (cconj z) = complex_sqrt FF FE z).
Proof.
  intros z. split.
  - intros N. eexists. split; [apply root_shape|]. rewrite root_shape, root_parts_conj. unfold FloatSignProps.cconj at 1 2. cbn [re im].
    destruct (is_nan (im z)) eqn:Nz.
    + assert (E : im z = B754_nan) by (destruct (im z); try discriminate; reflexivity). rewrite (root_nan z E), E. cbn [fst snd]. reflexivity.
    + rewrite (neg_zero_flip _ N Nz). destruct (Bltb (im z) (fl_int prec emax 0)); cbn [negb]; rewrite ?fl_opp_opp; reflexivity.
  - intros N. assert (Z : exists s, im z = B754_zero s).
    { destruct (im z) as [s|s| |s m e B] eqn:Ez; [exists s; reflexivity|exfalso; apply N; intros t; rewrite Ez; discriminate..]. }
    destruct Z as [s Z]. rewrite !root_shape, root_parts_conj. unfold FloatSignProps.cconj. cbn [re im]. rewrite Z. destruct s; reflexivity.
Qed.
End Fmt.

(** ** The two sides of the cut *)
Notation int := (fl_int 24 128).
Notation minus0 := (B754_zero true : f32).

(** f(conj z) = conj f(z) does not extend to the square root on the negative real axis: the sign of a zero imaginary part is
    ignored. *)
Theorem C104_sqrt_conjugation_refuted : forall libm : FunOps f32, let FE := float_fun 24 128 libm in let FF := float_field 24 128 in
  exists z w w', complex_sqrt FF FE z = Ok w /\ complex_sqrt FF FE (cconj 24 128 z) = Ok w' /\ w' <> cconj 24 128 w /\ Beqb (im w) (im w') = true /\ Beqb (im w) (int 0) = false.
Proof.
  intros libm FE FF. exists (Cx (int (-4)) (int 0)). do 2 eexists. split; [reflexivity|]. split; [reflexivity|]. split; [|split; reflexivity].
  intros E. apply (f_equal (fun z => Bsign (im z))) in E. revert E. vm_compute. discriminate.
Qed.

(** With an IEEE atan2, which returns -pi at (-0, -4) and pi at (0, -4), the logarithm of -4 - 0i lies below the real axis, and
    the square root above: sqrt z is not near exp(ln(z)/2). *)
Theorem C104_sqrt_against_ln_refuted : forall (libm : FunOps f32) (p : f32), angle_parity 24 128 libm ->
  fn_atan2 libm (int 0) (int (-4)) = Ok p -> Bltb (int 0) p = true -> (forall x, exists y, fn_ln libm x = Ok y) ->
  let FE := float_fun 24 128 libm in let FF := float_field 24 128 in let z := Cx (int (-4)) minus0 in
  exists a b, complex_ln FF FE z = Ok a /\ complex_sqrt FF FE z = Ok b /\ Bltb (im a) (int 0) = true /\ Bltb (int 0) (im b) = true.
Proof.
  intros libm p HA E P L FE FF z. destruct (L (fl_add 24 128 (fl_mul 24 128 (int (-4)) (int (-4))) (fl_mul 24 128 minus0 minus0))) as [y Ey].
  do 2 eexists. split.
  - unfold complex_ln, complex_sqr_norm, FE, FF, z. cbn [fn_ln fn_atan2 float_fun r_mul r_add r_one f_div f_ring float_ring float_field re im bind]. rewrite Ey. cbn [bind].
    change minus0 with (Bopp (int 0)). rewrite (HA (int (-4)) (int 0) p E). reflexivity.
  - split; [reflexivity|]. split; [|reflexivity]. cbn [im complex_new]. destruct p as [s|s| |s m e B]; try discriminate; destruct s; try discriminate; reflexivity.
Qed.

(** ** Concrete cases *)

(** A libm with the parities of the real functions: correctly rounded for arguments >= 0 and mirrored for the others. *)
Definition mirror_odd (f : f32 -> f32) (x : f32) : f32 := if is_nan x then B754_nan else if Bsign x then Bopp (f (Babs x)) else f (Babs x).
Definition near := nearest 24 128.
Definition mirror_libm : FunOps f32 := {|
  fn_exp := fun x => Ok (near (exp (B2R x))); fn_sin := fun x => Ok (mirror_odd (fun y => near (sin (B2R y))) x); fn_cos := fun x => Ok (near (cos (B2R (Babs x))));
  fn_sinh := fun x => Ok (mirror_odd (fun y => near (sinh (B2R y))) x); fn_cosh := fun x => Ok (near (cosh (B2R (Babs x))));
  fn_ln := fun x => Ok (near (ln (B2R x))); fn_atan2 := fun y x => Ok (mirror_odd (fun v => near (atan2 (B2R v) (B2R x))) y);
  fn_sqrt := fun x => Ok x; fn_abs := fun x => Ok x; fn_leb := Bleb; fn_ltb := Bltb |}.

Lemma mirror_is_odd f x : mirror_odd f (Bopp x) = Bopp (mirror_odd f x).
Proof. unfold mirror_odd. rewrite (abs_opp 24 128). destruct x as [s|s| |s m e B]; try reflexivity; destruct s; cbn [is_nan Bopp Bsign negb]; rewrite ?fl_opp_opp; reflexivity. Qed.
Lemma mirror_parities : parities 24 128 mirror_libm /\ angle_parity 24 128 mirror_libm.
Proof.
  split; [split; [|split; [|split]]|].
  - intros x y E. injection E as <-. cbn [fn_sin mirror_libm]. rewrite mirror_is_odd. reflexivity.
  - intros x. cbn [fn_cos mirror_libm]. rewrite (abs_opp 24 128). reflexivity.
  - intros x y E. injection E as <-. cbn [fn_sinh mirror_libm]. rewrite mirror_is_odd. reflexivity.
  - intros x. cbn [fn_cosh mirror_libm]. rewrite (abs_opp 24 128). reflexivity.
  - intros x y t E. injection E as <-. cbn [fn_atan2 mirror_libm]. rewrite mirror_is_odd. reflexivity.
Qed.

Example C104_case : let FE := float_fun 24 128 mirror_libm in let FF := float_field 24 128 in
  (exists w, complex_exp FF FE (Cx (int 1) (int 2)) = Ok w /\ complex_exp FF FE (Cx (int 1) (Bopp (int 2))) = Ok (cconj 24 128 w))
  /\ (exists w, complex_sinh FF FE (Cx (int 1) (int 2)) = Ok w /\ complex_sin FF FE (Cx (Bopp (int 2)) (int 1)) = Ok (Cx (Bopp (im w)) (re w)))
  /\ (exists w, complex_tan FF FE (Cx (int 1) (int 2)) = Ok w /\ exists w', complex_tan FF FE (Cx (Bopp (int 1)) (Bopp (int 2))) = Ok w' /\ complex_same_up_to_zero 24 128 w' (cminus 24 128 w))
  /\ (exists w, complex_ln FF FE (Cx (int (-4)) (int 0)) = Ok w /\ complex_ln FF FE (Cx (int (-4)) minus0) = Ok (cconj 24 128 w))
  /\ (exists w, complex_sqrt FF FE (Cx (int (-4)) (int 1)) = Ok w /\ complex_sqrt FF FE (Cx (int (-4)) (Bopp (int 1))) = Ok (cconj 24 128 w)).
Proof.
  intros FE FF. destruct mirror_parities as [P A]. split; [|split; [|split; [|split]]].
  - assert (E : exists w, complex_exp FF FE (Cx (int 1) (int 2)) = Ok w) by (eexists; reflexivity). destruct E as [w E]. exists w. split; [exact E|].
    destruct (C104_conjugation 24 128 mirror_libm P (Cx (int 1) (int 2)) w) as (H & _). exact (H E).
  - assert (E : exists w, complex_sinh FF FE (Cx (int 1) (int 2)) = Ok w) by (eexists; reflexivity). destruct E as [w E]. exists w. split; [exact E|].
    destruct (C104_rotation 24 128 mirror_libm P (Cx (int 1) (int 2)) w) as (H & _). exact (H E).
  - assert (E : exists w, complex_tan FF FE (Cx (int 1) (int 2)) = Ok w) by (eexists; reflexivity). destruct E as [w E]. exists w. split; [exact E|].
    destruct (C104_parity 24 128 mirror_libm P (Cx (int 1) (int 2)) w) as (_ & _ & _ & _ & H). exact (H E).
  - assert (E : exists w, complex_ln FF FE (Cx (int (-4)) (int 0)) = Ok w) by (eexists; reflexivity). destruct E as [w E]. exists w. split; [exact E|].
    destruct (C104_logarithm 24 128 mirror_libm A (Cx (int (-4)) (int 0)) w) as (H & _). exact (H E).
  - destruct (C104_square_root 24 128 mirror_libm (Cx (int (-4)) (int 1))) as (H & _). apply H. intros s. cbn [im]. intros E. apply (f_equal B2R) in E. revert E. vm_compute. intros E. lra.
Qed.

Print Assumptions C104_conjugation.
Print Assumptions C104_parity.
Print Assumptions C104_rotation.
Print Assumptions C104_logarithm.
Print Assumptions C104_square_root.
Print Assumptions C104_sqrt_conjugation_refuted.
Print Assumptions C104_sqrt_against_ln_refuted.
