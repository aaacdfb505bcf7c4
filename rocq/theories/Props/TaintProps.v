(** Property C92: infinities and NaN do not disappear.
    [rexpr], [run], [base_at]: Spec/ErrorBars.v; [all_ops], [some_ops], [occurs]: Spec/Taint.v;
    [nest], [nval], [nest_ops], [nest_image]: Spec/Nest.v. *)
From Coq Require Import List Arith ZArith NArith Reals Bool Lia.
From Flocq Require Import Core.Core IEEE754.BinarySingleNaN.
From Verif Require Import Base.Outcome Base.Usize Base.Array Base.Sim Model.Traits Model.Float Model.Polynomial Model.Complex
  Model.SVector Model.SMatrix Model.DVector Model.DMatrix
  Spec.Ring Spec.Sums Spec.Matrix Spec.DExpr Spec.DMatrix Spec.Unwind Spec.Nest Spec.ErrorBars Spec.Taint
  Proofs.FloatErr Proofs.FloatComm Proofs.FloatSpecial Proofs.RingSim Proofs.IntProofs Proofs.PolyExact Proofs.SMatrixProofs
  Proofs.DVectorProofs Proofs.DMatrixProofs Proofs.ErrorBars Props.NestProps Props.FloatProps Props.FloatPolyProps Props.ErrorBarsProps.
Import ListNotations.

Section Fmt.
Context (prec emax : Z) {Hp : Prec_gt_0 prec} {He : Prec_lt_emax prec emax} (libm : FunOps (binary_float prec emax)).
Notation fl := (binary_float prec emax).
Notation FO := (float_ring prec emax).
Notation FF := (float_field prec emax).
Notation FE := (float_fun prec emax libm).
Notation sig := (float_sig prec emax).
Notation nan := (@B754_nan prec emax).
Notation zero := (fl_int prec emax 0).
Notation finite x := (is_finite x = true).

Definition may_be_finite (x : fl) (b : bool) : Prop := is_finite x = true -> b = true.
Definition must_be_nan (x : fl) (b : bool) : Prop := b = true -> x = nan.

Lemma finite_sim : ring_sim never may_be_finite FO all_ops.
Proof.
  constructor; cbn [r_zero r_one r_add r_sub r_mul r_neg float_ring all_ops]; unfold may_be_finite; auto;
    intros; apply sim_ok.
  - intros F. destruct (add_model prec emax _ _ F) as (F1 & F2 & _). rewrite H, H0; auto.
  - intros F. destruct (sub_model prec emax _ _ F) as (F1 & F2 & _). rewrite H, H0; auto.
  - intros F. destruct (mul_model prec emax _ _ F) as (F1 & F2 & _). rewrite H, H0; auto.
  - intros F. rewrite opp_finite in F. auto.
Qed.

Lemma nan_sim : ring_sim never must_be_nan FO some_ops.
Proof.
  constructor; cbn [r_zero r_one r_add r_sub r_mul r_neg float_ring some_ops]; unfold must_be_nan; auto;
    intros; try discriminate; apply sim_ok; intros E; try apply orb_prop in E.
  - destruct E as [E|E]; [rewrite (H E); apply add_nan_l|rewrite (H0 E); apply add_nan_r].
  - destruct E as [E|E]; [rewrite (H E); apply sub_nan_l|rewrite (H0 E); apply sub_nan_r].
  - destruct E as [E|E]; [rewrite (H E); apply mul_nan_l|rewrite (H0 E); apply mul_nan_r].
  - rewrite (H E). reflexivity.
Qed.

(** ** Any expression over any nested type *)
(** Run the expression on floats; on the booleans "is finite" with conjunctions; on the booleans
    "is NaN" with disjunctions.  A base value of the result is finite only if all inputs it
    depends on are finite, and it is NaN as soon as one input it depends on is NaN. *)
Theorem C92_nested_expressions :
  forall (t : nest) (e : rexpr) (v : nat -> nval fl t), exists r good bad,
  run (nest_ops FO t) v e = Ok r
  /\ run (nest_ops all_ops t) (fun i => nest_image (fun x : fl => is_finite x) t (v i)) e = Ok good
  /\ run (nest_ops some_ops t) (fun i => nest_image (fun x : fl => is_nan x) t (v i)) e = Ok bad
  /\ forall place,
     (finite (base_at zero t place r) -> base_at true t place good = true)
     /\ (base_at false t place bad = true -> base_at zero t place r = nan).
Proof.
  intros t e v. destruct (run_float prec emax t e v) as [r Hr].
  assert (V1 : forall i, nest_rel may_be_finite t (v i) (nest_image (fun x : fl => is_finite x) t (v i))).
  { intros i. apply (nest_rel_image _ _ zero). intros place. intros F. exact F. }
  assert (V2 : forall i, nest_rel must_be_nan t (v i) (nest_image (fun x : fl => is_nan x) t (v i))).
  { intros i. apply (nest_rel_image _ _ zero). intros place. intros F.
    destruct (base_at zero t place (v i)); try discriminate. reflexivity. }
  pose proof (run_sim never _ _ _ (nest_ring_sim never _ _ _ finite_sim t) v _ V1 e) as G1.
  pose proof (run_sim never _ _ _ (nest_ring_sim never _ _ _ nan_sim t) v _ V2 e) as G2.
  rewrite Hr in G1, G2. destruct G1 as (good & Hg & R1), G2 as (bad & Hb & R2).
  exists r, good, bad. split; [exact Hr|]. split; [exact Hg|]. split; [exact Hb|]. intros place. split.
  - apply (base_at_rel may_be_finite zero true (fun _ => eq_refl) t place r good R1).
  - apply (base_at_rel must_be_nan zero false (fun E => match Bool.diff_false_true E with end) t place r bad R2).
Qed.

(** For plain floats: which inputs an expression depends on. *)
Theorem C92_expressions :
  forall (e : rexpr) (v : nat -> fl), exists r, run FO v e = Ok r
  /\ (finite r -> forall i, occurs i e -> finite (v i))
  /\ (forall i, occurs i e -> v i = nan -> r = nan).
Proof.
  intros e v. induction e as [j| | |a (x & Hx & Fx & Nx) b (y & Hy & Fy & Ny)|a (x & Hx & Fx & Nx) b (y & Hy & Fy & Ny)
      |a (x & Hx & Fx & Nx) b (y & Hy & Fy & Ny)|a (x & Hx & Fx & Nx)]; cbn [run occurs].
  - exists (v j). repeat split; intros; subst; auto.
  - eexists. split; [reflexivity|]. split; intros; contradiction.
  - eexists. split; [reflexivity|]. split; intros; contradiction.
  - rewrite Hx, Hy. cbn [bind]. eexists. split; [reflexivity|]. split.
    + intros F. destruct (add_model prec emax _ _ F) as (F1 & F2 & _). intros i [O|O]; auto.
    + intros i [O|O] N; [rewrite (Nx i O N); apply add_nan_l|rewrite (Ny i O N); apply add_nan_r].
  - rewrite Hx, Hy. cbn [bind]. eexists. split; [reflexivity|]. split.
    + intros F. destruct (sub_model prec emax _ _ F) as (F1 & F2 & _). intros i [O|O]; auto.
    + intros i [O|O] N; [rewrite (Nx i O N); apply sub_nan_l|rewrite (Ny i O N); apply sub_nan_r].
  - rewrite Hx, Hy. cbn [bind]. eexists. split; [reflexivity|]. split.
    + intros F. destruct (mul_model prec emax _ _ F) as (F1 & F2 & _). intros i [O|O]; auto.
    + intros i [O|O] N; [rewrite (Nx i O N); apply mul_nan_l|rewrite (Ny i O N); apply mul_nan_r].
  - rewrite Hx. cbn [bind]. eexists. split; [reflexivity|]. split.
    + intros F. rewrite opp_finite in F. auto.
    + intros i O N. rewrite (Nx i O N). reflexivity.
Qed.

(** ** Evaluation and products *)
Theorem C92_eval :
  forall (p : poly fl) (x y : fl), poly_eval FO p x = Ok y -> finite y ->
  Forall (fun a => finite a) p /\ (p <> [] -> finite x).
Proof. intros p x y E F. rewrite poly_eval_horner in E. injection E as <-. apply (horner_finite_args prec emax), F. Qed.

Theorem C92_static_products :
  (forall L M N (a : smatrix fl L M) (b : smatrix fl M N) r, smatrix_mul FO a b = Ok r ->
   forall i j x, cell r i j = Some x -> finite x ->
   forall m y z, cell a i m = Some y -> cell b m j = Some z -> finite y /\ finite z)
  /\ (forall M N (a : smatrix fl M N) (v : svector fl N) r, smatrix_mul_vec FO a v = Ok r ->
      forall i x, nth_error (entries r) i = Some x -> finite x ->
      Forall (fun y => finite y) (entries v) /\ forall m y, cell a i m = Some y -> finite y).
Proof.
  split.
  - intros L M N a b r E i j x Hx F m y z Hy Hz. unfold smatrix_mul in E.
    rewrite (smatrix_mul_total FO _ (float_implements prec emax)) in E. injection E as <-.
    destruct (cell_bounds _ _ _ _ Hx) as [Hi Hj]. destruct (cell_bounds _ _ _ _ Hy) as [_ Hm].
    rewrite (cell_mat_at sig) in Hx by assumption. rewrite (cell_mat_at sig) in Hy by assumption. rewrite (cell_mat_at sig) in Hz by assumption. injection Hx as <-. injection Hy as <-. injection Hz as <-.
    change (is_finite (mat_at sig (mtab L N (fun l n => sum_n sig M (fun m => smul sig (mat_at sig a l m) (mat_at sig b m n)))) i j) = true) in F.
    rewrite (mat_at_tab sig L N _ i j Hi Hj) in F.
    exact (dot_finite_args prec emax (fun m => mat_at sig a i m) (fun m => mat_at sig b m j) M F m Hm).
  - intros M N a v r E i x Hx F.
    assert (Hi : (i < M)%nat).
    { rewrite <- (entries_length r). apply nth_error_Some. intros Q. rewrite Q in Hx. discriminate. }
    rewrite (smatrix_mul_vec_total FO _ (float_implements prec emax)) in E. injection E as <-.
    apply nth_error_nth with (d := zero) in Hx.
    change (vec_at sig (@vtab fl M (fun i => sum_n sig N (fun j => smul sig (mat_at sig a i j) (vec_at sig v j)))) i = x) in Hx.
    rewrite (@vec_at_tab _ sig M _ i Hi) in Hx. subst x.
    pose proof (dot_finite_args prec emax (fun m => mat_at sig a i m) (fun m => vec_at sig v m) N F) as D. split.
    + apply Forall_nth. intros k d Hk. rewrite entries_length in Hk.
      rewrite (nth_indep _ d (sz sig)) by (rewrite entries_length; exact Hk). apply D, Hk.
    + intros m y Hy. destruct (cell_bounds _ _ _ _ Hy) as [_ Hm]. rewrite (cell_mat_at sig) in Hy by assumption.
      injection Hy as <-. apply D, Hm.
Qed.

Lemma dot1_finite_args a b n : is_finite (fdot1 prec emax a b n) = true ->
  forall i, (i <= n)%nat -> is_finite (a i) = true /\ is_finite (b i) = true.
Proof.
  induction n as [|n IH]; intros F i Hi.
  - assert (i = O) by lia. subst i. destruct (mul_model prec emax _ _ F) as (F3 & F4 & _). auto.
  - destruct (add_model prec emax _ _ F) as (F1 & F2 & _). destruct (mul_model prec emax _ _ F2) as (F3 & F4 & _).
    destruct (Nat.eq_dec i (S n)) as [->|]; [split; assumption|apply IH; [exact F1|lia]].
Qed.

Theorem C92_dynamic_products :
  (forall u v : dvector fl, forall r, dvector_dot (r_zero FO) (r_add FO) (r_mul FO) prim_conj u v = Ok r ->
   length u = length v -> finite r -> Forall (fun x => finite x) u /\ Forall (fun x => finite x) v)
  /\ (forall (md : target) (a b : dmatrix fl), dm_wf md a -> dm_wf md b -> dm_cols a = dm_rows b ->
      forall r, (e <- dmatrix_mul md (r_mul FO) (r_add FO) a b ;; m_eval e) = Ok r ->
      forall i j x, (i < dm_rows a)%N -> (j < dm_cols b)%N -> row_major_at r i j = Some x -> finite x ->
      forall m y z, (m < dm_cols a)%N -> row_major_at a i m = Some y -> row_major_at b m j = Some z -> finite y /\ finite z).
Proof.
  split.
  - intros u v r E L F. unfold dvector_dot in E.
    rewrite (dvector_dot_value sig (r_add FO) (r_mul FO) prim_conj (fun x => x)
      (fun _ _ => eq_refl) (fun _ _ => eq_refl) (fun _ => eq_refl) u v L) in E. injection E as <-.
    pose proof (dot_finite_args prec emax (fun i => nth i u zero) (fun i => nth i v zero) (length u) F) as D.
    split; apply Forall_nth; intros k d Hk; rewrite (nth_indep _ d zero) by exact Hk; apply D; lia.
  - intros md a b Wa Wb E r Hr i j x Hi Hj Hx F m y z Hm Hy Hz.
    rewrite (dm_mul_total sig (r_add FO) (r_mul FO) (fun _ _ => eq_refl) (fun _ _ => eq_refl) md a b Wa Wb E) in Hr by lia.
    injection Hr as <-. rewrite row_major_tab in Hx by assumption. injection Hx as <-.
    change (smul sig) with (fl_mul prec emax) in F.
    rewrite (sum1_fdot1 prec emax (fun m => dm_at sig a i (N.of_nat m)) (fun m => dm_at sig b (N.of_nat m) j)) in F.
    destruct (dot1_finite_args _ _ _ F (N.to_nat m)) as [F1 F2]; [lia|]. rewrite N2Nat.id in F1, F2.
    unfold dm_at in F1, F2. unfold row_major_at in Hy, Hz.
    rewrite (nth_error_nth _ _ _ Hy) in F1. rewrite (nth_error_nth _ _ _ Hz) in F2. auto.
Qed.

(** ** Complex numbers *)
Notation cfinite z := (finite (re z) /\ finite (im z)).

Lemma norm_args c d : finite (fl_add prec emax (fl_mul prec emax c c) (fl_mul prec emax d d)) -> finite c /\ finite d.
Proof.
  intros F. destruct (add_model prec emax _ _ F) as (F1 & F2 & _).
  destruct (mul_model prec emax _ _ F1) as (F3 & _). destruct (mul_model prec emax _ _ F2) as (F4 & _). auto.
Qed.
Lemma sqrt_args x : finite (Bsqrt mode_NE x : fl) -> finite x.
Proof. pose proof (Bsqrt_correct prec emax Hp He mode_NE x) as (_ & S & _). destruct x as [s|s| |s m e B]; auto; destruct s; simpl; discriminate. Qed.

Theorem C92_complex :
  forall z w r : complex fl,
  (complex_mul FO z w = Ok r -> finite (re r) \/ finite (im r) -> cfinite z /\ cfinite w)
  /\ (complex_div FF z w = Ok r -> finite (re r) \/ finite (im r) -> cfinite z /\ cfinite w).
Proof.
  intros [a b] [c d] r. unfold complex_mul, complex_mul_ref, complex_div, complex_div_ref, complex_sqr_norm, complex_new.
  cbn [re im r_mul r_add r_sub r_one float_ring f_ring f_div float_field bind].
  split; intros E; injection E as <-; cbn [re im]; intros [F|F].
  - destruct (sub_model prec emax _ _ F) as (F1 & F2 & _).
    destruct (mul_model prec emax _ _ F1) as (? & ? & _), (mul_model prec emax _ _ F2) as (? & ? & _). auto.
  - destruct (add_model prec emax _ _ F) as (F1 & F2 & _).
    destruct (mul_model prec emax _ _ F1) as (? & ? & _), (mul_model prec emax _ _ F2) as (? & ? & _). auto.
  - destruct (mul_model prec emax _ _ F) as (F0 & _). destruct (add_model prec emax _ _ F0) as (F1 & F2 & _).
    destruct (mul_model prec emax _ _ F1) as (? & ? & _), (mul_model prec emax _ _ F2) as (? & ? & _). auto.
  - destruct (mul_model prec emax _ _ F) as (F0 & _). destruct (sub_model prec emax _ _ F0) as (F1 & F2 & _).
    destruct (mul_model prec emax _ _ F1) as (? & ? & _), (mul_model prec emax _ _ F2) as (? & ? & _). auto.
Qed.

Theorem C92_complex_norms :
  forall (z : complex fl) (r : fl), finite r ->
  complex_sqr_norm FO z = Ok r \/ complex_abs FF FE z = Ok r \/ complex_abs_ref FF FE z = Ok r -> cfinite z.
Proof.
  intros [a b] r F H. unfold complex_abs, complex_abs_ref, complex_sqr_norm in H.
  cbn [re im r_mul r_add f_ring float_field float_ring bind fn_sqrt float_fun] in *.
  destruct H as [E|[E|E]]; injection E as <-; try apply sqrt_args in F; apply norm_args, F.
Qed.

(** The square root of a number that is not finite is not finite. *)
Theorem C92_complex_sqrt :
  forall z r : complex fl, complex_sqrt FF FE z = Ok r -> finite (re r) /\ finite (im r) -> cfinite z.
Proof.
  intros [a b] r. unfold complex_sqrt, complex_abs_ref, complex_sqr_norm, complex_new.
  cbn [re im r_mul r_add r_sub r_zero r_one r_neg float_ring f_ring f_div float_field bind fn_sqrt fn_abs fn_leb fn_ltb float_fun].
  set (n := fl_add prec emax (fl_mul prec emax a a) (fl_mul prec emax b b)).
  assert (K : forall x, finite (fl_add prec emax (Bsqrt mode_NE n) x) -> finite a /\ finite b).
  { intros x F. destruct (add_model prec emax _ _ F) as (F1 & _). apply sqrt_args in F1. apply norm_args, F1. }
  destruct (Bleb _ _); cbn [bind].
  - intros E [F _]. destruct (Bltb _ _); cbn [bind] in E; injection E as <-; cbn [re] in F;
      apply sqrt_args in F; destruct (mul_model prec emax _ _ F) as (F1 & _); apply (K a), F1.
  - destruct (Bleb _ _); cbn [bind]; intros E [F1 F2].
    + destruct (Bltb _ _); cbn [bind] in E; injection E as <-; cbn [re im] in F1;
        apply sqrt_args in F1; destruct (mul_model prec emax _ _ F1) as (F3 & _); apply (K _ F3).
    + destruct (Bltb _ _); cbn [bind] in E; injection E as <-; cbn [re im] in F2; rewrite ?opp_finite in F2;
        apply sqrt_args in F2; destruct (mul_model prec emax _ _ F2) as (F3 & _); apply (K _ F3).
Qed.

(** Finding: a finite number divided by an infinite one is not 0 but NaN, in both parts. *)
Theorem C92_finite_by_infinite_refuted :
  forall z w : complex fl, ~ cfinite w -> complex_div FF z w = Ok (Cx nan nan).
Proof.
  intros [a b] [c d] H. cbn [re im] in H. unfold complex_div, complex_div_ref, complex_sqr_norm, complex_new.
  cbn [re im r_mul r_add r_sub r_one float_ring f_ring f_div float_field bind].
  set (n := fl_add prec emax (fl_mul prec emax c c) (fl_mul prec emax d d)).
  assert (Nn : is_finite n = false).
  { destruct (is_finite n) eqn:F; [|reflexivity]. exfalso. apply H, norm_args, F. }
  set (p := fl_add prec emax (fl_mul prec emax a c) (fl_mul prec emax b d)).
  set (q := fl_sub prec emax (fl_mul prec emax b c) (fl_mul prec emax a d)).
  assert (Np : is_finite p = false).
  { destruct (is_finite p) eqn:F; [|reflexivity]. exfalso. apply H.
    destruct (add_model prec emax _ _ F) as (F1 & F2 & _).
    destruct (mul_model prec emax _ _ F1) as (? & ? & _), (mul_model prec emax _ _ F2) as (? & ? & _). auto. }
  assert (Nq : is_finite q = false).
  { destruct (is_finite q) eqn:F; [|reflexivity]. exfalso. apply H.
    destruct (sub_model prec emax _ _ F) as (F1 & F2 & _).
    destruct (mul_model prec emax _ _ F1) as (? & ? & _), (mul_model prec emax _ _ F2) as (? & ? & _). auto. }
  destruct (one_shape prec emax) as (m & e & B & E1). rewrite E1.
  destruct n as [s|s| |s m' e' B']; try discriminate; unfold fl_div; cbn [Bdiv]; f_equal; f_equal;
    destruct p as [?|?| |]; try discriminate; destruct q as [?|?| |]; try discriminate; reflexivity.
Qed.
End Fmt.

(** (1 + 2i) / (inf + 0i) is NaN + NaN i; the square root of inf + i is inf; in the product of two
    matrices whose first has an infinity in row 0, only row 0 is affected; so are the booleans. *)
Example C92_case :
  let inf := B754_infinity false : f64 in
  let l n := f64_of_Z (Z.of_nat n) in
  let m x := acons (acons x (acons (l 1) anil)) (acons (acons (l 2) (acons (l 3) anil)) anil) in
  let v (i : nat) : nval f64 (NMat 2 NBase) := if i =? 0 then m inf else m (l 7) in
  let e := EMul (EVar 0) (ESub (EVar 1) EOne) in
  on_ok (complex_div f64_field (Cx (l 1) (l 2)) (Cx inf (l 0))) (fun r => is_nan (re r) && is_nan (im r)) = true
  /\ occurs 1 e /\ ~ occurs 2 e
  /\ on_ok (run (nest_ops f64_ring (NMat 2 NBase)) v e)
       (fun r => match cell r 0 0, cell r 1 1 with Some x, Some y => negb (is_finite x) && Beqb y (l 8) | _, _ => false end) = true
  /\ run (nest_ops all_ops (NMat 2 NBase)) (fun i => nest_image (fun x : f64 => is_finite x) (NMat 2 NBase) (v i)) e
     = Ok (acons (acons false (acons false anil)) (acons (acons true (acons true anil)) anil)).
Proof.
  split; [vm_compute; reflexivity|]. split; [simpl; auto|]. split; [simpl; lia|]. split; vm_compute; reflexivity.
Qed.

Print Assumptions C92_nested_expressions.
Print Assumptions C92_expressions.
Print Assumptions C92_eval.
Print Assumptions C92_static_products.
Print Assumptions C92_dynamic_products.
Print Assumptions C92_complex.
Print Assumptions C92_complex_norms.
Print Assumptions C92_complex_sqrt.
Print Assumptions C92_finite_by_infinite_refuted.
