(** Property C65: a NaN never disappears, and polynomials at infinity.

    [B754_nan] is NaN (there is one NaN in the model, Model/Float.v); [cell a i j] is the entry
    in row [i], column [j] of a static matrix (Spec/Unwind.v), [row_major_at] that of a dynamic
    one (Spec/DExpr.v). *)
From Coq Require Import List ZArith NArith Reals Bool Lia.
From Flocq Require Import Core.Core IEEE754.BinarySingleNaN.
From Verif Require Import Base.Outcome Base.Usize Base.Array Model.Traits Model.Float Model.Polynomial Model.Complex
  Model.SVector Model.SMatrix Model.DVector Model.DMatrix
  Spec.Ring Spec.Sums Spec.Matrix Spec.DExpr Spec.DMatrix Spec.Unwind
  Proofs.FloatErr Proofs.FloatComm Proofs.FloatSpecial Proofs.PolyExact Proofs.SMatrixProofs Proofs.DVectorProofs
  Proofs.DMatrixProofs Props.FloatProps Props.FloatPolyProps.
Import ListNotations.

Section Fmt.
Context (prec emax : Z) {Hp : Prec_gt_0 prec} {He : Prec_lt_emax prec emax} (libm : FunOps (binary_float prec emax)).
Notation fl := (binary_float prec emax).
Notation FO := (float_ring prec emax).
Notation FF := (float_field prec emax).
Notation FE := (float_fun prec emax libm).
Notation sig := (float_sig prec emax).
Notation nan := (@B754_nan prec emax).

(** ** Polynomials *)
Theorem C65_eval :
  forall (p : poly fl) (x : fl), In nan p \/ (p <> [] /\ x = nan) ->
  poly_eval FO p x = Ok nan /\ poly_eval_ref FO p x = Ok nan.
Proof.
  intros p x H.
  assert (E : poly_eval FO p x = Ok nan).
  { rewrite poly_eval_horner. f_equal. destruct H as [H|[H ->]]; [apply horner_nan, H|].
    apply horner_nonfinite; [exact H|reflexivity]. }
  split; exact E.
Qed.

(** Finding: at plus or minus infinity every polynomial evaluates to NaN, also a constant. *)
Theorem C65_eval_at_infinity_refuted :
  forall (p : poly fl) (s : bool), p <> [] -> poly_eval FO p (B754_infinity s) = Ok nan.
Proof. intros p s H. rewrite poly_eval_horner. f_equal. apply horner_nonfinite; [exact H|reflexivity]. Qed.

Theorem C65_polynomial_product :
  forall (p q r : poly fl), poly_mul FO p q = Ok r ->
  forall i j a b, nth_error p i = Some a -> nth_error q j = Some b -> a = nan \/ b = nan ->
  nth_error r (i + j) = Some nan.
Proof.
  intros p q r E i j a b Ha Hb H.
  assert (Hi : (i < length p)%nat) by (apply nth_error_Some; congruence).
  assert (Hj : (j < length q)%nat) by (apply nth_error_Some; congruence).
  destruct (poly_mul_exact FO _ (float_implements prec emax) p q) as (r' & Hr & Hl & _).
  unfold poly_mul in E. rewrite E in Hr. injection Hr as <-.
  assert (Hlen : (i + j < length r)%nat).
  { rewrite Hl. destruct (Nat.eqb_spec (length p) 0), (Nat.eqb_spec (length q) 0); simpl; lia. }
  destruct (product_terms prec emax p q r (i + j) E Hlen) as (_ & _ & Hn & _).
  rewrite (nth_error_nth' r (fl_int prec emax 0) Hlen). f_equal. rewrite Hn.
  apply (fdot_nan prec emax _ _ _ (i - conv_lo (length q) (i + j))).
  - unfold conv_lo, conv_hi. lia.
  - replace (conv_lo (length q) (i + j) + (i - conv_lo (length q) (i + j)))%nat with i by (unfold conv_lo; lia).
    replace (i + j - i)%nat with j by lia.
    rewrite (nth_error_nth _ _ _ Ha), (nth_error_nth _ _ _ Hb). exact H.
Qed.

(** ** Vectors and matrices *)
Theorem C65_dot_products :
  (forall n (u v : svector fl n), In nan (entries u) \/ In nan (entries v) -> svector_dot FO u v = Ok nan)
  /\ (forall u v : dvector fl, length u = length v -> In nan u \/ In nan v ->
      dvector_dot (r_zero FO) (r_add FO) (r_mul FO) prim_conj u v = Ok nan).
Proof.
  assert (P : forall u v : list fl, length u = length v -> In nan u \/ In nan v ->
    exists i, (i < length u)%nat /\ (nth i u (fl_int prec emax 0) = nan \/ nth i v (fl_int prec emax 0) = nan)).
  { intros u v E [H|H]; apply (In_nth _ _ (fl_int prec emax 0)) in H as (i & Hi & Hx); exists i; split; auto; lia. }
  split.
  - intros n u v H. unfold svector_dot. rewrite (svector_dot_total FO _ (float_implements prec emax)). f_equal.
    destruct (P (entries u) (entries v)) as (i & Hi & Hx); [rewrite !entries_length; reflexivity|exact H|].
    rewrite entries_length in Hi. exact (fdot_nan prec emax (vec_at sig u) (vec_at sig v) n i Hi Hx).
  - intros u v E H. unfold dvector_dot.
    rewrite (dvector_dot_value sig (r_add FO) (r_mul FO) prim_conj (fun x => x)
      (fun _ _ => eq_refl) (fun _ _ => eq_refl) (fun _ => eq_refl) u v E).
    f_equal. destruct (P u v E H) as (i & Hi & Hx).
    exact (fdot_nan prec emax (fun i => nth i u (fl_int prec emax 0)) (fun i => nth i v (fl_int prec emax 0)) _ i Hi Hx).
Qed.

(** A NaN in row [i] of the left or in column [j] of the right operand makes entry (i, j) NaN. *)
Theorem C65_static_products :
  (forall L M N (a : smatrix fl L M) (b : smatrix fl M N) r, smatrix_mul FO a b = Ok r ->
   forall i j m, (i < L)%nat -> (j < N)%nat -> cell a i m = Some nan \/ cell b m j = Some nan -> cell r i j = Some nan)
  /\ (forall M N (a : smatrix fl M N) (v : svector fl N) r, smatrix_mul_vec FO a v = Ok r ->
      forall i m, (i < M)%nat -> cell a i m = Some nan \/ nth_error (entries v) m = Some nan ->
      nth_error (entries r) i = Some nan).
Proof.
  split.
  - intros L M N a b r E i j m Hi Hj H. unfold smatrix_mul in E.
    rewrite (smatrix_mul_total FO _ (float_implements prec emax)) in E. injection E as <-.
    rewrite (cell_mat_at sig) by assumption. f_equal. etransitivity; [exact (mat_at_tab sig L N _ i j Hi Hj)|].
    assert (Hm : (m < M)%nat) by (destruct H as [H|H]; apply cell_bounds in H; tauto).
    rewrite !(cell_mat_at sig) in H by assumption.
    apply (fdot_nan prec emax (fun m => mat_at sig a i m) (fun m => mat_at sig b m j) M m Hm).
    destruct H as [H|H]; injection H as H; auto.
  - intros M N a v r E i m Hi H.
    rewrite (smatrix_mul_vec_total FO _ (float_implements prec emax)) in E. injection E as <-.
    rewrite (nth_error_nth' _ (fl_int prec emax 0)) by (rewrite entries_length; exact Hi). f_equal.
    etransitivity; [exact (@vec_at_tab _ sig M _ i Hi)|].
    assert (Hm : (m < N)%nat).
    { destruct H as [H|H]; [apply cell_bounds in H; tauto|]. rewrite <- (entries_length v). apply nth_error_Some. congruence. }
    apply (fdot_nan prec emax (fun m => mat_at sig a i m) (fun m => vec_at sig v m) N m Hm).
    destruct H as [H|H]; [rewrite (cell_mat_at sig) in H by assumption; injection H as H; auto|].
    right. unfold vec_at. apply nth_error_nth. exact H.
Qed.

Theorem C65_dynamic_product :
  forall (md : target) (a b : dmatrix fl), dm_wf md a -> dm_wf md b -> dm_cols a = dm_rows b ->
  forall r, (e <- dmatrix_mul md (r_mul FO) (r_add FO) a b ;; m_eval e) = Ok r ->
  forall i j m, (i < dm_rows a)%N -> (j < dm_cols b)%N -> (m < dm_cols a)%N ->
  row_major_at a i m = Some nan \/ row_major_at b m j = Some nan -> row_major_at r i j = Some nan.
Proof.
  intros md a b Wa Wb E r Hr i j m Hi Hj Hm H.
  rewrite (dm_mul_total sig (r_add FO) (r_mul FO) (fun _ _ => eq_refl) (fun _ _ => eq_refl) md a b Wa Wb E) in Hr by lia.
  injection Hr as <-. rewrite row_major_tab by assumption. f_equal.
  change (smul sig) with (fl_mul prec emax).
  rewrite (sum1_fdot1 prec emax (fun m => dm_at sig a i (N.of_nat m)) (fun m => dm_at sig b (N.of_nat m) j)).
  apply (fdot1_nan prec emax _ _ _ (N.to_nat m)); [lia|]. rewrite N2Nat.id.
  destruct H as [H|H]; [left|right]; unfold dm_at; apply nth_error_nth; exact H.
Qed.

(** ** Complex numbers *)
Notation has_nan z := (re z = nan \/ im z = nan).

Theorem C65_complex :
  forall z w : complex fl, has_nan z \/ has_nan w ->
  complex_mul FO z w = Ok (Cx nan nan)
  /\ complex_div FF z w = Ok (Cx nan nan).
Proof.
  intros [a b] [c d] H. unfold complex_mul, complex_mul_ref, complex_div, complex_div_ref, complex_sqr_norm, complex_new.
  cbn [re im r_mul r_add r_sub r_one float_ring f_ring f_div float_field bind] in *.
  assert (C : a = nan \/ b = nan \/ c = nan \/ d = nan) by tauto. clear H.
  split; f_equal; f_equal; destruct C as [-> | [-> | [-> | ->]]];
    repeat rewrite ?mul_nan_l, ?mul_nan_r, ?add_nan_l, ?add_nan_r, ?sub_nan_l, ?sub_nan_r, ?div_nan_r; reflexivity.
Qed.

Theorem C65_complex_norms :
  forall z : complex fl, has_nan z ->
  complex_sqr_norm FO z = Ok nan /\ complex_abs FF FE z = Ok nan /\ complex_abs_ref FF FE z = Ok nan.
Proof.
  intros [a b] H. unfold complex_abs, complex_abs_ref, complex_sqr_norm.
  cbn [re im r_mul r_add f_ring float_field float_ring bind fn_sqrt float_fun] in *.
  assert (E : fl_add prec emax (fl_mul prec emax a a) (fl_mul prec emax b b) = nan).
  { destruct H as [-> | ->]; rewrite ?mul_nan_l, ?add_nan_l, ?add_nan_r; reflexivity. }
  rewrite E. auto.
Qed.

(** Finding: an infinite number times [one()] is not itself: one part, or both, become NaN. *)
Theorem C65_infinity_times_one_refuted :
  forall z : complex fl, is_finite (re z) = false \/ is_finite (im z) = false ->
  exists p, complex_mul FO z (complex_one FO) = Ok p /\ complex_eqb FO p z = false.
Proof.
  intros [a b] H. eexists. split; [reflexivity|]. unfold complex_one, complex_new.
  cbn [re im r_mul r_add r_sub r_zero r_one float_ring complex_eqb r_eqb] in *.
  unfold complex_eqb. cbn [re im r_eqb float_ring].
  destruct H as [H|H].
  - rewrite (fl_mul_comm prec emax a (fl_int prec emax 0)), (zero_times_nonfinite prec emax a H), add_nan_l.
    apply andb_false_r.
  - rewrite (fl_mul_comm prec emax b (fl_int prec emax 0)), (zero_times_nonfinite prec emax b H), sub_nan_r. reflexivity.
Qed.
End Fmt.

(** x^2 + NaN x + 1; a matrix with one NaN spoils its row only. *)
Example C65_case :
  poly_eval f64_ring [f64_of_Z 1; B754_nan; f64_of_Z 1] (f64_of_Z 2) = Ok B754_nan
  /\ poly_eval f64_ring [f64_of_Z 3] (B754_infinity false) = Ok B754_nan
  /\ on_ok (smatrix_mul f64_ring (acons (acons B754_nan (acons (f64_of_Z 1) anil)) (acons (acons (f64_of_Z 1) (acons (f64_of_Z 2) anil)) anil))
                                 (acons (acons (f64_of_Z 5) anil) (acons (acons (f64_of_Z 1) anil) anil)))
       (fun r => match cell r 0 0, cell r 1 0 with Some x, Some y => is_nan x && Beqb y (f64_of_Z 7) | _, _ => false end) = true
  /\ on_ok (complex_mul f64_ring (Cx (B754_infinity false) (f64_of_Z 0)) (complex_one f64_ring))
       (fun p => is_nan (im p) && negb (is_finite (re p))) = true.
Proof. repeat split; vm_compute; reflexivity. Qed.

Print Assumptions C65_eval.
Print Assumptions C65_eval_at_infinity_refuted.
Print Assumptions C65_polynomial_product.
Print Assumptions C65_dot_products.
Print Assumptions C65_static_products.
Print Assumptions C65_dynamic_product.
Print Assumptions C65_complex.
Print Assumptions C65_complex_norms.
Print Assumptions C65_infinity_times_one_refuted.
