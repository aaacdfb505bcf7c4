(** Property C68: the inner products and matrix products over the real and complex numbers
    obey the inequalities of Euclidean geometry.

    [real_ring] are the mathematical reals; a result [Ok x] is the exact value the code would
    compute with them.  [vec_at] is entry i of a vector. *)
From Coq Require Import List Arith NArith Lia Reals Lra.
From Verif Require Import Base.Outcome Base.Usize Base.Array Model.Traits Model.RealInstance Model.Complex Model.SVector Model.SMatrix
  Model.DVector Spec.Ring Spec.Sums Spec.Complex Spec.Matrix
  Proofs.RealRing Proofs.ComplexProofs Proofs.ComplexReal Proofs.SMatrixProofs Proofs.DVectorProofs Proofs.DExprProofs Proofs.Paths Proofs.Geometry.
Import ListNotations.
Open Scope nat_scope.

Notation at_ u i := (vec_at real_sig u i).

Lemma dot_rs {n} (u v : svector R n) : svector_dot real_ring u v = Ok (rs n (fun i => at_ u i * at_ v i)%R).
Proof. apply (svector_dot_total _ _ real_implements). Qed.

(** [(u * v)^2 <= (u * u) * (v * v)], with equality for linearly dependent vectors only. *)
Theorem C68_cauchy_schwarz :
  forall n (u v : svector R n), exists uv uu vv,
  svector_dot real_ring u v = Ok uv /\ svector_dot real_ring u u = Ok uu /\ svector_dot real_ring v v = Ok vv
  /\ (uv * uv <= uu * vv)%R
  /\ ((uv * uv = uu * vv)%R <-> exists s t : R, (s <> 0 \/ t <> 0)%R /\ forall i, i < n -> (s * at_ u i = t * at_ v i)%R).
Proof.
  intros n u v. do 3 eexists. split; [apply dot_rs|]. split; [apply dot_rs|]. split; [apply dot_rs|].
  split; [apply cs_real|apply cs_real_eq].
Qed.

(** The length [sqrt (u * u)] obeys the triangle inequality, the parallelogram law and
    Pythagoras' theorem. *)
Theorem C68_lengths :
  forall n (u v : svector R n), exists s d ss dd uu vv uv,
  svector_add real_ring u v = Ok s /\ svector_sub real_ring u v = Ok d
  /\ svector_dot real_ring s s = Ok ss /\ svector_dot real_ring d d = Ok dd
  /\ svector_dot real_ring u u = Ok uu /\ svector_dot real_ring v v = Ok vv /\ svector_dot real_ring u v = Ok uv
  /\ (sqrt ss <= sqrt uu + sqrt vv)%R /\ (Rabs (sqrt uu - sqrt vv) <= sqrt dd)%R
  /\ (ss + dd = 2 * uu + 2 * vv)%R /\ (uv = 0%R <-> (ss = uu + vv)%R).
Proof.
  intros n u v. unfold svector_add, svector_sub.
  rewrite (svector_add_total _ _ real_implements), (svector_sub_total _ _ real_implements).
  do 7 eexists. split; [reflexivity|]. split; [reflexivity|]. split; [apply dot_rs|]. split; [apply dot_rs|].
  split; [apply dot_rs|]. split; [apply dot_rs|]. split; [apply dot_rs|].
  rewrite (rs_ext n _ (fun i => (at_ u i * at_ u i + at_ v i * at_ v i) + 2 * (at_ u i * at_ v i))%R)
    by (intros i Hi; rewrite (vec_at_tab real_sig) by exact Hi; change (sadd real_sig) with Rplus; ring).
  rewrite (rs_ext n (fun i => at_ (vtab _) i * at_ (vtab _) i)%R (fun i => (at_ u i * at_ u i + at_ v i * at_ v i) - 2 * (at_ u i * at_ v i))%R)
    by (intros i Hi; rewrite (vec_at_tab real_sig) by exact Hi; change (ssub real_sig) with Rminus; ring).
  rewrite rs_plus, rs_minus, rs_plus, rs_scal.
  set (U := rs n (fun i => at_ u i * at_ u i)%R). set (V := rs n (fun i => at_ v i * at_ v i)%R). set (P := rs n (fun i => at_ u i * at_ v i)%R).
  assert (CS : (P * P <= U * V)%R) by apply cs_real.
  assert (HU : (0 <= U)%R) by (apply rs_nonneg; intros; apply Rle_0_sqr).
  assert (HV : (0 <= V)%R) by (apply rs_nonneg; intros; apply Rle_0_sqr).
  assert (HS : (0 <= U + V + 2 * P)%R).
  { unfold U, V, P. rewrite <- rs_scal, <- !rs_plus. apply rs_nonneg. intros i _.
    replace (at_ u i * at_ u i + at_ v i * at_ v i + 2 * (at_ u i * at_ v i))%R with (Rsqr (at_ u i + at_ v i)) by (unfold Rsqr; ring). apply Rle_0_sqr. }
  assert (HD : (0 <= U + V - 2 * P)%R).
  { unfold U, V, P. rewrite <- rs_scal, <- !rs_plus, <- rs_minus. apply rs_nonneg. intros i _.
    replace (at_ u i * at_ u i + at_ v i * at_ v i - 2 * (at_ u i * at_ v i))%R with (Rsqr (at_ u i - at_ v i)) by (unfold Rsqr; ring). apply Rle_0_sqr. }
  split; [apply (sqrt_triangle U V _ P); auto; ring|].
  split; [|split; [ring|split; intros; lra]].
  set (D := (U + V - 2 * P)%R) in *.
  assert (CSu : ((P - U) * (P - U) <= U * D)%R) by (unfold D; lra).
  assert (CSv : ((P - V) * (P - V) <= V * D)%R) by (unfold D; lra).
  assert (T1 : (sqrt U <= sqrt V + sqrt D)%R) by (apply (sqrt_triangle V D _ (P - V)%R); auto; unfold D; ring).
  assert (T2 : (sqrt V <= sqrt U + sqrt D)%R) by (apply (sqrt_triangle U D _ (P - U)%R); auto; unfold D; ring).
  apply Rabs_le. lra.
Qed.

(** ** DVector<Complex<R>>: the inner product conjugates its first argument. *)
Definition cdot (u v : dvector (complex R)) : outcome (complex R) :=
  dvector_dot (complex_zero real_ring) (r_add (complex_ops real_ring)) (r_mul (complex_ops real_ring))
              (complex_conj (r_neg real_ring)) u v.
(** [(&u + &v).eval()]. *)
Definition cadd (u v : dvector (complex R)) : outcome (dvector (complex R)) :=
  e <- dvector_binop (r_add (complex_ops real_ring)) u (vexpr_wrap (dvector_expr v)) ;; v_eval e.

Notation c0 := (Cx 0 0)%R.

Lemma cdot_rs u v : length u = length v ->
  cdot u v = Ok (Cx (rs (length u) (fun i => re (nth i u c0) * re (nth i v c0) + im (nth i u c0) * im (nth i v c0)))
                    (rs (length u) (fun i => re (nth i u c0) * im (nth i v c0) - im (nth i u c0) * re (nth i v c0))))%R.
Proof.
  intros L. pose proof (complex_implements real_ring real_sig real_implements) as CI.
  etransitivity.
  - apply (dvector_dot_value (complex_sig real_sig) _ _ _ (fun z : complex R => Cx (re z) (- im z)%R)); try exact L.
    + apply (impl_add _ _ CI).
    + apply (impl_mul _ _ CI).
    + reflexivity.
  - f_equal. generalize (length u). intros n. induction n as [|n IH]; [reflexivity|].
    cbn [sum_n]. rewrite IH, !rs_S. apply complex_ext; simpl; ring.
Qed.

Lemma cadd_total u v : length u = length v ->
  cadd u v = Ok (map (fun '(x, y) => Cx (re x + re y) (im x + im y))%R (combine u v)).
Proof.
  intros L. unfold cadd, dvector_binop. rewrite !vexpr_eta.
  pose proof (vspec_list u) as Su. pose proof (vspec_list v) as Sv.
  assert (E : ulen v = ulen u) by (unfold ulen; rewrite L; reflexivity). rewrite E in Sv.
  destruct (vspec_binop (r_add (complex_ops real_ring)) _ _ _ _ _ Su Sv) as (e & -> & S). cbn [bind].
  rewrite (vs_eval _ _ _ S).
  rewrite <- (mapM_total (fun '(x, y) => Ok (Cx (re x + re y) (im x + im y))%R)) by (intros [x y] _; reflexivity).
  apply mapM_pointwise.
  - unfold ulen. rewrite combine_length, urange_length, Nat2N.id. lia.
  - intros k i [x y] Hi Hk.
    assert (K : k < length u). { pose proof (proj1 (nth_error_Some (combine u v) k) ltac:(congruence)) as Q. rewrite combine_length in Q. lia. }
    rewrite nth_urange in Hi by (unfold ulen; rewrite Nat2N.id; exact K). injection Hi as <-. rewrite !Nat2N.id.
    assert (C : nth_error u k = Some x /\ nth_error v k = Some y).
    { clear - Hk. revert v k Hk. induction u as [|a u IH]; intros [|b v] [|k]; cbn; try discriminate.
      - intros [= <- <-]; auto.
      - apply IH. }
    destruct C as [-> ->]. reflexivity.
Qed.

Lemma nth_map_combine {A B D} (f : A * B -> D) u v a b d i : length u = length v -> i < length u ->
  nth i (map f (combine u v)) d = f (nth i u a, nth i v b).
Proof.
  revert v i; induction u as [|x u IH]; intros [|y v] [|i] L H; simpl in *; try lia; [reflexivity|]. apply IH; lia.
Qed.

Theorem C68_complex_cauchy_schwarz :
  forall u v : dvector (complex R), length u = length v -> exists uv uu vv,
  cdot u v = Ok uv /\ cdot u u = Ok uu /\ cdot v v = Ok vv
  /\ (re uv * re uv + im uv * im uv <= re uu * re vv)%R.
Proof.
  intros u v L. do 3 eexists. split; [apply cdot_rs, L|]. split; [apply cdot_rs; reflexivity|]. split; [apply cdot_rs; reflexivity|].
  cbn [re im]. rewrite <- L.
  pose proof (cauchy_schwarz (length u) (fun i => re (nth i v c0)) (fun i => im (nth i v c0)) (fun i => re (nth i u c0)) (fun i => im (nth i u c0))) as H.
  cbv beta in H. lra.
Qed.

Theorem C68_complex_triangle :
  forall u v : dvector (complex R), length u = length v -> exists s ss uu vv,
  cadd u v = Ok s /\ cdot s s = Ok ss /\ cdot u u = Ok uu /\ cdot v v = Ok vv
  /\ (sqrt (re ss) <= sqrt (re uu) + sqrt (re vv))%R.
Proof.
  intros u v L. rewrite (cadd_total u v L). do 4 eexists. split; [reflexivity|].
  split; [apply cdot_rs; reflexivity|]. split; [apply cdot_rs; reflexivity|]. split; [apply cdot_rs; reflexivity|]. cbn [re].
  rewrite map_length, combine_length, <- L, Nat.min_id.
  set (n := length u). set (a := fun i => re (nth i u c0)). set (b := fun i => im (nth i u c0)).
  set (c := fun i => re (nth i v c0)). set (d := fun i => im (nth i v c0)).
  assert (HU : (0 <= rs n (fun i => a i * a i + b i * b i))%R) by apply U_nonneg.
  assert (HV : (0 <= rs n (fun i => c i * c i + d i * d i))%R) by apply U_nonneg.
  rewrite (rs_ext n _ (fun i => (a i + c i) * (a i + c i) + (b i + d i) * (b i + d i))%R).
  2: { intros i Hi. rewrite (nth_map_combine _ u v c0 c0 c0) by (lia || (fold n; exact Hi)). reflexivity. }
  apply (sqrt_triangle _ _ _ (rs n (fun i => c i * a i + d i * b i)%R)); auto.
  - rewrite (rs_ext n _ (fun i => (a i * a i + b i * b i) + (c i * c i + d i * d i) + 2 * (c i * a i + d i * b i))%R) by (intros; ring).
    rewrite !rs_plus, rs_scal, !rs_plus. unfold a, b, c, d. ring.
  - pose proof (cauchy_schwarz n a b c d) as H. cbv beta in H.
    pose proof (Rle_0_sqr (rs n (fun i => c i * b i - d i * a i)))%R as Q. unfold Rsqr in Q.
    eapply Rle_trans; [|exact H]. lra.
  - apply U_nonneg.
Qed.

(** ** Matrices: the Frobenius norm bounds matrix-vector and matrix-matrix products. *)
Definition frobenius2 {m n} (a : smatrix R m n) : R := sum_n real_sig m (fun i => sum_n real_sig n (fun j => mat_at real_sig a i j * mat_at real_sig a i j)%R).

Lemma frobenius2_rs {m n} (a : smatrix R m n) : frobenius2 a = rs m (fun i => rs n (fun j => mat_at real_sig a i j * mat_at real_sig a i j)%R).
Proof. reflexivity. Qed.

Theorem C68_matrix_vector_bound :
  forall m n (a : smatrix R m n) (x : svector R n), exists y yy xx,
  smatrix_mul_vec real_ring a x = Ok y /\ svector_dot real_ring y y = Ok yy /\ svector_dot real_ring x x = Ok xx
  /\ (yy <= frobenius2 a * xx)%R.
Proof.
  intros m n a x. rewrite (smatrix_mul_vec_total _ _ real_implements). do 3 eexists. split; [reflexivity|].
  split; [apply dot_rs|]. split; [apply dot_rs|]. rewrite frobenius2_rs.
  rewrite Rmult_comm, <- rs_scal. apply rs_le. intros i Hi. rewrite (vec_at_tab real_sig) by exact Hi.
  eapply Rle_trans; [apply (cs_real n (fun j => mat_at real_sig a i j) (fun j => at_ x j))|]. right. apply Rmult_comm.
Qed.

Theorem C68_matrix_product_bound :
  forall l m n (a : smatrix R l m) (b : smatrix R m n), exists p,
  smatrix_mul real_ring a b = Ok p /\ (frobenius2 p <= frobenius2 a * frobenius2 b)%R.
Proof.
  intros l m n a b. unfold smatrix_mul. rewrite (smatrix_mul_total _ _ real_implements). eexists. split; [reflexivity|].
  rewrite (frobenius2_rs (mtab _ _ _)), (frobenius2_rs a). rewrite Rmult_comm, <- rs_scal. apply rs_le. intros i Hi.
  rewrite frobenius2_rs, (rs_swap m n), Rmult_comm, <- rs_scal. apply rs_le. intros j Hj.
  rewrite (mat_at_tab real_sig) by assumption.
  apply (cs_real m (fun k => mat_at real_sig a i k) (fun k => mat_at real_sig b k j)).
Qed.

(** A case in which the inequalities are strict and one of equality. *)
Definition r2 (x y : R) : svector R 2 := acons x (acons y anil).
Example C68_case :
  svector_dot real_ring (r2 1 2) (r2 3 4) = Ok (0 + 1 * 3 + 2 * 4)%R
  /\ ((0 + 1 * 3 + 2 * 4) * (0 + 1 * 3 + 2 * 4) < (0 + 1 * 1 + 2 * 2) * (0 + 3 * 3 + 4 * 4))%R
  /\ length [Cx 1 2; Cx 0 3]%R = length [Cx 0 1; Cx 5 6]%R.
Proof. split; [reflexivity|]. split; [lra|reflexivity]. Qed.

Print Assumptions C68_cauchy_schwarz.
Print Assumptions C68_lengths.
Print Assumptions C68_complex_cauchy_schwarz.
Print Assumptions C68_complex_triangle.
Print Assumptions C68_matrix_vector_bound.
Print Assumptions C68_matrix_product_bound.
