(** Property C83: normwise accuracy of computations with Complex<f32>/Complex<f64>.

    Exact complex numbers are pairs of reals (Spec/ComplexErr.v); [cnorm] is the absolute value. *)
From Coq Require Import List ZArith NArith Reals Bool Lia Lra.
From Flocq Require Import Core.Core IEEE754.BinarySingleNaN.
From Verif Require Import Base.Outcome Base.Usize Base.Array Model.Traits Model.Float Model.Polynomial Model.Complex
  Model.SVector Model.SMatrix Model.DVector Model.DMatrix
  Spec.Ring Spec.Sums Spec.Complex Spec.Matrix Spec.DExpr Spec.DMatrix Spec.FloatErr Spec.ComplexErr
  Proofs.FloatErr Proofs.ComplexErr Proofs.SMatrixProofs Proofs.DVectorProofs Proofs.DMatrixProofs Proofs.ComplexProofs
  Props.FloatProps.
Import ListNotations.
Local Open Scope R_scope.

Section Fmt.
Context (prec emax : Z) {Hp : Prec_gt_0 prec} {He : Prec_lt_emax prec emax}.
Notation fl := (binary_float prec emax).
Notation FO := (float_ring prec emax).
Notation CO := (complex_ops FO).
Notation FS := (float_sig prec emax).
Notation CS := (complex_sig FS).
Notation u := (unit_roundoff prec).

(** [r] differs from the exact number [e] by at most [b], if it is finite. *)
Definition close_if_finite (r : complex fl) (e : cplx) (b : R) : Prop :=
  cfinite r -> cnorm (csub (cval r) e) <= b.

(** ** Single operations: + and - have relative error u, * about 2.31 u (plus underflow). *)
Theorem C83_add_accurate :
  forall z w : complex fl, exists s, complex_add (r_add FO) z w = Ok s
  /\ close_if_finite s (cadd (cval z) (cval w)) (u * cnorm (cadd (cval z) (cval w))).
Proof.
  intros z w. exists (sadd CS z w). split; [reflexivity|]. intros F. apply (cadd_error prec emax z w F).
Qed.
Theorem C83_sub_accurate :
  forall z w : complex fl, exists s, complex_sub (r_sub FO) z w = Ok s
  /\ close_if_finite s (csub (cval z) (cval w)) (u * cnorm (csub (cval z) (cval w))).
Proof.
  intros z w. exists (ssub CS z w). split; [reflexivity|]. intros F.
  assert (E : ssub CS z w = sadd CS z (sneg CS w)).
  { destruct z as [a b], w as [c d]. cbn [sadd ssub sneg complex_sig re im]. f_equal; apply (sub_add prec emax). }
  rewrite E in F |- *. destruct (cadd_error prec emax _ _ F) as (_ & _ & B).
  assert (Ec : cadd (cval z) (cval (sneg CS w)) = csub (cval z) (cval w)).
  { destruct z as [a b], w as [c d]. unfold cval, cadd, csub. cbn [sneg complex_sig re im fst snd].
    change (sneg FS) with (@Bopp prec emax). rewrite !B2R_Bopp. f_equal; ring. }
  rewrite Ec in B. exact B.
Qed.
Theorem C83_mul_accurate :
  forall z w : complex fl, exists p, complex_mul FO z w = Ok p
  /\ close_if_finite p (cmul (cval z) (cval w))
       (mul_roundoff prec * (cnorm (cval z) * cnorm (cval w)) + mul_underflow prec emax).
Proof.
  intros z w. exists (smul CS z w). split; [reflexivity|]. intros F. apply cmul_error, F.
Qed.

(** ** Horner's rule, [n] the degree: at most (1 + 2.31u)(1 + u) per step. *)
Theorem C83_horner_accurate :
  forall (p : poly (complex fl)) (x : complex fl),
  let n := (length p - 1)%nat in
  let g := (1 + mul_roundoff prec) * (1 + u) in
  let X := cnorm (cval x) in
  exists r, poly_eval CO p x = Ok r
  /\ (cfinite r -> Forall cfinite p /\ (p <> [] -> cfinite x))
  /\ close_if_finite r (csum (length p) (fun i => cmul (centry p i) (cpow (cval x) i)))
       ((g ^ n - 1) * rsum (length p) (fun i => cnorm (centry p i) * X ^ i)
        + (1 + u) * mul_underflow prec emax * rsum n (fun i => g ^ i * X ^ i)).
Proof.
  intros p x n g X. exists (c_horner prec emax p x). split; [apply cpoly_eval_horner|].
  split; [apply c_horner_finite|]. intros F. apply (c_horner_error prec emax p x F).
Qed.

(** ** Dot products and matrix products *)
Notation exact n a b := (csum n (fun i => cmul (a i) (b i))).
Notation mag n a b := (rsum n (fun i => cnorm (a i) * cnorm (b i))).

Lemma centry_nth (l : list (complex fl)) d i : cval d = c0 -> cval (nth i l d) = centry l i.
Proof. intros H. unfold centry. rewrite <- H. symmetry. apply (map_nth cval). Qed.
Lemma cval_zero : cval (sz CS) = c0.
Proof. unfold cval. cbn [re im sz complex_sig]. change (sz FS) with (fl_int prec emax 0). rewrite (proj1 (zero_value prec emax)). reflexivity. Qed.

Lemma cdot_close n (a b : nat -> complex fl) f g :
  (forall i, (i < n)%nat -> cval (a i) = f i) -> (forall i, (i < n)%nat -> cval (b i) = g i) ->
  close_if_finite (cdot prec emax a b n) (exact n f g) (cdot_bound prec emax n (mag n f g)).
Proof.
  intros Ha Hb F. pose proof (cdot_error prec emax a b n F) as E.
  rewrite (csum_ext n (fun i => cmul (f i) (g i)) (fun i => cmul (cval (a i)) (cval (b i)))) by (intros; rewrite Ha, Hb; auto).
  rewrite (rsum_ext n (fun i => cnorm (f i) * cnorm (g i)) (fun i => cnorm (cval (a i)) * cnorm (cval (b i))))
    by (intros; rewrite Ha, Hb; auto).
  exact E.
Qed.
Lemma cdot1_close n (a b : nat -> complex fl) f g :
  (forall i, (i < S n)%nat -> cval (a i) = f i) -> (forall i, (i < S n)%nat -> cval (b i) = g i) ->
  close_if_finite (cdot1 prec emax a b n) (exact (S n) f g) (cdot_bound prec emax (S n) (mag (S n) f g)).
Proof.
  intros Ha Hb F. pose proof (cdot1_error prec emax a b n F) as E.
  rewrite (csum_ext (S n) (fun i => cmul (f i) (g i)) (fun i => cmul (cval (a i)) (cval (b i)))) by (intros; rewrite Ha, Hb; auto).
  rewrite (rsum_ext (S n) (fun i => cnorm (f i) * cnorm (g i)) (fun i => cnorm (cval (a i)) * cnorm (cval (b i))))
    by (intros; rewrite Ha, Hb; auto).
  exact E.
Qed.

Theorem C83_svector_dot_accurate :
  forall (n : nat) (a b : svector (complex fl) n),
  exists r, svector_dot CO a b = Ok r
  /\ close_if_finite r (exact n (centry (entries a)) (centry (entries b)))
       (cdot_bound prec emax n (mag n (centry (entries a)) (centry (entries b)))).
Proof.
  intros n a b. unfold svector_dot. rewrite (svector_dot_total CO _ (float_complex_implements prec emax)).
  eexists; split; [reflexivity|].
  apply (cdot_close n (fun i => vec_at CS a i) (fun i => vec_at CS b i)); intros; apply centry_nth, cval_zero.
Qed.

(** [dot] of DVector conjugates the first factor. *)
Theorem C83_dvector_dot_accurate :
  forall a b : dvector (complex fl), length a = length b ->
  let n := length a in
  exists r, dvector_dot (r_zero CO) (r_add CO) (r_mul CO) (complex_conj (r_neg FO)) a b = Ok r
  /\ close_if_finite r (exact n (fun i => cconj (centry a i)) (centry b))
       (cdot_bound prec emax n (mag n (centry a) (centry b))).
Proof.
  intros a b E n. unfold dvector_dot.
  pose proof (dvector_dot_value CS (r_add CO) (r_mul CO) (complex_conj (r_neg FO)) (fun x => Cx (re x) (Bopp (im x)))
    (fun _ _ => eq_refl) (fun _ _ => eq_refl) (fun _ => eq_refl) a b E) as D.
  eexists; split; [exact D|].
  rewrite (rsum_ext _ _ (fun i => cnorm (cconj (centry a i)) * cnorm (centry b i))) by (intros; rewrite cnorm_conj; reflexivity).
  apply (cdot_close n (fun i => (fun x => Cx (re x) (Bopp (im x))) (nth i a (sz CS))) (fun i => nth i b (sz CS)));
    intros i _; [|apply centry_nth, cval_zero].
  rewrite <- (centry_nth a (sz CS)) by apply cval_zero. unfold cval, cconj. cbn [re im fst snd]. rewrite B2R_Bopp. reflexivity.
Qed.

Theorem C83_smatrix_product_accurate :
  forall (L M N : nat) (a : smatrix (complex fl) L M) (b : smatrix (complex fl) M N),
  exists r, smatrix_mul CO a b = Ok r
  /\ forall i j, (i < L)%nat -> (j < N)%nat -> forall x, nth_error (nth i (map entries (entries r)) []) j = Some x ->
     close_if_finite x (exact M (csmat a i) (fun m => csmat b m j))
       (cdot_bound prec emax M (mag M (csmat a i) (fun m => csmat b m j))).
Proof.
  intros L M N a b. unfold smatrix_mul. rewrite (smatrix_mul_total CO _ (float_complex_implements prec emax)).
  eexists; split; [reflexivity|]. intros i j Hi Hj x Hx.
  pose proof (mat_at_tab CS L N (fun l n => sum_n CS M (fun m =>
      smul CS (mat_at CS a l m) (mat_at CS b m n))) i j Hi Hj) as E.
  unfold mat_at at 1 in E. rewrite (nth_error_nth _ _ _ Hx) in E. subst x.
  apply (cdot_close M (fun m => mat_at CS a i m) (fun m => mat_at CS b m j)); intros; apply centry_nth, cval_zero.
Qed.

Theorem C83_smatrix_vector_accurate :
  forall (M N : nat) (a : smatrix (complex fl) M N) (v : svector (complex fl) N),
  exists r, smatrix_mul_vec CO a v = Ok r
  /\ forall i, (i < M)%nat -> forall x, nth_error (entries r) i = Some x ->
     close_if_finite x (exact N (csmat a i) (centry (entries v)))
       (cdot_bound prec emax N (mag N (csmat a i) (centry (entries v)))).
Proof.
  intros M N a v. rewrite (smatrix_mul_vec_total CO _ (float_complex_implements prec emax)).
  eexists; split; [reflexivity|]. intros i Hi x Hx.
  pose proof (@vec_at_tab _ CS M (fun i => sum_n CS N (fun j =>
      smul CS (mat_at CS a i j) (vec_at CS v j))) i Hi) as E.
  unfold vec_at at 1 in E. rewrite (nth_error_nth _ _ _ Hx) in E. subst x.
  apply (cdot_close N (fun j => mat_at CS a i j) (fun j => vec_at CS v j)); intros; apply centry_nth, cval_zero.
Qed.

Lemma csum1_cdot1 a b n : sum1 CS n (fun i => smul CS (a i) (b i)) = cdot1 prec emax a b n.
Proof. induction n as [|n IH]; [reflexivity|]. cbn [sum1 cdot1]. rewrite IH. reflexivity. Qed.

Theorem C83_dmatrix_product_accurate :
  forall (md : target) (a b : dmatrix (complex fl)), dm_wf md a -> dm_wf md b -> dm_cols a = dm_rows b -> (1 <= dm_cols a)%N ->
  let k := N.to_nat (dm_cols a) in
  exists r, (e <- dmatrix_mul md (r_mul CO) (r_add CO) a b ;; m_eval e) = Ok r
  /\ dm_rows r = dm_rows a /\ dm_cols r = dm_cols b
  /\ forall i j, (i < dm_rows a)%N -> (j < dm_cols b)%N -> forall x,
     nth_error (dm_data r) (N.to_nat (i * dm_cols b + j)) = Some x ->
     close_if_finite x (exact k (fun m => cdmat a i (N.of_nat m)) (fun m => cdmat b (N.of_nat m) j))
       (cdot_bound prec emax k (mag k (fun m => cdmat a i (N.of_nat m)) (fun m => cdmat b (N.of_nat m) j))).
Proof.
  intros md a b Wa Wb E H1 k.
  rewrite (dm_mul_total CS (r_add CO) (r_mul CO) (fun _ _ => eq_refl) (fun _ _ => eq_refl) md a b Wa Wb E H1).
  eexists; split; [reflexivity|]. split; [reflexivity|]. split; [reflexivity|]. intros i j Hi Hj x Hx.
  match type of Hx with nth_error (dm_data (dm_tab _ _ ?g)) _ = _ =>
    pose proof (dm_at_tab CS (dm_rows a) (dm_cols b) g i j Hi Hj) as D end.
  unfold dm_at at 1 in D. change (dm_cols (dm_tab (dm_rows a) (dm_cols b) _)) with (dm_cols b) in D.
  rewrite (nth_error_nth _ _ _ Hx) in D. subst x.
  rewrite (csum1_cdot1 (fun m => dm_at CS a i (N.of_nat m)) (fun m => dm_at CS b (N.of_nat m) j)) in *.
  assert (Ek : k = S (Nat.pred (N.to_nat (dm_cols a)))) by (unfold k; lia).
  rewrite Ek. set (n := Nat.pred (N.to_nat (dm_cols a))) in *.
  apply (cdot1_close n (fun m => dm_at CS a i (N.of_nat m)) (fun m => dm_at CS b (N.of_nat m) j));
    intros; apply centry_nth, cval_zero.
Qed.

End Fmt.

(** ** Cases in binary64 *)
Definition fin2 (z : complex f64) : bool := is_finite (re z) && is_finite (im z) && Bltb (f64_of_Z 0) (im z).
Example C83_case_ops :
  on_ok (complex_add (r_add f64_ring) (Cx third (f64_of_Z 2)) (Cx (f64_of_Z 5) third)) fin2
  && on_ok (complex_sub (r_sub f64_ring) (Cx third (f64_of_Z 2)) (Cx (f64_of_Z 5) third)) fin2
  && on_ok (complex_mul f64_ring (Cx third (f64_of_Z 2)) (Cx (f64_of_Z 5) third)) fin2 = true.
Proof. vm_compute. reflexivity. Qed.
Example C83_case_horner :
  on_ok (poly_eval (complex_ops f64_ring) [Cx third (f64_of_Z 2); Cx (f64_of_Z 5) third; Cx third third] (Cx third (f64_of_Z 1))) fin2 = true.
Proof. vm_compute. reflexivity. Qed.
Example C83_case_dot :
  on_ok (svector_dot (complex_ops f64_ring) (acons (Cx third (f64_of_Z 2)) (acons (Cx (f64_of_Z 5) third) anil))
           (acons (Cx third third) (acons (Cx (f64_of_Z 7) third) anil))) fin2
  && on_ok (dvector_dot (r_zero (complex_ops f64_ring)) (r_add (complex_ops f64_ring)) (r_mul (complex_ops f64_ring))
              (complex_conj (r_neg f64_ring)) [Cx third third; Cx (f64_of_Z 5) third] [Cx third (f64_of_Z 2); Cx third third]) fin2 = true.
Proof. vm_compute. reflexivity. Qed.
Example C83_case_matrix :
  on_ok (smatrix_mul_vec (complex_ops f64_ring)
           (acons (acons (Cx third third) (acons (Cx (f64_of_Z 3) third) anil)) anil)
           (acons (Cx third third) (acons (Cx (f64_of_Z 7) third) anil)))
        (fun r => forallb fin2 (entries r))
  && on_ok (e <- dmatrix_mul Release (r_mul (complex_ops f64_ring)) (r_add (complex_ops f64_ring))
                (MkDM [Cx third third; Cx (f64_of_Z 3) third] 1 2) (MkDM [Cx third third; Cx (f64_of_Z 7) third] 2 1) ;; m_eval e)
        (fun r => forallb fin2 (dm_data r)) = true.
Proof. vm_compute. reflexivity. Qed.
(** The bound for products is within 4% of what happens: for z = (12582912 + 12582909 i)/2^24 and
    w = (11184818 + 11184814 i)/2^24 in f32 the product is off by more than 2.23 u |z||w|. *)
Theorem C83_mul_error_reached : exists z w p : complex (binary_float 24 128),
  complex_mul (float_ring 24 128) z w = Ok p /\ cfinite p
  /\ 223 / 100 * unit_roundoff 24 * (cnorm (cval z) * cnorm (cval w)) < cnorm (csub (cval p) (cmul (cval z) (cval w))).
Proof.
  set (lit n := fl_div 24 128 (fl_int 24 128 n) (fl_int 24 128 16777216)).
  set (a := lit 12582912%Z). set (b := lit 12582909%Z). set (c := lit 11184818%Z). set (d := lit 11184814%Z).
  exists (Cx a b), (Cx c d), (smul (complex_sig (float_sig 24 128)) (Cx a b) (Cx c d)).
  split; [reflexivity|]. split; [split; vm_compute; reflexivity|].
  set (p := smul _ _ _). apply Rnot_le_lt. intros N.
  assert (Ea : B2R a = 12582912 / 16777216) by (vm_compute; lra). assert (Eb : B2R b = 12582909 / 16777216) by (vm_compute; lra).
  assert (Ec : B2R c = 11184818 / 16777216) by (vm_compute; lra). assert (Ed : B2R d = 11184814 / 16777216) by (vm_compute; lra).
  assert (Er : B2R (re p) = 3 / 8388608) by (vm_compute; lra). assert (Ei : B2R (im p) = 4194305 / 4194304) by (vm_compute; lra).
  assert (Eu : unit_roundoff 24 = / 16777216) by (unfold unit_roundoff; simpl; lra).
  set (l := cnorm (csub _ _)) in N. set (m := cnorm (cval (Cx a b)) * cnorm (cval (Cx c d))) in N.
  assert (L0 : 0 <= l) by apply cnorm_nonneg.
  assert (M2 : m * m = (B2R a * B2R a + B2R b * B2R b) * (B2R c * B2R c + B2R d * B2R d)).
  { unfold m. replace (cnorm (cval (Cx a b)) * cnorm (cval (Cx c d)) * (cnorm (cval (Cx a b)) * cnorm (cval (Cx c d))))
      with ((cnorm (cval (Cx a b)) * cnorm (cval (Cx a b))) * (cnorm (cval (Cx c d)) * cnorm (cval (Cx c d)))) by ring.
    rewrite !cnorm_sq. reflexivity. }
  assert (L2 : l * l = (B2R (re p) - (B2R a * B2R c - B2R b * B2R d)) * (B2R (re p) - (B2R a * B2R c - B2R b * B2R d))
                     + (B2R (im p) - (B2R a * B2R d + B2R b * B2R c)) * (B2R (im p) - (B2R a * B2R d + B2R b * B2R c))).
  { unfold l. rewrite cnorm_sq. reflexivity. }
  assert (Q : l * l <= (223 / 100 * unit_roundoff 24 * m) * (223 / 100 * unit_roundoff 24 * m)) by (apply Rmult_le_compat; assumption).
  replace (223 / 100 * unit_roundoff 24 * m * (223 / 100 * unit_roundoff 24 * m))
    with (223 / 100 * unit_roundoff 24 * (223 / 100 * unit_roundoff 24) * (m * m)) in Q by ring.
  rewrite L2, M2, Er, Ei, Ea, Eb, Ec, Ed, Eu in Q. lra.
Qed.

(** The constants are what the comments say: 2.31 u and 2.83 eta. *)
Example C83_constants :
  mul_roundoff 53 <= 231 / 100 * unit_roundoff 53 /\ mul_underflow 53 1024 <= 283 / 100 * underflow_unit 53 1024.
Proof.
  assert (S2 : sqrt 2 <= 14143 / 10000).
  { apply sq_le; [lra|]. rewrite sqrt_sqrt by lra. lra. }
  assert (S3 : sqrt (4 / 3) <= 11548 / 10000).
  { apply sq_le; [lra|]. rewrite sqrt_sqrt by lra. lra. }
  assert (HU : 0 < unit_roundoff 53 <= / 1048576).
  { split; [apply u_pos|]. unfold unit_roundoff. change (/ 1048576) with (bpow radix2 (-20)). apply bpow_le. lia. }
  pose proof (eta_pos 53 1024) as HE. set (v := unit_roundoff 53) in *. set (e := underflow_unit 53 1024) in *.
  assert (P0 : 0 <= sqrt 2) by apply sqrt_pos.
  unfold mul_roundoff, mul_underflow. fold v. fold e. split.
  - apply Rle_trans with (11548 / 10000 * (2 * (v + v ^ 2))).
    + apply Rmult_le_compat_r; [|exact S3]. assert (0 <= v * v) by (apply Rmult_le_pos; lra). cbn [Rpow_def.pow]. lra.
    + cbn [Rpow_def.pow]. assert (v * v <= / 1048576 * v) by (apply Rmult_le_compat_r; lra). lra.
  - apply Rle_trans with (14143 / 10000 * (2 * (1 + v) * e)).
    + apply Rmult_le_compat_r; [|exact S2]. apply Rmult_le_pos; lra.
    + assert (v * e <= / 1048576 * e) by (apply Rmult_le_compat_r; lra). lra.
Qed.
Print Assumptions C83_add_accurate.
Print Assumptions C83_sub_accurate.
Print Assumptions C83_mul_accurate.
Print Assumptions C83_horner_accurate.
Print Assumptions C83_svector_dot_accurate.
Print Assumptions C83_dvector_dot_accurate.
Print Assumptions C83_smatrix_product_accurate.
Print Assumptions C83_smatrix_vector_accurate.
Print Assumptions C83_dmatrix_product_accurate.
Print Assumptions C83_mul_error_reached.
