(** Property C98: sums and products of floats and complex floats do not overflow before their
    exact bounds do.  Finite inputs give finite results whenever the sum of the absolute values of
    all terms, plus the rounding error bound of C52/C83, is below 2^emax (the first power of two
    that is not a float); intermediate results do not overflow on their own. *)
From Coq Require Import List ZArith NArith Reals Bool Lia Lra.
From Flocq Require Import Core.Core IEEE754.BinarySingleNaN.
From Verif Require Import Base.Outcome Base.Usize Base.Array Model.Traits Model.Float Model.Polynomial Model.Complex
  Model.SVector Model.SMatrix Model.DVector Model.DMatrix
  Spec.Ring Spec.Sums Spec.Complex Spec.Matrix Spec.DExpr Spec.DMatrix Spec.FloatErr Spec.ComplexErr
  Proofs.FloatErr Proofs.FloatInt Proofs.ComplexErr Proofs.NoOverflow
  Proofs.SMatrixProofs Proofs.DVectorProofs Proofs.DMatrixProofs Proofs.DExprProofs Proofs.ComplexProofs
  Props.FloatProps Props.ComplexErrProps.
Import ListNotations.
Local Open Scope R_scope.

Section Fmt.
Context (prec emax : Z) {Hp : Prec_gt_0 prec} {He : Prec_lt_emax prec emax}.
Notation fl := (binary_float prec emax).
Notation FO := (float_ring prec emax).
Notation CO := (complex_ops FO).
Notation FS := (float_sig prec emax).
Notation CS := (complex_sig FS).
Notation u := (unit_roundoff prec).
Notation k := (mul_roundoff prec).
Notation t := (mul_underflow prec emax).

(** All entries of a list or matrix are finite. *)
Definition all_finite (l : list fl) : Prop := Forall (fun x => is_finite x = true) l.
Definition all_cfinite (l : list (complex fl)) : Prop := Forall cfinite l.
Definition rows_finite {m n} (a : smatrix fl m n) : Prop := Forall all_finite (map entries (entries a)).
Definition rows_cfinite {m n} (a : smatrix (complex fl) m n) : Prop := Forall all_cfinite (map entries (entries a)).

(** ** Complex numbers: single operations *)
Theorem C98_add :
  forall z w : complex fl, cfinite z -> cfinite w -> (1 + u) * cnorm (cadd (cval z) (cval w)) < bpow radix2 emax ->
  exists s, complex_add (r_add FO) z w = Ok s /\ cfinite s.
Proof. intros z w Fz Fw H. exists (sadd CS z w). split; [reflexivity|]. apply cadd_fin; assumption. Qed.
Theorem C98_sub :
  forall z w : complex fl, cfinite z -> cfinite w -> (1 + u) * cnorm (csub (cval z) (cval w)) < bpow radix2 emax ->
  exists s, complex_sub (r_sub FO) z w = Ok s /\ cfinite s.
Proof. intros z w Fz Fw H. exists (ssub CS z w). split; [reflexivity|]. apply csub_fin; assumption. Qed.
Theorem C98_mul :
  forall z w : complex fl, cfinite z -> cfinite w -> (1 + k) * (cnorm (cval z) * cnorm (cval w)) + t < bpow radix2 emax ->
  exists p, complex_mul FO z w = Ok p /\ cfinite p.
Proof. intros z w Fz Fw H. exists (smul CS z w). split; [reflexivity|]. apply cmul_fin; assumption. Qed.

(** ** Horner's rule *)
Theorem C98_horner :
  forall (p : poly (complex fl)) (x : complex fl), all_cfinite p -> cfinite x ->
  let n := (length p - 1)%nat in
  let g := (1 + k) * (1 + u) in
  let X := Rmax 1 (cnorm (cval x)) in
  g ^ n * rsum (length p) (fun i => cnorm (centry p i) * X ^ i)
    + (1 + u) * t * rsum n (fun i => g ^ i * X ^ i) < bpow radix2 emax ->
  exists r, poly_eval CO p x = Ok r /\ cfinite r.
Proof.
  intros p x Fp Fx n g X HB. exists (c_horner prec emax p x). split; [apply cpoly_eval_horner|].
  apply (chorner_no_overflow prec emax p x X Fp Fx); [apply Rmax_l|apply Rmax_r|exact HB].
Qed.

(** ** Sums of products: [fits_c n a b], [fits_r n a b] are the conditions. *)
Definition fits_c (n : nat) (a b : nat -> cplx) : Prop :=
  let mag := rsum n (fun i => cnorm (a i) * cnorm (b i)) in
  mag + cdot_bound prec emax n mag < bpow radix2 emax.
Definition fits_r (n : nat) (a b : nat -> R) : Prop :=
  let mag := rsum n (fun i => Rabs (a i) * Rabs (b i)) in
  mag + dot_bound prec emax n mag < bpow radix2 emax.

Lemma fits_W n (a b : nat -> complex fl) f g :
  (forall i, (i < n)%nat -> cval (a i) = f i) -> (forall i, (i < n)%nat -> cval (b i) = g i) ->
  fits_c n f g -> W prec emax a b n < bpow radix2 emax.
Proof.
  intros Ha Hb H. unfold W, fits_c in *.
  rewrite (rsum_ext n (fun i => cnorm (cval (a i)) * cnorm (cval (b i))) (fun i => cnorm (f i) * cnorm (g i)))
    by (intros; rewrite Ha, Hb; auto). exact H.
Qed.
Lemma fits_D n (a b : nat -> fl) f g :
  (forall i, (i < n)%nat -> B2R (a i) = f i) -> (forall i, (i < n)%nat -> B2R (b i) = g i) ->
  fits_r n f g -> let m := rsum n (fun i => Rabs (B2R (a i)) * Rabs (B2R (b i))) in m + dot_bound prec emax n m < bpow radix2 emax.
Proof.
  intros Ha Hb H. unfold fits_r in *. cbv zeta.
  rewrite (rsum_ext n (fun i => Rabs (B2R (a i)) * Rabs (B2R (b i))) (fun i => Rabs (f i) * Rabs (g i)))
    by (intros; rewrite Ha, Hb; auto). exact H.
Qed.
Lemma Forall_at {A} (P : A -> Prop) l d i : Forall P l -> P d -> P (nth i l d).
Proof.
  intros H Hd. destruct (Nat.lt_ge_cases i (length l)) as [L|L].
  - rewrite Forall_forall in H. apply H, nth_In, L.
  - rewrite nth_overflow by exact L. exact Hd.
Qed.
Lemma zfin : cfinite (sz CS).
Proof. split; apply (zero_value prec emax). Qed.
Lemma zfinr : is_finite (fl_int prec emax 0) = true.
Proof. apply (zero_value prec emax). Qed.
Lemma row_at m n (a : smatrix (complex fl) m n) i j : rows_cfinite a -> cfinite (mat_at CS a i j).
Proof.
  intros H. unfold mat_at. apply (Forall_at cfinite); [|apply zfin].
  apply (Forall_at all_cfinite); [exact H|]. constructor.
Qed.
Lemma row_atr m n (a : smatrix fl m n) i j : rows_finite a -> is_finite (mat_at FS a i j) = true.
Proof.
  intros H. unfold mat_at. apply (Forall_at (fun x => is_finite x = true)); [|apply zfinr].
  apply (Forall_at all_finite); [exact H|]. constructor.
Qed.

Theorem C98_svector_dot :
  forall (n : nat) (a b : svector (complex fl) n), all_cfinite (entries a) -> all_cfinite (entries b) ->
  fits_c n (centry (entries a)) (centry (entries b)) ->
  exists r, svector_dot CO a b = Ok r /\ cfinite r.
Proof.
  intros n a b Fa Fb H. unfold svector_dot. rewrite (svector_dot_total CO _ (float_complex_implements prec emax)).
  eexists; split; [reflexivity|]. apply (cdot_no_overflow prec emax (vec_at CS a) (vec_at CS b)).
  - intros i _. split; apply (Forall_at cfinite); try assumption; apply zfin.
  - apply (fits_W n _ _ (centry (entries a)) (centry (entries b))); [intros; apply centry_nth, cval_zero..|exact H].
Qed.

(** [dot] of DVector conjugates the first factor; that changes no absolute value. *)
Theorem C98_dvector_dot :
  forall a b : dvector (complex fl), length a = length b -> all_cfinite a -> all_cfinite b ->
  fits_c (length a) (centry a) (centry b) ->
  exists r, dvector_dot (r_zero CO) (r_add CO) (r_mul CO) (complex_conj (r_neg FO)) a b = Ok r /\ cfinite r.
Proof.
  intros a b E Fa Fb H. unfold dvector_dot.
  pose proof (dvector_dot_value CS (r_add CO) (r_mul CO) (complex_conj (r_neg FO)) (fun x => Cx (re x) (Bopp (im x)))
    (fun _ _ => eq_refl) (fun _ _ => eq_refl) (fun _ => eq_refl) a b E) as D.
  eexists; split; [exact D|].
  apply (cdot_no_overflow prec emax (fun i => (fun x => Cx (re x) (Bopp (im x))) (nth i a (sz CS))) (fun i => nth i b (sz CS))).
  - intros i _. split; [|apply (Forall_at cfinite); [exact Fb|apply zfin]].
    destruct (Forall_at _ a (sz CS) i Fa zfin) as [F1 F2]. split; cbn [re im]; [exact F1|].
    rewrite (opp_finite prec emax). exact F2.
  - apply (fits_W (length a) _ _ (fun i => cconj (centry a i)) (centry b)).
    + intros i _. rewrite <- (centry_nth prec emax a (sz CS)) by apply cval_zero.
      unfold cval, cconj. cbn [re im fst snd]. rewrite B2R_Bopp. reflexivity.
    + intros; apply centry_nth, cval_zero.
    + unfold fits_c in *.
      rewrite (rsum_ext _ (fun i => cnorm (cconj (centry a i)) * cnorm (centry b i)) (fun i => cnorm (centry a i) * cnorm (centry b i)))
        by (intros; rewrite cnorm_conj; reflexivity). exact H.
Qed.

Theorem C98_smatrix_product :
  forall (L M N : nat) (a : smatrix (complex fl) L M) (b : smatrix (complex fl) M N), rows_cfinite a -> rows_cfinite b ->
  exists r, smatrix_mul CO a b = Ok r
  /\ forall i j, (i < L)%nat -> (j < N)%nat -> fits_c M (csmat a i) (fun m => csmat b m j) ->
     exists x, nth_error (nth i (map entries (entries r)) []) j = Some x /\ cfinite x.
Proof.
  intros L M N a b Fa Fb. unfold smatrix_mul. rewrite (smatrix_mul_total CO _ (float_complex_implements prec emax)).
  eexists; split; [reflexivity|]. intros i j Hi Hj H.
  pose proof (mat_at_tab CS L N (fun l n => sum_n CS M (fun m =>
      smul CS (mat_at CS a l m) (mat_at CS b m n))) i j Hi Hj) as E.
  eexists. split.
  - apply (nth_error_nth' _ (sz CS)). rewrite (nth_indep _ [] (entries (tab N (fun _ => sz CS)))) by (rewrite map_length, entries_length; exact Hi).
    rewrite map_nth, entries_length. exact Hj.
  - unfold mat_at at 1 in E. rewrite E. apply (cdot_no_overflow prec emax (fun m => mat_at CS a i m) (fun m => mat_at CS b m j)).
    + intros m _. split; apply row_at; assumption.
    + apply (fits_W M _ _ (csmat a i) (fun m => csmat b m j)); [intros; apply centry_nth, cval_zero..|exact H].
Qed.

Theorem C98_smatrix_vector :
  forall (M N : nat) (a : smatrix (complex fl) M N) (v : svector (complex fl) N), rows_cfinite a -> all_cfinite (entries v) ->
  exists r, smatrix_mul_vec CO a v = Ok r
  /\ forall i, (i < M)%nat -> fits_c N (csmat a i) (centry (entries v)) ->
     exists x, nth_error (entries r) i = Some x /\ cfinite x.
Proof.
  intros M N a v Fa Fv. rewrite (smatrix_mul_vec_total CO _ (float_complex_implements prec emax)).
  eexists; split; [reflexivity|]. intros i Hi H.
  pose proof (@vec_at_tab _ CS M (fun i => sum_n CS N (fun j =>
      smul CS (mat_at CS a i j) (vec_at CS v j))) i Hi) as E.
  eexists. split; [apply (nth_error_nth' _ (sz CS)); rewrite entries_length; exact Hi|].
  unfold vec_at at 1 in E. unfold vtab in E. rewrite E. apply (cdot_no_overflow prec emax (fun j => mat_at CS a i j) (fun j => vec_at CS v j)).
  - intros m _. split; [apply row_at; assumption|]. apply (Forall_at cfinite); [exact Fv|apply zfin].
  - apply (fits_W N _ _ (csmat a i) (centry (entries v))); [intros; apply centry_nth, cval_zero..|exact H].
Qed.

Theorem C98_dmatrix_product :
  forall (md : target) (a b : dmatrix (complex fl)), dm_wf md a -> dm_wf md b -> dm_cols a = dm_rows b -> (1 <= dm_cols a)%N ->
  all_cfinite (dm_data a) -> all_cfinite (dm_data b) ->
  exists r, (e <- dmatrix_mul md (r_mul CO) (r_add CO) a b ;; m_eval e) = Ok r
  /\ forall i j, (i < dm_rows a)%N -> (j < dm_cols b)%N ->
     fits_c (N.to_nat (dm_cols a)) (fun m => cdmat a i (N.of_nat m)) (fun m => cdmat b (N.of_nat m) j) ->
     exists x, nth_error (dm_data r) (N.to_nat (i * dm_cols b + j)) = Some x /\ cfinite x.
Proof.
  intros md a b Wa Wb E H1 Fa Fb.
  rewrite (dm_mul_total CS (r_add CO) (r_mul CO) (fun _ _ => eq_refl) (fun _ _ => eq_refl) md a b Wa Wb E H1).
  eexists; split; [reflexivity|]. intros i j Hi Hj H.
  match goal with |- exists x, nth_error (dm_data (dm_tab _ _ ?s)) _ = _ /\ _ => set (f := s) in * end.
  pose proof (dm_at_tab CS (dm_rows a) (dm_cols b) f i j Hi Hj) as D.
  exists (f i j). split.
  - rewrite <- D. unfold dm_at. apply nth_error_nth'. cbn [dm_cols dm_tab dm_data].
    rewrite map_length, index_pairs_length. nia.
  - unfold f. rewrite (csum1_cdot1 prec emax (fun m => dm_at CS a i (N.of_nat m)) (fun m => dm_at CS b (N.of_nat m) j)).
    assert (Ek : N.to_nat (dm_cols a) = S (Nat.pred (N.to_nat (dm_cols a)))) by lia.
    apply cdot1_no_overflow.
    + intros m _. split; apply (Forall_at cfinite); try assumption; apply zfin.
    + rewrite <- Ek. apply (fits_W _ _ _ (fun m => cdmat a i (N.of_nat m)) (fun m => cdmat b (N.of_nat m) j));
        [intros; apply centry_nth, cval_zero..|exact H].
Qed.

(** ** Real numbers (C51 and C52 have Horner's rule and SVector's dot product) *)
Theorem C98_real_dvector_dot :
  forall a b : dvector fl, length a = length b -> all_finite a -> all_finite b ->
  fits_r (length a) (entry_R a) (entry_R b) ->
  exists r, dvector_dot (r_zero FO) (r_add FO) (r_mul FO) prim_conj a b = Ok r /\ is_finite r = true.
Proof.
  intros a b E Fa Fb H. unfold dvector_dot.
  pose proof (dvector_dot_value FS (r_add FO) (r_mul FO) prim_conj (fun x => x)
    (fun _ _ => eq_refl) (fun _ _ => eq_refl) (fun _ => eq_refl) a b E) as D.
  eexists; split; [exact D|].
  apply (dot_no_overflow prec emax (fun i => nth i a (fl_int prec emax 0)) (fun i => nth i b (fl_int prec emax 0))).
  - intros i _. split; apply (Forall_at (fun x => is_finite x = true)); try assumption; apply zfinr.
  - eapply Rle_lt_trans; [|apply (fits_D (length a) (fun i => nth i a (fl_int prec emax 0)) (fun i => nth i b (fl_int prec emax 0)) (entry_R a) (entry_R b));
      [intros; apply entry_nth; reflexivity..|exact H]]. unfold dot_bound. lra.
Qed.

Theorem C98_real_smatrix_product :
  forall (L M N : nat) (a : smatrix fl L M) (b : smatrix fl M N), rows_finite a -> rows_finite b ->
  exists r, smatrix_mul FO a b = Ok r
  /\ forall i j, (i < L)%nat -> (j < N)%nat -> fits_r M (smat_R a i) (fun m => smat_R b m j) ->
     exists x, nth_error (nth i (map entries (entries r)) []) j = Some x /\ is_finite x = true.
Proof.
  intros L M N a b Fa Fb. unfold smatrix_mul. rewrite (smatrix_mul_total FO _ (float_implements prec emax)).
  eexists; split; [reflexivity|]. intros i j Hi Hj H.
  pose proof (mat_at_tab FS L N (fun l n => sum_n FS M (fun m =>
      smul FS (mat_at FS a l m) (mat_at FS b m n))) i j Hi Hj) as E.
  eexists. split.
  - apply (nth_error_nth' _ (sz FS)). rewrite (nth_indep _ [] (entries (tab N (fun _ => sz FS)))) by (rewrite map_length, entries_length; exact Hi).
    rewrite map_nth, entries_length. exact Hj.
  - unfold mat_at at 1 in E. rewrite E. apply (dot_no_overflow prec emax (fun m => mat_at FS a i m) (fun m => mat_at FS b m j)).
    + intros m _. split; apply row_atr; assumption.
    + eapply Rle_lt_trans; [|apply (fits_D M (fun m => mat_at FS a i m) (fun m => mat_at FS b m j) (smat_R a i) (fun m => smat_R b m j));
        [intros; apply entry_nth; reflexivity..|exact H]]. unfold dot_bound. lra.
Qed.

Theorem C98_real_smatrix_vector :
  forall (M N : nat) (a : smatrix fl M N) (v : svector fl N), rows_finite a -> all_finite (entries v) ->
  exists r, smatrix_mul_vec FO a v = Ok r
  /\ forall i, (i < M)%nat -> fits_r N (smat_R a i) (entry_R (entries v)) ->
     exists x, nth_error (entries r) i = Some x /\ is_finite x = true.
Proof.
  intros M N a v Fa Fv. rewrite (smatrix_mul_vec_total FO _ (float_implements prec emax)).
  eexists; split; [reflexivity|]. intros i Hi H.
  pose proof (@vec_at_tab _ FS M (fun i => sum_n FS N (fun j =>
      smul FS (mat_at FS a i j) (vec_at FS v j))) i Hi) as E.
  eexists. split; [apply (nth_error_nth' _ (sz FS)); rewrite entries_length; exact Hi|].
  unfold vec_at at 1 in E. unfold vtab in E. rewrite E. apply (dot_no_overflow prec emax (fun j => mat_at FS a i j) (fun j => vec_at FS v j)).
  - intros m _. split; [apply row_atr; assumption|]. apply (Forall_at (fun x => is_finite x = true)); [exact Fv|apply zfinr].
  - eapply Rle_lt_trans; [|apply (fits_D N (fun j => mat_at FS a i j) (fun j => vec_at FS v j) (smat_R a i) (entry_R (entries v)));
      [intros; apply entry_nth; reflexivity..|exact H]]. unfold dot_bound. lra.
Qed.

Theorem C98_real_dmatrix_product :
  forall (md : target) (a b : dmatrix fl), dm_wf md a -> dm_wf md b -> dm_cols a = dm_rows b -> (1 <= dm_cols a)%N ->
  all_finite (dm_data a) -> all_finite (dm_data b) ->
  exists r, (e <- dmatrix_mul md (r_mul FO) (r_add FO) a b ;; m_eval e) = Ok r
  /\ forall i j, (i < dm_rows a)%N -> (j < dm_cols b)%N ->
     fits_r (N.to_nat (dm_cols a)) (fun m => dmat_R a i (N.of_nat m)) (fun m => dmat_R b (N.of_nat m) j) ->
     exists x, nth_error (dm_data r) (N.to_nat (i * dm_cols b + j)) = Some x /\ is_finite x = true.
Proof.
  intros md a b Wa Wb E H1 Fa Fb.
  rewrite (dm_mul_total FS (r_add FO) (r_mul FO) (fun _ _ => eq_refl) (fun _ _ => eq_refl) md a b Wa Wb E H1).
  eexists; split; [reflexivity|]. intros i j Hi Hj H.
  match goal with |- exists x, nth_error (dm_data (dm_tab _ _ ?s)) _ = _ /\ _ => set (f := s) in * end.
  pose proof (dm_at_tab FS (dm_rows a) (dm_cols b) f i j Hi Hj) as D.
  exists (f i j). split.
  - rewrite <- D. unfold dm_at. apply nth_error_nth'. cbn [dm_cols dm_tab dm_data].
    rewrite map_length, index_pairs_length. nia.
  - unfold f. change (smul FS) with (fl_mul prec emax).
    rewrite (sum1_fdot1 prec emax (fun m => dm_at FS a i (N.of_nat m)) (fun m => dm_at FS b (N.of_nat m) j)).
    assert (Ek : N.to_nat (dm_cols a) = S (Nat.pred (N.to_nat (dm_cols a)))) by lia.
    apply dot1_no_overflow.
    + intros m _. split; apply (Forall_at (fun x => is_finite x = true)); try assumption; apply zfinr.
    + rewrite <- Ek. apply (fits_D _ _ _ (fun m => dmat_R a i (N.of_nat m)) (fun m => dmat_R b (N.of_nat m) j));
        [intros; apply entry_nth; reflexivity..|exact H].
Qed.

(** ** A rule of thumb: entries below [A] and [B] in absolute value, n (A B + t) at most a quarter
    of the range and n u at most 1/4 are enough. *)
Lemma pow_u_small n : INR n * u <= / 4 -> (1 + u) ^ (n - 1) <= 4 / 3.
Proof.
  intros H. pose proof (u_pos prec) as UP. pose proof (pos_INR n) as NP.
  assert (H1 : (1 + u) ^ (n - 1) <= (1 + u) ^ n) by (apply pow_mono; [lra|lia]).
  assert (H2 : INR n * u < 1) by lra. pose proof (pow_gamma prec n H2) as G. unfold gamma in G.
  assert (H3 : INR n * u / (1 - INR n * u) <= / 3).
  { apply Rmult_le_reg_r with (1 - INR n * u); [lra|]. unfold Rdiv. rewrite Rmult_assoc, Rinv_l by lra. lra. }
  lra.
Qed.
Lemma k_small : (3 <= prec)%Z -> k <= 1.
Proof.
  intros H. assert (HU : u <= / 8) by (unfold unit_roundoff; change (/ 8) with (bpow radix2 (-3)); apply bpow_le; lia).
  pose proof (u_pos prec) as UP.
  assert (S2 : sqrt (4 / 3) <= 3 / 2) by (apply sq_le; [lra|]; rewrite sqrt_sqrt by lra; lra).
  unfold mul_roundoff. cbn [Rpow_def.pow].
  assert (u * u <= / 8 * u) by (apply Rmult_le_compat_r; lra).
  apply Rle_trans with (3 / 2 * (2 * (u + u * (u * 1)))); [apply Rmult_le_compat_r; [|exact S2]|]; [assert (0 <= u * u) by (apply Rmult_le_pos; lra); lra|lra].
Qed.

Theorem C98_rule_of_thumb :
  (3 <= prec)%Z ->
  forall (n : nat) (a b : nat -> cplx) (A B : R),
  (forall i, (i < n)%nat -> cnorm (a i) <= A) -> (forall i, (i < n)%nat -> cnorm (b i) <= B) -> 0 <= A -> 0 <= B ->
  INR n * u <= / 4 -> INR n * (A * B + t) <= / 4 * bpow radix2 emax ->
  fits_c n a b.
Proof.
  intros P3 n a b A B Ha Hb HA HB Hn HF. unfold fits_c, cdot_bound.
  pose proof (k_small P3) as K1. pose proof (k_nonneg prec) as K0. pose proof (t_nonneg prec emax) as T0.
  pose proof (pow_u_small n Hn) as G. pose proof (u_pos prec) as UP. pose proof (pos_INR n) as NP.
  pose proof (bpow_gt_0 radix2 emax) as BP.
  set (m := rsum n _). set (W := (1 + u) ^ (n - 1)) in *.
  assert (HW : 1 <= W) by (apply pow_ge_1; lra).
  assert (Hm0 : 0 <= m) by (apply rsum_nonneg; intros; apply Rmult_le_pos; apply cnorm_nonneg).
  assert (Hm : m <= INR n * (A * B)).
  { unfold m. clear - Ha Hb HA. induction n as [|n IH]; [simpl; lra|]. rewrite S_INR. cbn [rsum].
    assert (cnorm (a n) * cnorm (b n) <= A * B) by (apply Rmult_le_compat; try apply cnorm_nonneg; [apply Ha|apply Hb]; lia).
    assert (rsum n (fun i => cnorm (a i) * cnorm (b i)) <= INR n * (A * B)) by (apply IH; intros; [apply Ha|apply Hb]; lia). lra. }
  assert (HAB : 0 <= A * B) by (apply Rmult_le_pos; assumption).
  assert (HNT : 0 <= INR n * t) by (apply Rmult_le_pos; assumption).
  assert (HNAB : 0 <= INR n * (A * B)) by (apply Rmult_le_pos; assumption).
  replace (m + (((1 + k) * W - 1) * m + INR n * W * t)) with ((1 + k) * W * m + W * (INR n * t)) by ring.
  assert (H1 : (1 + k) * W <= 2 * (4 / 3)) by (apply Rmult_le_compat; lra).
  assert (HKW : 0 <= (1 + k) * W) by (apply Rmult_le_pos; lra).
  assert (H2 : (1 + k) * W * m <= 2 * (4 / 3) * (INR n * (A * B))) by (apply Rmult_le_compat; assumption).
  assert (H3 : W * (INR n * t) <= 4 / 3 * (INR n * t)) by (apply Rmult_le_compat_r; assumption).
  lra.
Qed.
Corollary C98_rule_of_thumb_real :
  (3 <= prec)%Z ->
  forall (n : nat) (a b : nat -> R) (A B : R),
  (forall i, (i < n)%nat -> Rabs (a i) <= A) -> (forall i, (i < n)%nat -> Rabs (b i) <= B) -> 0 <= A -> 0 <= B ->
  INR n * u <= / 4 -> INR n * (A * B + t) <= / 4 * bpow radix2 emax ->
  fits_r n a b.
Proof.
  intros P3 n a b A B Ha Hb HA HB Hn HF.
  assert (N : forall x, cnorm (x, 0) = Rabs x).
  { intros x. unfold cnorm. cbn [fst snd]. replace (x * x + 0 * 0) with (Rsqr x) by (unfold Rsqr; ring). apply sqrt_Rsqr_abs. }
  pose proof (C98_rule_of_thumb P3 n (fun i => (a i, 0)) (fun i => (b i, 0)) A B) as H.
  unfold fits_c, fits_r in *. cbv zeta in *.
  rewrite (rsum_ext n (fun i => cnorm (a i, 0) * cnorm (b i, 0)) (fun i => Rabs (a i) * Rabs (b i))) in H by (intros; rewrite !N; reflexivity).
  set (m := rsum n _) in *.
  assert (Hm0 : 0 <= m) by (apply rsum_nonneg; intros; apply Rmult_le_pos; apply Rabs_pos).
  eapply Rle_lt_trans; [|apply H]; try assumption; try (intros; rewrite N; auto).
  apply Rplus_le_compat_l. unfold dot_bound, cdot_bound.
  pose proof (u_pos prec) as UP. pose proof (eta_pos prec emax) as EP. pose proof (k_nonneg prec) as K0. pose proof sqrt2_ge1 as S2.
  set (W := (1 + u) ^ (n - 1)). assert (HW : 1 <= W) by (apply pow_ge_1; lra).
  assert (UK : u <= k).
  { unfold mul_roundoff. cbn [Rpow_def.pow]. assert (0 <= u * u) by (apply Rmult_le_pos; lra).
    assert (S3 : 1 <= sqrt (4 / 3)) by (rewrite <- sqrt_1 at 1; apply sqrt_le_1; lra).
    apply Rle_trans with (1 * (2 * (u + u * (u * 1)))); [lra|]. apply Rmult_le_compat_r; lra. }
  assert (ET : underflow_unit prec emax <= t).
  { unfold mul_underflow. assert (0 <= u * underflow_unit prec emax) by (apply Rmult_le_pos; lra).
    apply Rle_trans with (1 * (2 * (1 + u) * underflow_unit prec emax)); [lra|]. apply Rmult_le_compat_r; lra. }
  apply Rplus_le_compat.
  - apply Rmult_le_compat_r; [exact Hm0|]. apply Rplus_le_compat_r. destruct n as [|n].
    + cbn [Rpow_def.pow]. unfold W. cbn [Nat.sub Rpow_def.pow]. lra.
    + unfold W in *. replace (S n - 1)%nat with n in * by lia. cbn [Rpow_def.pow]. apply Rmult_le_compat_r; lra.
  - apply Rmult_le_compat_l; [|exact ET]. apply Rmult_le_pos; [apply pos_INR|lra].
Qed.
End Fmt.

(** ** binary64 and binary32: vectors and matrices with at most a million terms per entry *)
Lemma t_le_1 prec emax : (3 <= prec)%Z -> (prec < emax)%Z -> mul_underflow prec emax <= 1.
Proof.
  intros H H2. assert (HU : unit_roundoff prec <= / 8) by (unfold unit_roundoff; change (/ 8) with (bpow radix2 (-3)); apply bpow_le; lia).
  assert (HE : underflow_unit prec emax <= / 8).
  { unfold underflow_unit. change (/ 8) with (bpow radix2 (-3)). apply bpow_le. lia. }
  pose proof (u_pos prec) as UP. pose proof (eta_pos prec emax) as EP.
  assert (S2 : sqrt 2 <= 3 / 2) by (apply sq_le; [lra|]; rewrite sqrt_sqrt by lra; lra).
  pose proof sqrt2_ge1. unfold mul_underflow.
  assert (H3 : 2 * (1 + unit_roundoff prec) * underflow_unit prec emax <= 2 * (9 / 8) * (/ 8)) by (apply Rmult_le_compat; lra).
  assert (H4 : 0 <= 2 * (1 + unit_roundoff prec) * underflow_unit prec emax) by (apply Rmult_le_pos; lra).
  apply Rle_trans with (3 / 2 * (2 * (9 / 8) * (/ 8))); [|lra]. apply Rmult_le_compat; lra.
Qed.

Lemma thumb prec emax (e : Z) (n : nat) : (22 <= prec)%Z -> (prec < emax)%Z -> (0 <= e)%Z -> (2 * e + 23 <= emax)%Z ->
  (Z.of_nat n <= 2 ^ 20)%Z ->
  INR n * unit_roundoff prec <= / 4 /\ INR n * (bpow radix2 e * bpow radix2 e + mul_underflow prec emax) <= / 4 * bpow radix2 emax.
Proof.
  intros H1 H2 He H3 Hn.
  assert (HN : INR n <= bpow radix2 20).
  { change (bpow radix2 20) with (IZR (2 ^ 20)). rewrite INR_IZR_INZ. apply IZR_le, Hn. }
  pose proof (pos_INR n) as N0. split.
  - apply Rle_trans with (bpow radix2 20 * unit_roundoff prec).
    + apply Rmult_le_compat_r; [apply Rlt_le, u_pos|exact HN].
    + unfold unit_roundoff. rewrite <- bpow_plus. change (/ 4) with (bpow radix2 (-2)). apply bpow_le. lia.
  - pose proof (t_le_1 prec emax (Z.le_trans 3 22 prec ltac:(discriminate) H1) H2) as T1. rewrite <- bpow_plus.
    assert (B1 : 1 <= bpow radix2 (e + e)) by (change 1 with (bpow radix2 0); apply bpow_le; lia).
    assert (B2 : bpow radix2 (e + e) + mul_underflow prec emax <= bpow radix2 (e + e + 1)) by (rewrite (bpow_plus radix2 (e + e) 1); change (bpow radix2 1) with 2; lra).
    pose proof (t_nonneg prec emax) as T0.
    apply Rle_trans with (bpow radix2 20 * bpow radix2 (e + e + 1)); [apply Rmult_le_compat; lra|].
    rewrite <- bpow_plus. change (/ 4) with (bpow radix2 (-2)). rewrite <- bpow_plus. apply bpow_le. lia.
Qed.

(** Matrix products over Complex<f64>: inner dimension at most 2^20, entries at most 2^500 in
    absolute value; over Complex<f32> at most 2^52. *)
Lemma C98_uniform prec emax (Hp : Prec_gt_0 prec) (He : Prec_lt_emax prec emax) (e : Z) :
  (22 <= prec)%Z -> (0 <= e)%Z -> (2 * e + 23 <= emax)%Z ->
  forall (L M N : nat) (a : smatrix (complex (binary_float prec emax)) L M) (b : smatrix (complex (binary_float prec emax)) M N),
  (Z.of_nat M <= 2 ^ 20)%Z -> rows_cfinite prec emax a -> rows_cfinite prec emax b ->
  (forall i j, (i < L)%nat -> (j < M)%nat -> cnorm (csmat a i j) <= bpow radix2 e) ->
  (forall i j, (i < M)%nat -> (j < N)%nat -> cnorm (csmat b i j) <= bpow radix2 e) ->
  exists r, smatrix_mul (complex_ops (float_ring prec emax)) a b = Ok r /\ rows_cfinite prec emax r.
Proof.
  intros P22 E0 E1 L M N a b HM Fa Fb Ha Hb.
  assert (Hlt : (prec < emax)%Z) by exact He.
  destruct (thumb prec emax e M P22 Hlt E0 E1 HM) as [T1 T2].
  destruct (C98_smatrix_product prec emax L M N a b Fa Fb) as (r & E & R). exists r. split; [exact E|].
  unfold rows_cfinite. apply Forall_nth. intros i d Hi. rewrite map_length, entries_length in Hi.
  rewrite (nth_indep _ d []) by (rewrite map_length, entries_length; exact Hi).
  assert (Len : length (nth i (map entries (entries r)) []) = N).
  { rewrite (nth_indep _ [] (entries (tab N (fun _ => Cx (fl_int prec emax 0) (fl_int prec emax 0))))) by (rewrite map_length, entries_length; exact Hi).
    rewrite map_nth, entries_length. reflexivity. }
  apply Forall_nth. intros j d' Hj. rewrite Len in Hj.
  destruct (R i j Hi Hj) as (x & Ex & Fx).
  - apply (C98_rule_of_thumb prec emax ltac:(lia) M _ _ (bpow radix2 e) (bpow radix2 e));
      [intros; apply Ha; assumption|intros; apply Hb; assumption|apply bpow_ge_0|apply bpow_ge_0|exact T1|exact T2].
  - rewrite (nth_error_nth _ _ _ Ex). exact Fx.
Qed.
Corollary C98_f64_matrix :
  forall (L M N : nat) (a : smatrix (complex f64) L M) (b : smatrix (complex f64) M N),
  (Z.of_nat M <= 2 ^ 20)%Z -> rows_cfinite 53 1024 a -> rows_cfinite 53 1024 b ->
  (forall i j, (i < L)%nat -> (j < M)%nat -> cnorm (csmat a i j) <= bpow radix2 500) ->
  (forall i j, (i < M)%nat -> (j < N)%nat -> cnorm (csmat b i j) <= bpow radix2 500) ->
  exists r, smatrix_mul (complex_ops f64_ring) a b = Ok r /\ rows_cfinite 53 1024 r.
Proof. apply (C98_uniform 53 1024); lia. Qed.
Corollary C98_f32_matrix :
  forall (L M N : nat) (a : smatrix (complex f32) L M) (b : smatrix (complex f32) M N),
  (Z.of_nat M <= 2 ^ 20)%Z -> rows_cfinite 24 128 a -> rows_cfinite 24 128 b ->
  (forall i j, (i < L)%nat -> (j < M)%nat -> cnorm (csmat a i j) <= bpow radix2 52) ->
  (forall i j, (i < M)%nat -> (j < N)%nat -> cnorm (csmat b i j) <= bpow radix2 52) ->
  exists r, smatrix_mul (complex_ops f32_ring) a b = Ok r /\ rows_cfinite 24 128 r.
Proof. apply (C98_uniform 24 128); lia. Qed.

(** A case: a 2x2 matrix with entries 1 + 2i and its square. *)
Example C98_case :
  let z := Cx (f64_of_Z 1) (f64_of_Z 2) in
  let m := acons (acons z (acons z anil)) (acons (acons z (acons z anil)) anil) in
  rows_cfinite 53 1024 m
  /\ (forall i j, (i < 2)%nat -> (j < 2)%nat -> cnorm (csmat m i j) <= bpow radix2 500).
Proof.
  cbv zeta. split.
  - unfold rows_cfinite, all_cfinite, cfinite. cbn [entries map re im]. repeat (constructor; try reflexivity).
  - assert (H : cnorm (B2R (f64_of_Z 1), B2R (f64_of_Z 2)) <= bpow radix2 500).
    { assert (E1 : B2R (f64_of_Z 1) = 1) by (apply (fl_int_exact 53 1024 1); lia).
      assert (E2 : B2R (f64_of_Z 2) = 2) by (apply (fl_int_exact 53 1024 2); lia).
      rewrite E1, E2. unfold cnorm. cbn [fst snd].
      apply Rle_trans with (bpow radix2 2); [|apply bpow_le; lia]. change (bpow radix2 2) with 4.
      apply sq_le; [lra|]. rewrite sqrt_sqrt; lra. }
    intros i j Hi Hj. destruct i as [|[|i]]; [| |lia]; (destruct j as [|[|j]]; [| |lia]); exact H.
Qed.
(** The bound cannot be dropped: the square of 2^600 overflows. *)
Example C98_case_overflow :
  on_ok (complex_mul f64_ring (Cx (fl_mul 53 1024 (f64_of_Z (2 ^ 300)) (f64_of_Z (2 ^ 300))) (f64_of_Z 0))
                              (Cx (fl_mul 53 1024 (f64_of_Z (2 ^ 300)) (f64_of_Z (2 ^ 300))) (f64_of_Z 0)))
        (fun p => negb (is_finite (re p))) = true.
Proof. vm_compute. reflexivity. Qed.

Print Assumptions C98_add.
Print Assumptions C98_sub.
Print Assumptions C98_mul.
Print Assumptions C98_horner.
Print Assumptions C98_svector_dot.
Print Assumptions C98_dvector_dot.
Print Assumptions C98_smatrix_product.
Print Assumptions C98_smatrix_vector.
Print Assumptions C98_dmatrix_product.
Print Assumptions C98_real_dvector_dot.
Print Assumptions C98_real_smatrix_product.
Print Assumptions C98_real_smatrix_vector.
Print Assumptions C98_real_dmatrix_product.
Print Assumptions C98_rule_of_thumb.
Print Assumptions C98_rule_of_thumb_real.
Print Assumptions C98_f64_matrix.
Print Assumptions C98_f32_matrix.
