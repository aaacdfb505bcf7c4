(** Property C66: identities that hold exactly in floating point.

    [same_up_to_zero x y]: the same float, or two zeros (possibly of different sign)
    (Spec/FloatErr.v); [cell], [row_major_at] as in C65. *)
From Coq Require Import List ZArith NArith Reals Bool Lia.
From Flocq Require Import Core.Core IEEE754.BinarySingleNaN.
From Verif Require Import Base.Outcome Base.Usize Base.Array Model.Traits Model.Float Model.Polynomial Model.Complex
  Model.SVector Model.SMatrix Model.DVector Model.DMatrix
  Spec.Ring Spec.Sums Spec.Matrix Spec.DExpr Spec.DMatrix Spec.Unwind Spec.Equality Spec.FloatErr
  Proofs.FloatErr Proofs.FloatComm Proofs.FloatSpecial Proofs.PolyExact Proofs.PolyPartial Proofs.SMatrixProofs Proofs.DVectorProofs
  Proofs.DExprProofs Proofs.DMatrixProofs Proofs.Equality Props.FloatProps Props.FloatPolyProps Props.EqualityProps.
Import ListNotations.
Notation finite x := (is_finite x = true).

Section Fmt.
Context (prec emax : Z) {Hp : Prec_gt_0 prec} {He : Prec_lt_emax prec emax} (libm : FunOps (binary_float prec emax)).
Notation fl := (binary_float prec emax).
Notation FO := (float_ring prec emax).
Notation FF := (float_field prec emax).
Notation FE := (float_fun prec emax libm).
Notation sig := (float_sig prec emax).
Notation nan := (@B754_nan prec emax).
Notation zero := (fl_int prec emax 0).
Notation one := (fl_int prec emax 1).

Lemma finite_not_nan (x : fl) : finite x -> is_nan x = false.
Proof. destruct x; try discriminate; reflexivity. Qed.

(** ** The identity matrix *)
Definition smat_finite {m n} (a : smatrix fl m n) : Prop := forall i j x, cell a i j = Some x -> finite x.

Lemma smat_finite_at {m n} (a : smatrix fl m n) i j : smat_finite a -> (i < m)%nat -> (j < n)%nat -> finite (mat_at sig a i j).
Proof. intros H Hi Hj. apply (H i j). apply cell_mat_at; assumption. Qed.

Lemma delta_zero i j : i <> j -> is_zero prec emax (delta sig i j).
Proof. intros H. unfold delta. destruct (Nat.eqb_spec i j); [congruence|]. exists false. reflexivity. Qed.
Lemma delta_one i : delta sig i i = one.
Proof. unfold delta. rewrite Nat.eqb_refl. reflexivity. Qed.

Theorem C66_identity_matrix :
  forall m n (a : smatrix fl m n), smat_finite a ->
  exists im i_n r l, smatrix_one FO m m = Ok im /\ smatrix_one FO n n = Ok i_n
  /\ smatrix_mul FO a i_n = Ok r /\ smatrix_mul FO im a = Ok l
  /\ smatrix_eqb FO r a = true /\ smatrix_eqb FO l a = true.
Proof.
  intros m n a Ha. exists (mtab m m (delta sig)), (mtab n n (delta sig)).
  unfold smatrix_mul. rewrite !(smatrix_mul_total FO _ (float_implements prec emax)).
  do 2 eexists. split; [apply (smatrix_one_total FO _ (float_implements prec emax))|].
  split; [apply (smatrix_one_total FO _ (float_implements prec emax))|].
  split; [reflexivity|]. split; [reflexivity|].
  split; apply (smatrix_eqb_at FO sig); intros i j Hi Hj;
    apply (same_beqb prec emax); try (apply finite_not_nan, smat_finite_at; assumption).
  - rewrite (mat_at_tab sig) by assumption.
    eapply same_trans; [apply (sum_single prec emax _ n j Hj)|].
    + intros k Hk Hkj. rewrite (mat_at_tab sig) by assumption.
      apply mul_zero_r; [apply delta_zero; exact Hkj|apply smat_finite_at; assumption].
    + cbv beta. rewrite (mat_at_tab sig), delta_one by assumption. left. apply mul_one_r.
  - rewrite (mat_at_tab sig) by assumption.
    eapply same_trans; [apply (sum_single prec emax _ m i Hi)|].
    + intros k Hk Hki. rewrite (mat_at_tab sig) by assumption.
      apply mul_zero_l; [apply delta_zero; auto|apply smat_finite_at; assumption].
    + cbv beta. rewrite (mat_at_tab sig), delta_one by assumption. left. apply mul_one_l.
Qed.

Definition dmat_finite (a : dmatrix fl) : Prop := Forall (fun x : fl => finite x) (dm_data a).

Lemma dmat_finite_at (a : dmatrix fl) r c : dmat_finite a -> finite (dm_at sig a r c).
Proof.
  intros H. unfold dm_at. destruct (nth_in_or_default (N.to_nat (r * dm_cols a + c)) (dm_data a) (sz sig)) as [I|E].
  - unfold dmat_finite in H. rewrite Forall_forall in H. apply H, I.
  - rewrite E. reflexivity.
Qed.

Theorem C66_dynamic_identity_matrix :
  forall (md : target) (a : dmatrix fl), dm_wf md a -> dmat_finite a ->
  (1 <= dm_cols a)%N -> (dm_cols a * dm_cols a < usize_bound md)%N ->
  exists e r, m_eval (dmatrix_eye zero one (dm_cols a)) = Ok e
  /\ (p <- dmatrix_mul md (r_mul FO) (r_add FO) a e ;; m_eval p) = Ok r
  /\ dmatrix_eqb (r_eqb FO) r a = true.
Proof.
  intros md a Wa Fa Hc Hs.
  set (e := dm_tab (dm_cols a) (dm_cols a) (fun r c => if (r =? c)%N then one else zero)).
  assert (We : dm_wf md e) by (apply dm_tab_wf; exact Hs).
  exists e. rewrite (dm_mul_total sig (r_add FO) (r_mul FO) (fun _ _ => eq_refl) (fun _ _ => eq_refl) md a e Wa We eq_refl Hc).
  eexists. split; [apply dm_eye_total|]. split; [reflexivity|].
  apply (proj2 (proj2 (proj2 (proj2 (C63_equality_is_pointwise fl FO)))) md); [apply dm_tab_wf; apply Wa|exact Wa|].
  split; [reflexivity|]. split; [reflexivity|].
  change (dm_rows (dm_tab (dm_rows a) (dm_cols e) _)) with (dm_rows a).
  change (dm_cols (dm_tab (dm_rows a) (dm_cols e) _)) with (dm_cols a).
  change (dm_cols e) with (dm_cols a). intros r c Hr Hc'.
  rewrite row_major_tab by assumption. rewrite (row_major_dm_at (md:=md) sig) by assumption. unfold equal_at.
  apply (same_beqb prec emax); [|apply finite_not_nan, dmat_finite_at; exact Fa].
  change (smul sig) with (fl_mul prec emax).
  rewrite (sum1_fdot1 prec emax (fun m => dm_at sig a r (N.of_nat m)) (fun m => dm_at sig e (N.of_nat m) c)).
  eapply same_trans; [apply (fdot1_single prec emax _ _ _ (N.to_nat c))|].
  - lia.
  - intros i Hi Hn. unfold e. rewrite (dm_at_tab sig) by lia.
    destruct (N.eqb_spec (N.of_nat i) c); [lia|]. apply mul_zero_r; [exists false; reflexivity|apply dmat_finite_at; exact Fa].
  - unfold e. rewrite (dm_at_tab sig) by lia. rewrite N2Nat.id, N.eqb_refl. left. apply mul_one_r.
Qed.

(** ** One and zero *)
Theorem C66_complex_one :
  forall z : complex fl, finite (re z) -> finite (im z) ->
  exists p q, complex_mul FO z (complex_one FO) = Ok p /\ complex_div FF z (complex_one FO) = Ok q
  /\ complex_eqb FO p z = true /\ complex_eqb FO q z = true.
Proof.
  intros [a b] Fa Fb. cbn [re im] in *. do 2 eexists. split; [reflexivity|]. split; [reflexivity|].
  unfold complex_one, complex_new. cbn [re im r_zero r_one float_ring f_ring float_field].
  assert (Z : is_zero prec emax zero) by (exists false; reflexivity).
  assert (Zo : forall x : fl, finite x -> is_zero prec emax (fl_mul prec emax x zero)) by (intros; apply mul_zero_r; assumption).
  assert (N1 : fl_add prec emax (fl_mul prec emax one one) (fl_mul prec emax zero zero) = one).
  { rewrite mul_one_r. destruct (one_shape prec emax) as (m & e & B & ->). reflexivity. }
  rewrite N1, div_one_one, !mul_one_r.
  unfold complex_eqb. cbn [re im r_eqb float_ring].
  assert (S1 : same_up_to_zero (fl_sub prec emax a (fl_mul prec emax b zero)) a).
  { rewrite fl_sub_def. apply add_zero_r, opp_zero, Zo, Fb. }
  assert (S2 : same_up_to_zero (fl_sub prec emax b (fl_mul prec emax a zero)) b).
  { rewrite fl_sub_def. apply add_zero_r, opp_zero, Zo, Fa. }
  split; apply andb_true_iff; split; apply (same_beqb prec emax); try (apply finite_not_nan; assumption).
  - exact S1.
  - apply add_zero_l, Zo, Fa.
  - apply add_zero_r, Zo, Fb.
  - exact S2.
Qed.

Theorem C66_polynomial_one :
  forall p : poly fl, exists r l, poly_mul FO p (poly_one FO) = Ok r /\ poly_mul FO (poly_one FO) p = Ok l
  /\ (forall k, match nth_error r k, nth_error p k with Some x, Some y => same_up_to_zero x y | None, None => True | _, _ => False end)
  /\ (forall k, match nth_error l k, nth_error p k with Some x, Some y => same_up_to_zero x y | None, None => True | _, _ => False end).
Proof.
  intros p.
  destruct (poly_mul_exact FO _ (float_implements prec emax) p (poly_one FO)) as (r & Hr & Hlr & Hnr).
  destruct (poly_mul_exact FO _ (float_implements prec emax) (poly_one FO) p) as (l & Hl & Hll & Hnl).
  exists r, l. split; [exact Hr|]. split; [exact Hl|].
  assert (Lr : length r = length p).
  { rewrite Hlr. unfold poly_one. simpl length. simpl Nat.eqb. rewrite orb_false_r. destruct (Nat.eqb_spec (length p) 0); lia. }
  assert (Ll : length l = length p).
  { rewrite Hll. unfold poly_one. simpl length. simpl orb. destruct (Nat.eqb_spec (length p) 0); lia. }
  assert (G : forall s : poly fl, length s = length p ->
    (forall k, (k < length p)%nat -> same_up_to_zero (nth k s zero) (nth k p zero)) ->
    forall k, match nth_error s k, nth_error p k with Some x, Some y => same_up_to_zero x y | None, None => True | _, _ => False end).
  { intros s Ls H k. destruct (Nat.lt_ge_cases k (length p)) as [Hk|Hk].
    - rewrite !(nth_error_nth' _ zero) by lia. apply H, Hk.
    - rewrite !(proj2 (nth_error_None _ _)) by lia. exact I. }
  assert (S : forall x : fl, same_up_to_zero (fl_add prec emax zero x) x) by (intros; apply add_zero_l; exists false; reflexivity).
  split; apply G; try assumption; intros k Hk.
  - rewrite <- Lr in Hk. pose proof (Hnr k Hk) as E. change (sz sig) with zero in E. rewrite E.
    unfold conv_lo, conv_hi, poly_one. simpl length.
    replace (min (length p) (Datatypes.S k) - (Datatypes.S k - 1))%nat with 1%nat by lia. cbn [sum_n].
    unfold term. replace (k - (Datatypes.S k - 1 + 0))%nat with O by lia. replace (Datatypes.S k - 1 + 0)%nat with k by lia.
    cbn [nth r_one float_ring]. change (smul sig) with (fl_mul prec emax). rewrite mul_one_r. apply S.
  - rewrite <- Ll in Hk. pose proof (Hnl k Hk) as E. change (sz sig) with zero in E. rewrite E.
    unfold conv_lo, conv_hi, poly_one. simpl length.
    replace (min 1 (Datatypes.S k) - (Datatypes.S k - length p))%nat with 1%nat by lia. cbn [sum_n].
    unfold term. replace (Datatypes.S k - length p + 0)%nat with O by lia. rewrite Nat.sub_0_r.
    cbn [nth r_one float_ring]. change (smul sig) with (fl_mul prec emax). rewrite mul_one_l. apply S.
Qed.

(** [p.eval(0)] is the first coefficient, if all are finite. *)
Theorem C66_eval_at_zero :
  forall (p : poly fl) (s : bool), Forall (fun a : fl => finite a) p ->
  exists r, poly_eval FO p (B754_zero s) = Ok r /\ Beqb r (nth 0 p zero) = true.
Proof.
  intros p s H. rewrite poly_eval_horner. eexists. split; [reflexivity|].
  apply (same_beqb prec emax); [apply horner_at_zero; [exists s; reflexivity|exact H]|].
  destruct p as [|a p]; [reflexivity|]. inversion H. apply finite_not_nan. assumption.
Qed.

(** ** Symmetry *)
(** u * v and v * u are the same bit for bit, whatever the entries. *)
Theorem C66_dot_symmetric :
  (forall n (u v : svector fl n), svector_dot FO u v = svector_dot FO v u)
  /\ (forall u v : dvector fl, dvector_dot (r_zero FO) (r_add FO) (r_mul FO) prim_conj u v
                             = dvector_dot (r_zero FO) (r_add FO) (r_mul FO) prim_conj v u).
Proof.
  assert (S : forall n f g, (forall i, f i = g i) -> sum_n sig n f = sum_n sig n g).
  { intros n f g H. induction n as [|n IH]; [reflexivity|]. cbn [sum_n]. rewrite IH, H. reflexivity. }
  split.
  - intros n u v. unfold svector_dot. rewrite !(svector_dot_total FO _ (float_implements prec emax)). f_equal.
    apply S. intros i. apply fl_mul_comm.
  - intros u v. unfold dvector_dot, dvector_dot_ref. generalize (r_zero FO). revert v.
    induction u as [|x u IH]; intros [|y v] z; try reflexivity. cbn [combine for_each prim_conj bind r_mul r_add float_ring].
    rewrite (fl_mul_comm prec emax x y). apply IH.
Qed.

(** (a b)^T and b^T a^T are the same bit for bit; so a a^T is symmetric. *)
Theorem C66_transpose_of_product :
  forall (md : target) (a b : dmatrix fl), dm_wf md a -> dm_wf md b -> dm_cols a = dm_rows b -> (1 <= dm_cols a)%N ->
  (dm_rows a * dm_cols b < usize_bound md)%N ->
  (p <- dmatrix_mul md (r_mul FO) (r_add FO) a b ;; p <- m_eval p ;; m_eval (dmatrix_t md p))
  = (ta <- m_eval (dmatrix_t md a) ;; tb <- m_eval (dmatrix_t md b) ;;
     p <- dmatrix_mul md (r_mul FO) (r_add FO) tb ta ;; m_eval p).
Proof.
  intros md a b Wa Wb E H1 Hs.
  pose proof (dm_mul_total sig (r_add FO) (r_mul FO) (fun _ _ => eq_refl) (fun _ _ => eq_refl) md a b Wa Wb E H1) as M.
  destruct (dmatrix_mul md (r_mul FO) (r_add FO) a b) as [p| |] eqn:Ep; cbn [bind] in M |- *; try discriminate M.
  rewrite M. cbn [bind].
  set (g := fun r c => sum1 sig (Nat.pred (N.to_nat (dm_cols a))) (fun m => smul sig (dm_at sig a r (N.of_nat m)) (dm_at sig b (N.of_nat m) c))) in *.
  assert (Wab : dm_wf md (dm_tab (dm_rows a) (dm_cols b) g)) by (apply dm_tab_wf; exact Hs).
  rewrite (dm_t_total sig md _ Wab), (dm_t_total sig md a Wa), (dm_t_total sig md b Wb). cbn [bind].
  set (ta := dm_tab (dm_cols a) (dm_rows a) (fun r c => dm_at sig a c r)).
  set (tb := dm_tab (dm_cols b) (dm_rows b) (fun r c => dm_at sig b c r)).
  assert (Wta : dm_wf md ta) by (apply dm_tab_wf; unfold fits; rewrite N.mul_comm; apply Wa).
  assert (Wtb : dm_wf md tb) by (apply dm_tab_wf; unfold fits; rewrite N.mul_comm; apply Wb).
  rewrite (dm_mul_total sig (r_add FO) (r_mul FO) (fun _ _ => eq_refl) (fun _ _ => eq_refl) md tb ta Wtb Wta)
    by (simpl; (symmetry; exact E) || lia).
  f_equal.
  assert (X : forall rows cols (h k : N -> N -> fl), (forall r c, (r < rows)%N -> (c < cols)%N -> h r c = k r c) -> dm_tab rows cols h = dm_tab rows cols k).
  { intros rows cols h k H. unfold dm_tab. apply (f_equal (fun d => MkDM d rows cols)). apply map_ext_in. intros [r c] Hi. apply in_index_pairs in Hi as [Hr Hc]. apply H; assumption. }
  apply (X (dm_cols b) (dm_rows a)). intros r c Hr Hc. change (dm_cols tb) with (dm_rows b).
  rewrite (dm_at_tab sig) by assumption. unfold g. rewrite <- E.
  assert (S : forall n f h, (forall i, (i <= n)%nat -> f i = h i) -> sum1 sig n f = sum1 sig n h).
  { intros n f h H. induction n as [|n IH]; [apply H; lia|]. cbn [sum1]. rewrite IH by (intros; apply H; lia). rewrite H by lia. reflexivity. }
  apply S. intros i Hi. change (smul sig) with (fl_mul prec emax). rewrite fl_mul_comm. unfold ta, tb. f_equal.
  - symmetry. apply (dm_at_tab sig (dm_cols b) (dm_rows b) (fun r c => dm_at sig b c r)); lia.
  - symmetry. apply (dm_at_tab sig (dm_cols a) (dm_rows a) (fun r c => dm_at sig a c r)); lia.
Qed.

(** ** Signs *)
(** Without a NaN entry, u * u, the squared norm and the absolute value are never NaN and
    never negative. *)
Theorem C66_squares_nonnegative :
  (forall n (u : svector fl n), ~ In nan (entries u) ->
     exists r, svector_dot FO u u = Ok r /\ Bleb zero r = true)
  /\ (forall u : dvector fl, ~ In nan u ->
     exists r, dvector_dot (r_zero FO) (r_add FO) (r_mul FO) prim_conj u u = Ok r /\ Bleb zero r = true)
  /\ (forall z : complex fl, re z <> nan -> im z <> nan ->
     exists n a, complex_sqr_norm FO z = Ok n /\ complex_abs FF FE z = Ok a /\ Bleb zero n = true /\ Bleb zero a = true).
Proof.
  assert (NN : forall u : list fl, ~ In nan u -> forall i, nth i u zero <> nan).
  { intros u H i E. destruct (nth_in_or_default i u zero) as [I|D]; [rewrite E in I; auto|]. rewrite D in E. discriminate E. }
  split; [|split].
  - intros n u H. unfold svector_dot. rewrite (svector_dot_total FO _ (float_implements prec emax)).
    eexists. split; [reflexivity|]. apply nonneg_leb.
    apply (sum_squares prec emax (fun i => vec_at sig u i) n). intros i _. apply NN, H.
  - intros u H. unfold dvector_dot.
    rewrite (dvector_dot_value sig (r_add FO) (r_mul FO) prim_conj (fun x => x)
      (fun _ _ => eq_refl) (fun _ _ => eq_refl) (fun _ => eq_refl) u u eq_refl).
    eexists. split; [reflexivity|]. apply nonneg_leb.
    apply (sum_squares prec emax (fun i => nth i u zero) (length u)). intros i _. apply NN, H.
  - intros [a b] Ha Hb. cbn [re im] in *. do 2 eexists. split; [reflexivity|]. split; [reflexivity|].
    assert (P : nonneg prec emax (fl_add prec emax (fl_mul prec emax a a) (fl_mul prec emax b b)))
      by (apply nonneg_add; apply square_nonneg; assumption).
    split; apply nonneg_leb; [exact P|apply sqrt_nonneg, P].
Qed.

(** [z.conj() * z]: the real part is [z.sqr_norm()] bit for bit; the imaginary part is zero
    unless a product overflowed. *)
Theorem C66_conj_times_self :
  forall z : complex fl, exists c p n, complex_conj (r_neg FO) z = Ok c /\ complex_mul FO c z = Ok p
  /\ complex_sqr_norm FO z = Ok n /\ re p = n
  /\ (finite (fl_mul prec emax (re z) (im z)) -> Beqb (im p) zero = true).
Proof.
  intros [a b]. do 3 eexists. split; [reflexivity|]. split; [reflexivity|]. split; [reflexivity|].
  cbn [re im complex_new]. split.
  - rewrite fl_sub_def, fl_mul_opp_l, Bopp_involutive. reflexivity.
  - intros F. rewrite fl_mul_opp_l, (fl_mul_comm prec emax b a), <- fl_sub_def.
    destruct (sub_self prec emax _ F) as (s & ->). destruct s; reflexivity.
Qed.

(** ** Sums *)
Theorem C66_vector_sums :
  forall n (u : svector fl n), (forall x, In x (entries u) -> finite x) ->
  exists z s d o, svector_zero FO = Ok z /\ svector_add FO u z = Ok s /\ svector_eqb FO s u = true
  /\ svector_sub FO u u = Ok d /\ svector_eqb FO d z = true
  /\ svector_sub FO u z = Ok o /\ svector_eqb FO o u = true.
Proof.
  intros n u Hu.
  assert (Fu : forall i, (i < n)%nat -> finite (vec_at sig u i)).
  { intros i Hi. apply Hu. apply nth_In. rewrite entries_length. exact Hi. }
  unfold svector_add, svector_sub.
  rewrite (svector_zero_total FO _ (float_implements prec emax)).
  eexists. do 3 eexists. split; [reflexivity|].
  rewrite (svector_add_total FO _ (float_implements prec emax)), !(svector_sub_total FO _ (float_implements prec emax)).
  assert (Q : forall v w : svector fl n, (forall i, (i < n)%nat -> Beqb (vec_at sig v i) (vec_at sig w i) = true) -> svector_eqb FO v w = true).
  { intros v w H. apply (proj1 (proj2 (C63_equality_is_pointwise fl FO))). intros i Hi.
    rewrite !(nth_error_nth' _ zero) by (rewrite entries_length; exact Hi). apply H, Hi. }
  split; [reflexivity|]. split.
  { apply Q. intros i Hi. rewrite !(vec_at_tab sig) by exact Hi. apply (same_beqb prec emax); [|apply finite_not_nan, Fu, Hi].
    apply add_zero_r. exists false. reflexivity. }
  split; [reflexivity|]. split.
  { apply Q. intros i Hi. rewrite !(vec_at_tab sig) by exact Hi.
    destruct (sub_self prec emax _ (Fu i Hi)) as (s & E). change (ssub sig) with (fl_sub prec emax). rewrite E. destruct s; reflexivity. }
  split; [reflexivity|].
  apply Q. intros i Hi. rewrite !(vec_at_tab sig) by exact Hi. apply (same_beqb prec emax); [|apply finite_not_nan, Fu, Hi].
  change (ssub sig) with (fl_sub prec emax). rewrite fl_sub_def. apply add_zero_r. exists true. reflexivity.
Qed.

(** Negating twice gives the same polynomial, bit for bit. *)
Theorem C66_negation_involutive :
  forall p : poly fl, (q <- poly_neg FO p ;; poly_neg FO q) = Ok p.
Proof.
  intros p. unfold poly_neg.
  assert (E : forall q : poly fl, mapM (r_neg FO) q = Ok (map (@Bopp prec emax) q)) by (intros q; apply mapM_total; reflexivity).
  rewrite E. cbn [bind]. rewrite E, map_map. apply (f_equal Ok). etransitivity; [|apply map_id]. apply map_ext. intros x. apply Bopp_involutive.
Qed.
End Fmt.

(** A 2x2 matrix of non-integers meets the hypotheses; with an infinite entry [a * I == a] fails. *)
Definition thirds (x : f64) : smatrix f64 2 2 :=
  acons (acons third (acons x anil)) (acons (acons (f64_of_Z 2) (acons third anil)) anil).
Example C66_case :
  smat_finite 53 1024 (thirds (f64_of_Z 7))
  /\ on_ok (i <- smatrix_one f64_ring 2 2 ;; smatrix_mul f64_ring (thirds (B754_infinity false)) i)
       (fun r => smatrix_eqb f64_ring r (thirds (B754_infinity false))) = false
  /\ dmat_finite 53 1024 (MkDM [third; f64_of_Z 2] 1 2) /\ dm_wf Debug (MkDM [third; f64_of_Z 2] 1 2)
  /\ finite third /\ Forall (fun a : f64 => finite a) [third; f64_of_Z 2]
  /\ ~ In B754_nan (entries (acons third (acons (B754_infinity true) anil))).
Proof.
  split; [|split; [vm_compute; reflexivity|split; [repeat constructor|split; [split; reflexivity|split; [vm_compute; reflexivity|split; [repeat constructor|]]]]]].
  - intros i j x. unfold cell, thirds. simpl.
    destruct i as [|[|[|i]]]; simpl; try discriminate; destruct j as [|[|[|j]]]; simpl; try discriminate; intros [= <-]; vm_compute; reflexivity.
  - simpl. intros [H|[H|[]]]; [|discriminate H]. assert (is_nan third = true) by (rewrite H; reflexivity). vm_compute in H0. discriminate H0.
Qed.

Print Assumptions C66_identity_matrix.
Print Assumptions C66_dynamic_identity_matrix.
Print Assumptions C66_complex_one.
Print Assumptions C66_polynomial_one.
Print Assumptions C66_eval_at_zero.
Print Assumptions C66_dot_symmetric.
Print Assumptions C66_transpose_of_product.
Print Assumptions C66_squares_nonnegative.
Print Assumptions C66_conj_times_self.
Print Assumptions C66_vector_sums.
Print Assumptions C66_negation_involutive.
