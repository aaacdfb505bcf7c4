(** Property C67: the statically sized containers (SVector, SMatrix) and the dynamically
    sized ones (DVector, DMatrix) do the same thing.

    Nothing is assumed of the element type [T] (no ring laws), and its operations may panic:
    the two sides are equal as outcomes, that is, they return the same value or panic alike.
    So the claims hold bit for bit for floats and up to the overflow panics for integers.
    [column v] is the matrix with the single column v, [dm_of_smatrix a] the DMatrix with the
    entries of [a]; [md] is the overflow-check mode of the build. *)
From Coq Require Import List Arith NArith ZArith Lia Bool.
From Coq Require Vector.
From Flocq Require Import Core.Core IEEE754.BinarySingleNaN.
From Verif Require Import Base.Outcome Base.Usize Base.Array Model.Traits Model.Float Model.Int Model.SVector Model.SMatrix
  Model.DVector Model.DMatrix Spec.Ring Spec.Sums Spec.Matrix Spec.DExpr Spec.DMatrix Spec.Unwind Spec.FloatErr
  Proofs.IntProofs Proofs.FloatErr Proofs.FloatComm Proofs.FloatSpecial Proofs.SMatrixProofs
  Proofs.DExprProofs Proofs.DMatrixProofs Proofs.Paths Props.FloatProps Props.DMatrixProps.
Import ListNotations.
Open Scope nat_scope.

Definition column {T n} (v : svector T n) : smatrix T n 1 := Vector.map (fun x => acons x anil) v.
Definition first_column {T m n} (a : smatrix T m (S n)) : svector T m := Vector.map ahd a.

Lemma dm_of_rows {T m n} (a : smatrix T m n) : dm_of_smatrix a = MkDM (concat (rows_of a)) (N.of_nat m) (N.of_nat n).
Proof. reflexivity. Qed.

Section Any.
Context (T : Type) (O : RingOps T).

(** ** Vectors *)
Theorem C67_dot_products :
  forall n (u v : svector T n),
  svector_dot O u v = dvector_dot (r_zero O) (r_add O) (r_mul O) prim_conj (entries u) (entries v).
Proof. intros n u v. reflexivity. Qed.

(** Entrywise vector operations: [(u + v)] against [(u.to_vec() + v.to_vec()).eval()]. *)
Theorem C67_vector_sums :
  forall n (u v : svector T n),
  (w <- svector_add O u v ;; Ok (entries w)) = (e <- dvector_binop (r_add O) (entries u) (vexpr_wrap (dvector_expr (entries v))) ;; v_eval e)
  /\ (w <- svector_sub O u v ;; Ok (entries w)) = (e <- dvector_binop (r_sub O) (entries u) (vexpr_wrap (dvector_expr (entries v))) ;; v_eval e).
Proof.
  assert (G : forall op n (u v : svector T n),
    (w <- array_zip_mut op u v ;; Ok (entries w)) = (e <- dvector_binop op (entries u) (vexpr_wrap (dvector_expr (entries v))) ;; v_eval e)).
  { intros op n u v. rewrite array_zip_mapM. unfold dvector_binop. rewrite !vexpr_eta.
    pose proof (vspec_list (entries u)) as Su. pose proof (vspec_list (entries v)) as Sv.
    assert (L : ulen (entries v) = ulen (entries u)) by (unfold ulen; rewrite !entries_length; reflexivity).
    rewrite L in Sv. destruct (vspec_binop op _ _ _ _ _ Su Sv) as (e & -> & S). cbn [bind].
    rewrite (vs_eval _ _ _ S). apply mapM_pointwise.
    - unfold ulen. rewrite combine_length, !entries_length, urange_length, Nat2N.id. lia.
    - intros k [x y] i Hk Hi.
      assert (K : k < n). { pose proof (proj1 (nth_error_Some (combine (entries u) (entries v)) k) ltac:(congruence)) as Q. rewrite combine_length, !entries_length in Q. lia. }
      rewrite nth_urange in Hi by (unfold ulen; rewrite Nat2N.id, entries_length; exact K). injection Hi as <-.
      rewrite !Nat2N.id.
      assert (C : nth_error (entries u) k = Some x /\ nth_error (entries v) k = Some y).
      { clear - Hk. revert Hk. generalize (entries u), (entries v). intros l; revert k; induction l as [|a l IH]; intros [|k] [|b r]; cbn; try discriminate.
        - intros [= <- <-]; auto.
        - apply IH. }
      destruct C as [-> ->]. reflexivity. }
  intros n u v. split; apply G.
Qed.

(** ** Entrywise matrix operations *)
Theorem C67_matrix_sums :
  forall (md : target) m n (a b : smatrix T m n), fits md (N.of_nat m) (N.of_nat n) ->
  (p <- smatrix_add O a b ;; Ok (dm_of_smatrix p)) = dm_op md (r_add O) (dm_of_smatrix a) (dm_of_smatrix b)
  /\ (p <- smatrix_sub O a b ;; Ok (dm_of_smatrix p)) = dm_op md (r_sub O) (dm_of_smatrix a) (dm_of_smatrix b).
Proof.
  assert (G : forall op md m n (a b : smatrix T m n), fits md (N.of_nat m) (N.of_nat n) ->
    (p <- array_zip_mut (fun lo ro => array_zip_mut op lo ro) a b ;; Ok (dm_of_smatrix p)) = dm_op md op (dm_of_smatrix a) (dm_of_smatrix b)).
  { intros op md m n a b F. unfold dm_op, dmatrix_binop. rewrite !mexpr_eta.
    pose proof (mspec_dm md _ (dm_of_smatrix_wf a F)) as Sa. pose proof (mspec_dm md _ (dm_of_smatrix_wf b F)) as Sb.
    destruct (mspec_binop op _ _ _ _ _ Sa Sb) as (e & -> & S). cbn [bind].
    rewrite (ms_eval _ _ _ S). cbn [fst snd dm_rows dm_cols dm_of_smatrix].
    transitivity (d <- (p <- array_zip_mut (fun lo ro => array_zip_mut op lo ro) a b ;; Ok (concat (rows_of p))) ;; Ok (MkDM d (N.of_nat m) (N.of_nat n))).
    { rewrite bind_assoc. reflexivity. }
    apply (f_equal (fun d => bind d (fun d => Ok (MkDM d (N.of_nat m) (N.of_nat n))))).
    rewrite smatrix_zip_data. symmetry. apply mapM_pointwise.
    - rewrite index_pairs_length, combine_length, !concat_rows_length. lia.
    - intros k [r c] [x y] Hi Hk.
      destruct (index_pairs_inv _ _ _ _ Hi) as (Hr & Hc & Ek). cbn [fst snd] in *.
      assert (C : nth_error (concat (rows_of a)) k = Some x /\ nth_error (concat (rows_of b)) k = Some y).
      { clear - Hk. revert Hk. generalize (concat (rows_of a)), (concat (rows_of b)).
        intros l; revert k; induction l as [|u l IH]; intros [|k] [|v r]; cbn; try discriminate.
        - intros [= <- <-]; auto.
        - apply IH. }
      destruct C as [Cx Cy]. unfold row_major_at. cbn [dm_data dm_cols dm_of_smatrix].
      change (concat (map entries (entries a))) with (concat (rows_of a)). change (concat (map entries (entries b))) with (concat (rows_of b)).
      replace (N.to_nat (r * N.of_nat n + c)) with k by exact Ek. rewrite Cx, Cy. reflexivity. }
  intros md m n a b F. split; apply G; exact F.
Qed.

(** ** Products *)
(** [a * v] is the column of [a * column(v)]. *)
Theorem C67_matrix_vector :
  forall m n (a : smatrix T m n) (v : svector T n),
  smatrix_mul_vec O a v = (p <- smatrix_mul O a (column v) ;; Ok (first_column p)).
Proof.
  intros m n a v. apply outcome_entries_inj. rewrite bind_assoc.
  transitivity (mapM (fun row : array T n => acc_products O (entries row) (entries v) (r_zero O)) (entries a)).
  - unfold smatrix_mul_vec. rewrite (array_gen_mapM m _ (fun i => row <- array_get a i ;; acc_products O (entries row) (entries v) (r_zero O)) 0).
    + symmetry. apply mapM_pointwise; [rewrite entries_length, seq_length; reflexivity|].
      intros k row l Hr Hl.
      assert (Hk : k < m) by (rewrite <- (seq_length m 0); apply nth_error_Some; congruence).
      rewrite (nth_error_nth' _ 0) in Hl by (rewrite seq_length; exact Hk). rewrite seq_nth in Hl by exact Hk. injection Hl as <-.
      cbn [Nat.add]. unfold array_get, vget. rewrite Hr. reflexivity.
    + intros i _. rewrite bind_assoc. apply bind_ext. intros row. reflexivity.
  - assert (E : forall p : smatrix T m 1, entries (first_column p) = concat (rows_of p)).
    { clear. intros p. induction p as [|row m p IH]; [reflexivity|]. unfold first_column, rows_of in *. cbn [Vector.map entries map concat].
      rewrite <- IH, (array_S row), (array_0 (atl row)). reflexivity. }
    transitivity (l <- (p <- smatrix_mul O a (column v) ;; Ok (rows_of p)) ;; Ok (concat l)).
    2: { rewrite bind_assoc. apply bind_ext. intros p. cbn [bind]. rewrite <- E. reflexivity. }
    rewrite smatrix_mul_rows.
    assert (C : col_entries (column v) 0 = Ok (entries v)).
    { unfold col_entries, column. clear. induction v as [|x n v IH]; [reflexivity|]. cbn [Vector.map entries mapM]. rewrite IH. reflexivity. }
    cbn [seq mapM]. rewrite C. cbn [bind]. generalize (entries a). intros l. induction l as [|row l IH]; [reflexivity|].
    cbn [mapM]. rewrite IH, !bind_assoc. apply bind_ext. intros x. cbn [bind]. rewrite !bind_assoc. apply bind_ext. reflexivity.
Qed.

(** [u * v] (dot product) is the entry of the 1 x 1 matrix [row(u) * column(v)]. *)
Theorem C67_dot_is_a_matrix_product :
  forall n (u v : svector T n),
  svector_dot O u v = (p <- smatrix_mul O (acons u anil : smatrix T 1 n) (column v) ;; Ok (ahd (ahd p))).
Proof.
  intros n u v. transitivity (w <- smatrix_mul_vec O (acons u anil) v ;; Ok (ahd w)).
  - unfold smatrix_mul_vec. cbn [array_gen]. change (array_get (acons u anil) 0) with (Ok (u : array T n)). cbn [bind].
    rewrite !bind_assoc. unfold svector_dot, svector_dot_ref, svector_into_iter.
    destruct (for_each _ _ _); reflexivity.
  - rewrite C67_matrix_vector, bind_assoc. apply bind_ext. intros p. cbn [bind]. f_equal.
    rewrite (array_S p), (array_0 (atl p)). reflexivity.
Qed.

(** The SMatrix product starts each sum with zero, the DMatrix product with the first
    product; where [0 + x] is [x], they are the same. *)
Theorem C67_matrix_products :
  (forall x, r_add O (r_zero O) x = Ok x) ->
  forall (md : target) L M N (a : smatrix T L M) (b : smatrix T M N),
  1 <= M -> fits md (N.of_nat L) (N.of_nat M) -> fits md (N.of_nat M) (N.of_nat N) ->
  (p <- smatrix_mul O a b ;; Ok (dm_of_smatrix p)) = dm_mul md (r_add O) (r_mul O) (dm_of_smatrix a) (dm_of_smatrix b).
Proof.
  intros H0 md L M N a b HM Fa Fb.
  transitivity (l <- (p <- smatrix_mul O a b ;; Ok (rows_of p)) ;; Ok (MkDM (concat l) (N.of_nat L) (N.of_nat N))).
  { rewrite bind_assoc. reflexivity. }
  rewrite smatrix_mul_rows. unfold dm_mul, dmatrix_mul. rewrite assert_eq_true by apply N.eqb_refl. cbn [bind m_eval].
  unfold mexpr_default_eval. cbn [dm_rows dm_cols dm_of_smatrix]. unfold index_pairs. rewrite mapM_flat_map.
  transitivity (d <- (l <- mapM (fun row : array T M => mapM (fun n => c <- col_entries b n ;; acc_products O (entries row) c (r_zero O)) (seq 0 N)) (entries a) ;; Ok (concat l)) ;;
     Ok (MkDM d (N.of_nat L) (N.of_nat N))).
  { rewrite bind_assoc. reflexivity. }
  apply (f_equal (fun d => bind d (fun d => Ok (MkDM d (N.of_nat L) (N.of_nat N))))).
  apply (f_equal (fun d => bind d (fun d => Ok (concat d)))).
  apply mapM_pointwise; [rewrite entries_length, urange_length, Nat2N.id; reflexivity|].
  intros r row r' Hr Hr'.
  assert (Lr : r < L). { rewrite <- (entries_length a). apply nth_error_Some. congruence. }
  rewrite nth_urange in Hr' by (rewrite Nat2N.id; exact Lr). injection Hr' as <-.
  rewrite mapM_map. apply mapM_pointwise; [rewrite seq_length, urange_length, Nat2N.id; reflexivity|].
  intros c n c' Hc Hc'.
  assert (Lc : c < N). { rewrite <- (seq_length N 0). apply nth_error_Some. congruence. }
  rewrite nth_urange in Hc' by (rewrite Nat2N.id; exact Lc). injection Hc' as <-.
  rewrite (nth_error_nth' _ 0) in Hc by (rewrite seq_length; exact Lc). rewrite seq_nth in Hc by exact Lc. injection Hc as <-. cbn [Nat.add].
  change (mul_dmatrix_entry md (r_mul O) (r_add O) {| dm_data := concat (map entries (entries a)); dm_rows := N.of_nat L; dm_cols := N.of_nat M |}
     {| dm_data := concat (map entries (entries b)); dm_rows := N.of_nat M; dm_cols := N.of_nat N |})
   with (mul_dmatrix_entry md (r_mul O) (r_add O) (dm_of_smatrix a) (dm_of_smatrix b)).
  rewrite mul_entry_mean; [|apply dm_of_smatrix_wf; exact Fa|apply dm_of_smatrix_wf; exact Fb|reflexivity|cbn; lia|cbn; lia|cbn; lia].
  cbn [dm_cols dm_of_smatrix].
  rewrite <- (smatrix_entry_acc O a b r c row Lc Hr).
  destruct M as [|M]; [lia|]. unfold for_range. rewrite Nat.sub_0_r. cbn [seq for_each].
  assert (P : forall m s, m < S M ->
    (srow <- array_get a r ;; x <- array_get srow m ;; orow <- array_get b m ;; y <- array_get orow c ;; prod <- r_mul O x y ;; r_add O s prod)
    = (prod <- (x <- some_ok (row_major_at (dm_of_smatrix a) (N.of_nat r) (N.of_nat m)) ;;
                y <- some_ok (row_major_at (dm_of_smatrix b) (N.of_nat m) (N.of_nat c)) ;; r_mul O x y) ;; r_add O s prod)).
  { intros m s Hm. unfold row_major_at. cbn [dm_data dm_cols dm_of_smatrix].
    destruct (concat_rows_nth a r m Lr Hm) as (ra & Ea & Qa). destruct (concat_rows_nth b m c Hm Lc) as (rb & Eb & Qb).
    change (concat (map entries (entries a))) with (concat (rows_of a)). change (concat (map entries (entries b))) with (concat (rows_of b)).
    replace (N.to_nat (N.of_nat r * N.of_nat (S M) + N.of_nat m)) with (r * S M + m) by lia.
    replace (N.to_nat (N.of_nat m * N.of_nat N + N.of_nat c)) with (m * N + c) by lia.
    rewrite Qa, Qb. unfold array_get, vget. rewrite Ea, Eb. cbn [bind].
    destruct (nth_error (entries ra) m) as [x|]; [|reflexivity]. cbn [bind some_ok].
    destruct (nth_error (entries rb) c) as [y|]; [|reflexivity]. reflexivity. }
  rewrite P by lia. unfold fold_products.
  set (p0 := x <- some_ok (row_major_at (dm_of_smatrix a) (N.of_nat r) (N.of_nat 0)) ;; _).
  rewrite (bind_ext p0 (fun prod => r_add O (r_zero O) prod) (fun x => Ok x)) by (intros; apply H0). rewrite bind_ret.
  apply bind_ext. intros s. unfold urange_from. rewrite Nat2N.id. change (N.to_nat 1) with 1. cbn [Nat.sub]. rewrite Nat.sub_0_r.
  rewrite for_each_map. apply for_each_ext. intros m s' Hm. apply in_seq in Hm. apply P. lia.
Qed.
End Any.

(** ** Floats *)
Section Fmt.
Context (prec emax : Z) {Hp : Prec_gt_0 prec} {He : Prec_lt_emax prec emax}.
Notation fl := (binary_float prec emax).
Notation FO := (float_ring prec emax).
Notation sig := (float_sig prec emax).

Lemma sum1_same f n : same_up_to_zero (sum1 sig n f) (sum_n sig (S n) f).
Proof.
  induction n as [|n IH].
  - apply same_sym. apply (add_zero_l prec emax). exists false. reflexivity.
  - change (sum_n sig (S (S n)) f) with (sadd sig (sum_n sig (S n) f) (f (S n))). cbn [sum1].
    apply (add_same_l prec emax), IH.
Qed.

(** Over floats the two matrix products differ at most in the sign of zeros. *)
Theorem C67_float_matrix_products :
  forall (md : target) L M N (a : smatrix fl L M) (b : smatrix fl M N),
  1 <= M -> fits md (N.of_nat L) (N.of_nat M) -> fits md (N.of_nat M) (N.of_nat N) ->
  exists s d, smatrix_mul FO a b = Ok s
  /\ dm_mul md (r_add FO) (r_mul FO) (dm_of_smatrix a) (dm_of_smatrix b) = Ok d
  /\ dm_rows d = N.of_nat L /\ dm_cols d = N.of_nat N
  /\ forall i j, i < L -> j < N -> exists x y, cell s i j = Some x
     /\ row_major_at d (N.of_nat i) (N.of_nat j) = Some y /\ same_up_to_zero x y.
Proof.
  intros md L M N a b HM Fa Fb. unfold dm_mul, smatrix_mul.
  rewrite (smatrix_mul_total FO _ (float_implements prec emax)).
  rewrite (dm_mul_total sig (r_add FO) (r_mul FO) (fun _ _ => eq_refl) (fun _ _ => eq_refl) md _ _ (dm_of_smatrix_wf a Fa) (dm_of_smatrix_wf b Fb) eq_refl)
    by (cbn; lia).
  do 2 eexists. split; [reflexivity|]. split; [reflexivity|]. split; [reflexivity|]. split; [reflexivity|].
  intros i j Hi Hj. do 2 eexists. split; [apply (cell_mat_at sig); assumption|].
  split; [apply row_major_tab; cbn; lia|]. rewrite (mat_at_tab sig) by assumption. apply same_sym.
  cbn [dm_cols dm_of_smatrix]. rewrite Nat2N.id. destruct M as [|M]; [lia|]. cbn [Nat.pred].
  assert (X : forall n f g, (forall k, k <= n -> f k = g k) -> sum1 sig n f = sum1 sig n g).
  { intros n f g H. induction n as [|n IH]; [apply H; lia|]. cbn [sum1]. rewrite IH by (intros; apply H; lia). rewrite H by lia. reflexivity. }
  rewrite (X M _ (fun m => smul sig (mat_at sig a i m) (mat_at sig b m j))).
  - apply sum1_same.
  - intros k Hk. rewrite !dm_of_smatrix_at by lia. reflexivity.
Qed.
End Fmt.

(** The sign of zero does differ: (-0) * 1 is +0 as an SMatrix, -0 as a DMatrix. *)
Theorem C67_bit_for_bit_refuted :
  exists (a b : smatrix f64 1 1) s d, smatrix_mul f64_ring a b = Ok s
  /\ dm_mul Debug (r_add f64_ring) (r_mul f64_ring) (dm_of_smatrix a) (dm_of_smatrix b) = Ok d
  /\ cell s 0 0 = Some (B754_zero false) /\ dm_data d = [B754_zero true].
Proof.
  exists (acons (acons (B754_zero true) anil) anil), (acons (acons (f64_of_Z 1) anil) anil).
  do 2 eexists. split; [reflexivity|]. split; [vm_compute; reflexivity|]. split; vm_compute; reflexivity.
Qed.

(** Over the machine integers, with and without overflow checks, the two products are the
    same: same entries, or the same overflow panic. *)
Theorem C67_integer_matrix_products :
  forall (md : target) (t : int_type) L M N (a : smatrix (int t) L M) (b : smatrix (int t) M N),
  1 <= M -> fits md (N.of_nat L) (N.of_nat M) -> fits md (N.of_nat M) (N.of_nat N) ->
  (p <- smatrix_mul (int_ops (checks md) t) a b ;; Ok (dm_of_smatrix p))
  = dm_mul md (r_add (int_ops (checks md) t)) (r_mul (int_ops (checks md) t)) (dm_of_smatrix a) (dm_of_smatrix b).
Proof.
  intros md t L M N a b HM Fa Fb. apply (C67_matrix_products (int t) (int_ops (checks md) t)); try assumption.
  intros x. cbn [r_add r_zero int_ops ival int_lit]. unfold int_result. rewrite Z.add_0_l.
  destruct (bool_dec _ true) as [H|H]; [f_equal; apply int_eq; reflexivity|]. exfalso. apply H, ival_ok.
Qed.

(** Shapes that fit; an i8 product that returns and one that overflows on both sides. *)
Definition i8 (z : Z) (H : (-128 <= z <= 127)%Z) : int I8 := int_lit I8 z H.
Lemma le_100 : (-128 <= 100 <= 127)%Z. Proof. lia. Qed.
Example C67_case :
  fits Debug 2 3 /\ fits Debug 3 2
  /\ smatrix_mul (int_ops Debug I8) (acons (acons (i8 100 le_100) anil) anil : smatrix (int I8) 1 1) (acons (acons (i8 100 le_100) anil) anil)
     = Panic ArithOverflow
  /\ exists p, smatrix_mul (int_ops Debug I8) (acons (acons (i8 100 le_100) anil) anil : smatrix (int I8) 1 1) (acons (acons (i8 1 lit1) anil) anil) = Ok p.
Proof. split; [reflexivity|]. split; [reflexivity|]. split; [reflexivity|]. eexists. reflexivity. Qed.

Print Assumptions C67_dot_products.
Print Assumptions C67_vector_sums.
Print Assumptions C67_matrix_sums.
Print Assumptions C67_matrix_vector.
Print Assumptions C67_dot_is_a_matrix_product.
Print Assumptions C67_matrix_products.
Print Assumptions C67_float_matrix_products.
Print Assumptions C67_bit_for_bit_refuted.
Print Assumptions C67_integer_matrix_products.
