(** Properties C26, C27, C36 and C37: the expression API of src/linalg/dvector.rs and
    src/linalg/dmatrix.rs.

    Reading guide: [vx T]/[mx T] (Model/DExpr.v) are the expressions a user can write,
    [vbuild]/[mbuild] construct the expression object with the code's functions,
    [v_eval]/[m_eval] is [eval()].  [vshape], [vmatch], [vmean], [vproper] (and the matrix
    versions; Spec/DExpr.v) are the mathematical shape, "all shapes match", the value of an
    entry, and "the stored matrices in it are proper objects". *)
From Coq Require Import List Arith NArith ZArith Lia Bool.
From Verif Require Import Base.Outcome Base.Usize Model.Traits Model.DVector Model.DMatrix Model.DExpr
  Spec.Agree Spec.DExpr Spec.Early Proofs.IntegerRing Proofs.DExprProofs Proofs.EarlyProofs Proofs.DVectorProofs.
Import ListNotations.

(** ** C26 *)
Lemma mapM_first_panic {A B} (f : A -> outcome B) (l : list A) k a p :
  nth_error l k = Some a -> f a = Panic p ->
  (forall j b, j < k -> nth_error l j = Some b -> exists y, f b = Ok y) ->
  mapM f l = Panic p.
Proof.
  revert k; induction l as [|x l IH]; intros [|k] Hk Hp H; simpl in *; try discriminate.
  - injection Hk as ->. rewrite Hp. reflexivity.
  - destruct (H 0 x) as (y & ->); [lia|reflexivity|]. simpl.
    rewrite (IH k); [reflexivity|exact Hk|exact Hp|]. intros j b Hj Hb. apply (H (S j) b); [lia|exact Hb].
Qed.

Theorem C26_vector_expression_meaning :
  forall (md : target) (T : Type) (e : vx T), vproper md e ->
  (vmatch e = false -> vbuild md e = Panic AssertFailed)
  /\ (vmatch e = true -> returns (vbuild md e) (fun b =>
        v_len b = vshape e
        /\ (forall i, (i < vshape e)%N -> v_entry b i = vmean e i)
        (* all entries computable: eval returns them in order *)
        /\ (forall f, (forall i, (i < vshape e)%N -> vmean e i = Ok (f i)) ->
              returns (v_eval b) (fun v => ulen v = vshape e /\
                 forall i, (i < vshape e)%N -> nth_error v (N.to_nat i) = Some (f i)))
        (* otherwise eval panics like the first entry that panics *)
        /\ (forall k p, (k < vshape e)%N -> (forall i, (i < k)%N -> exists x, vmean e i = Ok x) ->
              vmean e k = Panic p -> v_eval b = Panic p))).
Proof.
  intros md T e Hp. destruct (proj1 (build_correct md) T e Hp) as [H1 H2]. split; [exact H2|].
  intros Hm. destruct (H1 Hm) as (b & E & [Sl Se Sv]). exists b. split; [exact E|].
  split; [exact Sl|]. split; [exact Se|]. split.
  - intros f Hf. rewrite Sv. rewrite (mapM_total _ f) by (intros i Hi; apply Hf, in_urange, Hi).
    eexists. split; [reflexivity|]. split.
    + unfold ulen. rewrite map_length, urange_length. lia.
    + intros i Hi. erewrite map_nth_error; [reflexivity|]. rewrite nth_urange by lia. f_equal. lia.
  - intros k p Hk Hb Hpk. rewrite Sv. apply (mapM_first_panic _ _ (N.to_nat k) k p).
    + rewrite nth_urange by lia. f_equal. lia.
    + exact Hpk.
    + intros j a Hj Ha. rewrite nth_urange in Ha by lia. injection Ha as <-. apply Hb. lia.
Qed.

Theorem C26_matrix_expression_meaning :
  forall (md : target) (T : Type) (e : mx T), mproper md e ->
  let '(rows, cols) := mshape e in
  (mmatch e = false -> mbuild md e = Panic AssertFailed)
  /\ (mmatch e = true -> returns (mbuild md e) (fun b =>
        m_rows b = rows /\ m_cols b = cols
        /\ (forall r c, (r < rows)%N -> (c < cols)%N -> m_entry b r c = mmean e r c)
        /\ (forall f, (forall r c, (r < rows)%N -> (c < cols)%N -> mmean e r c = Ok (f r c)) ->
              returns (m_eval b) (fun m => dm_rows m = rows /\ dm_cols m = cols
                 /\ ulen (dm_data m) = (rows * cols)%N
                 /\ forall r c, (r < rows)%N -> (c < cols)%N -> row_major_at m r c = Some (f r c)))
        /\ (forall r c p, (r < rows)%N -> (c < cols)%N ->
              (forall r' c', (r' < rows)%N -> (c' < cols)%N -> (r' < r \/ r' = r /\ c' < c)%N ->
                 exists x, mmean e r' c' = Ok x) ->
              mmean e r c = Panic p -> m_eval b = Panic p))).
Proof.
  intros md T e Hp. destruct (proj2 (build_correct md) T e Hp) as [H1 H2].
  destruct (mshape e) as [rows cols] eqn:Esh. split; [exact H2|].
  intros Hm. destruct (H1 Hm) as (b & E & [Sr Sc Se Sv]). simpl in *. exists b. split; [exact E|].
  split; [exact Sr|]. split; [exact Sc|]. split; [exact Se|]. split.
  - intros f Hf. rewrite Sv. rewrite (mapM_total _ (fun '(r, c) => f r c)).
    + cbn [bind]. eexists. split; [reflexivity|]. simpl. split; [reflexivity|]. split; [reflexivity|]. split.
      * unfold ulen. rewrite map_length, index_pairs_length. lia.
      * intros r c Hr Hc. unfold row_major_at. simpl.
        rewrite (map_nth_error _ _ _ (index_pairs_nth rows cols r c Hr Hc)). reflexivity.
    + intros [r c] Hi. apply in_index_pairs in Hi. apply Hf; tauto.
  - intros r c p Hr Hc Hb Hpk. rewrite Sv.
    rewrite (mapM_first_panic _ _ (N.to_nat (r * cols + c)) (r, c) p); [reflexivity| | |].
    + apply index_pairs_nth; assumption.
    + exact Hpk.
    + intros j [r' c'] Hj Ha. apply index_pairs_inv in Ha as (Hr' & Hc' & ->). simpl in *.
      apply Hb; auto. assert (r' * cols + c' < r * cols + c)%N by lia.
      destruct (N.lt_trichotomy r' r) as [Hlt|[->|Hgt]]; [left; exact Hlt|right; lia|]. exfalso.
      assert (r * cols + c < r' * cols)%N by nia. lia.
Qed.

(** ([[1,2],[3,4]].t() + eye(2)).mul_elemwise(&m), evaluated. *)
Example C26_case :
  let m := MkDM [5; 6; 7; 8]%Z 2 2 in
  let e := MElem (r_mul z_ops) (MBin (r_add z_ops) (MTr (MArr 2 [[1; 2]; [3; 4]]%Z)) (MEye 0%Z 1%Z 2)) (MMatRef m) in
  mproper Debug e /\ mmatch e = true /\ mmean e 0 1 = Ok 18%Z
  /\ meval Debug e = Ok (MkDM [10; 18; 14; 40]%Z 2 2).
Proof.
  repeat split; try reflexivity.
  - repeat constructor.
Qed.
Example C26_mismatch_case :
  let e := VBin (r_add z_ops) (VSlice [1; 2]%Z) (VSame 3 7%Z) in
  vproper Debug e /\ vmatch e = false /\ vbuild Debug e = Panic AssertFailed.
Proof. repeat split. Qed.

(** ** C27: arbitrary operand objects, whatever their entries do. *)
Theorem C27_vector_shape_check :
  forall (A B C : Type) (op : A -> B -> outcome C) (x : vexpr A) (y : vexpr B),
  (v_len x <> v_len y ->
     vexpr_zip x y = Panic AssertFailed
     /\ vexpr_binop op x y = Panic AssertFailed
     /\ vexpr_op_elemwise op x y = Panic AssertFailed)
  /\ (v_len x = v_len y ->
     returns (vexpr_zip x y) (fun z => v_len z = v_len x)
     /\ returns (vexpr_binop op x y) (fun z => v_len z = v_len x)
     /\ returns (vexpr_op_elemwise op x y) (fun z => v_len z = v_len x)).
Proof.
  intros A B C op x y. split; intros H.
  - apply N.eqb_neq in H. split; [|split].
    + apply vexpr_zip_bad, H.
    + apply vexpr_binop_bad, H.
    + apply vexpr_elem_bad, H.
  - unfold vexpr_op_elemwise, vexpr_zip, vexpr_binop. rewrite assert_eq_true by (apply N.eqb_eq; exact H).
    cbn [bind]. repeat split; eexists; split; reflexivity.
Qed.

Theorem C27_matrix_shape_check :
  forall (A B C : Type) (op : A -> B -> outcome C) (x : mexpr A) (y : mexpr B),
  (m_rows x <> m_rows y \/ m_cols x <> m_cols y ->
     mexpr_zip x y = Panic AssertFailed
     /\ mexpr_binop op x y = Panic AssertFailed
     /\ mexpr_op_elemwise op x y = Panic AssertFailed)
  /\ (m_rows x = m_rows y /\ m_cols x = m_cols y ->
     returns (mexpr_zip x y) (fun z => m_rows z = m_rows x /\ m_cols z = m_cols x)
     /\ returns (mexpr_binop op x y) (fun z => m_rows z = m_rows x /\ m_cols z = m_cols x)
     /\ returns (mexpr_op_elemwise op x y) (fun z => m_rows z = m_rows x /\ m_cols z = m_cols x)).
Proof.
  intros A B C op x y. split; intros H.
  - assert (Hs : same_shape (mexpr_shape x) (mexpr_shape y) = false).
    { unfold same_shape, mexpr_shape. simpl. apply andb_false_iff.
      destruct H as [H|H]; [left|right]; apply N.eqb_neq; exact H. }
    split; [|split].
    + apply mexpr_zip_bad, Hs.
    + apply mexpr_binop_bad, Hs.
    + apply mexpr_elem_bad, Hs.
  - destruct H as [H1 H2]. unfold mexpr_op_elemwise, mexpr_zip, mexpr_binop.
    rewrite !assert_eq_true by (apply N.eqb_eq; assumption).
    cbn [bind]. repeat split; eexists; split; try reflexivity; split; reflexivity.
Qed.

(** The [&DVector] / [&DMatrix] forms, and the matrix product. *)
Theorem C27_reference_operators_and_product :
  forall (A B C : Type) (op : A -> B -> outcome C) (md : target),
  (forall (a : dvector A) (y : vexpr B),
     (ulen a <> v_len y -> dvector_binop op a y = Panic AssertFailed /\ dvector_op_elemwise op a y = Panic AssertFailed)
     /\ (ulen a = v_len y -> returns (dvector_binop op a y) (fun z => v_len z = ulen a)
           /\ returns (dvector_op_elemwise op a y) (fun z => v_len z = ulen a)))
  /\ (forall (a : dmatrix A) (y : mexpr B),
     ((dm_rows a, dm_cols a) <> (m_rows y, m_cols y) ->
        dmatrix_binop md op a y = Panic AssertFailed /\ dmatrix_op_elemwise md op a y = Panic AssertFailed)
     /\ ((dm_rows a, dm_cols a) = (m_rows y, m_cols y) ->
           returns (dmatrix_binop md op a y) (fun z => (m_rows z, m_cols z) = (dm_rows a, dm_cols a))
           /\ returns (dmatrix_op_elemwise md op a y) (fun z => (m_rows z, m_cols z) = (dm_rows a, dm_cols a))))
  /\ (forall (mul : A -> A -> outcome B) (add : B -> B -> outcome B) (a b : dmatrix A),
     (dm_cols a <> dm_rows b -> dmatrix_mul md mul add a b = Panic AssertFailed)
     /\ (dm_cols a = dm_rows b -> returns (dmatrix_mul md mul add a b) (fun z =>
           m_rows z = dm_rows a /\ m_cols z = dm_cols b))).
Proof.
  intros A B C op md. split; [|split].
  - intros a y. destruct (C27_vector_shape_check A B C op (vexpr_wrap (dvector_expr a)) y) as [H1 H2].
    simpl v_len in *. unfold dvector_binop, dvector_op_elemwise. split; intros H.
    + destruct (H1 H) as (_ & ? & ?). auto.
    + destruct (H2 H) as (_ & ? & ?). auto.
  - intros a y. destruct (C27_matrix_shape_check A B C op (mexpr_wrap (dmatrix_expr md a)) y) as [H1 H2].
    simpl m_rows in *. simpl m_cols in *. unfold dmatrix_binop, dmatrix_op_elemwise. split; intros H.
    + destruct H1 as (_ & ? & ?); [|auto].
      destruct (N.eq_dec (dm_rows a) (m_rows y)); [|auto]. right. intros E. apply H. congruence.
    + destruct H2 as (_ & (z & ? & ? & ?) & (z' & ? & ? & ?)); [injection H; auto|].
      split; [exists z|exists z']; split; auto; congruence.
  - intros mul add a b. unfold dmatrix_mul. split; intros H.
    + apply N.eqb_neq in H. rewrite assert_eq_false by exact H. reflexivity.
    + apply N.eqb_eq in H. rewrite assert_eq_true by exact H. eexists. split; [reflexivity|]. split; reflexivity.
Qed.

(** The check happens before any entry is computed: operands whose entries never return. *)
Example C27_case :
  let hang n := make_vector_expr n (fun _ => @Diverge Z) in
  vexpr_binop (r_add z_ops) (hang 2%N) (hang 3%N) = Panic AssertFailed
  /\ returns (vexpr_binop (r_add z_ops) (hang 3%N) (hang 3%N)) (fun z => v_eval z = Diverge).
Proof. split; [reflexivity|]. eexists. split; reflexivity. Qed.

(** ** C37: evaluating subexpressions early changes nothing. *)
Theorem C37_early_evaluation :
  forall (md : target) (T : Type),
  (forall e e' : vx T, vproper md e -> vearly md e e' -> veval md e' = veval md e)
  /\ (forall e e' : mx T, mproper md e -> mearly md e e' -> meval md e' = meval md e).
Proof.
  intros md T. split.
  - intros e e' Hp He. apply veval_same; [exact Hp|]. apply (proj1 (early_same md) T). exact He.
  - intros e e' Hp He. apply meval_same; [exact Hp|]. apply (proj2 (early_same md) T). exact He.
Qed.

(** Every [eval] that overrides the default one computes the default one. *)
Theorem C37_eval_overrides_agree_with_default :
  forall (md : target) (T : Type),
  (forall e : vx T, vproper md e -> forall b, vbuild md e = Ok b ->
     v_eval b = vexpr_default_eval (v_len b) (v_entry b))
  /\ (forall e : mx T, mproper md e -> forall b, mbuild md e = Ok b ->
     m_eval b = mexpr_default_eval (m_rows b) (m_cols b) (m_entry b))
  /\ (forall v : dvector T, v_eval (dvector_expr v) = Ok v
        /\ vexpr_default_eval (ulen v) (v_entry (dvector_expr v)) = Ok v)
  /\ (forall m : dmatrix T, dm_wf md m -> m_eval (dmatrix_expr md m) = Ok m
        /\ mexpr_default_eval (dm_rows m) (dm_cols m) (m_entry (dmatrix_expr md m)) = Ok m).
Proof.
  intros md T.
  assert (HV : forall b len (f : N -> outcome T), vspec b len f -> v_eval b = vexpr_default_eval (v_len b) (v_entry b)).
  { intros b len f [Sl Se Sv]. rewrite Sv, Sl. apply mapM_ext. intros i Hi. symmetry. apply Se, in_urange, Hi. }
  assert (HM : forall b sh (f : N -> N -> outcome T), mspec b sh f ->
             m_eval b = mexpr_default_eval (m_rows b) (m_cols b) (m_entry b)).
  { intros b sh f [Sr Sc Se Sv]. rewrite Sv, Sr, Sc. unfold mexpr_default_eval. f_equal. apply mapM_ext.
    intros [r c] Hi. apply in_index_pairs in Hi. symmetry. apply Se; tauto. }
  split; [|split; [|split]].
  - intros e Hp b E. destruct (proj1 (build_correct md) T e Hp) as [H1 H2].
    destruct (vmatch e); [|rewrite H2 in E by reflexivity; discriminate].
    destruct (H1 eq_refl) as (b' & E' & S). assert (b' = b) by congruence. subst b'. apply (HV _ _ _ S).
  - intros e Hp b E. destruct (proj2 (build_correct md) T e Hp) as [H1 H2].
    destruct (mmatch e); [|rewrite H2 in E by reflexivity; discriminate].
    destruct (H1 eq_refl) as (b' & E' & S). assert (b' = b) by congruence. subst b'. apply (HM _ _ _ S).
  - intros v. split; [reflexivity|]. symmetry. apply (HV _ _ _ (vspec_list v)).
  - intros m Hw. split; [reflexivity|]. symmetry. apply (HM _ _ _ (mspec_dm md m Hw)).
Qed.

(** Evaluating the inner transpose early in ([[1,2],[3,4]].t() + [[1,1],[1,1]]). *)
Example C37_case :
  let one := MArr 2 [[1; 1]; [1; 1]]%Z in
  let e := MBin (r_add z_ops) (MTr (MArr 2 [[1; 2]; [3; 4]]%Z)) one in
  let e' := MBin (r_add z_ops) (MMat (MkDM [1; 3; 2; 4]%Z 2 2)) one in
  mproper Debug e /\ mearly Debug e e' /\ meval Debug e' = Ok (MkDM [2; 4; 3; 5]%Z 2 2).
Proof.
  split; [repeat constructor|]. split; [|reflexivity].
  apply ME_bin; [|apply ME_refl]. apply ME_now; reflexivity.
Qed.

(** ** C36 *)
Theorem C36_vector_to_diagonal_matrix :
  forall (T : Type) (zero : T) (v : dvector T),
  returns (m_eval (dvector_diag zero v)) (fun m =>
    dm_rows m = ulen v /\ dm_cols m = ulen v /\ ulen (dm_data m) = (ulen v * ulen v)%N
    /\ forall r c, (r < ulen v)%N -> (c < ulen v)%N ->
         row_major_at m r c = if (r =? c)%N then nth_error v (N.to_nat r) else Some zero).
Proof.
  intros T zero v.
  pose proof (C26_matrix_expression_meaning Debug T (MDiagMat zero (VVecRef v)) I) as H.
  cbn [mshape vshape] in H. destruct H as [_ H]. destruct (H eq_refl) as (b & E & _ & _ & _ & Hv & _).
  cbn [mbuild vbuild bind] in E. injection E as <-. clear H.
  destruct v as [|x0 v'].
  - eexists. split; [reflexivity|]. repeat split. intros r c Hr. cbn in Hr. lia.
  - destruct (Hv (fun r c => if (r =? c)%N then nth (N.to_nat r) (x0 :: v') x0 else zero)) as (m & Em & ? & ? & ? & Hm).
    + intros r c Hr Hc. cbn [mmean vmean]. destruct (r =? c)%N; [|reflexivity].
      rewrite (nth_error_nth' _ x0) by (apply ulen_lt; exact Hr). reflexivity.
    + exists m. split; [exact Em|]. repeat split; auto. intros r c Hr Hc. rewrite Hm by assumption.
      destruct (r =? c)%N; [|reflexivity]. rewrite (nth_error_nth' _ x0) by (apply ulen_lt; exact Hr). reflexivity.
Qed.

Theorem C36_matrix_diagonal :
  forall (md : target) (T : Type) (m : dmatrix T), dm_wf md m ->
  returns (v_eval (dmatrix_diag md m)) (fun v =>
    ulen v = N.min (dm_rows m) (dm_cols m)
    /\ forall i, (i < N.min (dm_rows m) (dm_cols m))%N -> nth_error v (N.to_nat i) = row_major_at m i i).
Proof.
  intros md T m Hw. unfold dmatrix_diag, mexpr_diag. rewrite mexpr_eta. simpl. unfold vexpr_default_eval.
  set (n := N.min (dm_rows m) (dm_cols m)).
  destruct (mapM (fun i => dmatrix_entry md m i i) (urange n)) as [v|p|] eqn:E.
  - exists v. split; [reflexivity|]. apply mapM_range in E as [Hl Hv]. split; [exact Hl|].
    intros i Hi. specialize (Hv i Hi). rewrite dmatrix_entry_in in Hv by (assumption || unfold n in Hi; lia).
    destruct (row_major_some (md:=md) m i i) as (x & Ex); [assumption|unfold n in Hi; lia|unfold n in Hi; lia|].
    rewrite Ex in *. simpl in Hv. destruct (nth_error v (N.to_nat i)); simpl in Hv; congruence.
  - exfalso. destruct n as [|pn] eqn:En; [discriminate|].
    destruct (row_major_some (md:=md) m 0 0) as (d & _); [assumption|unfold n in En; lia|unfold n in En; lia|].
    rewrite (mapM_total _ (fun i => match row_major_at m i i with Some x => x | None => d end)) in E; [discriminate|].
    intros i Hi. apply in_urange in Hi. rewrite dmatrix_entry_in by (assumption || lia).
    destruct (row_major_some (md:=md) m i i) as (x & ->); [assumption|lia|lia|]. reflexivity.
  - exfalso. destruct n as [|pn] eqn:En; [discriminate|].
    destruct (row_major_some (md:=md) m 0 0) as (d & _); [assumption|unfold n in En; lia|unfold n in En; lia|].
    rewrite (mapM_total _ (fun i => match row_major_at m i i with Some x => x | None => d end)) in E; [discriminate|].
    intros i Hi. apply in_urange in Hi. rewrite dmatrix_entry_in by (assumption || lia).
    destruct (row_major_some (md:=md) m i i) as (x & ->); [assumption|lia|lia|]. reflexivity.
Qed.

(** [v.diag().diag()] is [v], lazily or through an evaluated matrix. *)
Theorem C36_diag_of_diag :
  forall (md : target) (T : Type) (zero : T) (v : dvector T),
  v_eval (mexpr_diag (dvector_diag zero v)) = Ok v
  /\ ((ulen v * ulen v < usize_bound md)%N ->
      (m <- m_eval (dvector_diag zero v) ;; v_eval (dmatrix_diag md m)) = Ok v).
Proof.
  intros md T zero v.
  assert (E1 : v_eval (mexpr_diag (dvector_diag zero v)) = Ok v).
  { change (veval md (VDiagOf (MDiagMat zero (VVecRef v))) = Ok v).
    rewrite veval_spec by (exact I || reflexivity). cbn [vshape mshape]. rewrite N.min_id.
    etransitivity; [|symmetry; apply (eval_self_vec v)]. apply mapM_ext. intros i Hi. cbn [vmean mmean]. rewrite N.eqb_refl. reflexivity. }
  split; [exact E1|]. intros Hb.
  destruct (C36_vector_to_diagonal_matrix T zero v) as (m & Em & Hr & Hc & _). rewrite Em. cbn [bind].
  change (veval md (VDiagOf (MMatRef m)) = Ok v). rewrite <- E1.
  change (veval md (VDiagOf (MMatRef m)) = veval md (VDiagOf (MDiagMat zero (VVecRef v)))).
  apply (proj1 (C37_early_evaluation md T)); [exact I|].
  apply VE_diag. apply ME_now_ref; [exact Em|]. rewrite Hr, Hc. exact Hb.
Qed.

Theorem C36_eye_and_constants :
  forall (T : Type) (zero one x : T) (n rows cols : N),
  m_eval (dmatrix_eye zero one n) = m_eval (vexpr_diag zero (dvector_ones one n))
  /\ returns (m_eval (dmatrix_eye zero one n)) (fun m => dm_rows m = n /\ dm_cols m = n
       /\ forall r c, (r < n)%N -> (c < n)%N -> row_major_at m r c = Some (if (r =? c)%N then one else zero))
  /\ (forall e, In e [dmatrix_zeros x; dmatrix_ones x; fun r c => dmatrix_same r c x] ->
        m_eval (e rows cols) = Ok (MkDM (repeat x (N.to_nat (rows * cols))) rows cols))
  /\ (forall e, In e [dvector_zeros x; dvector_ones x; fun n => dvector_same n x] ->
        v_eval (e n) = Ok (repeat x (N.to_nat n))).
Proof.
  intros T zero one x n rows cols. split; [|split; [|split]].
  - simpl. unfold mexpr_default_eval. f_equal. apply mapM_ext. intros [r c] _. destruct (r =? c)%N; reflexivity.
  - pose proof (C26_matrix_expression_meaning Debug T (MEye zero one n) I) as H. cbn [mshape] in H.
    destruct H as [_ H]. destruct (H eq_refl) as (b & E & _ & _ & _ & Hv & _). injection E as <-.
    destruct (Hv (fun r c => if (r =? c)%N then one else zero)) as (m & Em & ? & ? & _ & Hm); [reflexivity|].
    exists m. auto.
  - assert (G : mapM (fun '(_, _) => Ok x) (index_pairs rows cols) = Ok (repeat x (N.to_nat (rows * cols)))).
    { rewrite (mapM_total _ (fun _ => x)) by (intros [r c] _; reflexivity). f_equal.
      rewrite <- index_pairs_length. generalize (index_pairs rows cols).
      intros l; induction l; simpl; congruence. }
    intros e [<-|[<-|[<-|[]]]]; simpl; unfold mexpr_default_eval; rewrite G; reflexivity.
  - assert (G : mapM (fun _ => Ok x) (urange n) = Ok (repeat x (N.to_nat n))).
    { rewrite (mapM_total _ (fun _ => x)) by reflexivity. f_equal. rewrite <- (urange_length n).
      generalize (urange n). intros l; induction l; simpl; congruence. }
    intros e [<-|[<-|[<-|[]]]]; exact G.
Qed.

Example C36_case :
  m_eval (dvector_diag 0%Z [1; 2; 5]%Z) = Ok (MkDM [1; 0; 0; 0; 2; 0; 0; 0; 5]%Z 3 3)
  /\ v_eval (dmatrix_diag Debug (MkDM [1; 2; 3; 4; 5; 6]%Z 2 3)) = Ok [1; 5]%Z.
Proof. split; reflexivity. Qed.

Print Assumptions C26_vector_expression_meaning.
Print Assumptions C26_matrix_expression_meaning.
Print Assumptions C27_vector_shape_check.
Print Assumptions C27_matrix_shape_check.
Print Assumptions C27_reference_operators_and_product.
Print Assumptions C37_early_evaluation.
Print Assumptions C37_eval_overrides_agree_with_default.
Print Assumptions C36_vector_to_diagonal_matrix.
Print Assumptions C36_matrix_diagonal.
Print Assumptions C36_diag_of_diag.
Print Assumptions C36_eye_and_constants.
