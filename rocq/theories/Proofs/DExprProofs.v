(** Expression objects compute the meaning of expressions. *)
From Coq Require Import List Arith NArith Lia Bool.
From Verif Require Import Base.Outcome Base.Usize Model.DVector Model.DMatrix Model.DExpr Spec.DExpr.
Import ListNotations.

(** ** Row-major order *)
Lemma flat_map_nth {A B} (f : A -> list B) n (l : list A) r c x :
  (forall a, In a l -> length (f a) = n) -> nth_error l r = Some x -> c < n ->
  nth_error (flat_map f l) (r * n + c) = nth_error (f x) c.
Proof.
  intros Hn; revert r; induction l as [|a l IH]; intros r Hr Hc; [destruct r; discriminate|].
  simpl. destruct r as [|r]; simpl in *.
  - injection Hr as <-. apply nth_error_app1. rewrite Hn by (left; reflexivity). exact Hc.
  - rewrite nth_error_app2 by (rewrite Hn by (left; reflexivity); lia).
    rewrite Hn by (left; reflexivity). replace (n + r * n + c - n) with (r * n + c) by lia.
    apply IH; auto; intros b Hb; apply Hn; right; exact Hb.
Qed.

Lemma flat_map_length_const {A B} (f : A -> list B) n (l : list A) :
  (forall a, In a l -> length (f a) = n) -> length (flat_map f l) = length l * n.
Proof.
  induction l as [|a l IH]; intros H; simpl; [reflexivity|].
  rewrite app_length, H by (left; reflexivity). rewrite IH; [reflexivity|].
  intros b Hb; apply H; right; exact Hb.
Qed.

Lemma index_pairs_length rows cols : length (index_pairs rows cols) = N.to_nat (rows * cols).
Proof.
  unfold index_pairs. rewrite (flat_map_length_const _ (N.to_nat cols)).
  - rewrite urange_length. lia.
  - intros a _. rewrite map_length, urange_length. reflexivity.
Qed.

Lemma index_pairs_nth rows cols r c : (r < rows)%N -> (c < cols)%N ->
  nth_error (index_pairs rows cols) (N.to_nat (r * cols + c)) = Some (r, c).
Proof.
  intros Hr Hc. unfold index_pairs.
  replace (N.to_nat (r * cols + c)) with (N.to_nat r * N.to_nat cols + N.to_nat c) by lia.
  rewrite (flat_map_nth _ (N.to_nat cols) _ (N.to_nat r) (N.to_nat c) r).
  - apply map_nth_error. rewrite nth_urange by lia. f_equal. lia.
  - intros a _. rewrite map_length, urange_length. reflexivity.
  - rewrite nth_urange by lia. f_equal. lia.
  - lia.
Qed.

Lemma in_index_pairs rows cols r c :
  In (r, c) (index_pairs rows cols) <-> (r < rows)%N /\ (c < cols)%N.
Proof.
  unfold index_pairs. rewrite in_flat_map. split.
  - intros (x & Hx & H). apply in_map_iff in H as (y & E & Hy). injection E as <- <-.
    apply in_urange in Hx, Hy. auto.
  - intros [Hr Hc]. exists r. split; [apply in_urange; exact Hr|].
    apply in_map_iff. exists c. split; [reflexivity|apply in_urange; exact Hc].
Qed.

(** Every position of the flat list is an (r, c). *)
Lemma index_pairs_inv rows cols k p :
  nth_error (index_pairs rows cols) k = Some p ->
  (fst p < rows)%N /\ (snd p < cols)%N /\ k = N.to_nat (fst p * cols + snd p).
Proof.
  intros H. destruct p as [r c].
  assert (Hk : k < N.to_nat (rows * cols)).
  { rewrite <- index_pairs_length. apply nth_error_Some. congruence. }
  assert (Hc0 : (0 < cols)%N) by (destruct cols; lia).
  set (r' := (N.of_nat k / cols)%N). set (c' := (N.of_nat k mod cols)%N).
  assert (E : N.of_nat k = (r' * cols + c')%N).
  { unfold r', c'. rewrite (N.mul_comm _ cols). apply N.div_mod. lia. }
  assert (Hc' : (c' < cols)%N) by (apply N.mod_lt; lia).
  assert (Hr' : (r' < rows)%N).
  { apply N.div_lt_upper_bound; [lia|]. lia. }
  assert (H' := index_pairs_nth rows cols r' c' Hr' Hc').
  rewrite <- E, Nat2N.id, H in H'. injection H' as -> ->. simpl. repeat split; auto. lia.
Qed.

(** ** Offsets *)
Lemma dm_offset_ok md cols r c : (r * cols + c < usize_bound md)%N ->
  dm_offset md cols r c = Ok (r * cols + c)%N.
Proof.
  intros H. unfold dm_offset, u_mul, u_add.
  rewrite usize_result_ok by lia. simpl. apply usize_result_ok. exact H.
Qed.

Lemma flat_lt (rows cols r c : N) : (r < rows -> c < cols -> r * cols + c < rows * cols)%N.
Proof. intros. nia. Qed.

Lemma dmatrix_entry_in md {T} (m : dmatrix T) r c : dm_wf md m ->
  (r < dm_rows m)%N -> (c < dm_cols m)%N ->
  dmatrix_entry md m r c = some_ok (row_major_at m r c).
Proof.
  intros [Hl Hb] Hr Hc. unfold dmatrix_entry.
  pose proof (flat_lt _ _ _ _ Hr Hc) as Ho.
  rewrite dm_offset_ok by lia. simpl. rewrite sget_vget. unfold vget, row_major_at, some_ok. reflexivity.
Qed.

Lemma row_major_some {md T} (m : dmatrix T) r c : dm_wf md m ->
  (r < dm_rows m)%N -> (c < dm_cols m)%N -> exists x, row_major_at m r c = Some x.
Proof.
  intros [Hl Hb] Hr Hc. unfold row_major_at.
  pose proof (flat_lt _ _ _ _ Hr Hc) as Ho. unfold ulen in Hl.
  destruct (nth_error (dm_data m) (N.to_nat (r * dm_cols m + c))) eqn:E; [eauto|].
  apply nth_error_None in E. lia.
Qed.

(** ** Evaluation overrides *)
Lemma eval_self_vec {T} (v : list T) :
  Ok v = mapM (fun i => some_ok (nth_error v (N.to_nat i))) (urange (ulen v)).
Proof.
  symmetry. apply mapM_self.
  - rewrite urange_length. unfold ulen. lia.
  - intros k a b Ha Hb.
    assert (Hk : k < N.to_nat (ulen v)).
    { rewrite <- urange_length. apply nth_error_Some. congruence. }
    rewrite nth_urange in Ha by exact Hk. injection Ha as <-.
    rewrite Nat2N.id, Hb. reflexivity.
Qed.

Lemma eval_self_mat {md T} (m : dmatrix T) : dm_wf md m ->
  Ok m = (data <- mapM (fun '(r, c) => some_ok (row_major_at m r c)) (index_pairs (dm_rows m) (dm_cols m)) ;;
          Ok (MkDM data (dm_rows m) (dm_cols m))).
Proof.
  intros Hw. rewrite (mapM_self _ _ (dm_data m)).
  - destruct m; reflexivity.
  - rewrite index_pairs_length. destruct Hw as [Hl _]. unfold ulen in Hl. lia.
  - intros k [r c] b Ha Hb. apply index_pairs_inv in Ha as (Hr & Hc & ->). simpl in *.
    unfold row_major_at. rewrite Hb. reflexivity.
Qed.

Lemma concat_nth {T} cols (rows : list (list T)) r c : array2_wf cols rows ->
  (r < ulen rows)%N -> (c < cols)%N ->
  nth_error (concat rows) (N.to_nat (r * cols + c)) = nth_error (nth (N.to_nat r) rows []) (N.to_nat c).
Proof.
  intros Hw Hr Hc. rewrite <- (map_id rows) at 1. rewrite <- flat_map_concat_map.
  replace (N.to_nat (r * cols + c)) with (N.to_nat r * N.to_nat cols + N.to_nat c) by lia.
  rewrite (flat_map_nth (fun l => l) (N.to_nat cols) rows (N.to_nat r) (N.to_nat c) (nth (N.to_nat r) rows [])).
  - reflexivity.
  - intros a Ha. unfold array2_wf in Hw. rewrite Forall_forall in Hw. specialize (Hw a Ha). unfold ulen in Hw. lia.
  - apply (nth_error_nth' rows []). apply ulen_lt. exact Hr.
  - lia.
Qed.

Lemma array2_wf_length {T} cols (rows : list (list T)) : array2_wf cols rows ->
  ulen (concat rows) = (ulen rows * cols)%N.
Proof.
  intros Hw. unfold ulen. rewrite <- (map_id rows) at 1. rewrite <- flat_map_concat_map.
  rewrite (flat_map_length_const _ (N.to_nat cols)); [lia|].
  intros a Ha. unfold array2_wf in Hw. rewrite Forall_forall in Hw. specialize (Hw a Ha). unfold ulen in Hw. lia.
Qed.

Lemma eval_self_arr {T} cols (rows : list (list T)) : array2_wf cols rows ->
  Ok (MkDM (concat rows) (ulen rows) cols)
  = (data <- mapM (fun '(r, c) => some_ok (nth_error (nth (N.to_nat r) rows []) (N.to_nat c)))
                  (index_pairs (ulen rows) cols) ;;
     Ok (MkDM data (ulen rows) cols)).
Proof.
  intros Hw. rewrite (mapM_self _ _ (concat rows)).
  - reflexivity.
  - rewrite index_pairs_length. pose proof (array2_wf_length cols rows Hw) as H. unfold ulen in *. lia.
  - intros k [r c] b Ha Hb. apply index_pairs_inv in Ha as (Hr & Hc & ->). simpl in *.
    rewrite concat_nth in Hb by assumption. rewrite Hb. reflexivity.
Qed.

(** ** Specification of an expression object *)
Record vspec {T} (b : vexpr T) (len : N) (f : N -> outcome T) : Prop := {
  vs_len : v_len b = len;
  vs_entry : forall i, (i < len)%N -> v_entry b i = f i;
  vs_eval : v_eval b = mapM f (urange len)
}.
Record mspec {T} (b : mexpr T) (sh : N * N) (f : N -> N -> outcome T) : Prop := {
  ms_rows : m_rows b = fst sh;
  ms_cols : m_cols b = snd sh;
  ms_entry : forall r c, (r < fst sh)%N -> (c < snd sh)%N -> m_entry b r c = f r c;
  ms_eval : m_eval b = (data <- mapM (fun '(r, c) => f r c) (index_pairs (fst sh) (snd sh)) ;;
                        Ok (MkDM data (fst sh) (snd sh)))
}.

Lemma vspec_make {T} len (g f : N -> outcome T) : (forall i, (i < len)%N -> g i = f i) ->
  vspec (make_vector_expr len g) len f.
Proof.
  intros H. constructor; simpl; auto. apply mapM_ext. intros i Hi. apply H, in_urange, Hi.
Qed.
Lemma mspec_make {T} rows cols (g f : N -> N -> outcome T) :
  (forall r c, (r < rows)%N -> (c < cols)%N -> g r c = f r c) ->
  mspec (make_matrix_expr rows cols g) (rows, cols) f.
Proof.
  intros H. constructor; simpl; auto. unfold mexpr_default_eval. f_equal.
  apply mapM_ext. intros [r c] Hi. apply in_index_pairs in Hi. apply H; tauto.
Qed.

Lemma assert_eq_true a b : (a =? b)%N = true -> assert_eq_usize a b = Ok tt.
Proof. intros H. unfold assert_eq_usize. rewrite H. reflexivity. Qed.
Lemma assert_eq_false a b : (a =? b)%N = false -> assert_eq_usize a b = Panic AssertFailed.
Proof. intros H. unfold assert_eq_usize. rewrite H. reflexivity. Qed.

Section Combinators.
Context {A B C : Type}.

Lemma vspec_map (b : vexpr A) len f (g : A -> outcome B) : vspec b len f ->
  vspec (vexpr_map b g) len (fun i => x <- f i ;; g x).
Proof.
  intros [Hl He _]. unfold vexpr_map. rewrite Hl. apply vspec_make. intros i Hi. rewrite He by exact Hi. reflexivity.
Qed.
Lemma mspec_map (b : mexpr A) sh f (g : A -> outcome B) : mspec b sh f ->
  mspec (mexpr_map b g) sh (fun r c => x <- f r c ;; g x).
Proof.
  intros [Hr Hc He _]. unfold mexpr_map. rewrite Hr, Hc. destruct sh as [rr cc]. apply mspec_make.
  intros r c H1 H2. rewrite He by assumption. reflexivity.
Qed.

Lemma vspec_zip (b1 : vexpr A) (b2 : vexpr B) len f g : vspec b1 len f -> vspec b2 len g ->
  exists b, vexpr_zip b1 b2 = Ok b /\ vspec b len (fun i => x <- f i ;; y <- g i ;; Ok (x, y)).
Proof.
  intros [Hl He _] [Hl' He' _]. unfold vexpr_zip. rewrite Hl, Hl', assert_eq_true by apply N.eqb_refl.
  eexists. split; [reflexivity|]. apply vspec_make. intros i Hi. rewrite He, He' by exact Hi. reflexivity.
Qed.
Lemma mspec_zip (b1 : mexpr A) (b2 : mexpr B) sh f g : mspec b1 sh f -> mspec b2 sh g ->
  exists b, mexpr_zip b1 b2 = Ok b /\ mspec b sh (fun r c => x <- f r c ;; y <- g r c ;; Ok (x, y)).
Proof.
  intros [Hr Hc He _] [Hr' Hc' He' _]. unfold mexpr_zip.
  rewrite Hr, Hc, Hr', Hc', !assert_eq_true by apply N.eqb_refl. cbn [bind].
  eexists. split; [reflexivity|]. destruct sh as [rr cc]. apply mspec_make.
  intros r c H1 H2. rewrite He, He' by assumption. reflexivity.
Qed.

Lemma vspec_binop (op : A -> B -> outcome C) (b1 : vexpr A) (b2 : vexpr B) len f g :
  vspec b1 len f -> vspec b2 len g ->
  exists b, vexpr_binop op b1 b2 = Ok b /\ vspec b len (fun i => x <- f i ;; y <- g i ;; op x y).
Proof.
  intros [Hl He _] [Hl' He' _]. unfold vexpr_binop. rewrite Hl, Hl', assert_eq_true by apply N.eqb_refl.
  eexists. split; [reflexivity|].
  apply (vspec_make len (fun i => x <- v_entry b1 i ;; y <- v_entry b2 i ;; op x y)).
  intros i Hi. rewrite He, He' by exact Hi. reflexivity.
Qed.
Lemma mspec_binop (op : A -> B -> outcome C) (b1 : mexpr A) (b2 : mexpr B) sh f g :
  mspec b1 sh f -> mspec b2 sh g ->
  exists b, mexpr_binop op b1 b2 = Ok b /\ mspec b sh (fun r c => x <- f r c ;; y <- g r c ;; op x y).
Proof.
  intros [Hr Hc He _] [Hr' Hc' He' _]. unfold mexpr_binop.
  rewrite Hr, Hc, Hr', Hc', !assert_eq_true by apply N.eqb_refl. cbn [bind].
  eexists. split; [reflexivity|]. destruct sh as [rr cc].
  apply (mspec_make rr cc (fun r c => x <- m_entry b1 r c ;; y <- m_entry b2 r c ;; op x y)).
  intros r c H1 H2. rewrite He, He' by assumption. reflexivity.
Qed.
End Combinators.

Lemma vspec_elem {A B C} (op : A -> B -> outcome C) (b1 : vexpr A) (b2 : vexpr B) len f g :
  vspec b1 len f -> vspec b2 len g ->
  exists b, vexpr_op_elemwise op b1 b2 = Ok b /\ vspec b len (fun i => x <- f i ;; y <- g i ;; op x y).
Proof.
  intros H1 H2. destruct (vspec_zip b1 b2 len f g H1 H2) as (z & E & Hz).
  unfold vexpr_op_elemwise. rewrite E. cbn [bind]. eexists. split; [reflexivity|].
  assert (H := vspec_map z len _ (fun '(x, y) => op x y) Hz). destruct H as [Hl He Hv].
  constructor; auto.
  - intros i Hi. rewrite He by exact Hi. rewrite bind_assoc. apply bind_ext; intros x.
    rewrite bind_assoc. apply bind_ext; intros y. reflexivity.
  - rewrite Hv. apply mapM_ext. intros i _. rewrite bind_assoc. apply bind_ext; intros x.
    rewrite bind_assoc. apply bind_ext; intros y. reflexivity.
Qed.
Lemma mspec_elem {A B C} (op : A -> B -> outcome C) (b1 : mexpr A) (b2 : mexpr B) sh f g :
  mspec b1 sh f -> mspec b2 sh g ->
  exists b, mexpr_op_elemwise op b1 b2 = Ok b /\ mspec b sh (fun r c => x <- f r c ;; y <- g r c ;; op x y).
Proof.
  intros H1 H2. destruct (mspec_zip b1 b2 sh f g H1 H2) as (z & E & Hz).
  unfold mexpr_op_elemwise. rewrite E. cbn [bind]. eexists. split; [reflexivity|].
  assert (H := mspec_map z sh _ (fun '(x, y) => op x y) Hz). destruct H as [Hr Hc He Hv].
  constructor; auto.
  - intros i j Hi Hj. rewrite He by assumption. rewrite bind_assoc. apply bind_ext; intros x.
    rewrite bind_assoc. apply bind_ext; intros y. reflexivity.
  - rewrite Hv. f_equal. apply mapM_ext. intros [i j] _. rewrite bind_assoc. apply bind_ext; intros x.
    rewrite bind_assoc. apply bind_ext; intros y. reflexivity.
Qed.

(** Shape mismatch *)
Lemma vexpr_zip_bad {A B} (b1 : vexpr A) (b2 : vexpr B) : (v_len b1 =? v_len b2)%N = false ->
  vexpr_zip b1 b2 = Panic AssertFailed.
Proof. intros H. unfold vexpr_zip. rewrite assert_eq_false by exact H. reflexivity. Qed.
Lemma vexpr_binop_bad {A B C} (op : A -> B -> outcome C) (b1 : vexpr A) (b2 : vexpr B) :
  (v_len b1 =? v_len b2)%N = false -> vexpr_binop op b1 b2 = Panic AssertFailed.
Proof. intros H. unfold vexpr_binop. rewrite assert_eq_false by exact H. reflexivity. Qed.
Lemma vexpr_elem_bad {A B C} (op : A -> B -> outcome C) (b1 : vexpr A) (b2 : vexpr B) :
  (v_len b1 =? v_len b2)%N = false -> vexpr_op_elemwise op b1 b2 = Panic AssertFailed.
Proof. intros H. unfold vexpr_op_elemwise. rewrite vexpr_zip_bad by exact H. reflexivity. Qed.

Lemma assert2_bad {A} (s1 s2 : N * N) (k : outcome A) : same_shape s1 s2 = false ->
  (_ <- assert_eq_usize (fst s1) (fst s2) ;; _ <- assert_eq_usize (snd s1) (snd s2) ;; k) = Panic AssertFailed.
Proof.
  unfold same_shape, assert_eq_usize. destruct (fst s1 =? fst s2)%N, (snd s1 =? snd s2)%N; simpl; congruence.
Qed.
Definition mexpr_shape {A} (b : mexpr A) : N * N := (m_rows b, m_cols b).
Lemma mexpr_zip_bad {A B} (b1 : mexpr A) (b2 : mexpr B) :
  same_shape (mexpr_shape b1) (mexpr_shape b2) = false -> mexpr_zip b1 b2 = Panic AssertFailed.
Proof. intros H. unfold mexpr_zip. apply (assert2_bad (mexpr_shape b1) (mexpr_shape b2)). exact H. Qed.
Lemma mexpr_binop_bad {A B C} (op : A -> B -> outcome C) (b1 : mexpr A) (b2 : mexpr B) :
  same_shape (mexpr_shape b1) (mexpr_shape b2) = false -> mexpr_binop op b1 b2 = Panic AssertFailed.
Proof. intros H. unfold mexpr_binop. apply (assert2_bad (mexpr_shape b1) (mexpr_shape b2)). exact H. Qed.
Lemma mexpr_elem_bad {A B C} (op : A -> B -> outcome C) (b1 : mexpr A) (b2 : mexpr B) :
  same_shape (mexpr_shape b1) (mexpr_shape b2) = false -> mexpr_op_elemwise op b1 b2 = Panic AssertFailed.
Proof. intros H. unfold mexpr_op_elemwise. rewrite mexpr_zip_bad by exact H. reflexivity. Qed.

(** ** The main induction *)
Scheme vx_mind := Induction for vx Sort Prop
  with mx_mind := Induction for mx Sort Prop.
Combined Scheme vx_mx_ind from vx_mind, mx_mind.

Definition vgood md {T} (e : vx T) : Prop :=
  vproper md e ->
  (vmatch e = true -> exists b, vbuild md e = Ok b /\ vspec b (vshape e) (vmean e))
  /\ (vmatch e = false -> vbuild md e = Panic AssertFailed).
Definition mgood md {T} (e : mx T) : Prop :=
  mproper md e ->
  (mmatch e = true -> exists b, mbuild md e = Ok b /\ mspec b (mshape e) (mmean e))
  /\ (mmatch e = false -> mbuild md e = Panic AssertFailed).

Lemma vexpr_eta {T} (b : vexpr T) : vexpr_wrap b = b.
Proof. destruct b; reflexivity. Qed.
Lemma mexpr_eta {T} (b : mexpr T) : mexpr_wrap b = b.
Proof. destruct b; reflexivity. Qed.

Lemma vspec_list {T} (v : list T) :
  vspec (dvector_expr v) (ulen v) (fun i => some_ok (nth_error v (N.to_nat i))).
Proof.
  constructor; simpl.
  - reflexivity.
  - intros i _. rewrite sget_vget. reflexivity.
  - apply eval_self_vec.
Qed.
Lemma mspec_dm md {T} (m : dmatrix T) : dm_wf md m ->
  mspec (dmatrix_expr md m) (dm_rows m, dm_cols m) (fun r c => some_ok (row_major_at m r c)).
Proof.
  intros Hw. constructor; simpl; auto.
  - intros r c Hr Hc. apply dmatrix_entry_in; assumption.
  - apply (eval_self_mat m Hw).
Qed.
Lemma mspec_arr {T} cols (rows : list (list T)) : array2_wf cols rows ->
  mspec (array2_expr cols rows) (ulen rows, cols)
        (fun r c => some_ok (nth_error (nth (N.to_nat r) rows []) (N.to_nat c))).
Proof.
  intros Hw. constructor; simpl; auto.
  - intros r c Hr Hc. rewrite (sget_ok rows r []) by exact Hr. simpl. rewrite sget_vget. reflexivity.
  - apply eval_self_arr. exact Hw.
Qed.

Lemma mul_entry_mean md {A B} (mul : A -> A -> outcome B) add (a b : dmatrix A) r c :
  dm_wf md a -> dm_wf md b -> dm_cols a = dm_rows b -> (1 <= dm_cols a)%N ->
  (r < dm_rows a)%N -> (c < dm_cols b)%N ->
  mul_dmatrix_entry md mul add a b r c
  = fold_products add (fun i => x <- some_ok (row_major_at a r i) ;;
                                y <- some_ok (row_major_at b i c) ;; mul x y) (dm_cols a).
Proof.
  intros Ha Hb Hi H1 Hr Hc. unfold mul_dmatrix_entry, fold_products.
  rewrite (dmatrix_entry_in md a r 0 Ha) by (auto; lia).
  rewrite (dmatrix_entry_in md b 0 c Hb) by (auto; lia).
  rewrite !bind_assoc. apply bind_ext; intros x. rewrite !bind_assoc. apply bind_ext; intros y.
  apply bind_ext; intros s. apply for_each_ext. intros i s' Hin.
  unfold urange_from in Hin. apply in_map_iff in Hin as (k & <- & Hk). apply in_seq in Hk.
  rewrite (dmatrix_entry_in md a r _ Ha) by (auto; lia).
  rewrite (dmatrix_entry_in md b _ c Hb) by (auto; lia).
  rewrite !bind_assoc. apply bind_ext; intros x'. rewrite !bind_assoc. apply bind_ext; intros y'. reflexivity.
Qed.


Theorem build_correct md : (forall T (e : vx T), vgood md e) /\ (forall T (e : mx T), mgood md e).
Proof.
  apply vx_mx_ind; unfold vgood, mgood; intros;
    cbn [vmatch mmatch vproper mproper vbuild mbuild vshape mshape vmean mmean] in *.
  - split; [intros _|discriminate]. eexists. split; [reflexivity|]. rewrite vexpr_eta. apply vspec_list.
  - split; [intros _|discriminate]. eexists. split; [reflexivity|]. apply vspec_list.
  - split; [intros _|discriminate]. eexists. split; [reflexivity|]. rewrite vexpr_eta. apply vspec_list.
  - split; [intros _|discriminate]. eexists. split; [reflexivity|]. apply vspec_make; auto.
  - split; [intros _|discriminate]. eexists. split; [reflexivity|]. apply vspec_make; auto.
  - destruct (H H0) as [IHt IHf]. split; intros Hm.
    + destruct (IHt Hm) as (b & E & Hs). rewrite E. cbn [bind]. eexists; split; [reflexivity|].
      apply (vspec_map b _ _ f). exact Hs.
    + rewrite (IHf Hm). reflexivity.
  - destruct H1 as [P1 P2]. destruct (H P1) as [IHt IHf]. destruct (H0 P2) as [IHt' IHf'].
    destruct (vmatch e1) eqn:M1; [|split; [discriminate|intros _; rewrite IHf by reflexivity; reflexivity]].
    destruct (IHt eq_refl) as (b1 & E1 & S1). rewrite E1. cbn [bind andb].
    destruct (vmatch e2) eqn:M2; [|split; [discriminate|intros _; rewrite IHf' by reflexivity; reflexivity]].
    destruct (IHt' eq_refl) as (b2 & E2 & S2). rewrite E2. cbn [bind andb].
    split; intros Hm.
    + apply N.eqb_eq in Hm. rewrite <- Hm in S2. apply vspec_zip; assumption.
    + apply vexpr_zip_bad. rewrite (vs_len _ _ _ S1), (vs_len _ _ _ S2). exact Hm.
  - destruct H1 as [P1 P2]. destruct (H P1) as [IHt IHf]. destruct (H0 P2) as [IHt' IHf'].
    destruct (vmatch e1) eqn:M1; [|split; [discriminate|intros _; rewrite IHf by reflexivity; reflexivity]].
    destruct (IHt eq_refl) as (b1 & E1 & S1). rewrite E1. cbn [bind andb].
    destruct (vmatch e2) eqn:M2; [|split; [discriminate|intros _; rewrite IHf' by reflexivity; reflexivity]].
    destruct (IHt' eq_refl) as (b2 & E2 & S2). rewrite E2. cbn [bind andb].
    split; intros Hm.
    + apply N.eqb_eq in Hm. rewrite <- Hm in S2. apply vspec_binop; assumption.
    + apply vexpr_binop_bad. rewrite (vs_len _ _ _ S1), (vs_len _ _ _ S2). exact Hm.
  - destruct H1 as [P1 P2]. destruct (H P1) as [IHt IHf]. destruct (H0 P2) as [IHt' IHf'].
    destruct (vmatch e1) eqn:M1; [|split; [discriminate|intros _; rewrite IHf by reflexivity; reflexivity]].
    destruct (IHt eq_refl) as (b1 & E1 & S1). rewrite E1. cbn [bind andb].
    destruct (vmatch e2) eqn:M2; [|split; [discriminate|intros _; rewrite IHf' by reflexivity; reflexivity]].
    destruct (IHt' eq_refl) as (b2 & E2 & S2). rewrite E2. cbn [bind andb].
    split; intros Hm.
    + apply N.eqb_eq in Hm. rewrite <- Hm in S2. apply vspec_elem; assumption.
    + apply vexpr_elem_bad. rewrite (vs_len _ _ _ S1), (vs_len _ _ _ S2). exact Hm.
  - destruct (H H0) as [IHt IHf]. split; intros Hm.
    + destruct (IHt Hm) as (b & E & Hs). rewrite E. cbn [bind]. eexists; split; [reflexivity|].
      apply (vspec_map b _ _ conj). exact Hs.
    + rewrite (IHf Hm). reflexivity.
  - destruct (H H0) as [IHt IHf]. split; intros Hm.
    + destruct (IHt Hm) as (b & E & Hs). rewrite E. cbn [bind]. eexists; split; [reflexivity|].
      destruct Hs as [Hr Hc He _]. unfold mexpr_diag. rewrite Hr, Hc. destruct (mshape e) as [rr cc]. simpl in *.
      apply vspec_make. intros i Hi. apply He; lia.
    + rewrite (IHf Hm). reflexivity.
  - split; [intros _|discriminate]. eexists. split; [reflexivity|]. rewrite mexpr_eta. apply mspec_arr; assumption.
  - split; [intros _|discriminate]. eexists. split; [reflexivity|]. apply mspec_dm; assumption.
  - split; [intros _|discriminate]. eexists. split; [reflexivity|]. rewrite mexpr_eta. apply mspec_dm; assumption.
  - split; [intros _|discriminate]. eexists. split; [reflexivity|]. apply mspec_make; auto.
  - split; [intros _|discriminate]. eexists. split; [reflexivity|]. apply mspec_make; auto.
  - split; [intros _|discriminate]. eexists. split; [reflexivity|]. apply mspec_make; auto.
  - destruct (H H0) as [IHt IHf]. split; intros Hm.
    + destruct (IHt Hm) as (b & E & Hs). rewrite E. cbn [bind]. eexists; split; [reflexivity|].
      apply (mspec_map b _ _ f). exact Hs.
    + rewrite (IHf Hm). reflexivity.
  - destruct H1 as [P1 P2]. destruct (H P1) as [IHt IHf]. destruct (H0 P2) as [IHt' IHf'].
    destruct (mmatch e1) eqn:M1; [|split; [discriminate|intros _; rewrite IHf by reflexivity; reflexivity]].
    destruct (IHt eq_refl) as (b1 & E1 & S1). rewrite E1. cbn [bind andb].
    destruct (mmatch e2) eqn:M2; [|split; [discriminate|intros _; rewrite IHf' by reflexivity; reflexivity]].
    destruct (IHt' eq_refl) as (b2 & E2 & S2). rewrite E2. cbn [bind andb].
    split; intros Hm.
    + replace (mshape e2) with (mshape e1) in S2.
      * apply mspec_zip; assumption.
      * unfold same_shape in Hm. apply andb_true_iff in Hm as [X Y]. apply N.eqb_eq in X, Y.
        destruct (mshape e1), (mshape e2); simpl in *; congruence.
    + apply mexpr_zip_bad. destruct S1 as [R1 C1 _ _], S2 as [R2 C2 _ _].
      unfold mexpr_shape. rewrite R1, C1, R2, C2. destruct (mshape e1), (mshape e2); exact Hm.
  - destruct H1 as [P1 P2]. destruct (H P1) as [IHt IHf]. destruct (H0 P2) as [IHt' IHf'].
    destruct (mmatch e1) eqn:M1; [|split; [discriminate|intros _; rewrite IHf by reflexivity; reflexivity]].
    destruct (IHt eq_refl) as (b1 & E1 & S1). rewrite E1. cbn [bind andb].
    destruct (mmatch e2) eqn:M2; [|split; [discriminate|intros _; rewrite IHf' by reflexivity; reflexivity]].
    destruct (IHt' eq_refl) as (b2 & E2 & S2). rewrite E2. cbn [bind andb].
    split; intros Hm.
    + replace (mshape e2) with (mshape e1) in S2.
      * apply mspec_binop; assumption.
      * unfold same_shape in Hm. apply andb_true_iff in Hm as [X Y]. apply N.eqb_eq in X, Y.
        destruct (mshape e1), (mshape e2); simpl in *; congruence.
    + apply mexpr_binop_bad. destruct S1 as [R1 C1 _ _], S2 as [R2 C2 _ _].
      unfold mexpr_shape. rewrite R1, C1, R2, C2. destruct (mshape e1), (mshape e2); exact Hm.
  - destruct H1 as [P1 P2]. destruct (H P1) as [IHt IHf]. destruct (H0 P2) as [IHt' IHf'].
    destruct (mmatch e1) eqn:M1; [|split; [discriminate|intros _; rewrite IHf by reflexivity; reflexivity]].
    destruct (IHt eq_refl) as (b1 & E1 & S1). rewrite E1. cbn [bind andb].
    destruct (mmatch e2) eqn:M2; [|split; [discriminate|intros _; rewrite IHf' by reflexivity; reflexivity]].
    destruct (IHt' eq_refl) as (b2 & E2 & S2). rewrite E2. cbn [bind andb].
    split; intros Hm.
    + replace (mshape e2) with (mshape e1) in S2.
      * apply mspec_elem; assumption.
      * unfold same_shape in Hm. apply andb_true_iff in Hm as [X Y]. apply N.eqb_eq in X, Y.
        destruct (mshape e1), (mshape e2); simpl in *; congruence.
    + apply mexpr_elem_bad. destruct S1 as [R1 C1 _ _], S2 as [R2 C2 _ _].
      unfold mexpr_shape. rewrite R1, C1, R2, C2. destruct (mshape e1), (mshape e2); exact Hm.
  - destruct (H H0) as [IHt IHf]. split; intros Hm.
    + destruct (IHt Hm) as (b & E & Hs). rewrite E. cbn [bind]. eexists; split; [reflexivity|].
      destruct Hs as [Hr Hc He _]. unfold mexpr_t. rewrite Hr, Hc. destruct (mshape e) as [rr cc]. simpl in *.
      apply mspec_make. intros r c H1 H2. apply He; assumption.
    + rewrite (IHf Hm). reflexivity.
  - destruct (H H0) as [IHt IHf]. split; intros Hm.
    + destruct (IHt Hm) as (b & E & Hs). rewrite E. cbn [bind]. eexists; split; [reflexivity|].
      destruct Hs as [Hr Hc He _]. unfold mexpr_h. rewrite Hr, Hc. destruct (mshape e) as [rr cc]. simpl in *.
      apply mspec_make. intros r c H1 H2. rewrite He by assumption. reflexivity.
    + rewrite (IHf Hm). reflexivity.
  - destruct (H H0) as [IHt IHf]. split; intros Hm.
    + destruct (IHt Hm) as (b & E & Hs). rewrite E. cbn [bind]. eexists; split; [reflexivity|].
      destruct Hs as [Hl He _]. unfold vexpr_diag. rewrite Hl.
      apply mspec_make. intros r c H1 H2. destruct (N.eqb_spec r c) as [->|]; [|reflexivity]. apply He; assumption.
    + rewrite (IHf Hm). reflexivity.
  - destruct H as (Wa & Wb & H1). unfold dmatrix_mul. split; intros Hm.
    + rewrite assert_eq_true by exact Hm. cbn [bind]. eexists; split; [reflexivity|].
      apply N.eqb_eq in Hm.
      pose proof (mspec_make (dm_rows a) (dm_cols b) (mul_dmatrix_entry md mul add a b) _
        (fun r c Hr Hc => mul_entry_mean md mul add a b r c Wa Wb Hm H1 Hr Hc)) as [S1 S2 S3 S4].
      constructor; assumption.
    + rewrite assert_eq_false by exact Hm. reflexivity.
Qed.
