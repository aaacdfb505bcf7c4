(** In-place loops of DVector/DMatrix and storage facts. *)
From Coq Require Import List Arith NArith Lia Bool.
From Verif Require Import Base.Outcome Base.Usize Model.DVector Model.DMatrix Model.DExpr
  Spec.DExpr Proofs.DExprProofs Proofs.EarlyProofs.
Import ListNotations.

(** The loop over [its] where item number [j] updates slot [j], stopping at the first panic. *)
Fixpoint inplace_run {I A} (g : I -> A -> outcome A) (its : list I) (l : list A) : list A * outcome unit :=
  match its, l with
  | it :: its', x :: l' =>
      match g it x with
      | Ok z => let '(l'', o) := inplace_run g its' l' in (z :: l'', o)
      | Panic p => (x :: l', Panic p)
      | Diverge => (x :: l', Diverge)
      end
  | _, _ => (l, Ok tt)
  end.

Definition inplace_step {I A} (off : I -> outcome N) (g : I -> A -> outcome A) (it : I) (data : list A)
  : mres (list A) :=
  match (i <- off it ;; x <- sget data i ;; z <- g it x ;; sset data i z) with
  | Ok data' => (data', Ok tt)
  | Panic p => (data, Panic p)
  | Diverge => (data, Diverge)
  end.

Lemma list_upd_app {A} (pre : list A) x l z :
  list_upd (pre ++ x :: l) (length pre) z = pre ++ z :: l.
Proof. induction pre as [|y pre IH]; simpl; [reflexivity|]. f_equal. exact IH. Qed.

Lemma inplace_loop {I A} (off : I -> outcome N) (g : I -> A -> outcome A) its l pre :
  length its = length l ->
  (forall j it, nth_error its j = Some it -> off it = Ok (N.of_nat (length pre + j))) ->
  for_each_mut (inplace_step off g) its (pre ++ l)
  = let '(l', o) := inplace_run g its l in (pre ++ l', o).
Proof.
  revert l pre; induction its as [|it its IH]; intros [|x l] pre Hl Ho; simpl in *; try discriminate.
  - reflexivity.
  - unfold inplace_step at 1. rewrite (Ho 0 it) by reflexivity. rewrite Nat.add_0_r. cbn [bind].
    assert (Hn : (N.of_nat (length pre) < ulen (pre ++ x :: l))%N).
    { unfold ulen. rewrite app_length. simpl. lia. }
    rewrite (sget_ok _ _ x Hn), Nat2N.id, app_nth2, Nat.sub_diag by lia. cbn [bind nth].
    destruct (g it x) as [z|p|] eqn:E; cbn [bind]; try reflexivity.
    unfold sset. apply N.ltb_lt in Hn. rewrite Hn, Nat2N.id, list_upd_app.
    replace (pre ++ z :: l) with ((pre ++ [z]) ++ l) by (rewrite <- app_assoc; reflexivity).
    rewrite IH; [|lia|].
    + destruct (inplace_run g its l) as [l' o]. rewrite <- app_assoc. reflexivity.
    + intros j it' Hj. rewrite app_length. simpl. rewrite (Ho (S j) it' Hj). f_equal. lia.
Qed.

Lemma inplace_finish {I A} (g : I -> A -> outcome A) its l : length its = length l ->
  finish (inplace_run g its l) = mapM (fun '(it, x) => g it x) (combine its l).
Proof.
  revert l; induction its as [|it its IH]; intros [|x l] Hl; simpl in *; try discriminate; [reflexivity|].
  destruct (g it x) as [z|p|]; try reflexivity. cbn [bind].
  rewrite <- IH by lia. destruct (inplace_run g its l) as [l' [u|p|]]; reflexivity.
Qed.

Lemma inplace_total {I A} (g : I -> A -> outcome A) (h : I -> A -> A) its l : length its = length l ->
  (forall j it x, nth_error its j = Some it -> nth_error l j = Some x -> g it x = Ok (h it x)) ->
  inplace_run g its l = (map (fun '(it, x) => h it x) (combine its l), Ok tt).
Proof.
  revert l; induction its as [|it its IH]; intros [|x l] Hl H; simpl in *; try discriminate; [reflexivity|].
  rewrite (H 0 it x) by reflexivity. rewrite IH; [reflexivity|lia|].
  intros j it' x' Hj Hx. apply (H (S j)); assumption.
Qed.

(** First panic at slot [k]. *)
Lemma inplace_stops {I A} (g : I -> A -> outcome A) (h : I -> A -> A) its l k p : length its = length l ->
  k < length l ->
  (forall j it x, j < k -> nth_error its j = Some it -> nth_error l j = Some x -> g it x = Ok (h it x)) ->
  (forall it x, nth_error its k = Some it -> nth_error l k = Some x -> g it x = Panic p) ->
  inplace_run g its l
  = (map (fun '(it, x) => h it x) (combine (firstn k its) (firstn k l)) ++ skipn k l, Panic p).
Proof.
  revert l k; induction its as [|it its IH]; intros [|x l] k Hl Hk H Hp; simpl in *; try discriminate; try lia.
  destruct k as [|k]; simpl.
  - rewrite (Hp it x) by reflexivity. reflexivity.
  - rewrite (H 0 it x) by (try reflexivity; lia). rewrite (IH l k); [reflexivity|lia|lia| |].
    + intros j it' x' Hj H1 H2. apply (H (S j)); auto; lia.
    + intros it' x' H1 H2. apply Hp; assumption.
Qed.

(** [mapM] over a zip with a read-back of the stored values. *)
Lemma mapM_combine_read {I A B} (its : list I) (l : list A) (g : I -> A -> outcome B) (rd : I -> outcome A) :
  length its = length l ->
  (forall j it x, nth_error its j = Some it -> nth_error l j = Some x -> rd it = Ok x) ->
  mapM (fun '(it, x) => g it x) (combine its l) = mapM (fun it => x <- rd it ;; g it x) its.
Proof.
  revert l; induction its as [|it its IH]; intros [|x l] Hl H; simpl in *; try discriminate; [reflexivity|].
  rewrite (H 0 it x) by reflexivity. cbn [bind]. apply bind_ext; intros y.
  rewrite (IH l); [reflexivity|lia|]. intros j it' x' Hj Hx. apply (H (S j)); assumption.
Qed.

(** ** DVector compound assignment *)
Lemma dvector_op_assign_run {A B} (op : A -> B -> outcome A) (a : dvector A) (e : vexpr B) :
  dvector_op_assign op a e
  = inplace_run (fun i x => y <- v_entry e i ;; op x y) (urange (ulen a)) a.
Proof.
  assert (H := inplace_loop Ok (fun i x => y <- v_entry e i ;; op x y) (urange (ulen a)) a []).
  simpl in H. destruct (inplace_run _ (urange (ulen a)) a) as [l o] eqn:E.
  rewrite <- H; clear H E.
  - unfold dvector_op_assign. generalize a at 2 4. intros a0. generalize (urange (ulen a)).
    intros its. revert a0. induction its as [|it its IH]; intros a0; simpl; [reflexivity|].
    unfold inplace_step at 1. cbn [bind].
    replace (x <- sget a0 it;; z <- (y <- v_entry e it;; op x y);; sset a0 it z)
       with (x <- sget a0 it;; y <- v_entry e it;; z <- op x y;; sset a0 it z)
      by (apply bind_ext; intros; rewrite bind_assoc; reflexivity).
    destruct (x <- sget a0 it;; y <- v_entry e it;; z <- op x y;; sset a0 it z); auto.
  - rewrite urange_length. unfold ulen. lia.
  - intros j it Hj. f_equal.
    assert (j < N.to_nat (ulen a)) by (rewrite <- urange_length; apply nth_error_Some; congruence).
    rewrite nth_urange in Hj by assumption. congruence.
Qed.

(** ** DMatrix compound assignment *)
Lemma for_each_mut_flat_map {A B S} (f : A -> list B) (body : B -> S -> mres S) l s :
  for_each_mut body (flat_map f l) s = for_each_mut (fun a => for_each_mut body (f a)) l s.
Proof.
  revert s; induction l as [|a l IH]; intros s; simpl; [reflexivity|].
  assert (App : forall l1 l2 s, for_each_mut body (l1 ++ l2) s =
     match for_each_mut body l1 s with (s', Ok _) => for_each_mut body l2 s' | (s', o) => (s', o) end).
  { clear. induction l1 as [|x l1 IH]; intros l2 s; simpl.
    - reflexivity.
    - destruct (body x s) as [s' [u|p|]]; auto. }
  rewrite App. destruct (for_each_mut body (f a) s) as [s' [u|p|]]; auto.
Qed.

Lemma for_each_mut_map {A B S} (f : A -> B) (body : B -> S -> mres S) l s :
  for_each_mut body (map f l) s = for_each_mut (fun a => body (f a)) l s.
Proof.
  revert s; induction l as [|a l IH]; intros s; simpl; [reflexivity|].
  destruct (body (f a) s) as [s' [u|p|]]; auto.
Qed.

Lemma for_each_mut_ext {A S} (b1 b2 : A -> S -> mres S) l s :
  (forall x s, b1 x s = b2 x s) -> for_each_mut b1 l s = for_each_mut b2 l s.
Proof.
  intros H; revert s; induction l as [|a l IH]; intros s; simpl; [reflexivity|].
  rewrite H. destruct (b2 a s) as [s' [u|p|]]; auto.
Qed.

Lemma dmatrix_op_assign_run md {A B} (op : A -> B -> outcome A) (a : dmatrix A) (e : mexpr B) : dm_wf md a ->
  dmatrix_op_assign md op a e
  = let '(d, o) := inplace_run (fun '(r, c) x => y <- m_entry e r c ;; op x y)
                     (index_pairs (dm_rows a) (dm_cols a)) (dm_data a) in
    (MkDM d (dm_rows a) (dm_cols a), o).
Proof.
  intros [Hl Hb]. set (its := index_pairs (dm_rows a) (dm_cols a)).
  assert (H := inplace_loop (fun '(r, c) => dm_offset md (dm_cols a) r c)
     (fun '(r, c) x => y <- m_entry e r c ;; op x y) its (dm_data a) []).
  simpl in H. destruct (inplace_run _ its (dm_data a)) as [l o] eqn:E.
  set (k := fun p : list A * outcome unit => let '(d, o) := p in (MkDM d (dm_rows a) (dm_cols a), o)).
  change (MkDM l (dm_rows a) (dm_cols a), o) with (k (l, o)).
  rewrite <- H; clear H E; unfold k; clear k.
  - unfold dmatrix_op_assign.
    transitivity (for_each_mut (fun '(row, col) m =>
       match (i <- dm_offset md (dm_cols a) row col ;;
             x <- sget (dm_data m) i ;;
             y <- m_entry e row col ;;
             z <- op x y ;;
             sset (dm_data m) i z) with
      | Ok data' => (MkDM data' (dm_rows m) (dm_cols m), Ok tt)
      | Panic p => (m, Panic p)
      | Diverge => (m, Diverge)
      end) its a).
    { unfold its, index_pairs. rewrite for_each_mut_flat_map. apply for_each_mut_ext. intros r s.
      rewrite for_each_mut_map. reflexivity. }
    assert (G : forall m, dm_rows m = dm_rows a -> dm_cols m = dm_cols a ->
      for_each_mut (fun '(row, col) m =>
       match (i <- dm_offset md (dm_cols a) row col ;;
             x <- sget (dm_data m) i ;;
             y <- m_entry e row col ;;
             z <- op x y ;;
             sset (dm_data m) i z) with
      | Ok data' => (MkDM data' (dm_rows m) (dm_cols m), Ok tt)
      | Panic p => (m, Panic p)
      | Diverge => (m, Diverge)
      end) its m
      = let '(d, o) := for_each_mut (inplace_step (fun '(r, c) => dm_offset md (dm_cols a) r c)
           (fun '(r, c) x => y <- m_entry e r c ;; op x y)) its (dm_data m) in
        (MkDM d (dm_rows a) (dm_cols a), o)).
    { clearbody its. induction its as [|[r c] its IH]; intros [d rr cc] Hr Hc; simpl in *; subst; [reflexivity|].
      unfold inplace_step at 1.
      replace (i <- dm_offset md (dm_cols a) r c;; x <- sget d i;; z <- (y <- m_entry e r c;; op x y);; sset d i z)
         with (i <- dm_offset md (dm_cols a) r c;; x <- sget d i;; y <- m_entry e r c;; z <- op x y;; sset d i z)
        by (apply bind_ext; intros; apply bind_ext; intros; rewrite bind_assoc; reflexivity).
      destruct (i <- dm_offset md (dm_cols a) r c;; x <- sget d i;; y <- m_entry e r c;; z <- op x y;; sset d i z);
        try reflexivity.
      apply IH; reflexivity. }
    apply G; reflexivity.
  - unfold its. rewrite index_pairs_length. unfold ulen in Hl. lia.
  - intros j [r c] Hj. apply index_pairs_inv in Hj as (Hr & Hc & ->). simpl in *.
    pose proof (flat_lt _ _ _ _ Hr Hc). rewrite dm_offset_ok by lia. f_equal. lia.
Qed.

(** ** Reading and writing a well-formed matrix *)
Lemma dmatrix_index_in md {T} (m : dmatrix T) r c : dm_wf md m ->
  (r < dm_rows m)%N -> (c < dm_cols m)%N ->
  dmatrix_index md m r c = some_ok (row_major_at m r c).
Proof. apply dmatrix_entry_in. Qed.

Lemma dmatrix_index_entry md {T} (m : dmatrix T) r c : dmatrix_index md m r c = dmatrix_entry md m r c.
Proof. reflexivity. Qed.

Lemma dmatrix_set_in md {T} (m : dmatrix T) r c x : dm_wf md m ->
  (r < dm_rows m)%N -> (c < dm_cols m)%N ->
  dmatrix_index_set md m r c x
  = Ok (MkDM (list_upd (dm_data m) (N.to_nat (r * dm_cols m + c)) x) (dm_rows m) (dm_cols m)).
Proof.
  intros [Hl Hb] Hr Hc. unfold dmatrix_index_set. pose proof (flat_lt _ _ _ _ Hr Hc).
  rewrite dm_offset_ok by lia. cbn [bind]. unfold sset.
  replace (r * dm_cols m + c <? ulen (dm_data m))%N with true by (symmetry; apply N.ltb_lt; lia).
  reflexivity.
Qed.

(** Distinct positions have distinct offsets. *)
Lemma offset_inj (cols r c r' c' : N) : (c < cols -> c' < cols -> r * cols + c = r' * cols + c' ->
  r = r' /\ c = c')%N.
Proof.
  intros Hc Hc' H.
  assert (r = (r * cols + c) / cols)%N by (apply (N.div_unique _ _ _ c); lia).
  assert (r' = (r' * cols + c') / cols)%N by (apply (N.div_unique _ _ _ c'); lia).
  assert (r = r') by congruence. subst r'. split; [reflexivity|]. nia.
Qed.
