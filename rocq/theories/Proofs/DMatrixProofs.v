(** Values of the DMatrix operations over an arbitrary ring. *)
From Coq Require Import List Arith NArith Lia Bool Setoid Morphisms.
From Verif Require Import Base.Outcome Base.Usize Model.DVector Model.DMatrix
  Spec.Ring Spec.Sums Spec.Agree Spec.DExpr Spec.DMatrix
  Proofs.RingTheory Proofs.SMatrixProofs Proofs.DExprProofs.
Import ListNotations.

Definition dm_tab {T} (rows cols : N) (g : N -> N -> T) : dmatrix T :=
  MkDM (map (fun '(r, c) => g r c) (index_pairs rows cols)) rows cols.

Lemma dm_tab_wf {md T} rows cols (g : N -> N -> T) : fits md rows cols -> dm_wf md (dm_tab rows cols g).
Proof.
  intros H. split; simpl; [|exact H]. unfold ulen. rewrite map_length, index_pairs_length. lia.
Qed.

Lemma row_major_tab {T} rows cols (g : N -> N -> T) r c : (r < rows)%N -> (c < cols)%N ->
  row_major_at (dm_tab rows cols g) r c = Some (g r c).
Proof.
  intros Hr Hc. unfold row_major_at, dm_tab. simpl.
  rewrite (map_nth_error _ _ _ (index_pairs_nth rows cols r c Hr Hc)). reflexivity.
Qed.

Lemma dm_tab_ext {T} rows cols (f g : N -> N -> T) :
  (forall r c, (r < rows)%N -> (c < cols)%N -> f r c = g r c) -> dm_tab rows cols f = dm_tab rows cols g.
Proof.
  intros H. unfold dm_tab. f_equal. apply map_ext_in. intros [r c] Hi. apply in_index_pairs in Hi. apply H; tauto.
Qed.

Lemma mspec_eval_total {T} (b : mexpr T) rows cols f g : mspec b (rows, cols) f ->
  (forall r c, (r < rows)%N -> (c < cols)%N -> f r c = Ok (g r c)) ->
  m_eval b = Ok (dm_tab rows cols g).
Proof.
  intros [_ _ _ Sv] H. rewrite Sv. simpl. rewrite (mapM_total _ (fun '(r, c) => g r c)); [reflexivity|].
  intros [r c] Hi. apply in_index_pairs in Hi. apply H; tauto.
Qed.

Section Ring.
Context {T : Type} (R : ring_sig T).

Lemma dm_at_tab rows cols g r c : (r < rows)%N -> (c < cols)%N ->
  dm_at R (dm_tab rows cols g) r c = g r c.
Proof.
  intros Hr Hc. pose proof (row_major_tab rows cols g r c Hr Hc) as H. unfold row_major_at in H.
  unfold dm_at. apply nth_error_nth. exact H.
Qed.

Lemma row_major_dm_at {md} (m : dmatrix T) r c : dm_wf md m -> (r < dm_rows m)%N -> (c < dm_cols m)%N ->
  row_major_at m r c = Some (dm_at R m r c).
Proof.
  intros Hw Hr Hc. destruct (row_major_some m r c Hw Hr Hc) as (x & E). rewrite E. f_equal.
  unfold dm_at. symmetry. apply nth_error_nth. exact E.
Qed.

Lemma dm_tab_self {md} (m : dmatrix T) : dm_wf md m -> m = dm_tab (dm_rows m) (dm_cols m) (dm_at R m).
Proof.
  intros Hw. pose proof (eval_self_mat m Hw) as E.
  rewrite (mapM_total _ (fun '(r, c) => dm_at R m r c)) in E.
  - cbn [bind] in E. injection E as E. exact E.
  - intros [r c] Hi. apply in_index_pairs in Hi. rewrite (row_major_dm_at (md:=md)) by tauto. reflexivity.
Qed.

Context (add sub mul : T -> T -> outcome T)
        (Ha : forall x y, add x y = Ok (sadd R x y)) (Hs : forall x y, sub x y = Ok (ssub R x y))
        (Hm : forall x y, mul x y = Ok (smul R x y)).

Lemma dm_binop_total md (op : T -> T -> outcome T) g (a b : dmatrix T) :
  (forall x y, op x y = Ok (g x y)) -> dm_wf md a -> dm_wf md b ->
  dm_rows a = dm_rows b -> dm_cols a = dm_cols b ->
  (e <- dmatrix_binop md op a (mexpr_wrap (dmatrix_expr md b)) ;; m_eval e)
  = Ok (dm_tab (dm_rows a) (dm_cols a) (fun r c => g (dm_at R a r c) (dm_at R b r c))).
Proof.
  intros Hg Wa Wb Er Ec. unfold dmatrix_binop. rewrite !mexpr_eta.
  pose proof (mspec_dm md b Wb) as Sb. rewrite <- Er, <- Ec in Sb.
  destruct (mspec_binop op _ _ _ _ _ (mspec_dm md a Wa) Sb) as (e & -> & S). cbn [bind].
  apply (mspec_eval_total _ _ _ _ _ S). intros r c Hr Hc.
  rewrite (row_major_dm_at (md:=md) a) by assumption. rewrite (row_major_dm_at (md:=md) b) by congruence. apply Hg.
Qed.

Lemma dm_t_total md (a : dmatrix T) : dm_wf md a ->
  m_eval (dmatrix_t md a) = Ok (dm_tab (dm_cols a) (dm_rows a) (fun r c => dm_at R a c r)).
Proof.
  intros Wa. unfold dmatrix_t, mexpr_t. rewrite mexpr_eta. simpl m_rows. simpl m_cols.
  apply (mspec_eval_total _ _ _ (fun r c => m_entry (dmatrix_expr md a) c r)).
  - apply mspec_make. reflexivity.
  - intros r c Hr Hc. simpl. rewrite dmatrix_entry_in by assumption. rewrite (row_major_dm_at (md:=md)) by assumption. reflexivity.
Qed.

Lemma dm_h_total md (conj : T -> outcome T) cj (a : dmatrix T) : (forall x, conj x = Ok (cj x)) -> dm_wf md a ->
  m_eval (dmatrix_h md conj a) = Ok (dm_tab (dm_cols a) (dm_rows a) (fun r c => cj (dm_at R a c r))).
Proof.
  intros Hc Wa. unfold dmatrix_h, mexpr_h. rewrite mexpr_eta. simpl m_rows. simpl m_cols.
  apply (mspec_eval_total _ _ _ (fun r c => x <- m_entry (dmatrix_expr md a) c r ;; conj x)).
  - apply mspec_make. reflexivity.
  - intros r c Hr Hc'. simpl. rewrite dmatrix_entry_in by assumption. rewrite (row_major_dm_at (md:=md)) by assumption. apply Hc.
Qed.

(** f 0 + f 1 + ... + f n, starting from f 0 instead of 0. *)
Fixpoint sum1 (n : nat) (f : nat -> T) : T :=
  match n with 0 => f 0 | S n' => sadd R (sum1 n' f) (f (S n')) end.

Lemma for_each_sum1 n (p : N -> outcome T) f :
  (forall i, (i <= N.of_nat n)%N -> p i = Ok (f (N.to_nat i))) ->
  fold_products add p (N.of_nat (S n)) = Ok (sum1 n f).
Proof.
  intros H. unfold fold_products. rewrite H by lia. cbn [bind].
  unfold urange_from. rewrite Nat2N.id. change (N.to_nat 1) with 1. change (S n - 1) with (n - 0). rewrite Nat.sub_0_r.
  change (f (N.to_nat 0)) with (f 0).
  revert H; induction n as [|n IH]; intros H; [reflexivity|].
  rewrite seq_S, map_app, for_each_app, IH by (intros; apply H; lia). cbn [bind map for_each].
  rewrite H by lia. cbn [bind]. rewrite Ha. cbn [bind]. rewrite Nat2N.id. reflexivity.
Qed.

Lemma sum1_sum (HR : ring_laws R) n f : same R (sum1 n f) (sum_n R (S n) f).
Proof.
  pose proof (same_equiv R HR) as HE.
  induction n as [|n IH].
  - simpl. symmetry. etransitivity; [apply (law_add_comm R HR)|]. apply (law_add_0 R HR).
  - change (sum_n R (S (S n)) f) with (sadd R (sum_n R (S n) f) (f (S n))).
    simpl sum1. apply (law_add_cong R HR); [exact IH|reflexivity].
Qed.

Lemma dm_mul_total md (a b : dmatrix T) : dm_wf md a -> dm_wf md b -> dm_cols a = dm_rows b -> (1 <= dm_cols a)%N ->
  (e <- dmatrix_mul md mul add a b ;; m_eval e)
  = Ok (dm_tab (dm_rows a) (dm_cols b) (fun r c =>
      sum1 (pred (N.to_nat (dm_cols a)))
        (fun m => smul R (dm_at R a r (N.of_nat m)) (dm_at R b (N.of_nat m) c)))).
Proof.
  intros Wa Wb E H1. unfold dmatrix_mul. rewrite assert_eq_true by (apply N.eqb_eq; exact E). cbn [bind m_eval].
  unfold mexpr_default_eval. rewrite (mapM_total _ (fun '(r, c) => sum1 (pred (N.to_nat (dm_cols a)))
        (fun m => smul R (dm_at R a r (N.of_nat m)) (dm_at R b (N.of_nat m) c)))); [reflexivity|].
  intros [r c] Hi. apply in_index_pairs in Hi as [Hr Hc]. rewrite mul_entry_mean by assumption.
  assert (Ek : dm_cols a = N.of_nat (S (pred (N.to_nat (dm_cols a))))) by lia.
  rewrite Ek at 1. apply for_each_sum1. intros i Hi.
  rewrite (row_major_dm_at (md:=md)) by (assumption || lia). rewrite (row_major_dm_at (md:=md)) by (assumption || lia).
  cbn [some_ok bind]. rewrite N2Nat.id. apply Hm.
Qed.

Lemma dm_eye_total n (zero one : T) :
  m_eval (dmatrix_eye zero one n) = Ok (dm_tab n n (fun r c => if (r =? c)%N then one else zero)).
Proof.
  apply (mspec_eval_total _ _ _ (fun r c => Ok (if (r =? c)%N then one else zero))).
  - apply mspec_make. reflexivity.
  - reflexivity.
Qed.
End Ring.
