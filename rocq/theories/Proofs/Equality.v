(** [==] on lists, arrays and matrices. *)
From Coq Require Import List Arith NArith Lia Bool Vector.
From Verif Require Import Base.Outcome Base.Usize Base.Array Model.Traits Model.Complex Model.SVector Model.SMatrix
  Model.DVector Model.DMatrix Model.DExpr Spec.DExpr Spec.Equality Spec.Unwind.
Import ListNotations.

Lemma list_eqb_iff {A} (eqb : A -> A -> bool) u : forall v,
  list_eqb eqb u v = true <-> forall i, equal_at eqb (nth_error u i) (nth_error v i).
Proof.
  induction u as [|x u IH]; intros [|y v]; simpl.
  - split; [intros _ [|i]; exact I|auto].
  - split; [discriminate|]. intros H. exfalso. exact (H 0).
  - split; [discriminate|]. intros H. exfalso. exact (H 0).
  - rewrite andb_true_iff, IH. split.
    + intros [H1 H2] [|i]; [exact H1|exact (H2 i)].
    + intros H. split; [exact (H 0)|]. intros i. exact (H (S i)).
Qed.

Lemma array_eqb_list {A n} (eqb : A -> A -> bool) (u v : array A n) :
  array_eqb eqb u v = list_eqb eqb (entries u) (entries v).
Proof.
  induction u as [|x n u IH]; simpl; [rewrite (array_0 v); reflexivity|].
  rewrite IH. rewrite (array_S v) at 3. reflexivity.
Qed.

Lemma entries_inj {A n} (u v : array A n) : entries u = entries v -> u = v.
Proof.
  induction u as [|x n u IH]; simpl; [intros _; symmetry; apply array_0|].
  rewrite (array_S v). simpl. intros H. injection H as -> H. unfold acons. f_equal. apply IH. exact H.
Qed.

Lemma list_laws {A} (eqb : A -> A -> bool) : eq_laws_inherited eqb (list_eqb eqb).
Proof.
  repeat split.
  - intros H u. induction u as [|x u IH]; simpl; [reflexivity|]. rewrite H, IH. reflexivity.
  - intros H u. induction u as [|x u IH]; intros [|y v]; simpl; try reflexivity. rewrite H, IH. reflexivity.
  - intros H u. induction u as [|x u IH]; intros [|y v] [|z w]; simpl; try discriminate; try reflexivity.
    rewrite !andb_true_iff. intros [H1 H2] [H3 H4]. split; [exact (H _ _ _ H1 H3)|exact (IH _ _ H2 H4)].
  - revert y. induction x as [|x u IH]; intros [|y v]; simpl; try discriminate; [reflexivity|].
    rewrite andb_true_iff. intros [H1 H2]. apply H in H1. apply IH in H2. congruence.
  - intros <-. induction x as [|x u IH]; simpl; [reflexivity|]. rewrite IH.
    replace (eqb x x) with true by (symmetry; apply H; reflexivity). reflexivity.
Qed.

Lemma laws_trans {A B C} (f : A -> A -> bool) (g : B -> B -> bool) (h : C -> C -> bool) :
  eq_laws_inherited f g -> eq_laws_inherited g h -> eq_laws_inherited f h.
Proof. unfold eq_laws_inherited. tauto. Qed.

(** [==] computed through an injective view. *)
Lemma laws_view {A B C} (f : A -> A -> bool) (g : B -> B -> bool) (h : C -> C -> bool) (view : C -> B) :
  (forall x y, h x y = g (view x) (view y)) -> (forall x y, view x = view y -> x = y) ->
  eq_laws_inherited f g -> eq_laws_inherited f h.
Proof.
  intros Hv Hi (H1 & H2 & H3 & H4). repeat split.
  - intros H x. rewrite Hv. apply H1. exact H.
  - intros H x y. rewrite !Hv. apply H2. exact H.
  - intros H x y z. rewrite !Hv. apply H3. exact H.
  - rewrite Hv. intros E. apply Hi. apply (H4 H). exact E.
  - intros <-. rewrite Hv. apply (H4 H). reflexivity.
Qed.

Lemma array_laws {A n} (eqb : A -> A -> bool) : eq_laws_inherited eqb (fun u v : array A n => array_eqb eqb u v).
Proof.
  apply (laws_view eqb (list_eqb eqb) _ (@entries A n)).
  - intros x y. apply array_eqb_list.
  - apply entries_inj.
  - apply list_laws.
Qed.

Lemma complex_laws {T} (O : RingOps T) : eq_laws_inherited (r_eqb O) (complex_eqb O).
Proof.
  apply (laws_view (r_eqb O) (list_eqb (r_eqb O)) _ (fun z => [re z; im z])).
  - intros x y. simpl. rewrite andb_true_r. reflexivity.
  - intros [a b] [c d] H. simpl in H. congruence.
  - apply list_laws.
Qed.

Lemma dmatrix_laws {T} (eqb : T -> T -> bool) : eq_laws_inherited eqb (dmatrix_eqb eqb).
Proof.
  destruct (list_laws eqb) as (H1 & H2 & H3 & H4). unfold dmatrix_eqb. repeat split.
  - intros H x. rewrite (H1 H), !N.eqb_refl. reflexivity.
  - intros H x y. rewrite (H2 H (dm_data x)), (N.eqb_sym (dm_rows x)), (N.eqb_sym (dm_cols x)). reflexivity.
  - intros H x y z. rewrite !andb_true_iff, !N.eqb_eq. intros [[X1 X2] X3] [[Y1 Y2] Y3].
    split; [split; [exact (H3 H _ _ _ X1 Y1)|congruence]|congruence].
  - rewrite !andb_true_iff, !N.eqb_eq. intros [[X1 X2] X3]. apply (H4 H) in X1.
    destruct x, y. simpl in *. congruence.
  - intros <-. rewrite (proj2 (H4 H _ _) eq_refl), !N.eqb_refl. reflexivity.
Qed.

Lemma dmatrix_eqb_iff {md T} (eqb : T -> T -> bool) (a b : dmatrix T) : dm_wf md a -> dm_wf md b ->
  dmatrix_eqb eqb a b = true <->
  dm_rows a = dm_rows b /\ dm_cols a = dm_cols b /\
  forall r c, (r < dm_rows a)%N -> (c < dm_cols a)%N -> equal_at eqb (row_major_at a r c) (row_major_at b r c).
Proof.
  intros [Ha _] [Hb _]. unfold dmatrix_eqb. rewrite !andb_true_iff, !N.eqb_eq, list_eqb_iff. split.
  - intros [[H1 H2] H3]. split; [exact H2|]. split; [exact H3|]. intros r c _ _. unfold row_major_at.
    rewrite <- H3. apply H1.
  - intros (H2 & H3 & H1). split; [split|]; try assumption. intros i.
    destruct (lt_dec i (length (dm_data a))) as [Hi|Hi].
    + assert (Hc : dm_cols a <> 0%N).
      { intros E. rewrite E, N.mul_0_r in Ha. unfold ulen in Ha. lia. }
      pose proof (N.div_mod' (N.of_nat i) (dm_cols a)) as D.
      pose proof (N.mod_lt (N.of_nat i) (dm_cols a) Hc) as M.
      assert (Hr : (N.of_nat i / dm_cols a < dm_rows a)%N).
      { apply N.div_lt_upper_bound; [exact Hc|]. rewrite (N.mul_comm (dm_cols a)), <- Ha. unfold ulen. lia. }
      specialize (H1 _ _ Hr M). unfold row_major_at in H1. rewrite <- H3 in H1.
      rewrite N.mul_comm, <- D, Nat2N.id in H1. exact H1.
    + assert (length (dm_data a) = length (dm_data b)).
      { unfold ulen in *. rewrite H2, H3 in Ha. lia. }
      rewrite !(proj2 (nth_error_None _ _)) by lia. exact I.
Qed.
