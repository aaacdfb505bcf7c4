(** Storage facts of DVector and the value of its inner product. *)
From Coq Require Import List Arith NArith Lia Bool Setoid Morphisms.
From Verif Require Import Base.Outcome Base.Usize Model.DVector Spec.Ring Spec.Sums Proofs.RingTheory
  Proofs.SMatrixProofs.
Import ListNotations.

Lemma sset_get {A} (l : list A) i x : (i < ulen l)%N ->
  exists l', sset l i x = Ok l' /\ ulen l' = ulen l /\ sget l' i = Ok x
    /\ forall j, j <> i -> sget l' j = sget l j.
Proof.
  intros H. exists (list_upd l (N.to_nat i) x).
  assert (Hl : ulen (list_upd l (N.to_nat i) x) = ulen l) by (unfold ulen; rewrite list_upd_length; reflexivity).
  split; [|split; [exact Hl|split]].
  - unfold sset. apply N.ltb_lt in H. rewrite H. reflexivity.
  - rewrite (sget_ok _ _ x) by (rewrite Hl; exact H). rewrite nth_list_upd, Nat.eqb_refl.
    apply ulen_lt in H. apply Nat.ltb_lt in H. rewrite H. reflexivity.
  - intros j Hj. destruct (N.ltb_spec j (ulen l)) as [Hj'|Hj'].
    + rewrite !(sget_ok _ _ x) by (rewrite ?Hl; exact Hj'). rewrite nth_list_upd.
      replace (N.to_nat j =? N.to_nat i) with false by (symmetry; apply Nat.eqb_neq; lia). reflexivity.
    + rewrite !sget_oob by (rewrite ?Hl; exact Hj'). reflexivity.
Qed.

Lemma dot_firstn {T} (zero : T) add mul conj (u v : list T) :
  dvector_dot_ref zero add mul conj u v
  = dvector_dot_ref zero add mul conj (firstn (length v) u) (firstn (length u) v).
Proof.
  unfold dvector_dot_ref. f_equal. revert v; induction u as [|x u IH]; intros [|y v]; simpl; try reflexivity.
  f_equal. apply IH.
Qed.

Section Dot.
Context {T : Type} (R : ring_sig T) (add mul : T -> T -> outcome T) (conj : T -> outcome T) (c : T -> T).
Context (Ha : forall x y, add x y = Ok (sadd R x y)) (Hm : forall x y, mul x y = Ok (smul R x y))
        (Hc : forall x, conj x = Ok (c x)).

Lemma dvector_dot_value (u v : list T) : length u = length v ->
  dvector_dot_ref (sz R) add mul conj u v
  = Ok (sum_n R (length u) (fun i => smul R (c (nth i u (sz R))) (nth i v (sz R)))).
Proof.
  intros H. unfold dvector_dot_ref. rewrite (combine_as_map u v (sz R) (sz R) H), for_each_map.
  pose proof (for_range_sum R (length u)
    (fun i acc => c0 <- conj (nth i u (sz R)) ;; p <- mul c0 (nth i v (sz R)) ;; add acc p)) as F.
  unfold for_range in F. rewrite Nat.sub_0_r in F. apply F.
  intros i s _. rewrite Hc. cbn [bind]. rewrite Hm. cbn [bind]. apply Ha.
Qed.
End Dot.
