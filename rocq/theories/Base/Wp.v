(** Proof rules for [outcome]: [wp P D m Q] says that if [m] returns, the value satisfies
    [Q]; if it panics, [P] allows it; if it diverges, [D] holds.  (Proof device only.) *)
From Coq Require Import List Arith Lia Bool.
From Verif Require Import Base.Outcome.
Import ListNotations.

Definition wp {A} (P : panic -> Prop) (D : Prop) (m : outcome A) (Q : A -> Prop) : Prop :=
  match m with
  | Ok a => Q a
  | Panic p => P p
  | Diverge => D
  end.

Section Wp.
Context (P : panic -> Prop) (D : Prop).

Lemma wp_bind {A B} (m : outcome A) (k : A -> outcome B) Q :
  wp P D m (fun a => wp P D (k a) Q) -> wp P D (bind m k) Q.
Proof. destruct m; simpl; auto. Qed.

Lemma wp_mono {A} (m : outcome A) (Q Q' : A -> Prop) :
  wp P D m Q -> (forall a, m = Ok a -> Q a -> Q' a) -> wp P D m Q'.
Proof. destruct m; simpl; auto. Qed.

Lemma wp_and {A} (m : outcome A) (Q Q' : A -> Prop) :
  wp P D m Q -> wp P D m Q' -> wp P D m (fun a => Q a /\ Q' a).
Proof. destruct m; simpl; auto. Qed.

Lemma wp_ok {A} (m : outcome A) a (Q : A -> Prop) : m = Ok a -> Q a -> wp P D m Q.
Proof. intros ->; simpl; auto. Qed.

Lemma wp_result {A} (m : outcome A) a (Q : A -> Prop) : wp P D m Q -> m = Ok a -> Q a.
Proof. intros H ->; exact H. Qed.

Lemma wp_for_each {A S} (body : A -> S -> outcome S) (I : list A -> S -> Prop) l s :
  I [] s ->
  (forall pre x post s', l = pre ++ x :: post -> I pre s' ->
     wp P D (body x s') (I (pre ++ [x]))) ->
  wp P D (for_each body l s) (I l).
Proof.
  intros H0 Hstep.
  assert (Hgen : forall post pre s0, l = pre ++ post -> I pre s0 ->
            wp P D (for_each body post s0) (I l)).
  { induction post as [|x post IH]; intros pre s0 Hl HI; simpl.
    - rewrite app_nil_r in Hl. subst pre. exact HI.
    - apply wp_bind. eapply wp_mono; [apply (Hstep pre x post s0 Hl HI)|].
      intros s1 _ HI1. apply (IH (pre ++ [x])); [|exact HI1].
      rewrite <- app_assoc. exact Hl. }
  apply (Hgen l []); auto.
Qed.

Lemma wp_vget {A} (l : list A) i (Q : A -> Prop) :
  (forall x, nth_error l i = Some x -> Q x) -> i < length l -> wp P D (vget l i) Q.
Proof.
  intros HQ Hi. unfold vget. destruct (nth_error l i) as [x|] eqn:E; simpl; auto.
  apply nth_error_None in E. lia.
Qed.

Lemma wp_vset {A} (l : list A) i x (Q : list A -> Prop) :
  Q (list_upd l i x) -> i < length l -> wp P D (vset l i x) Q.
Proof. intros HQ Hi. rewrite vset_ok by exact Hi. exact HQ. Qed.
End Wp.

Lemma wp_true {A} (m : outcome A) : wp (fun _ => True) True m (fun _ => True).
Proof. destruct m; simpl; exact I. Qed.

Lemma nth_error_list_upd {A} (l : list A) i j x :
  nth_error (list_upd l i x) j =
  if (j =? i) && (i <? length l) then Some x else nth_error l j.
Proof.
  revert i j; induction l as [|y l IH]; intros i j.
  - simpl. replace (i <? 0) with false by (symmetry; apply Nat.ltb_ge; lia).
    rewrite Bool.andb_false_r. reflexivity.
  - destruct i as [|i], j as [|j]; try reflexivity.
    change (nth_error (list_upd l i x) j
            = if (j =? i) && (S i <? S (length l)) then Some x else nth_error l j).
    rewrite IH. reflexivity.
Qed.

Lemma nth_error_in {A} (l : list A) i : i < length l -> exists x, nth_error l i = Some x.
Proof.
  intros H. destruct (nth_error l i) eqn:E; eauto. apply nth_error_None in E. lia.
Qed.

(** Two computations end in the same way, with related results. *)
Definition orel {A B} (R : A -> B -> Prop) (m1 : outcome A) (m2 : outcome B) : Prop :=
  match m1, m2 with
  | Ok a, Ok b => R a b
  | Panic p, Panic q => p = q
  | Diverge, Diverge => True
  | _, _ => False
  end.

Lemma orel_bind {A B A' B'} (R : A -> B -> Prop) (R' : A' -> B' -> Prop) m1 m2 k1 k2 :
  orel R m1 m2 -> (forall a b, R a b -> orel R' (k1 a) (k2 b)) ->
  orel R' (bind m1 k1) (bind m2 k2).
Proof. destruct m1, m2; simpl; try contradiction; auto. Qed.

Lemma orel_refl {A} (R : A -> A -> Prop) m : (forall a, R a a) -> orel R m m.
Proof. destruct m; simpl; auto. Qed.

Lemma orel_mono {A B} (R R' : A -> B -> Prop) m1 m2 :
  orel R m1 m2 -> (forall a b, R a b -> R' a b) -> orel R' m1 m2.
Proof. destruct m1, m2; simpl; auto. Qed.

Lemma orel_for_each {A S1 S2} (R : S1 -> S2 -> Prop) (b1 : A -> S1 -> outcome S1) b2 l s1 s2 :
  R s1 s2 -> (forall x t1 t2, R t1 t2 -> orel R (b1 x t1) (b2 x t2)) ->
  orel R (for_each b1 l s1) (for_each b2 l s2).
Proof.
  intros H0 Hb. revert s1 s2 H0; induction l as [|x l IH]; intros s1 s2 H0; simpl; [exact H0|].
  eapply orel_bind; [apply Hb; exact H0|]. intros t1 t2 Ht. apply IH; exact Ht.
Qed.

Lemma orel_ok_l {A B} (R : A -> B -> Prop) m1 m2 a :
  orel R m1 m2 -> m1 = Ok a -> exists b, m2 = Ok b /\ R a b.
Proof. intros H ->. destruct m2; simpl in H; try contradiction. eauto. Qed.

Lemma orel_ok_r {A B} (R : A -> B -> Prop) m1 m2 b :
  orel R m1 m2 -> m2 = Ok b -> exists a, m1 = Ok a /\ R a b.
Proof. intros H ->. destruct m1; simpl in H; try contradiction. eauto. Qed.
