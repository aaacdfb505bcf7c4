(** Polynomial additions and subtractions when the element operations may panic: as lists of
    coefficient operations performed from the lowest power upwards. *)
From Coq Require Import List Arith Lia Bool.
From Verif Require Import Base.Outcome Model.Traits Model.Polynomial.
Import ListNotations.

Section Loops.
Context {A B : Type} (g : A -> B -> outcome A).

Definition zipM (a : list A) (q : list B) : outcome (list A) := mapM (fun '(s, x) => g s x) (combine a q).

Lemma mapM_length {X Y} (f : X -> outcome Y) l r : mapM f l = Ok r -> length r = length l.
Proof.
  revert r; induction l as [|x l IH]; intros r; simpl; [injection 1 as <-; reflexivity|].
  intros H. apply bind_Ok_inv in H as (y & _ & H). apply bind_Ok_inv in H as (ys & Hys & H).
  injection H as <-. simpl. f_equal. apply IH, Hys.
Qed.

Lemma list_upd_mid (pre : list A) x l y : list_upd (pre ++ x :: l) (length pre) y = pre ++ y :: l.
Proof. induction pre; simpl; [reflexivity|]. f_equal. assumption. Qed.

Lemma vupd_mid (pre : list A) x l (f : A -> outcome A) :
  vupd (pre ++ x :: l) (length pre) f = (y <- f x ;; Ok (pre ++ y :: l)).
Proof.
  unfold vupd, vget. rewrite nth_error_app2 by lia. rewrite Nat.sub_diag. simpl.
  apply bind_ext; intros y. rewrite vset_ok by (rewrite app_length; simpl; lia).
  rewrite list_upd_mid. reflexivity.
Qed.

Lemma upd_loop_from (q qpre : list B) (a pre : list A) : length q <= length a -> length qpre = length pre ->
  for_each (fun i a => x <- vget (qpre ++ q) i ;; vupd a i (fun s => g s x))
           (seq (length pre) (length q)) (pre ++ a)
  = (r <- zipM a q ;; Ok (pre ++ r ++ skipn (length q) a)).
Proof.
  revert a pre qpre; induction q as [|x q IH]; intros a pre qpre Hl Hp.
  - unfold zipM. destruct a; reflexivity.
  - destruct a as [|s a]; [simpl in Hl; lia|].
    cbn [length seq for_each]. unfold vget at 1.
    rewrite <- Hp at 1. rewrite nth_error_app2 by lia. rewrite Nat.sub_diag. cbn [nth_error bind].
    rewrite vupd_mid. unfold zipM. cbn [combine mapM skipn]. rewrite !bind_assoc.
    apply bind_ext; intros y. cbn [bind].
    specialize (IH a (pre ++ [y]) (qpre ++ [x])). rewrite !app_length in IH. cbn [length] in IH.
    rewrite <- !app_assoc in IH. cbn [app] in IH.
    replace (length pre + 1) with (S (length pre)) in IH by lia.
    rewrite IH by (simpl in Hl; lia). unfold zipM.
    rewrite bind_assoc. apply bind_ext; intros r. cbn [bind]. f_equal. rewrite <- app_assoc. reflexivity.
Qed.

Lemma upd_loop (q : list B) (a : list A) : length q <= length a ->
  for_range 0 (length q) (fun i a => x <- vget q i ;; vupd a i (fun s => g s x)) a
  = (r <- zipM a q ;; Ok (r ++ skipn (length q) a)).
Proof.
  intros H. unfold for_range. rewrite Nat.sub_0_r. apply (upd_loop_from q [] a [] H eq_refl).
Qed.

Lemma enum_loop_from (q : list B) (a pre : list A) : length q <= length a ->
  for_each (fun '(i, x) a => vupd a i (fun s => g s x)) (combine (seq (length pre) (length q)) q) (pre ++ a)
  = (r <- zipM a q ;; Ok (pre ++ r ++ skipn (length q) a)).
Proof.
  revert a pre; induction q as [|x q IH]; intros a pre Hl.
  - unfold zipM. destruct a; reflexivity.
  - destruct a as [|s a]; [simpl in Hl; lia|].
    cbn [length seq combine for_each]. rewrite vupd_mid. unfold zipM. cbn [combine mapM skipn].
    rewrite !bind_assoc. apply bind_ext; intros y. cbn [bind].
    specialize (IH a (pre ++ [y])). rewrite app_length in IH. cbn [length] in IH.
    rewrite <- app_assoc in IH. cbn [app] in IH. replace (length pre + 1) with (S (length pre)) in IH by lia.
    rewrite IH by (simpl in Hl; lia). unfold zipM.
    rewrite bind_assoc. apply bind_ext; intros r. cbn [bind]. f_equal. rewrite <- app_assoc. reflexivity.
Qed.

Lemma enum_loop (q : list B) (a : list A) : length q <= length a ->
  for_each (fun '(i, x) a => vupd a i (fun s => g s x)) (enumerate q) a
  = (r <- zipM a q ;; Ok (r ++ skipn (length q) a)).
Proof. intros H. apply (enum_loop_from q a [] H). Qed.

(** When such a sequence of operations returns. *)
Lemma mapM_ok_iff {X Y} (f : X -> outcome Y) l :
  (exists r, mapM f l = Ok r) <-> (forall x, In x l -> exists y, f x = Ok y).
Proof.
  induction l as [|x l IH]; simpl; [split; [intros _ ? []|eauto]|]. split.
  - intros (r & H). apply bind_Ok_inv in H as (y & Hy & H). apply bind_Ok_inv in H as (ys & Hys & H).
    intros z [<-|Hz]; [eauto|]. apply IH; eauto.
  - intros H. destruct (H x (or_introl eq_refl)) as (y & Hy). rewrite Hy. simpl.
    destruct (proj2 IH (fun z Hz => H z (or_intror Hz))) as (ys & ->). simpl. eauto.
Qed.
End Loops.

Section Poly.
Context {T : Type} (O : RingOps T).

Lemma sub_assign_ref_zipM (p q : poly T) :
  poly_sub_assign_ref O p q
  = (let a := p ++ repeat (r_zero O) (length q - length p) in
     r <- zipM (r_sub O) a q ;; Ok (r ++ skipn (length q) a)).
Proof.
  unfold poly_sub_assign_ref, resize_with. destruct (length p <? length q) eqn:E.
  - apply Nat.ltb_lt in E. apply upd_loop. rewrite app_length, repeat_length. lia.
  - apply Nat.ltb_ge in E. replace (length q - length p) with 0 by lia. cbn [repeat]. rewrite app_nil_r.
    apply upd_loop. exact E.
Qed.

Lemma add_assign_ref_zipM (p q : poly T) :
  poly_add_assign_ref O p q
  = (let a := p ++ repeat (r_zero O) (length q - length p) in
     r <- zipM (r_add O) a q ;; Ok (r ++ skipn (length q) a)).
Proof.
  unfold poly_add_assign_ref, resize_with. destruct (length p <? length q) eqn:E.
  - apply Nat.ltb_lt in E. apply upd_loop. rewrite app_length, repeat_length. lia.
  - apply Nat.ltb_ge in E. replace (length q - length p) with 0 by lia. cbn [repeat]. rewrite app_nil_r.
    apply upd_loop. exact E.
Qed.

Lemma add_zipM (p q : poly T) :
  poly_add O p q
  = if length p <? length q
    then (r <- zipM (r_add O) q p ;; Ok (r ++ skipn (length p) q))
    else (r <- zipM (r_add O) p q ;; Ok (r ++ skipn (length q) p)).
Proof.
  unfold poly_add. cbn [poly_add_rec]. destruct (length p <? length q) eqn:E.
  - apply Nat.ltb_lt in E. replace (length q <? length p) with false by (symmetry; apply Nat.ltb_ge; lia).
    apply enum_loop. lia.
  - apply Nat.ltb_ge in E. apply enum_loop. exact E.
Qed.

Lemma add_assign_from (q : list T) (a pre : list T) (n : nat) : n = length pre + length a ->
  for_each (fun '(i, x) a => if i <? n then vupd a i (fun s => r_add O s x) else Ok (a ++ [x]))
           (combine (seq (length pre) (length q)) q) (pre ++ a)
  = (r <- zipM (r_add O) a q ;; Ok (pre ++ r ++ skipn (length q) a ++ skipn (length a) q)).
Proof.
  revert a pre; induction q as [|x q IH]; intros a pre Hn.
  - unfold zipM. destruct a; simpl; rewrite ?app_nil_r; reflexivity.
  - destruct a as [|s a].
    + cbn [length seq combine for_each]. clear IH.
      replace (length pre <? n) with false by (symmetry; apply Nat.ltb_ge; simpl in Hn; lia).
      cbn [bind zipM combine mapM skipn length]. rewrite app_nil_r in *. simpl in Hn.
      assert (G : forall q pre k, n <= k ->
                for_each (fun '(i, x) a => if i <? n then vupd a i (fun s => r_add O s x) else Ok (a ++ [x]))
                  (combine (seq k (length q)) q) pre = Ok (pre ++ q)).
      { clear. induction q as [|y q IH]; intros pre k Hk; simpl; [rewrite app_nil_r; reflexivity|].
        replace (k <? n) with false by (symmetry; apply Nat.ltb_ge; exact Hk). simpl.
        rewrite IH by lia. rewrite <- app_assoc. reflexivity. }
      rewrite G by lia. rewrite <- app_assoc. reflexivity.
    + cbn [length seq combine for_each].
      replace (length pre <? n) with true by (symmetry; apply Nat.ltb_lt; simpl in Hn; lia).
      rewrite vupd_mid. unfold zipM. cbn [combine mapM skipn]. rewrite !bind_assoc.
      apply bind_ext; intros y. cbn [bind].
      specialize (IH a (pre ++ [y])). rewrite app_length in IH. cbn [length] in IH.
      rewrite <- app_assoc in IH. cbn [app] in IH. replace (length pre + 1) with (S (length pre)) in IH by lia.
      rewrite IH by (simpl in Hn; lia). unfold zipM.
      rewrite bind_assoc. apply bind_ext; intros r. cbn [bind]. f_equal. rewrite <- app_assoc. reflexivity.
Qed.

Lemma add_assign_zipM (p q : poly T) :
  poly_add_assign O p q
  = (r <- zipM (r_add O) p q ;; Ok (r ++ skipn (length q) p ++ skipn (length p) q)).
Proof. unfold poly_add_assign, enumerate. apply (add_assign_from q p []). reflexivity. Qed.
End Poly.
