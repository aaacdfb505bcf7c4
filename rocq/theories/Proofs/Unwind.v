(** Proofs about Model/Unwind.v. *)
From Coq Require Import List Arith Lia Bool Vector.
From Verif Require Import Base.Outcome Base.Array Base.Wp Model.Traits Model.Polynomial Model.Complex
  Model.SVector Model.SMatrix Model.Unwind Spec.Unwind.
Import ListNotations.

(** ** Walking along two lists *)

Section Lists.
Context {A B : Type} (op : A -> B -> mres A).

(** [rest] says what to do when the arguments outlast the elements. *)
Fixpoint walk (rest : list B -> mres (list A)) (old : list A) (args : list B) : mres (list A) :=
  match args, old with
  | [], _ => (old, Ok tt)
  | b :: args', a :: old' =>
      match op a b with
      | (c, Ok _) => (c :: fst (walk rest old' args'), snd (walk rest old' args'))
      | (c, o) => (c :: old', o)
      end
  | _ :: _, [] => rest args
  end.

Lemma walk_interrupted rest old : forall args left e,
  (forall bs l p, rest bs <> (l, Panic p)) ->
  walk rest old args = (left, Panic e) -> exists k, interrupted_at op old args k e left.
Proof.
  induction old as [|a old IH]; intros args left e Hrest H.
  - destruct args; simpl in H; [discriminate H|]. exfalso. exact (Hrest _ _ _ H).
  - destruct args as [|b args]; simpl in H; [discriminate H|].
    destruct (op a b) as [c [[]|p|]] eqn:E.
    + destruct (walk rest old args) as [l o] eqn:W. simpl in H. injection H as <- ->.
      destruct (IH args l e Hrest W) as (k & H1 & H2 & H3 & H4).
      exists (S k). split; [simpl; congruence|]. split; [|split].
      * intros [|i] a0 b0 Hi Ha Hb; simpl in *.
        -- injection Ha as <-. injection Hb as <-. eauto.
        -- eapply H2; [lia|exact Ha|exact Hb].
      * exact H3.
      * intros [|i] Hi; [lia|]. simpl. apply H4. lia.
    + injection H as <- ->. exists 0. split; [reflexivity|]. split; [intros; lia|]. split.
      * exists a, b, c. auto.
      * intros [|i] Hi; [lia|reflexivity].
    + discriminate H.
Qed.
End Lists.

Lemma list_upd_app {A} (pre : list A) x rest y :
  list_upd (pre ++ x :: rest) (length pre) y = pre ++ y :: rest.
Proof. induction pre as [|z pre IH]; [reflexivity|]. simpl. f_equal. exact IH. Qed.

Lemma nth_error_app_mid {A} (pre : list A) x rest : nth_error (pre ++ x :: rest) (length pre) = Some x.
Proof. rewrite nth_error_app2, Nat.sub_diag by lia. reflexivity. Qed.

Section Poly.
Context {T : Type} (O : RingOps T) (add : T -> T -> mres T) (op : T -> T -> mres T).

(** The index loop is a walk. *)
Lemma ref_loop rhs : forall rest rpre pre post,
  rhs = rpre ++ rest -> length rpre = length pre -> length rest <= length post ->
  for_each_mut (fun i a =>
      match vget rhs i with
      | Ok x => vupd_mut a i (fun s => op s x)
      | Panic p => (a, Panic p)
      | Diverge => (a, Diverge)
      end) (seq (length pre) (length rest)) (pre ++ post)
  = (pre ++ fst (walk op (fun _ => ([], Ok tt)) post rest), snd (walk op (fun _ => ([], Ok tt)) post rest)).
Proof.
  induction rest as [|x rest IH]; intros rpre pre post E Hl Hle.
  - simpl. destruct post; reflexivity.
  - destruct post as [|s post]; [simpl in Hle; lia|]. cbn [length seq for_each_mut].
    assert (Hx : vget rhs (length pre) = Ok x)
      by (unfold vget; rewrite E, <- Hl, nth_error_app_mid; reflexivity).
    rewrite Hx. unfold vupd_mut at 1. rewrite nth_error_app_mid.
    simpl walk. destruct (op s x) as [c [[]|p|]]; cbn [fst snd].
    + rewrite list_upd_app. change (pre ++ c :: post) with (pre ++ [c] ++ post). rewrite app_assoc.
      replace (S (length pre)) with (length (pre ++ [c])) by (rewrite app_length; simpl; lia).
      rewrite (IH (rpre ++ [x]) (pre ++ [c]) post).
      * rewrite <- app_assoc. reflexivity.
      * rewrite <- app_assoc. exact E.
      * rewrite !app_length. simpl. lia.
      * simpl in Hle. lia.
    + rewrite list_upd_app. reflexivity.
    + rewrite list_upd_app. reflexivity.
Qed.

Definition padded (self rhs : poly T) : poly T :=
  self ++ repeat (r_zero O) (length rhs - length self).

Lemma padded_length self rhs : length (padded self rhs) = max (length self) (length rhs).
Proof. unfold padded. rewrite app_length, repeat_length. lia. Qed.

Lemma op_assign_ref_walk self rhs :
  poly_op_assign_ref_mut O op self rhs = walk op (fun _ => ([], Ok tt)) (padded self rhs) rhs.
Proof.
  unfold poly_op_assign_ref_mut.
  assert (E : (if length self <? length rhs then resize_with self (length rhs) (r_zero O) else self) = padded self rhs).
  { unfold padded, resize_with. destruct (Nat.ltb_spec (length self) (length rhs)); [reflexivity|].
    replace (length rhs - length self) with 0 by lia. simpl. rewrite app_nil_r. reflexivity. }
  rewrite E. pose proof (ref_loop rhs rhs [] [] (padded self rhs) eq_refl eq_refl) as L.
  rewrite padded_length in L. specialize (L ltac:(lia)). simpl in L. rewrite L.
  destruct (walk op (fun _ => ([], Ok tt)) (padded self rhs) rhs); reflexivity.
Qed.

(** The loop that pushes. *)
Lemma push_loop len : forall rest pre post, length (pre ++ post) = len ->
  for_each_mut (fun '(i, x) a => if i <? len then vupd_mut a i (fun s => add s x) else (a ++ [x], Ok tt))
    (combine (seq (length pre) (length rest)) rest) (pre ++ post)
  = (pre ++ fst (walk add (fun bs => (bs, Ok tt)) post rest), snd (walk add (fun bs => (bs, Ok tt)) post rest)).
Proof.
  induction rest as [|x rest IH]; intros pre post Hlen.
  - simpl. destruct post; reflexivity.
  - cbn [length seq combine for_each_mut]. destruct post as [|s post].
    + rewrite app_nil_r in *. replace (length pre <? len) with false by (symmetry; apply Nat.ltb_ge; lia).
      clear IH. cbn [walk].
      assert (G : forall rest pre', len <= length pre' ->
        for_each_mut (fun '(i, x) a => if i <? len then vupd_mut a i (fun s => add s x) else (a ++ [x], Ok tt))
          (combine (seq (length pre') (length rest)) rest) pre' = (pre' ++ rest, Ok tt)).
      { clear. induction rest as [|y rest IH]; intros pre' Hp; [simpl; rewrite app_nil_r; reflexivity|].
        cbn [length seq combine for_each_mut].
        replace (length pre' <? len) with false by (symmetry; apply Nat.ltb_ge; lia).
        replace (S (length pre')) with (length (pre' ++ [y])) by (rewrite app_length; simpl; lia).
        rewrite IH by (rewrite app_length; lia). rewrite <- app_assoc. reflexivity. }
      replace (S (length pre)) with (length (pre ++ [x])) by (rewrite app_length; simpl; lia).
      rewrite G by (rewrite app_length; lia). rewrite <- app_assoc. reflexivity.
    + replace (length pre <? len) with true
        by (symmetry; apply Nat.ltb_lt; rewrite app_length in Hlen; simpl in Hlen; lia).
      unfold vupd_mut at 1. rewrite nth_error_app_mid. simpl walk.
      destruct (add s x) as [c [[]|p|]]; cbn [fst snd]; rewrite list_upd_app; try reflexivity.
      change (pre ++ c :: post) with (pre ++ [c] ++ post). rewrite app_assoc.
      replace (S (length pre)) with (length (pre ++ [c])) by (rewrite app_length; simpl; lia).
      rewrite (IH (pre ++ [c]) post).
      * rewrite <- app_assoc. reflexivity.
      * rewrite <- Hlen, !app_length. simpl. lia.
Qed.

Lemma add_assign_walk self rhs :
  poly_add_assign_mut add self rhs = walk add (fun bs => (bs, Ok tt)) self rhs.
Proof.
  unfold poly_add_assign_mut, enumerate. pose proof (push_loop (length self) rhs [] self eq_refl) as L.
  simpl in L. rewrite L. destruct (walk _ _ _ _); reflexivity.
Qed.
End Poly.

(** ** Agreement with the models that forget the state *)

Lemma finish_vupd {A} (l : list A) i (f : A -> mres A) (g : A -> outcome A) :
  (forall x, finish (f x) = g x) -> finish (vupd_mut l i f) = vupd l i g.
Proof.
  intros H. unfold vupd_mut, vupd, vget. destruct (nth_error l i) as [x|] eqn:E; [|reflexivity].
  simpl. rewrite <- (H x). destruct (f x) as [y [u|p|]]; simpl; try reflexivity.
  rewrite vset_ok; [reflexivity|]. apply nth_error_Some. congruence.
Qed.

Lemma finish_assign {A} (self : A) e : finish (assign_mut self e) = e.
Proof. destruct e; reflexivity. Qed.

Lemma finish_zip {A B n} (f : A -> B -> mres A) (g : A -> B -> outcome A) (u : array A n) (v : array B n) :
  (forall x y, finish (f x y) = g x y) -> finish (array_zip_mres f u v) = array_zip_mut g u v.
Proof.
  intros H. induction u as [|x n u IH]; simpl; [reflexivity|].
  rewrite <- (H x (ahd v)). destruct (f x (ahd v)) as [y [w|p|]]; simpl; try reflexivity.
  rewrite <- (IH (atl v)). destruct (array_zip_mres f u (atl v)) as [r [w'|p|]]; reflexivity.
Qed.

Section Agree.
Context {T : Type} (O : RingOps T) (add sub : T -> T -> mres T).
Context (Hadd : forall x y, finish (add x y) = r_add O x y).
Context (Hsub : forall x y, finish (sub x y) = r_sub O x y).

Lemma finish_poly_add_assign_ref p q : finish (poly_op_assign_ref_mut O add p q) = poly_add_assign_ref O p q.
Proof.
  unfold poly_op_assign_ref_mut, poly_add_assign_ref, for_range. rewrite Nat.sub_0_r.
  apply finish_for_each_mut. intros i a. destruct (vget q i) as [x|e|]; simpl; try reflexivity.
  apply finish_vupd. auto.
Qed.
Lemma finish_poly_sub_assign_ref p q : finish (poly_op_assign_ref_mut O sub p q) = poly_sub_assign_ref O p q.
Proof.
  unfold poly_op_assign_ref_mut, poly_sub_assign_ref, for_range. rewrite Nat.sub_0_r.
  apply finish_for_each_mut. intros i a. destruct (vget q i) as [x|e|]; simpl; try reflexivity.
  apply finish_vupd. auto.
Qed.
Lemma finish_poly_add_assign p q : finish (poly_add_assign_mut add p q) = poly_add_assign O p q.
Proof.
  unfold poly_add_assign_mut, poly_add_assign.
  apply finish_for_each_mut. intros [i x] a. destruct (i <? length p); [|reflexivity].
  apply finish_vupd. auto.
Qed.
Lemma finish_poly_sub_assign p q : finish (poly_sub_assign_mut O add p q) = poly_sub_assign O p q.
Proof.
  unfold poly_sub_assign_mut, poly_sub_assign. destruct (poly_neg O q); try reflexivity.
  apply finish_poly_add_assign.
Qed.
Lemma finish_complex_add_assign z w : finish (complex_op_assign_ref_mut add z w) = complex_add_assign_ref O z w.
Proof.
  unfold complex_op_assign_ref_mut, complex_add_assign_ref. rewrite <- !Hadd.
  destruct (add (re z) (re w)) as [r [u|p|]]; simpl; try reflexivity.
  destruct (add (im z) (im w)) as [i [u'|p|]]; reflexivity.
Qed.
Lemma finish_complex_sub_assign z w : finish (complex_op_assign_ref_mut sub z w) = complex_sub_assign_ref O z w.
Proof.
  unfold complex_op_assign_ref_mut, complex_sub_assign_ref. rewrite <- !Hsub.
  destruct (sub (re z) (re w)) as [r [u|p|]]; simpl; try reflexivity.
  destruct (sub (im z) (im w)) as [i [u'|p|]]; reflexivity.
Qed.
Lemma zip_map {n} (u : svector T n) c :
  array_zip_mut (fun x c => r_mul O x c) u (tab n (fun _ => c)) = array_map (fun x => r_mul O x c) u.
Proof.
  induction u as [|x n u IH]; simpl; [reflexivity|].
  change (ahd (acons c (tab n (fun _ => c)))) with c. change (atl (acons c (tab n (fun _ => c)))) with (tab n (fun _ => c)).
  destruct (r_mul O x c); simpl; try reflexivity. rewrite IH. reflexivity.
Qed.
End Agree.

(** ** Arrays *)

Lemma zip_mres_walk {A B n} (f : A -> B -> mres A) (u : array A n) (v : array B n) :
  (entries (fst (array_zip_mres f u v)), snd (array_zip_mres f u v))
  = walk f (fun _ => ([], Ok tt)) (entries u) (entries v).
Proof.
  induction u as [|x n u IH]; simpl.
  - pattern v. apply Vector.case0. reflexivity.
  - rewrite (array_S v). simpl. destruct (f x (ahd v)) as [y [[]|p|]]; try reflexivity.
    rewrite <- (IH (atl v)). reflexivity.
Qed.

Lemma zip_interrupted {A B n} (f : A -> B -> mres A) (u : array A n) (v : array B n) left e :
  array_zip_mres f u v = (left, Panic e) -> exists k, k < n /\ interrupted_at f (entries u) (entries v) k e (entries left).
Proof.
  intros H. pose proof (zip_mres_walk f u v) as W. rewrite H in W. cbn [fst snd] in W. symmetry in W.
  apply walk_interrupted in W; [|intros; discriminate]. destruct W as [k Hk]. exists k. split; [|exact Hk].
  destruct Hk as (_ & _ & (a & b & c & Ha & _) & _). rewrite <- (entries_length u). apply nth_error_Some. congruence.
Qed.

Lemma walk_ok {A B} (op : A -> B -> mres A) rest old : forall args left i a b,
  walk op rest old args = (left, Ok tt) -> nth_error old i = Some a -> nth_error args i = Some b ->
  exists c, op a b = (c, Ok tt) /\ nth_error left i = Some c.
Proof.
  induction old as [|a0 old IH]; intros args left i a b H Ha Hb; [destruct i; discriminate Ha|].
  destruct args as [|b0 args]; [destruct i; discriminate Hb|]. simpl in H.
  destruct (op a0 b0) as [c [[]|p|]] eqn:E; try discriminate H.
  destruct (walk op rest old args) as [l o] eqn:W. simpl in H. injection H as <- ->.
  destruct i as [|i]; simpl in *.
  - injection Ha as <-. injection Hb as <-. eauto.
  - eapply IH; eauto.
Qed.

Lemma zip_ok {A B n} (f : A -> B -> mres A) (u : array A n) (v : array B n) left i a b :
  array_zip_mres f u v = (left, Ok tt) -> nth_error (entries u) i = Some a -> nth_error (entries v) i = Some b ->
  exists c, f a b = (c, Ok tt) /\ nth_error (entries left) i = Some c.
Proof.
  intros H. pose proof (zip_mres_walk f u v) as W. rewrite H in W. cbn [fst snd] in W. symmetry in W.
  apply (walk_ok f (fun _ => ([], Ok tt)) _ _ _ i a b W).
Qed.

Lemma cell_row {A m n} (a : array (array A n) m) i j row :
  nth_error (entries a) i = Some row -> cell a i j = nth_error (entries row) j.
Proof. intros H. unfold cell. rewrite H. reflexivity. Qed.
Lemma cell_inv {A m n} (a : array (array A n) m) i j x : cell a i j = Some x ->
  exists row, nth_error (entries a) i = Some row /\ nth_error (entries row) j = Some x.
Proof. unfold cell. destruct (nth_error (entries a) i) as [row|]; [eauto|discriminate]. Qed.
Lemma cell_same {A m n} (a b : array (array A n) m) i j :
  nth_error (entries a) i = nth_error (entries b) i -> cell a i j = cell b i j.
Proof. intros H. unfold cell. rewrite H. reflexivity. Qed.

Lemma zip2_interrupted {A B m n} (op : A -> B -> mres A) (u : array (array A n) m) (v : array (array B n) m) left e :
  array_zip_mres (fun lo ro => array_zip_mres op lo ro) u v = (left, Panic e) ->
  exists r c, r < m /\ c < n /\ interrupted_at_cell op u v r c e left.
Proof.
  intros H. apply zip_interrupted in H. destruct H as (r & Hr & _ & H2 & (a & b & l & Ha & Hb & Hl & Hle) & H4).
  apply zip_interrupted in Hl. destruct Hl as (c & Hc & _ & G2 & (x & y & z & Gx & Gy & Gz & Gl) & G4).
  pose proof (fun j => cell_row u r j a Ha) as Cu. pose proof (fun j => cell_row v r j b Hb) as Cv.
  pose proof (fun j => cell_row left r j l Hle) as Cl.
  exists r, c. split; [exact Hr|]. split; [exact Hc|]. split; [|split].
  - intros i j a0 b0 Hij. destruct Hij as [Hi|[-> Hj]].
    + intros Ha0 Hb0. destruct (cell_inv _ _ _ _ Ha0) as (ru & Eu & Fu). destruct (cell_inv _ _ _ _ Hb0) as (rv & Ev & Fv).
      destruct (H2 i ru rv Hi Eu Ev) as (rl & Hrl & El).
      destruct (zip_ok op ru rv rl j a0 b0 Hrl Fu Fv) as (x0 & Hx & Hn). exists x0. split; [exact Hx|].
      rewrite (cell_row left i j rl El). exact Hn.
    + rewrite Cu, Cv, Cl. apply G2. exact Hj.
  - exists x, y, z. rewrite Cu, Cv, Cl. auto.
  - intros i j Hij. destruct Hij as [Hi|[-> Hj]].
    + apply cell_same. exact (H4 i Hi).
    + rewrite Cu, Cl. apply G4. exact Hj.
Qed.
