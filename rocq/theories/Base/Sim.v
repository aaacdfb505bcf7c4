(** Simulation of one computation by another (proof device).

    [sim P R m1 m2]: if [m1] returns, so does [m2], with [R]-related results; [m1] panics
    only where [m2] panics alike or for a reason admitted by [P]. *)
From Coq Require Import List Arith Lia Bool.
From Verif Require Import Base.Outcome Base.Array.
Import ListNotations.

Definition sim {A B} (P : panic -> Prop) (R : A -> B -> Prop) (m1 : outcome A) (m2 : outcome B) : Prop :=
  match m1 with
  | Ok a => exists b, m2 = Ok b /\ R a b
  | Panic p => P p \/ m2 = Panic p
  | Diverge => m2 = Diverge
  end.

(** Entries pairwise related. *)
Definition arel {A B} (R : A -> B -> Prop) {n} (u : array A n) (v : array B n) : Prop :=
  Forall2 R (entries u) (entries v).

Section Sim.
Context (P : panic -> Prop).
Notation sim := (sim P).

Lemma sim_ok {A B} (R : A -> B -> Prop) a b : R a b -> sim R (Ok a) (Ok b).
Proof. intros H. exists b. auto. Qed.

Lemma sim_panic {A B} (R : A -> B -> Prop) p : sim R (Panic p) (Panic p).
Proof. right. reflexivity. Qed.

Lemma sim_bind {A B A' B'} (R : A -> B -> Prop) (R' : A' -> B' -> Prop) m1 m2 k1 k2 :
  sim R m1 m2 -> (forall a b, R a b -> sim R' (k1 a) (k2 b)) -> sim R' (bind m1 k1) (bind m2 k2).
Proof.
  destruct m1 as [a|p|]; simpl.
  - intros (b & -> & H) Hk. simpl. apply Hk, H.
  - intros [H| ->] _; simpl; auto.
  - intros -> _. reflexivity.
Qed.

Lemma sim_mono {A B} (R R' : A -> B -> Prop) m1 m2 :
  sim R m1 m2 -> (forall a b, R a b -> R' a b) -> sim R' m1 m2.
Proof. destruct m1; simpl; auto. intros (b & -> & H) HR. eauto. Qed.

Lemma sim_for_each {A1 A2 S1 S2} (RA : A1 -> A2 -> Prop) (R : S1 -> S2 -> Prop)
    (b1 : A1 -> S1 -> outcome S1) (b2 : A2 -> S2 -> outcome S2) l1 l2 :
  Forall2 RA l1 l2 ->
  (forall x1 x2 t1 t2, RA x1 x2 -> R t1 t2 -> sim R (b1 x1 t1) (b2 x2 t2)) ->
  forall s1 s2, R s1 s2 -> sim R (for_each b1 l1 s1) (for_each b2 l2 s2).
Proof.
  intros Hl Hb. induction Hl as [|x1 x2 l1 l2 Hx Hl IH]; intros s1 s2 Hs; simpl.
  - apply sim_ok, Hs.
  - eapply sim_bind; [apply Hb; eassumption|]. intros t1 t2 Ht. apply IH, Ht.
Qed.

Lemma Forall2_length {A B} (R : A -> B -> Prop) l1 l2 : Forall2 R l1 l2 -> length l1 = length l2.
Proof. induction 1; simpl; auto. Qed.

Lemma Forall2_refl {A} (l : list A) : Forall2 eq l l.
Proof. induction l; auto. Qed.

Lemma sim_for_range {S1 S2} (R : S1 -> S2 -> Prop) lo hi lo' hi'
    (b1 : nat -> S1 -> outcome S1) (b2 : nat -> S2 -> outcome S2) s1 s2 :
  lo = lo' -> hi = hi' -> R s1 s2 ->
  (forall i t1 t2, R t1 t2 -> sim R (b1 i t1) (b2 i t2)) ->
  sim R (for_range lo hi b1 s1) (for_range lo' hi' b2 s2).
Proof.
  intros <- <- Hs Hb. unfold for_range. apply (sim_for_each eq); [apply Forall2_refl| |exact Hs].
  intros x ? t1 t2 <- Ht. apply Hb, Ht.
Qed.

Lemma sim_mapM {A1 A2 B1 B2} (RA : A1 -> A2 -> Prop) (RB : B1 -> B2 -> Prop) f1 f2 l1 l2 :
  Forall2 RA l1 l2 -> (forall x1 x2, RA x1 x2 -> sim RB (f1 x1) (f2 x2)) ->
  sim (Forall2 RB) (mapM f1 l1) (mapM f2 l2).
Proof.
  intros Hl Hf. induction Hl as [|x1 x2 l1 l2 Hx Hl IH]; simpl.
  - apply sim_ok. constructor.
  - eapply sim_bind; [apply Hf, Hx|]. intros y1 y2 Hy.
    eapply sim_bind; [apply IH|]. intros ys1 ys2 Hys. apply sim_ok. constructor; assumption.
Qed.

Lemma Forall2_nth_error {A B} (R : A -> B -> Prop) l1 l2 i :
  Forall2 R l1 l2 ->
  match nth_error l1 i, nth_error l2 i with
  | Some x, Some y => R x y
  | None, None => True
  | _, _ => False
  end.
Proof. intros H. revert i. induction H; intros [|i]; simpl; auto. apply IHForall2. Qed.

Lemma sim_vget {A B} (R : A -> B -> Prop) l1 l2 i :
  Forall2 R l1 l2 -> sim R (vget l1 i) (vget l2 i).
Proof.
  intros H. pose proof (Forall2_nth_error R l1 l2 i H) as Hi. unfold vget.
  destruct (nth_error l1 i), (nth_error l2 i); try contradiction; [apply sim_ok, Hi|apply sim_panic].
Qed.

Lemma Forall2_list_upd {A B} (R : A -> B -> Prop) l1 l2 i x y :
  Forall2 R l1 l2 -> R x y -> Forall2 R (list_upd l1 i x) (list_upd l2 i y).
Proof.
  intros H Hxy. revert i. induction H; intros [|i]; simpl; constructor; auto.
Qed.

Lemma sim_vset {A B} (R : A -> B -> Prop) l1 l2 i x y :
  Forall2 R l1 l2 -> R x y -> sim (Forall2 R) (vset l1 i x) (vset l2 i y).
Proof.
  intros H Hxy. unfold vset. rewrite (Forall2_length _ _ _ H).
  destruct (i <? length l2); [apply sim_ok, Forall2_list_upd; assumption|apply sim_panic].
Qed.

Lemma sim_vupd {A B} (R : A -> B -> Prop) l1 l2 i f1 f2 :
  Forall2 R l1 l2 -> (forall x y, R x y -> sim R (f1 x) (f2 y)) ->
  sim (Forall2 R) (vupd l1 i f1) (vupd l2 i f2).
Proof.
  intros H Hf. unfold vupd. eapply sim_bind; [apply sim_vget, H|].
  intros x y Hxy. eapply sim_bind; [apply Hf, Hxy|]. intros z w Hzw. apply sim_vset; assumption.
Qed.

Lemma Forall2_combine {A1 A2 B1 B2} (RA : A1 -> A2 -> Prop) (RB : B1 -> B2 -> Prop) la1 la2 lb1 lb2 :
  Forall2 RA la1 la2 -> Forall2 RB lb1 lb2 ->
  Forall2 (fun p q => RA (fst p) (fst q) /\ RB (snd p) (snd q)) (combine la1 lb1) (combine la2 lb2).
Proof.
  intros HA. revert lb1 lb2. induction HA; intros lb1 lb2 HB; simpl; [constructor|].
  destruct HB; constructor; simpl; auto.
Qed.

Lemma Forall2_enumerate {A1 A2} (RA : A1 -> A2 -> Prop) l1 l2 :
  Forall2 RA l1 l2 ->
  Forall2 (fun p q => fst p = fst q /\ RA (snd p) (snd q)) (enumerate l1) (enumerate l2).
Proof.
  intros H. unfold enumerate. rewrite (Forall2_length _ _ _ H).
  apply (Forall2_combine eq RA); [apply Forall2_refl|exact H].
Qed.

Lemma Forall2_rev {A B} (R : A -> B -> Prop) l1 l2 : Forall2 R l1 l2 -> Forall2 R (rev l1) (rev l2).
Proof. induction 1; simpl; [constructor|]. apply Forall2_app; auto. Qed.

Lemma Forall2_repeat {A B} (R : A -> B -> Prop) x y n : R x y -> Forall2 R (repeat x n) (repeat y n).
Proof. intros H. induction n; simpl; constructor; auto. Qed.

(** ** Arrays *)
Lemma arel_nil {A B} (R : A -> B -> Prop) : arel R anil anil.
Proof. constructor. Qed.
Lemma arel_cons {A B} (R : A -> B -> Prop) n x y (u : array A n) (v : array B n) :
  R x y -> arel R u v -> arel R (acons x u) (acons y v).
Proof. intros. constructor; assumption. Qed.

Lemma sim_array_gen {A B S} (R : A -> B -> Prop) n (b1 : S -> outcome (A * S)) (b2 : S -> outcome (B * S)) :
  (forall s, sim (fun x y => R (fst x) (fst y) /\ snd x = snd y) (b1 s) (b2 s)) ->
  forall s, sim (arel R) (array_gen n b1 s) (array_gen n b2 s).
Proof.
  intros Hb. induction n as [|n IH]; intros s; simpl; [apply sim_ok, arel_nil|].
  eapply sim_bind; [apply Hb|]. intros [x s1] [y s2] [Hx He]. simpl in Hx, He. subst s2.
  eapply sim_bind; [apply IH|]. intros xs ys Hxs. apply sim_ok, arel_cons; assumption.
Qed.

Lemma sim_array_map {A1 A2 B1 B2} (RA : A1 -> A2 -> Prop) (RB : B1 -> B2 -> Prop) f1 f2 n
    (u : array A1 n) (v : array A2 n) :
  arel RA u v -> (forall x y, RA x y -> sim RB (f1 x) (f2 y)) ->
  sim (arel RB) (array_map f1 u) (array_map f2 v).
Proof.
  intros H Hf. induction u as [|x n u IH].
  - rewrite (array_0 v). simpl. apply sim_ok, arel_nil.
  - rewrite (array_S v) in *. inversion H as [|? ? ? ? Hx Hr]; subst. simpl.
    eapply sim_bind; [apply Hf; exact Hx|]. intros y1 y2 Hy.
    eapply sim_bind; [apply IH; exact Hr|]. intros ys1 ys2 Hys. apply sim_ok, arel_cons; assumption.
Qed.

Lemma sim_array_zip_mut {A1 A2 B1 B2} (RA : A1 -> A2 -> Prop) (RB : B1 -> B2 -> Prop) f1 f2 n
    (u1 : array A1 n) (u2 : array A2 n) (v1 : array B1 n) (v2 : array B2 n) :
  arel RA u1 u2 -> arel RB v1 v2 ->
  (forall x1 x2 y1 y2, RA x1 x2 -> RB y1 y2 -> sim RA (f1 x1 y1) (f2 x2 y2)) ->
  sim (arel RA) (array_zip_mut f1 u1 v1) (array_zip_mut f2 u2 v2).
Proof.
  intros HA HB Hf. induction u1 as [|x n u1 IH].
  - rewrite (array_0 u2). simpl. apply sim_ok, arel_nil.
  - rewrite (array_S u2) in *. rewrite (array_S v1), (array_S v2) in *.
    inversion HA; inversion HB; subst. simpl.
    eapply sim_bind; [apply Hf; assumption|]. intros y1 y2 Hy.
    eapply sim_bind; [apply IH; assumption|]. intros ys1 ys2 Hys. apply sim_ok, arel_cons; assumption.
Qed.

Lemma sim_array_get {A B} (R : A -> B -> Prop) n (u : array A n) (v : array B n) i :
  arel R u v -> sim R (array_get u i) (array_get v i).
Proof. intros H. apply sim_vget, H. Qed.

Lemma arel_ent {A B} (R : A -> B -> Prop) n (u : array A n) (v : array B n) da db i :
  arel R u v -> i < n -> R (ent da u i) (ent db v i).
Proof.
  intros H Hi. unfold ent. pose proof (Forall2_nth_error R _ _ i H) as Hn.
  rewrite (nth_error_nth' _ da) in Hn by (rewrite entries_length; exact Hi).
  rewrite (nth_error_nth' _ db) in Hn by (rewrite entries_length; exact Hi). exact Hn.
Qed.

Lemma arel_tab {A B} (R : A -> B -> Prop) n f g :
  (forall i, i < n -> R (f i) (g i)) -> arel R (tab n f) (tab n g).
Proof.
  revert f g; induction n as [|n IH]; intros f g H; simpl; [apply arel_nil|].
  apply arel_cons; [apply H; lia|]. apply IH. intros i Hi. apply H. lia.
Qed.
End Sim.

Lemma Forall2_map_eq {A B} (f : A -> B) l1 l2 : Forall2 (fun a b => b = f a) l1 l2 <-> l2 = map f l1.
Proof.
  split.
  - induction 1; simpl; [reflexivity|]. subst. reflexivity.
  - intros ->. induction l1; simpl; constructor; auto.
Qed.

Lemma Forall2_eq_iff {A} (l1 l2 : list A) : Forall2 eq l1 l2 <-> l1 = l2.
Proof.
  split; [induction 1; subst; reflexivity|]. intros ->. induction l2; constructor; auto.
Qed.
