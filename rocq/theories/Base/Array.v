(** Fixed-size arrays [[T; N]] and the std operations on them used by
    src/linalg/svector.rs and src/linalg/smatrix.rs. *)
From Coq Require Import List Arith Lia Bool.
From Coq Require Vector.
From Verif Require Import Base.Outcome.
Import ListNotations.

(** [[T; N]]. *)
Definition array (T : Type) (n : nat) : Type := Vector.t T n.

Definition acons {T n} (x : T) (v : array T n) : array T (S n) := Vector.cons T x n v.
Definition anil {T} : array T 0 := Vector.nil T.
Definition ahd {T n} (v : array T (S n)) : T := Vector.hd v.
Definition atl {T n} (v : array T (S n)) : array T n := Vector.tl v.

(** The entries in index order; also what [iter()] / [into_iter()] yield. *)
Fixpoint entries {T n} (v : Vector.t T n) : list T :=
  match v with
  | Vector.nil _ => []
  | Vector.cons _ x _ v' => x :: entries v'
  end.

(** [[(); N].map(closure)] for a closure that owns a mutable counter/state [s]:
    calls the closure N times from index 0 upwards. *)
Fixpoint array_gen {S T} (n : nat) (body : S -> outcome (T * S)) (s : S) : outcome (array T n) :=
  match n with
  | 0 => Ok anil
  | Datatypes.S n' =>
      ' (x, s') <- body s ;;
      xs <- array_gen n' body s' ;;
      Ok (acons x xs)
  end.

(** [a.map(f)]. *)
Fixpoint array_map {A B n} (f : A -> outcome B) (v : Vector.t A n) : outcome (array B n) :=
  match v in Vector.t _ n return outcome (array B n) with
  | Vector.nil _ => Ok anil
  | Vector.cons _ x _ v' => y <- f x ;; ys <- array_map f v' ;; Ok (acons y ys)
  end.

(** [for (s, o) in a.iter_mut().zip(b.iter()) { *s = f s o }]. *)
Fixpoint array_zip_mut {A B n} (f : A -> B -> outcome A) (u : Vector.t A n)
  : array B n -> outcome (array A n) :=
  match u in Vector.t _ n return array B n -> outcome (array A n) with
  | Vector.nil _ => fun _ => Ok anil
  | Vector.cons _ x _ u' => fun v =>
      y <- f x (ahd v) ;; ys <- array_zip_mut f u' (atl v) ;; Ok (acons y ys)
  end.

(** Bounds-checked [a[i]]. *)
Definition array_get {T n} (v : array T n) (i : nat) : outcome T := vget (entries v) i.

(** Bounds-checked [a[i] = x]. *)
Fixpoint array_upd {T n} (v : Vector.t T n) (i : nat) (x : T) : array T n :=
  match v in Vector.t _ n return array T n with
  | Vector.nil _ => anil
  | Vector.cons _ y _ v' =>
      match i with
      | 0 => acons x v'
      | S i' => acons y (array_upd v' i' x)
      end
  end.
Definition array_set {T n} (v : array T n) (i : nat) (x : T) : outcome (array T n) :=
  if i <? n then Ok (array_upd v i x) else Panic IndexOOB.

(** Derived [PartialEq] of arrays. *)
Fixpoint array_eqb {A n} (eqb : A -> A -> bool) (u : Vector.t A n) : array A n -> bool :=
  match u in Vector.t _ n return array A n -> bool with
  | Vector.nil _ => fun _ => true
  | Vector.cons _ x _ u' => fun v => eqb x (ahd v) && array_eqb eqb u' (atl v)
  end.

(** * Facts *)

(** The array with entries f 0, ..., f (n-1). *)
Fixpoint tab {T} (n : nat) (f : nat -> T) : array T n :=
  match n with
  | 0 => anil
  | S n' => acons (f 0) (tab n' (fun i => f (S i)))
  end.

(** Entry [i], with a default outside the array. *)
Definition ent {T n} (d : T) (v : array T n) (i : nat) : T := nth i (entries v) d.

Lemma array_0 {T} (v : array T 0) : v = anil.
Proof. revert v. apply Vector.case0. reflexivity. Qed.
Lemma array_S {T n} (v : array T (S n)) : v = acons (ahd v) (atl v).
Proof. apply Vector.eta. Qed.

Lemma entries_length {T n} (v : array T n) : length (entries v) = n.
Proof. induction v; simpl; auto. Qed.

Lemma entries_tab {T} n (f : nat -> T) : entries (tab n f) = map f (seq 0 n).
Proof.
  revert f; induction n as [|n IH]; intros f; simpl; [reflexivity|].
  rewrite IH, <- seq_shift, map_map. reflexivity.
Qed.

Lemma nth_map_seq {T} (f : nat -> T) n i d : i < n -> nth i (map f (seq 0 n)) d = f i.
Proof.
  intros H. rewrite (nth_indep _ d (f 0)) by (rewrite map_length, seq_length; lia).
  rewrite map_nth, seq_nth by lia. reflexivity.
Qed.

Lemma ent_tab {T} (d : T) n f i : i < n -> ent d (tab n f) i = f i.
Proof. intros H. unfold ent. rewrite entries_tab. apply nth_map_seq; exact H. Qed.

Lemma ent_out {T n} (d : T) (v : array T n) i : n <= i -> ent d v i = d.
Proof. intros H. unfold ent. apply nth_overflow. rewrite entries_length. exact H. Qed.

Lemma tab_ext {T} n (f g : nat -> T) : (forall i, i < n -> f i = g i) -> tab n f = tab n g.
Proof.
  revert f g; induction n as [|n IH]; intros f g H; simpl; [reflexivity|].
  rewrite (H 0) by lia. f_equal. apply IH. intros i Hi. apply H. lia.
Qed.

Lemma tab_ent {T n} (d : T) (v : array T n) : v = tab n (ent d v).
Proof.
  induction v as [|x n v IH]; simpl; [reflexivity|].
  unfold acons. f_equal. rewrite IH at 1. reflexivity.
Qed.

Lemma array_ext {T n} (d : T) (u v : array T n) :
  (forall i, i < n -> ent d u i = ent d v i) -> u = v.
Proof. intros H. rewrite (tab_ent d u), (tab_ent d v). apply tab_ext. exact H. Qed.

Lemma array_gen_tab {T} n (body : nat -> outcome (T * nat)) (f : nat -> T) k :
  (forall i, k <= i < k + n -> body i = Ok (f i, S i)) ->
  array_gen n body k = Ok (tab n (fun i => f (k + i))).
Proof.
  revert k; induction n as [|n IH]; intros k H; simpl; [reflexivity|].
  rewrite H by lia. simpl. rewrite IH by (intros; apply H; lia). simpl.
  rewrite Nat.add_0_r. do 2 f_equal. apply tab_ext. intros i _. f_equal. lia.
Qed.

Lemma array_gen_tab0 {T} n (body : nat -> outcome (T * nat)) (f : nat -> T) :
  (forall i, i < n -> body i = Ok (f i, S i)) ->
  array_gen n body 0 = Ok (tab n f).
Proof. intros H. rewrite (array_gen_tab n body f 0); [reflexivity|]. intros; apply H; lia. Qed.

Lemma array_gen_const {T} n (body : unit -> outcome (T * unit)) (x : T) :
  body tt = Ok (x, tt) -> array_gen n body tt = Ok (tab n (fun _ => x)).
Proof. intros H. induction n as [|n IH]; simpl; [reflexivity|]. rewrite H. simpl. rewrite IH. reflexivity. Qed.

Lemma array_map_tab {A B n} (f : A -> outcome B) (g : A -> B) d (v : array A n) :
  (forall x, f x = Ok (g x)) -> array_map f v = Ok (tab n (fun i => g (ent d v i))).
Proof.
  intros H. induction v as [|x n v IH]; simpl; [reflexivity|].
  rewrite H. simpl. rewrite IH. reflexivity.
Qed.

Lemma array_zip_mut_tab {A B n} (f : A -> B -> outcome A) (g : A -> B -> A) da db
    (u : array A n) (v : array B n) :
  (forall x y, f x y = Ok (g x y)) ->
  array_zip_mut f u v = Ok (tab n (fun i => g (ent da u i) (ent db v i))).
Proof.
  intros H. induction u as [|x n u IH]; simpl; [reflexivity|].
  rewrite (array_S v). simpl. rewrite H. simpl. rewrite IH. reflexivity.
Qed.

Lemma array_get_ok {T n} (d : T) (v : array T n) i : i < n -> array_get v i = Ok (ent d v i).
Proof. intros H. unfold array_get. apply vget_ok. rewrite entries_length. exact H. Qed.

Lemma array_get_oob {T n} (v : array T n) i : n <= i -> array_get v i = Panic IndexOOB.
Proof. intros H. unfold array_get. apply vget_oob. rewrite entries_length. exact H. Qed.

Lemma entries_upd {T n} (v : array T n) i x : entries (array_upd v i x) = list_upd (entries v) i x.
Proof.
  revert i; induction v as [|y n v IH]; intros [|i]; simpl; try reflexivity.
  f_equal. apply IH.
Qed.

Lemma ent_upd {T n} (d : T) (v : array T n) i j x : i < n ->
  ent d (array_upd v i x) j = if j =? i then x else ent d v j.
Proof.
  intros H. unfold ent. rewrite entries_upd, nth_list_upd, entries_length.
  apply Nat.ltb_lt in H. rewrite H, andb_true_r. reflexivity.
Qed.

Lemma array_eqb_ent {A n} (eqb : A -> A -> bool) d (u v : array A n) :
  array_eqb eqb u v = true <-> (forall i, i < n -> eqb (ent d u i) (ent d v i) = true).
Proof.
  induction u as [|x n u IH]; simpl.
  - split; [intros _ i Hi; lia|reflexivity].
  - rewrite (array_S v). simpl. rewrite andb_true_iff, IH. split.
    + intros [H0 H] [|i] Hi; [exact H0|]. apply H. lia.
    + intros H. split; [apply (H 0); lia|]. intros i Hi. apply (H (S i)). lia.
Qed.
