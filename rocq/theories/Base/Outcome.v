(** The effect monad of the model.

    A Rust expression either yields a value, panics, or (only possible in the
    rejection loops of src/optimize/differential_evolution.rs) never returns.
    A panic is an explicit value, never silently replaced by a default. *)
From Coq Require Import List Arith Lia Bool.
Import ListNotations.

(** Why a panic happened.  Rust's panic message is not modelled beyond this. *)
Inductive panic : Set :=
| IndexOOB        (** slice / array / Vec index out of bounds *)
| AssertFailed    (** assert! / assert_eq! *)
| ArithOverflow   (** integer overflow in a build with overflow checks *)
| DivByZero       (** integer division by zero *)
| EmptyRange      (** rand's gen_range on an empty range *)
| DomainError.    (** not a Rust panic: in the idealised real-number instance, an operation
                      applied outside its domain (x/0, sqrt of a negative number, ln of a
                      non-positive number), where f64 would give NaN or an infinity *)

Inductive outcome (A : Type) : Type :=
| Ok (a : A)
| Panic (p : panic)
| Diverge.        (** fuel exhausted: the real loop is still running *)
Arguments Ok {A} a.
Arguments Panic {A} p.
Arguments Diverge {A}.

Definition bind {A B} (m : outcome A) (k : A -> outcome B) : outcome B :=
  match m with
  | Ok a => k a
  | Panic p => Panic p
  | Diverge => Diverge
  end.

Declare Scope outcome_scope.
Delimit Scope outcome_scope with oc.
Notation "x <- m ;; k" := (bind m (fun x => k))
  (at level 61, m at next level, right associativity) : outcome_scope.
Notation "' p <- m ;; k" := (bind m (fun p => k))
  (at level 61, p pattern, m at next level, right associativity) : outcome_scope.
Open Scope outcome_scope.

(** [for x in l { s = body x s }] over an explicit item list. *)
Fixpoint for_each {A S} (body : A -> S -> outcome S) (l : list A) (s : S) : outcome S :=
  match l with
  | [] => Ok s
  | x :: l' => s' <- body x s ;; for_each body l' s'
  end.

(** [for i in lo..hi { s = body i s }]. *)
Definition for_range {S} (lo hi : nat) (body : nat -> S -> outcome S) (s : S) : outcome S :=
  for_each body (seq lo (hi - lo)) s.

(** [iter.map(f).collect()]. *)
Fixpoint mapM {A B} (f : A -> outcome B) (l : list A) : outcome (list B) :=
  match l with
  | [] => Ok []
  | x :: l' => y <- f x ;; ys <- mapM f l' ;; Ok (y :: ys)
  end.

(** [.iter().enumerate()]. *)
Definition enumerate {A} (l : list A) : list (nat * A) := combine (seq 0 (length l)) l.

(** Bounds-checked [v[i]]. *)
Definition vget {A} (l : list A) (i : nat) : outcome A :=
  match nth_error l i with
  | Some x => Ok x
  | None => Panic IndexOOB
  end.

Fixpoint list_upd {A} (l : list A) (i : nat) (x : A) : list A :=
  match l, i with
  | [], _ => []
  | _ :: l', 0 => x :: l'
  | y :: l', S i' => y :: list_upd l' i' x
  end.

(** Bounds-checked [v[i] = x]. *)
Definition vset {A} (l : list A) (i : nat) (x : A) : outcome (list A) :=
  if i <? length l then Ok (list_upd l i x) else Panic IndexOOB.

(** Bounds-checked [v[i] op= ...]: read the slot, compute, store back. *)
Definition vupd {A} (l : list A) (i : nat) (f : A -> outcome A) : outcome (list A) :=
  y <- vget l i ;; z <- f y ;; vset l i z.

(** Computations on a [&mut S] receiver for which the state left behind by a
    panic is observable: the new state is returned together with the outcome. *)
Definition mres (S : Type) : Type := (S * outcome unit)%type.

Fixpoint for_each_mut {A S} (body : A -> S -> mres S) (l : list A) (s : S) : mres S :=
  match l with
  | [] => (s, Ok tt)
  | x :: l' =>
      match body x s with
      | (s', Ok _) => for_each_mut body l' s'
      | (s', o) => (s', o)
      end
  end.

(** Forgetting the state left behind by a panic. *)
Definition finish {S} (r : mres S) : outcome S :=
  match r with
  | (s, Ok _) => Ok s
  | (_, Panic p) => Panic p
  | (_, Diverge) => Diverge
  end.

(** * Basic facts *)

Lemma bind_ok {A B} (a : A) (k : A -> outcome B) : bind (Ok a) k = k a.
Proof. reflexivity. Qed.

Lemma bind_ret {A} (m : outcome A) : bind m Ok = m.
Proof. destruct m; reflexivity. Qed.

Lemma bind_assoc {A B C} (m : outcome A) (f : A -> outcome B) (g : B -> outcome C) :
  bind (bind m f) g = bind m (fun a => bind (f a) g).
Proof. destruct m; reflexivity. Qed.

Lemma bind_ext {A B} (m : outcome A) (f g : A -> outcome B) :
  (forall a, f a = g a) -> bind m f = bind m g.
Proof. intros H; destruct m; simpl; auto. Qed.

Lemma bind_Ok_inv {A B} (m : outcome A) (k : A -> outcome B) b :
  bind m k = Ok b -> exists a, m = Ok a /\ k a = Ok b.
Proof. destruct m as [a| |]; simpl; try discriminate. intros H; exists a; auto. Qed.

Lemma for_each_app {A S} (body : A -> S -> outcome S) l1 l2 s :
  for_each body (l1 ++ l2) s = bind (for_each body l1 s) (for_each body l2).
Proof.
  revert s; induction l1 as [|x l1 IH]; intros s; simpl; [reflexivity|].
  rewrite bind_assoc. apply bind_ext; intros s'. apply IH.
Qed.

Lemma for_each_ext {A S} (b1 b2 : A -> S -> outcome S) l s :
  (forall x s', In x l -> b1 x s' = b2 x s') -> for_each b1 l s = for_each b2 l s.
Proof.
  revert s; induction l as [|x l IH]; intros s H; simpl; [reflexivity|].
  rewrite H by (left; reflexivity). apply bind_ext; intros s'.
  apply IH. intros y s'' Hy. apply H. right; exact Hy.
Qed.

(** Total bodies: the loop is a [fold_left]. *)
Lemma for_each_total {A S} (body : A -> S -> outcome S) (f : A -> S -> S) l s :
  (forall x s', In x l -> body x s' = Ok (f x s')) ->
  for_each body l s = Ok (fold_left (fun s' x => f x s') l s).
Proof.
  revert s; induction l as [|x l IH]; intros s H; simpl; [reflexivity|].
  rewrite H by (left; reflexivity). simpl. apply IH.
  intros y s' Hy. apply H. right; exact Hy.
Qed.

(** Loop invariant rule: a loop whose body keeps [I] and does not panic ends well. *)
Lemma for_each_inv {A S} (body : A -> S -> outcome S) (I : list A -> S -> Prop) l s :
  I [] s ->
  (forall pre x post s', l = pre ++ x :: post -> I pre s' ->
     exists s'', body x s' = Ok s'' /\ I (pre ++ [x]) s'') ->
  exists s', for_each body l s = Ok s' /\ I l s'.
Proof.
  intros H0 Hstep.
  assert (Hgen : forall post pre s0, l = pre ++ post -> I pre s0 ->
            exists s', for_each body post s0 = Ok s' /\ I l s').
  { induction post as [|x post IH]; intros pre s0 Hl HI; simpl.
    - exists s0. rewrite app_nil_r in Hl. subst pre. auto.
    - destruct (Hstep pre x post s0 Hl HI) as (s1 & Hb & HI1).
      rewrite Hb. simpl. apply (IH (pre ++ [x])); [|exact HI1].
      rewrite <- app_assoc. exact Hl. }
  apply (Hgen l []); auto.
Qed.

Lemma for_range_inv {S} lo hi (body : nat -> S -> outcome S) (I : nat -> S -> Prop) s :
  lo <= hi -> I lo s ->
  (forall i s', lo <= i < hi -> I i s' -> exists s'', body i s' = Ok s'' /\ I (Datatypes.S i) s'') ->
  exists s', for_range lo hi body s = Ok s' /\ I hi s'.
Proof.
  intros Hle H0 Hstep. unfold for_range.
  assert (Hgen : forall n i s0, i + n = hi -> lo <= i -> I i s0 ->
            exists s', for_each body (seq i n) s0 = Ok s' /\ I hi s').
  { induction n as [|n IH]; intros i s0 Hi Hlo HI; simpl.
    - exists s0. replace hi with i by lia. auto.
    - destruct (Hstep i s0) as (s1 & Hb & HI1); [lia|exact HI|].
      rewrite Hb. simpl. apply IH; auto; lia. }
  apply Hgen; auto; lia.
Qed.

Lemma mapM_total {A B} (f : A -> outcome B) (g : A -> B) l :
  (forall x, In x l -> f x = Ok (g x)) -> mapM f l = Ok (map g l).
Proof.
  induction l as [|x l IH]; intros H; simpl; [reflexivity|].
  rewrite H by (left; reflexivity). simpl. rewrite IH; [reflexivity|].
  intros y Hy; apply H; right; exact Hy.
Qed.

Lemma mapM_ext {A B} (f g : A -> outcome B) l :
  (forall x, In x l -> f x = g x) -> mapM f l = mapM g l.
Proof.
  induction l as [|x l IH]; intros H; simpl; [reflexivity|].
  rewrite H by (left; reflexivity). apply bind_ext; intros y.
  rewrite IH; [reflexivity|]. intros z Hz; apply H; right; exact Hz.
Qed.

Lemma mapM_length {A B} (f : A -> outcome B) l r :
  mapM f l = Ok r -> length r = length l.
Proof.
  revert r; induction l as [|x l IH]; intros r; simpl.
  - intros H; injection H as <-; reflexivity.
  - intros H. apply bind_Ok_inv in H as (y & _ & H).
    apply bind_Ok_inv in H as (ys & Hys & H). injection H as <-.
    simpl. f_equal. apply IH; exact Hys.
Qed.

Lemma vget_ok {A} (l : list A) i d : i < length l -> vget l i = Ok (nth i l d).
Proof.
  intros H. unfold vget. rewrite (nth_error_nth' l d H). reflexivity.
Qed.

Lemma vget_oob {A} (l : list A) i : length l <= i -> vget l i = Panic IndexOOB.
Proof. intros H. unfold vget. apply nth_error_None in H. rewrite H. reflexivity. Qed.

Lemma list_upd_length {A} (l : list A) i x : length (list_upd l i x) = length l.
Proof. revert i; induction l as [|y l IH]; intros [|i]; simpl; auto. Qed.

Lemma nth_list_upd {A} (l : list A) i j x d :
  nth j (list_upd l i x) d =
  if (j =? i) && (i <? length l) then x else nth j l d.
Proof.
  revert i j; induction l as [|y l IH]; intros i j.
  - simpl. replace (i <? 0) with false by (symmetry; apply Nat.ltb_ge; lia).
    rewrite Bool.andb_false_r. reflexivity.
  - destruct i as [|i], j as [|j]; try reflexivity.
    change (nth j (list_upd l i x) d
            = if (j =? i) && (S i <? S (length l)) then x else nth j l d).
    rewrite IH. reflexivity.
Qed.

Lemma vset_ok {A} (l : list A) i x : i < length l -> vset l i x = Ok (list_upd l i x).
Proof. intros H. unfold vset. apply Nat.ltb_lt in H. rewrite H. reflexivity. Qed.

Lemma vset_oob {A} (l : list A) i x : length l <= i -> vset l i x = Panic IndexOOB.
Proof. intros H. unfold vset. apply Nat.ltb_ge in H. rewrite H. reflexivity. Qed.

Lemma vupd_ok {A} (l : list A) i f d z :
  i < length l -> f (nth i l d) = Ok z -> vupd l i f = Ok (list_upd l i z).
Proof.
  intros H Hf. unfold vupd. rewrite (vget_ok l i d H). simpl.
  rewrite Hf. simpl. apply vset_ok; exact H.
Qed.

Lemma enumerate_length {A} (l : list A) : length (enumerate l) = length l.
Proof. unfold enumerate. rewrite combine_length, seq_length. lia. Qed.

Lemma finish_for_each_mut {A S} (body : A -> S -> mres S) (b : A -> S -> outcome S) l s :
  (forall x s', finish (body x s') = b x s') ->
  finish (for_each_mut body l s) = for_each b l s.
Proof.
  intros H; revert s; induction l as [|x l IH]; intros s; simpl; [reflexivity|].
  rewrite <- H. destruct (body x s) as [s' [u|p|]]; simpl; auto.
Qed.

Lemma for_each_enumerate_from {A S} (body : nat * A -> S -> outcome S) (l : list A) d k s :
  for_each body (combine (seq k (length l)) l) s
  = for_each (fun i => body (i, nth (i - k) l d)) (seq k (length l)) s.
Proof.
  revert k s; induction l as [|x l IH]; intros k s; simpl; [reflexivity|].
  rewrite Nat.sub_diag. apply bind_ext; intros s'. rewrite IH.
  apply for_each_ext. intros i s'' Hi. apply in_seq in Hi.
  replace (i - k) with (Datatypes.S (i - Datatypes.S k)) by lia. reflexivity.
Qed.

Lemma for_each_enumerate {A S} (body : nat * A -> S -> outcome S) (l : list A) d s :
  for_each body (enumerate l) s
  = for_range 0 (length l) (fun i => body (i, nth i l d)) s.
Proof.
  unfold enumerate, for_range. rewrite (for_each_enumerate_from body l d 0 s).
  rewrite Nat.sub_0_r. apply for_each_ext. intros i s' _. rewrite Nat.sub_0_r. reflexivity.
Qed.

Definition unwrap {A} (d : A) (m : outcome A) : A :=
  match m with Ok a => a | _ => d end.

Lemma unwrap_ok {A} (d : A) m a : m = Ok a -> unwrap d m = a.
Proof. intros ->; reflexivity. Qed.
