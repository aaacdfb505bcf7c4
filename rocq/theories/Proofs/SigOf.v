(** Total operations read off a trait implementation that never panics. *)
From Coq Require Import List.
From Verif Require Import Base.Outcome Model.Traits Spec.Ring.

Definition sig_of {T} (O : RingOps T) (E : T -> T -> Prop) : ring_sig T := {|
  sz := r_zero O;
  so := r_one O;
  sadd := fun x y => unwrap (r_zero O) (r_add O x y);
  ssub := fun x y => unwrap (r_zero O) (r_sub O x y);
  smul := fun x y => unwrap (r_zero O) (r_mul O x y);
  sneg := fun x => unwrap (r_zero O) (r_neg O x);
  same := E
|}.

(** No operation panics. *)
Record total_ops {T} (O : RingOps T) : Prop := {
  tot_add : forall x y, exists r, r_add O x y = Ok r;
  tot_sub : forall x y, exists r, r_sub O x y = Ok r;
  tot_mul : forall x y, exists r, r_mul O x y = Ok r;
  tot_neg : forall x, exists r, r_neg O x = Ok r
}.

Lemma sig_of_implements {T} (O : RingOps T) (E : T -> T -> Prop) :
  total_ops O -> (forall x y, r_eqb O x y = true -> E x y) -> implements O (sig_of O E).
Proof.
  intros [Ha Hs Hm Hn] He. constructor; simpl; auto.
  - intros x y. destruct (Ha x y) as (r & ->). reflexivity.
  - intros x y. destruct (Hs x y) as (r & ->). reflexivity.
  - intros x y. destruct (Hm x y) as (r & ->). reflexivity.
  - intros x. destruct (Hn x) as (r & ->). reflexivity.
Qed.

(** Two sets of total operations of the same implementation agree. *)
Lemma implements_unique {T} (O : RingOps T) R R' : implements O R -> implements O R' ->
  sz R = sz R' /\ so R = so R' /\ (forall x y, sadd R x y = sadd R' x y)
  /\ (forall x y, ssub R x y = ssub R' x y) /\ (forall x y, smul R x y = smul R' x y)
  /\ (forall x, sneg R x = sneg R' x).
Proof.
  intros [z1 o1 a1 s1 m1 n1 _] [z2 o2 a2 s2 m2 n2 _]. repeat split; intros; try congruence.
  - pose proof (a1 x y); pose proof (a2 x y); congruence.
  - pose proof (s1 x y); pose proof (s2 x y); congruence.
  - pose proof (m1 x y); pose proof (m2 x y); congruence.
  - pose proof (n1 x); pose proof (n2 x); congruence.
Qed.

(** A ring whose equality is replaced by an equivalent one. *)
Lemma is_ring_impl {T} (O : RingOps T) (E : T -> T -> Prop) R :
  implements O R -> ring_laws R -> (forall x y, same R x y <-> E x y) -> is_ring O E.
Proof. intros; exists R; auto. Qed.
