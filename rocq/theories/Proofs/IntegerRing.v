(** The ring of mathematical integers, used to show that hypotheses are satisfiable
    (it stands for a user-provided big-integer [Ring] implementation). *)
From Coq Require Import List ZArith Lia Setoid.
From Verif Require Import Base.Outcome Model.Traits Spec.Ring.

Definition z_ops : RingOps Z := {|
  r_zero := 0%Z; r_one := 1%Z;
  r_add := fun x y => Ok (x + y)%Z;
  r_sub := fun x y => Ok (x - y)%Z;
  r_mul := fun x y => Ok (x * y)%Z;
  r_neg := fun x => Ok (- x)%Z;
  r_eqb := Z.eqb
|}.

Definition z_sig : ring_sig Z := {|
  sz := 0%Z; so := 1%Z; sadd := Z.add; ssub := Z.sub; smul := Z.mul; sneg := Z.opp;
  same := eq
|}.

Lemma z_implements : implements z_ops z_sig.
Proof. constructor; simpl; auto. intros x y. apply Z.eqb_eq. Qed.

Lemma z_laws : ring_laws z_sig.
Proof.
  constructor; cbn [z_sig sz so sadd ssub smul sneg same]; intros; subst; auto; try ring.
Qed.

Lemma z_commutative : commutative z_sig.
Proof. intros x y; simpl; ring. Qed.
