From Coq Require Import Reals Lra.
From Verif Require Import Base.Outcome Model.Traits Model.RealInstance Spec.Ring Spec.Complex.
Open Scope R_scope.

Definition real_sig : ring_sig R := {|
  sz := 0; so := 1; sadd := Rplus; ssub := Rminus; smul := Rmult; sneg := Ropp; same := eq
|}.

Lemma real_implements : implements real_ring real_sig.
Proof.
  constructor; simpl; auto. intros x y. unfold Reqb.
  destruct (Req_EM_T x y); [auto|discriminate].
Qed.

Lemma real_laws : ring_laws real_sig.
Proof.
  constructor; cbn [real_sig sz so sadd ssub smul sneg same]; intros; subst; auto; ring.
Qed.

Lemma real_comm : commutative real_sig.
Proof. intros x y. cbn. ring. Qed.

Lemma real_is_field : is_field real_field real_sig.
Proof.
  constructor.
  - exact real_implements.
  - exact real_laws.
  - exact real_comm.
  - simpl. lra.
  - intros x y Hy. exists (x / y). simpl in *. unfold real_div.
    destruct (Req_EM_T y 0); [contradiction|]. split; [reflexivity|]. field. exact Hy.
Qed.

Lemma real_no_i x : ~ same real_sig (sadd real_sig (smul real_sig x x) (so real_sig)) (sz real_sig).
Proof. simpl. nra. Qed.
