(** The derived [==] of [Polynomial] against the ring laws. *)
From Coq Require Import List Arith Lia Bool Setoid Morphisms.
From Verif Require Import Base.Outcome Model.Traits Model.Polynomial
  Spec.Ring Spec.Sums Spec.Polynomial Proofs.RingTheory Proofs.PolynomialProofs
  Proofs.SigOf Proofs.PolynomialRing.
Import ListNotations.

Section PolyEq.
Context {T : Type} (O : RingOps T) (R : ring_sig T) (HI : implements O R) (HR : ring_laws R).
(** [==] of the element type recognises equal elements. *)
Hypothesis Heqb : forall x y, same R x y -> r_eqb O x y = true.
Notation cf := (coeff R).

Lemma poly_eqb_complete p q : length p = length q -> (forall i, same R (cf p i) (cf q i)) ->
  poly_eqb O p q = true.
Proof.
  revert q; induction p as [|x p IH]; intros [|y q]; simpl; try discriminate; auto.
  intros Hl Hk. apply andb_true_iff. split.
  - apply Heqb. apply (Hk 0).
  - apply IH; [congruence|]. intros i. apply (Hk (S i)).
Qed.

Notation PR := (PR O R).
Definition mlen (m n : nat) : nat :=
  match m, n with S a, S b => S (a + b) | _, _ => 0 end.

Lemma PR_add_len p q : length (sadd PR p q) = max (length p) (length q).
Proof.
  destruct (poly_add_assign_ref_spec O R HI HR p q) as (r & H & Hl & _).
  simpl. rewrite H. exact Hl.
Qed.
Lemma PR_sub_len p q : length (ssub PR p q) = max (length p) (length q).
Proof.
  destruct (poly_sub_assign_ref_spec O R HI HR p q) as (r & H & Hl & _).
  simpl. rewrite H. exact Hl.
Qed.
Lemma PR_mul_len p q : length (smul PR p q) = mlen (length p) (length q).
Proof.
  destruct (poly_mul_ref_spec O R HI HR p q) as (r & H & Hl & _).
  simpl. rewrite H. simpl. rewrite Hl. unfold mlen.
  destruct (length p), (length q); simpl; lia.
Qed.
Lemma PR_neg_len p : length (sneg PR p) = length p.
Proof.
  destruct (poly_neg_spec O R HI HR p) as (r & H & Hl & _).
  simpl. rewrite H. exact Hl.
Qed.

Lemma PR_eqb p q : length p = length q -> same PR p q -> poly_eqb O p q = true.
Proof. intros Hl H. apply poly_eqb_complete; [exact Hl|exact H]. Qed.

Ltac mlen :=
  repeat match goal with
  | |- context [length ?x] => is_var x; generalize (length x); let n := fresh "n" in intros [|n]
  end; simpl; try lia.

Lemma eq_laws :
  (forall x y z, poly_eqb O (sadd PR (sadd PR x y) z) (sadd PR x (sadd PR y z)) = true)
  /\ (forall x y, poly_eqb O (sadd PR x y) (sadd PR y x) = true)
  /\ (forall x, poly_eqb O (sadd PR x (sz PR)) x = true)
  /\ (forall x y, poly_eqb O (ssub PR x y) (sadd PR x (sneg PR y)) = true)
  /\ (forall x y z, poly_eqb O (smul PR (smul PR x y) z) (smul PR x (smul PR y z)) = true)
  /\ (forall x, poly_eqb O (smul PR (so PR) x) x = true)
  /\ (forall x, poly_eqb O (smul PR x (so PR)) x = true)
  /\ (forall x y z, poly_eqb O (smul PR x (sadd PR y z)) (sadd PR (smul PR x y) (smul PR x z)) = true)
  /\ (forall x y z, poly_eqb O (smul PR (sadd PR x y) z) (sadd PR (smul PR x z) (smul PR y z)) = true).
Proof.
  pose proof (PR_laws O R HI HR) as L.
  repeat split; intros; apply PR_eqb.
  - rewrite !PR_add_len. lia.
  - apply (law_add_assoc PR L).
  - rewrite !PR_add_len. lia.
  - apply (law_add_comm PR L).
  - rewrite !PR_add_len. simpl. lia.
  - apply (law_add_0 PR L).
  - rewrite PR_sub_len, PR_add_len, PR_neg_len. lia.
  - apply (law_sub_def PR L).
  - rewrite !PR_mul_len. mlen.
  - apply (law_mul_assoc PR L).
  - rewrite PR_mul_len. simpl. mlen.
  - apply (law_mul_1_l PR L).
  - rewrite PR_mul_len. simpl. mlen.
  - apply (law_mul_1_r PR L).
  - rewrite ?PR_mul_len, ?PR_add_len, ?PR_mul_len. mlen.
  - apply (law_distr_l PR L).
  - rewrite ?PR_mul_len, ?PR_add_len, ?PR_mul_len. mlen.
  - apply (law_distr_r PR L).
Qed.
End PolyEq.

(** Without any assumption on [==] of T: p - p and p + (-p) are never == zero() for p non-empty. *)
Lemma sub_self_not_eq {T} (O : RingOps T) (R : ring_sig T) (HI : implements O R)
  (HR : ring_laws R) p r : p <> [] -> poly_sub_assign_ref O p p = Ok r ->
  poly_eqb O r (poly_zero) = false.
Proof.
  intros Hp H. destruct (poly_sub_assign_ref_spec O R HI HR p p) as (r' & H' & Hl & _).
  rewrite H in H'. injection H' as <-. destruct p; [congruence|].
  destruct r; [simpl in Hl; lia|reflexivity].
Qed.
