(** [Polynomial<T>] is a ring. *)
From Coq Require Import List Arith Lia Bool Setoid Morphisms.
From Verif Require Import Base.Outcome Model.Traits Model.Polynomial
  Spec.Ring Spec.Sums Spec.Polynomial Proofs.RingTheory Proofs.PolynomialProofs Proofs.SigOf.
Import ListNotations.

Section PolyRing.
Context {T : Type} (O : RingOps T) (R : ring_sig T) (HI : implements O R) (HR : ring_laws R).
Local Infix "[=]" := (same R) (at level 70, no associativity).
Local Infix "[+]" := (sadd R) (at level 50, left associativity).
Local Infix "[*]" := (smul R) (at level 40, left associativity).
Local Infix "[-]" := (ssub R) (at level 50, left associativity).
#[local] Instance J1 : Equivalence (same R).
Proof. exact (same_equiv R HR). Qed.
#[local] Instance J2 : Proper (same R ==> same R ==> same R) (sadd R).
Proof. exact (sadd_proper R HR). Qed.
#[local] Instance J3 : Proper (same R ==> same R ==> same R) (ssub R).
Proof. exact (ssub_proper R HR). Qed.
#[local] Instance J4 : Proper (same R ==> same R ==> same R) (smul R).
Proof. exact (smul_proper R HR). Qed.
#[local] Instance J5 : Proper (same R ==> same R) (sneg R).
Proof. exact (sneg_proper R HR). Qed.
Notation cf := (coeff R).
Notation sum := (sum_n R).

Lemma poly_total : total_ops (poly_ops O).
Proof.
  constructor; simpl.
  - intros x y. destruct (poly_add_assign_ref_spec O R HI HR x y) as (r & H & _). eauto.
  - intros x y. destruct (poly_sub_assign_ref_spec O R HI HR x y) as (r & H & _). eauto.
  - intros x y. destruct (poly_mul_ref_spec O R HI HR x y) as (r & H & _). eauto.
  - intros x. destruct (poly_neg_spec O R HI HR x) as (r & H & _). eauto.
Qed.

Lemma poly_eqb_spec p q : poly_eqb O p q = true ->
  length p = length q /\ forall i, cf p i [=] cf q i.
Proof.
  revert q; induction p as [|x p IH]; intros [|y q]; simpl; try discriminate.
  - intros _. split; [reflexivity|]. intros i. reflexivity.
  - intros H. apply andb_true_iff in H as (Hxy & Hpq).
    apply (impl_eqb O R HI) in Hxy. apply IH in Hpq as (Hl & Hk).
    split; [congruence|]. intros [|i]; [exact Hxy|]. apply Hk.
Qed.

Definition PR : ring_sig (poly T) := sig_of (poly_ops O) (same_poly R).

Lemma PR_implements : implements (poly_ops O) PR.
Proof.
  apply sig_of_implements; [exact poly_total|].
  intros x y H. apply poly_eqb_spec in H as (_ & H). exact H.
Qed.

Lemma PR_add p q i : cf (sadd PR p q) i [=] cf p i [+] cf q i.
Proof.
  destruct (poly_add_assign_ref_spec O R HI HR p q) as (r & H & _ & Hk).
  simpl. rewrite H. apply Hk.
Qed.
Lemma PR_sub p q i : cf (ssub PR p q) i [=] cf p i [-] cf q i.
Proof.
  destruct (poly_sub_assign_ref_spec O R HI HR p q) as (r & H & _ & Hk).
  simpl. rewrite H. apply Hk.
Qed.
Lemma PR_mul p q i : cf (smul PR p q) i [=] convolution R p q i.
Proof.
  destruct (poly_mul_ref_spec O R HI HR p q) as (r & H & _ & Hk).
  simpl. rewrite H. apply Hk.
Qed.
Lemma PR_neg p i : cf (sneg PR p) i [=] sneg R (cf p i).
Proof.
  destruct (poly_neg_spec O R HI HR p) as (r & H & _ & Hk).
  simpl. rewrite H. apply Hk.
Qed.
Lemma PR_zero i : cf (sz PR) i [=] sz R.
Proof. simpl. unfold coeff, poly_zero. destruct i; reflexivity. Qed.
Lemma PR_one i : cf (so PR) i [=] if i =? 0 then so R else sz R.
Proof.
  simpl. unfold coeff, poly_one. rewrite (impl_one O R HI).
  destruct i as [|[|i]]; reflexivity.
Qed.

Lemma conv_ext p p' q q' k :
  (forall i, cf p i [=] cf p' i) -> (forall i, cf q i [=] cf q' i) ->
  convolution R p q k [=] convolution R p' q' k.
Proof.
  intros H H'. unfold convolution. apply sum_ext; [exact HR|]. intros i _.
  rewrite (H i), (H' (k - i)). reflexivity.
Qed.

Lemma PR_laws : ring_laws PR.
Proof.
  constructor; unfold PR at 1; cbn [same sig_of]; unfold same_poly.
  - intros x i. reflexivity.
  - intros x y H i. symmetry. apply H.
  - intros x y z H H' i. etransitivity; [apply H|apply H'].
  - intros x x' y y' H H' i. rewrite !PR_add, (H i), (H' i). reflexivity.
  - intros x x' y y' H H' i. rewrite !PR_sub, (H i), (H' i). reflexivity.
  - intros x x' y y' H H' i. rewrite !PR_mul. apply conv_ext; assumption.
  - intros x x' H i. rewrite !PR_neg, (H i). reflexivity.
  - intros x y z i. rewrite !PR_add. nc_ring HR.
  - intros x y i. rewrite !PR_add. nc_ring HR.
  - intros x i. rewrite !PR_add, PR_zero. nc_ring HR.
  - intros x i. rewrite !PR_add, PR_neg, PR_zero. nc_ring HR.
  - intros x y i. rewrite !PR_add, PR_sub, PR_neg. nc_ring HR.
  - intros x y z k. rewrite !PR_mul. unfold convolution.
    transitivity (sum (S k) (fun i => sum (S i) (fun j => cf x j [*] cf y (i - j) [*] cf z (k - i)))).
    { apply sum_ext; [exact HR|]. intros i _. rewrite PR_mul. unfold convolution.
      rewrite <- (sum_mul_r R HR). reflexivity. }
    rewrite (sum_triangle R HR k (fun i j => cf x j [*] cf y (i - j) [*] cf z (k - i))).
    apply sum_ext; [exact HR|]. intros j Hj. rewrite PR_mul. unfold convolution.
    rewrite <- sum_mul_l by exact HR. apply sum_ext; [exact HR|]. intros i Hi.
    replace (j + i - j) with i by lia. replace (k - (j + i)) with (k - j - i) by lia.
    apply (law_mul_assoc R HR).
  - intros x k. rewrite PR_mul. unfold convolution.
    rewrite (sum_single R HR (S k) 0).
    + rewrite PR_one. simpl. rewrite Nat.sub_0_r. apply (law_mul_1_l R HR).
    + lia.
    + intros i Hi Hne. rewrite PR_one. destruct i; [lia|]. apply mul_0_l; exact HR.
  - intros x k. rewrite PR_mul. unfold convolution.
    rewrite (sum_single R HR (S k) k).
    + rewrite PR_one, Nat.sub_diag. apply (law_mul_1_r R HR).
    + lia.
    + intros i Hi Hne. rewrite PR_one. destruct (k - i) eqn:E; [lia|]. apply mul_0_r; exact HR.
  - intros x y z k. rewrite PR_add, !PR_mul. unfold convolution.
    rewrite <- sum_add by exact HR. apply sum_ext; [exact HR|]. intros i _.
    rewrite PR_add. apply (law_distr_l R HR).
  - intros x y z k. rewrite PR_add, !PR_mul. unfold convolution.
    rewrite <- sum_add by exact HR. apply sum_ext; [exact HR|]. intros i _.
    rewrite PR_add. apply (law_distr_r R HR).
Qed.

Lemma PR_commutative : commutative R -> commutative PR.
Proof.
  intros HC x y k. rewrite !PR_mul. unfold convolution. rewrite sum_rev by exact HR.
  apply sum_ext; [exact HR|]. intros i Hi.
  replace (S k - 1 - i) with (k - i) by lia. replace (k - (k - i)) with i by lia. apply HC.
Qed.

End PolyRing.
