(** Evaluation at related points, eigenvectors (proof device for C86). *)
From Coq Require Import List Arith Lia Bool Setoid Morphisms.
From Verif Require Import Base.Outcome Base.Array Base.Sim Model.Traits Model.Polynomial Model.Complex
  Model.SVector Model.SMatrix Spec.Ring Spec.Sums Spec.Agree Spec.Matrix Spec.Polynomial Spec.Complex Spec.Substitution
  Proofs.RingTheory Proofs.PolynomialProofs Proofs.PolynomialRing Proofs.SMatrixProofs Proofs.ComplexProofs Proofs.RingSim Proofs.IntProofs.
Import ListNotations.

Lemma sim_never_ok {A B} (S : A -> B -> Prop) m1 m2 a : sim never S m1 m2 -> m1 = Ok a -> exists b, m2 = Ok b /\ S a b.
Proof. intros H ->. exact H. Qed.

(** The relation "evaluates to" is a simulation: [f] maps the coefficients to another ring, all
    whose images commute with the point [x]. *)
Section Eval.
Context {T U : Type} (O : RingOps T) (R : ring_sig T) (HI : implements O R) (HR : ring_laws R).
Context (O' : RingOps U) (R' : ring_sig U) (HI' : implements O' R') (HR' : ring_laws R').
Context (f : T -> U) (x : U).
Notation "a ≡ b" := (same R' a b) (at level 70).
Context (f_cong : forall a b, same R a b -> f a ≡ f b)
        (f_zero : f (sz R) ≡ sz R') (f_one : f (so R) ≡ so R')
        (f_add : forall a b, f (sadd R a b) ≡ sadd R' (f a) (f b))
        (f_sub : forall a b, f (ssub R a b) ≡ ssub R' (f a) (f b))
        (f_mul : forall a b, f (smul R a b) ≡ smul R' (f a) (f b))
        (f_neg : forall a, f (sneg R a) ≡ sneg R' (f a)).
#[local] Instance E1 : Equivalence (same R') := same_equiv R' HR'.
#[local] Instance E2 : Proper (same R' ==> same R' ==> same R') (sadd R') := sadd_proper R' HR'.
#[local] Instance E3 : Proper (same R' ==> same R' ==> same R') (ssub R') := ssub_proper R' HR'.
#[local] Instance E4 : Proper (same R' ==> same R' ==> same R') (smul R') := smul_proper R' HR'.
#[local] Instance E5 : Proper (same R' ==> same R') (sneg R') := sneg_proper R' HR'.

Definition comm (a : U) : Prop := smul R' x a ≡ smul R' a x.
Definition evaluates (p : poly T) (y : U) : Prop :=
  (forall i, comm (f (coeff R p i))) /\ poly_value R' (map f p) x ≡ y.

Lemma comm_cong a b : a ≡ b -> comm a -> comm b.
Proof. unfold comm. intros H Ha. rewrite <- H. exact Ha. Qed.
Lemma comm_zero : comm (sz R').
Proof. unfold comm. nc_ring HR'. Qed.
Lemma comm_one : comm (so R').
Proof. unfold comm. nc_ring HR'. Qed.
Lemma comm_add a b : comm a -> comm b -> comm (sadd R' a b).
Proof. unfold comm. intros Ha Hb. rewrite (law_distr_l R' HR'), (law_distr_r R' HR'), Ha, Hb. reflexivity. Qed.
Lemma comm_neg a : comm a -> comm (sneg R' a).
Proof.
  unfold comm. intros Ha. transitivity (sneg R' (smul R' x a)); [nc_ring HR'|]. rewrite Ha. nc_ring HR'.
Qed.
Lemma comm_sub a b : comm a -> comm b -> comm (ssub R' a b).
Proof.
  intros Ha Hb. eapply comm_cong; [symmetry; apply (law_sub_def R' HR')|]. apply comm_add, comm_neg; assumption.
Qed.
Lemma comm_mul a b : comm a -> comm b -> comm (smul R' a b).
Proof.
  unfold comm. intros Ha Hb. rewrite <- (law_mul_assoc R' HR'), Ha, (law_mul_assoc R' HR'), Hb,
    (law_mul_assoc R' HR'). reflexivity.
Qed.
Lemma comm_sum n g : (forall i, i < n -> comm (g i)) -> comm (sum_n R' n g).
Proof.
  induction n as [|n IH]; intros H; simpl; [apply comm_zero|]. apply comm_add; [apply IH; auto|apply H; lia].
Qed.

Lemma f_sum n g : f (sum_n R n g) ≡ sum_n R' n (fun i => f (g i)).
Proof. induction n as [|n IH]; simpl; [exact f_zero|]. rewrite f_add, IH. reflexivity. Qed.

Lemma coeff_map p i : coeff R' (map f p) i ≡ f (coeff R p i).
Proof.
  unfold coeff. revert i. induction p as [|a p IH]; intros [|i]; simpl; try (symmetry; exact f_zero); [reflexivity|apply IH].
Qed.

Lemma evaluates_coeffs p q y y' : evaluates p y -> (forall i, same R (coeff R q i) (coeff R p i)) -> y ≡ y' -> evaluates q y'.
Proof.
  intros [Hc Hv] H Hy. split.
  - intros i. eapply comm_cong; [apply f_cong, (law_sym R HR), H|apply Hc].
  - rewrite <- Hy, <- Hv. apply (poly_value_same R' HR'). intros i. rewrite !coeff_map. apply f_cong, H.
Qed.

Lemma evaluates_map p : (forall i, comm (f (coeff R p i))) -> commutes_with R' x (map f p).
Proof.
  intros H a Ha. apply in_map_iff in Ha. destruct Ha as (b & <- & Hb).
  destruct (In_nth _ _ (sz R) Hb) as (i & _ & <-). apply H.
Qed.

Lemma evaluates_const a : comm (f a) -> evaluates [a] (f a).
Proof.
  intros H. split.
  - intros [|i]; [exact H|]. unfold coeff. eapply comm_cong; [|apply comm_zero]. symmetry. destruct i; exact f_zero.
  - unfold poly_value. simpl. unfold coeff. simpl. nc_ring HR'.
Qed.

Lemma evaluates_sim : ring_sim never evaluates (poly_ops O) O'.
Proof.
  constructor.
  - rewrite (impl_zero _ _ HI'). split; [|unfold poly_value; simpl; reflexivity].
    intros i. eapply comm_cong; [|apply comm_zero]. unfold coeff. destruct i; symmetry; exact f_zero.
  - rewrite (impl_one _ _ HI'). cbn [poly_ops r_one poly_one]. unfold poly_one. rewrite (impl_one _ _ HI).
    destruct (evaluates_const (so R)) as [H1 H2]; [eapply comm_cong; [symmetry; exact f_one|apply comm_one]|].
    split; [exact H1|]. rewrite H2. exact f_one.
  - intros p y q z [Hp Vp] [Hq Vq]. destruct (poly_add_assign_ref_spec O R HI HR p q) as (r & E & _ & H).
    cbn [poly_ops r_add]. rewrite E, (impl_add _ _ HI'). apply sim_ok. split.
    + intros i. eapply comm_cong; [symmetry; etransitivity; [apply f_cong, H|apply f_add]|]. apply comm_add; auto.
    + rewrite <- Vp, <- Vq. apply (value_add R' HR'). intros i. rewrite !coeff_map, <- f_add. apply f_cong, H.
  - intros p y q z [Hp Vp] [Hq Vq]. destruct (poly_sub_assign_ref_spec O R HI HR p q) as (r & E & _ & H).
    cbn [poly_ops r_sub]. rewrite E, (impl_sub _ _ HI'). apply sim_ok. split.
    + intros i. eapply comm_cong; [symmetry; etransitivity; [apply f_cong, H|apply f_sub]|]. apply comm_sub; auto.
    + rewrite <- Vp, <- Vq. apply (value_sub R' HR'). intros i. rewrite !coeff_map, <- f_sub. apply f_cong, H.
  - intros p y q z [Hp Vp] [Hq Vq]. destruct (poly_mul_ref_spec O R HI HR p q) as (r & E & _ & H).
    cbn [poly_ops r_mul]. rewrite E, (impl_mul _ _ HI'). apply sim_ok.
    assert (Hf : forall k, coeff R' (map f r) k ≡ convolution R' (map f p) (map f q) k).
    { intros k. rewrite coeff_map. etransitivity; [apply f_cong, H|]. unfold convolution. rewrite f_sum.
      apply (sum_ext R' HR'). intros i _. rewrite f_mul, <- !coeff_map. reflexivity. }
    split.
    + intros i. eapply comm_cong; [symmetry; apply f_cong, H|]. unfold convolution.
      eapply comm_cong; [symmetry; apply f_sum|]. apply comm_sum. intros j _.
      eapply comm_cong; [symmetry; apply f_mul|]. apply comm_mul; auto.
    + rewrite <- Vp, <- Vq. apply (value_mul R' HR'); [exact Hf|apply evaluates_map, Hq].
  - intros p y [Hp Vp]. destruct (poly_neg_spec O R HI HR p) as (r & E & _ & H).
    cbn [poly_ops r_neg]. rewrite E, (impl_neg _ _ HI'). apply sim_ok. split.
    + intros i. eapply comm_cong; [symmetry; etransitivity; [apply f_cong, H|apply f_neg]|]. apply comm_neg; auto.
    + rewrite <- Vp. apply (value_neg R' HR'). intros i. rewrite !coeff_map, <- f_neg. apply f_cong, H.
Qed.
End Eval.
