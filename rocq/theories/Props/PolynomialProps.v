(** Properties C01-C07: Polynomial<T> over an arbitrary (possibly non-commutative) ring.

    [implements O R] : the trait implementation [O] of the element type never panics and
    computes the operations of [R];  [ring_laws R] : these satisfy the ring laws
    (Spec/Ring.v).  [coeff], [poly_value], [convolution], [same_poly] : Spec/Polynomial.v. *)
From Coq Require Import List Arith ZArith Lia Bool.
From Verif Require Import Base.Outcome Model.Traits Model.Polynomial
  Spec.Ring Spec.Sums Spec.Polynomial
  Proofs.RingTheory Proofs.PolynomialProofs Proofs.SigOf Proofs.PolynomialRing
  Proofs.PolynomialEq Proofs.IntegerRing.
Import ListNotations.

(** ** C01 *)
Theorem C01_eval_is_power_sum :
  forall (T : Type) (O : RingOps T) (R : ring_sig T),
  implements O R -> ring_laws R ->
  forall (p : poly T) (x : T),
  exists y, poly_eval_ref O p x = Ok y /\ poly_eval O p x = Ok y /\
    same R y (sum_n R (length p) (fun i => smul R (nth i p (sz R)) (pow R x i))).
Proof.
  intros T O R HI HR p x. destruct (poly_eval_ref_spec O R HI HR p x) as (y & H & Hv).
  exists y. repeat split; assumption.
Qed.

(** The value only depends on the polynomial, not on trailing zeros of the vector. *)
Theorem C01_eval_ignores_trailing_zeros :
  forall (T : Type) (O : RingOps T) (R : ring_sig T),
  implements O R -> ring_laws R ->
  forall (p q : poly T) (x y z : T),
  same_poly R p q -> poly_eval_ref O p x = Ok y -> poly_eval_ref O q x = Ok z -> same R y z.
Proof.
  intros T O R HI HR p q x y z Hs Hy Hz.
  destruct (poly_eval_ref_spec O R HI HR p x) as (y' & H & Hv).
  destruct (poly_eval_ref_spec O R HI HR q x) as (z' & H' & Hv').
  rewrite H in Hy; injection Hy as <-. rewrite H' in Hz; injection Hz as <-.
  apply (law_trans R HR _ _ _ Hv), (law_sym R HR), (law_trans R HR _ _ _ Hv').
  apply (law_sym R HR). apply poly_value_same; assumption.
Qed.

(** A polynomial built from a coefficient vector, lowest power first. *)
Theorem C01_from_coefficients :
  forall (T : Type) (O : RingOps T) (R : ring_sig T),
  implements O R -> ring_laws R ->
  forall (c : list T) (x : T),
  (forall k, coeff R (poly_from_coefficients c) k = nth k c (sz R)) /\
  exists y, poly_eval O (poly_from_coefficients c) x = Ok y /\
    same R y (sum_n R (length c) (fun i => smul R (nth i c (sz R)) (pow R x i))).
Proof.
  intros T O R HI HR c x. split; [reflexivity|].
  destruct (C01_eval_is_power_sum T O R HI HR c x) as (y & _ & H & Hv). exists y. split; assumption.
Qed.

Example C01_case : poly_eval z_ops [1; 2; 3]%Z 2%Z = Ok 17%Z.
Proof. reflexivity. Qed.

(** ** C02 *)
Theorem C02_additions_are_coefficientwise :
  forall (T : Type) (O : RingOps T) (R : ring_sig T),
  implements O R -> ring_laws R ->
  forall (p q : poly T),
  exists r1 r2 r3,
    poly_add O p q = Ok r1 /\ poly_add_assign O p q = Ok r2 /\ poly_add_assign_ref O p q = Ok r3
    /\ length r1 = max (length p) (length q)
    /\ length r2 = max (length p) (length q)
    /\ length r3 = max (length p) (length q)
    /\ (forall k, same R (coeff R r1 k) (sadd R (coeff R p k) (coeff R q k)))
    /\ (forall k, same R (coeff R r2 k) (sadd R (coeff R p k) (coeff R q k)))
    /\ (forall k, same R (coeff R r3 k) (sadd R (coeff R p k) (coeff R q k))).
Proof.
  intros T O R HI HR p q.
  destruct (poly_add_spec O R HI HR p q) as (r1 & ? & ? & ?).
  destruct (poly_add_assign_spec O R HI HR p q) as (r2 & ? & ? & ?).
  destruct (poly_add_assign_ref_spec O R HI HR p q) as (r3 & ? & ? & ?).
  exists r1, r2, r3. repeat split; assumption.
Qed.

Example C02_case : poly_add z_ops [1]%Z [2; 3; 4]%Z = Ok [3; 3; 4]%Z
  /\ poly_add_assign z_ops [1]%Z [2; 3; 4]%Z = Ok [3; 3; 4]%Z
  /\ poly_add_assign_ref z_ops [1]%Z [2; 3; 4]%Z = Ok [3; 3; 4]%Z.
Proof. repeat split. Qed.

(** ** C03 *)
Theorem C03_subtractions_are_coefficientwise :
  forall (T : Type) (O : RingOps T) (R : ring_sig T),
  implements O R -> ring_laws R ->
  forall (p q : poly T),
  exists r1 r2 r3 n,
    poly_sub O p q = Ok r1 /\ poly_sub_assign O p q = Ok r2 /\ poly_sub_assign_ref O p q = Ok r3
    /\ poly_neg O p = Ok n
    /\ length r1 = max (length p) (length q)
    /\ length r2 = max (length p) (length q)
    /\ length r3 = max (length p) (length q)
    /\ length n = length p
    /\ (forall k, same R (coeff R r1 k) (ssub R (coeff R p k) (coeff R q k)))
    /\ (forall k, same R (coeff R r2 k) (ssub R (coeff R p k) (coeff R q k)))
    /\ (forall k, same R (coeff R r3 k) (ssub R (coeff R p k) (coeff R q k)))
    /\ (forall k, same R (coeff R n k) (sneg R (coeff R p k))).
Proof.
  intros T O R HI HR p q.
  destruct (poly_sub_spec O R HI HR p q) as (r1 & ? & ? & ?).
  destruct (poly_sub_assign_spec O R HI HR p q) as (r2 & ? & ? & ?).
  destruct (poly_sub_assign_ref_spec O R HI HR p q) as (r3 & ? & ? & ?).
  destruct (poly_neg_spec O R HI HR p) as (n & ? & ? & ?).
  exists r1, r2, r3, n. repeat split; assumption.
Qed.

Example C03_case : poly_sub z_ops [1]%Z [2; 3; 4]%Z = Ok [-1; -3; -4]%Z
  /\ poly_sub_assign z_ops [1; 5; 5; 5]%Z [2; 3; 4]%Z = Ok [-1; 2; 1; 5]%Z
  /\ poly_sub_assign_ref z_ops [1]%Z [2; 3; 4]%Z = Ok [-1; -3; -4]%Z.
Proof. repeat split. Qed.

(** ** C04 *)
Theorem C04_product_is_convolution :
  forall (T : Type) (O : RingOps T) (R : ring_sig T),
  implements O R -> ring_laws R ->
  forall (p q : poly T),
  exists r,
    poly_mul_ref O p q = Ok r /\ poly_mul O p q = Ok r /\ poly_mul_assign O p q = Ok r
    /\ (p = [] \/ q = [] -> r = [])
    /\ (p <> [] -> q <> [] -> length r = length p + length q - 1)
    /\ forall k, same R (coeff R r k)
         (sum_n R (S k) (fun i => smul R (coeff R p i) (coeff R q (k - i)))).
Proof.
  intros T O R HI HR p q.
  destruct (poly_mul_ref_spec O R HI HR p q) as (r & H & Hl & Hk).
  exists r. repeat split; try assumption.
  - intros [-> | ->].
    + apply length_zero_iff_nil. exact Hl.
    + apply length_zero_iff_nil. rewrite orb_true_r in Hl. exact Hl.
  - intros Hp Hq. destruct p; [congruence|]. destruct q; [congruence|]. exact Hl.
Qed.

Example C04_case : poly_mul_ref z_ops [1; 2; 3]%Z [0; 1]%Z = Ok [0; 1; 2; 3]%Z.
Proof. reflexivity. Qed.

(** ** C05 *)
Theorem C05_evaluation_is_a_homomorphism :
  forall (T : Type) (O : RingOps T) (R : ring_sig T),
  implements O R -> ring_laws R ->
  forall (p q : poly T) (x : T),
  exists vp vq, poly_eval_ref O p x = Ok vp /\ poly_eval_ref O q x = Ok vq
  /\ (exists r v, poly_add O p q = Ok r /\ poly_eval_ref O r x = Ok v /\ same R v (sadd R vp vq))
  /\ (exists r v, poly_sub O p q = Ok r /\ poly_eval_ref O r x = Ok v /\ same R v (ssub R vp vq))
  /\ (exists r v, poly_neg O p = Ok r /\ poly_eval_ref O r x = Ok v /\ same R v (sneg R vp))
  /\ (exists v, poly_eval_ref O poly_zero x = Ok v /\ same R v (sz R))
  /\ (exists v, poly_eval_ref O (poly_one O) x = Ok v /\ same R v (so R))
  /\ ((forall a, In a q -> same R (smul R x a) (smul R a x)) ->
      exists r v, poly_mul O p q = Ok r /\ poly_eval_ref O r x = Ok v /\ same R v (smul R vp vq)).
Proof.
  intros T O R HI HR p q x.
  pose proof (poly_eval_ref_spec O R HI HR) as Hev.
  destruct (Hev p x) as (vp & Hvp & Ep). destruct (Hev q x) as (vq & Hvq & Eq).
  exists vp, vq. split; [exact Hvp|]. split; [exact Hvq|].
  pose proof (same_equiv R HR) as HE.
  assert (Tr : forall a b c, same R a b -> same R b c -> same R a c) by apply (law_trans R HR).
  assert (Sy : forall a b, same R a b -> same R b a) by apply (law_sym R HR).
  repeat split.
  - destruct (poly_add_spec O R HI HR p q) as (r & Hr & _ & Hk).
    destruct (Hev r x) as (v & Hv & Er). exists r, v. repeat split; [assumption..|].
    apply (Tr _ _ _ Er). apply (Tr _ _ _ (value_add R HR p q r x Hk)).
    apply (law_add_cong R HR); apply Sy; assumption.
  - destruct (poly_sub_spec O R HI HR p q) as (r & Hr & _ & Hk).
    destruct (Hev r x) as (v & Hv & Er). exists r, v. repeat split; [assumption..|].
    apply (Tr _ _ _ Er). apply (Tr _ _ _ (value_sub R HR p q r x Hk)).
    apply (law_sub_cong R HR); apply Sy; assumption.
  - destruct (poly_neg_spec O R HI HR p) as (r & Hr & _ & Hk).
    destruct (Hev r x) as (v & Hv & Er). exists r, v. repeat split; [assumption..|].
    apply (Tr _ _ _ Er). apply (Tr _ _ _ (value_neg R HR p r x Hk)).
    apply (law_neg_cong R HR); apply Sy; assumption.
  - exists (sz R). simpl. unfold poly_eval_ref. simpl. rewrite (impl_zero O R HI).
    split; [reflexivity|apply (law_refl R HR)].
  - destruct (Hev (poly_one O) x) as (v & Hv & Er). exists v. split; [exact Hv|].
    apply (Tr _ _ _ Er). unfold poly_value, poly_one. simpl. unfold coeff. simpl.
    rewrite (impl_one O R HI). nc_ring HR.
  - intros Hc. destruct (poly_mul_ref_spec O R HI HR p q) as (r & Hr & _ & Hk).
    destruct (Hev r x) as (v & Hv & Er). exists r, v. repeat split; [assumption..|].
    apply (Tr _ _ _ Er). apply (Tr _ _ _ (value_mul R HR p q r x Hk Hc)).
    apply (law_mul_cong R HR); apply Sy; assumption.
Qed.

(** ** C06 *)
Theorem C06_polynomials_form_a_ring :
  forall (T : Type) (O : RingOps T) (R : ring_sig T),
  implements O R -> ring_laws R ->
  is_ring (poly_ops O) (same_poly R)
  /\ (commutative R -> is_comm_ring (poly_ops O) (same_poly R)).
Proof.
  intros T O R HI HR. split.
  - exists (PR O R). split; [apply PR_implements; assumption|].
    split; [apply PR_laws; assumption|]. reflexivity.
  - intros HC. exists (PR O R). split; [apply PR_implements; assumption|].
    split; [apply PR_laws; assumption|]. split; [apply PR_commutative; assumption|]. reflexivity.
Qed.

Example C06_case : is_comm_ring (poly_ops z_ops) (same_poly z_sig).
Proof.
  apply (C06_polynomials_form_a_ring Z z_ops z_sig z_implements z_laws), z_commutative.
Qed.

(** ** C07 *)
(** [==] is sound ... *)
Theorem C07_eq_implies_same_polynomial :
  forall (T : Type) (O : RingOps T) (R : ring_sig T),
  implements O R -> ring_laws R ->
  forall p q : poly T, poly_eqb O p q = true -> length p = length q /\ same_poly R p q.
Proof. intros T O R HI HR p q H. apply (poly_eqb_spec O R HI HR); exact H. Qed.

(** ... but the additive inverse law fails under [==] for every non-empty p:
    with [let mut r = p.clone(); r -= &p;], and also with r = p - p and r = p + (-p),
    [r == Polynomial::zero()] is false. *)
Theorem C07_additive_inverse_refuted :
  forall (T : Type) (O : RingOps T) (R : ring_sig T),
  implements O R -> ring_laws R ->
  forall p : poly T, p <> [] ->
  exists r1 r2 n r3,
    poly_sub_assign_ref O p p = Ok r1 /\ poly_eqb O r1 poly_zero = false
    /\ poly_sub O p p = Ok r2 /\ poly_eqb O r2 poly_zero = false
    /\ poly_neg O p = Ok n /\ poly_add_assign_ref O p n = Ok r3 /\ poly_eqb O r3 poly_zero = false.
Proof.
  intros T O R HI HR p Hp.
  assert (Hne : forall r : poly T, length r = max (length p) (length p) -> poly_eqb O r poly_zero = false).
  { intros r Hl. destruct r; [|reflexivity]. destruct p; [congruence|]. simpl in Hl. lia. }
  destruct (poly_sub_assign_ref_spec O R HI HR p p) as (r1 & ? & ? & _).
  destruct (poly_sub_spec O R HI HR p p) as (r2 & ? & ? & _).
  destruct (poly_neg_spec O R HI HR p) as (n & ? & Hln & _).
  destruct (poly_add_assign_ref_spec O R HI HR p n) as (r3 & ? & ? & _).
  exists r1, r2, n, r3. rewrite Hln in *. auto 10.
Qed.

(** All other ring laws hold under [==] itself (so including vector lengths),
    if [==] of the element type recognises equal elements. *)
Theorem C07_other_laws_hold_literally :
  forall (T : Type) (O : RingOps T) (R : ring_sig T),
  implements O R -> ring_laws R -> (forall x y, same R x y -> r_eqb O x y = true) ->
  exists P : ring_sig (poly T), implements (poly_ops O) P
  /\ (forall x y z, poly_eqb O (sadd P (sadd P x y) z) (sadd P x (sadd P y z)) = true)
  /\ (forall x y, poly_eqb O (sadd P x y) (sadd P y x) = true)
  /\ (forall x, poly_eqb O (sadd P x (sz P)) x = true)
  /\ (forall x y, poly_eqb O (ssub P x y) (sadd P x (sneg P y)) = true)
  /\ (forall x y z, poly_eqb O (smul P (smul P x y) z) (smul P x (smul P y z)) = true)
  /\ (forall x, poly_eqb O (smul P (so P) x) x = true)
  /\ (forall x, poly_eqb O (smul P x (so P)) x = true)
  /\ (forall x y z, poly_eqb O (smul P x (sadd P y z)) (sadd P (smul P x y) (smul P x z)) = true)
  /\ (forall x y z, poly_eqb O (smul P (sadd P x y) z) (sadd P (smul P x z) (smul P y z)) = true).
Proof.
  intros T O R HI HR He. exists (PR O R).
  split; [apply PR_implements; assumption|]. apply eq_laws; assumption.
Qed.

Example C07_case : poly_sub z_ops [1; 2]%Z [1; 2]%Z = Ok [0; 0]%Z
  /\ poly_eqb z_ops [0; 0]%Z poly_zero = false.
Proof. split; reflexivity. Qed.

Print Assumptions C01_eval_is_power_sum.
Print Assumptions C01_eval_ignores_trailing_zeros.
Print Assumptions C01_from_coefficients.
Print Assumptions C02_additions_are_coefficientwise.
Print Assumptions C03_subtractions_are_coefficientwise.
Print Assumptions C04_product_is_convolution.
Print Assumptions C05_evaluation_is_a_homomorphism.
Print Assumptions C06_polynomials_form_a_ring.
Print Assumptions C07_eq_implies_same_polynomial.
Print Assumptions C07_additive_inverse_refuted.
Print Assumptions C07_other_laws_hold_literally.
