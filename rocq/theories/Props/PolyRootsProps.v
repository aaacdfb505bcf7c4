(** Property C61: roots, degrees and equality of polynomials as functions. *)
From Coq Require Import List Arith ZArith Lia Bool.
From Verif Require Import Base.Outcome Base.Usize Model.Traits Model.Polynomial Model.Int
  Spec.Ring Spec.Sums Spec.Polynomial Spec.Roots
  Proofs.RingTheory Proofs.PolynomialProofs Proofs.PolyRoots Proofs.IntegerRing
  Spec.Agree Spec.Int Props.IntProps.
Import ListNotations.

(** Remainder theorem, over every ring (commutative or not): dividing [p] by x - a leaves
    the value that [eval] returns. *)
Theorem C61_remainder :
  forall (T : Type) (O : RingOps T) (R : ring_sig T), implements O R -> ring_laws R ->
  forall (p : poly T) (a : T),
  exists na q m v s,
    r_neg O a = Ok na /\ length q = length p - 1 /\
    poly_mul_ref O q [na; r_one O] = Ok m /\ poly_eval_ref O p a = Ok v /\
    poly_add O m [v] = Ok s /\ same_poly R p s.
Proof.
  intros T O R HI HR p a.
  destruct (poly_mul_ref_spec O R HI HR (quot R p a) [sneg R a; so R]) as (m & E1 & _ & Hm).
  destruct (poly_eval_ref_spec O R HI HR p a) as (v & E2 & Hv).
  destruct (poly_add_spec O R HI HR m [v]) as (s & E3 & _ & Hs).
  exists (sneg R a), (quot R p a), m, v, s.
  split; [apply (impl_neg O R HI)|]. split; [apply quot_length|].
  split; [rewrite (impl_one O R HI); exact E1|]. split; [exact E2|]. split; [exact E3|].
  intros k. apply (law_trans R HR _ _ _ (division R HR p a k)).
  apply (law_sym R HR), (law_trans R HR _ _ _ (Hs k)). apply (law_add_cong R HR); [apply Hm|].
  destruct k as [|[|k]]; try apply (law_refl R HR). exact Hv.
Qed.

(** Factor theorem: [a] is a root iff [p] is a multiple of x - a. *)
Theorem C61_factor :
  forall (T : Type) (O : RingOps T) (R : ring_sig T), implements O R -> ring_laws R -> commutative R ->
  forall (p : poly T) (a : T),
  (exists v, poly_eval_ref O p a = Ok v /\ same R v (sz R)) <->
  (exists q m, poly_mul_ref O q [sneg R a; so R] = Ok m /\ same_poly R p m).
Proof.
  intros T O R HI HR HC p a. destruct (poly_eval_ref_spec O R HI HR p a) as (v & E & Hv). split.
  - intros (v' & E' & Hz). rewrite E in E'. injection E' as <-.
    destruct (poly_mul_ref_spec O R HI HR (quot R p a) [sneg R a; so R]) as (m & E1 & _ & Hm).
    exists (quot R p a), m. split; [exact E1|]. intros k.
    apply (law_trans R HR _ _ _ (division R HR p a k)).
    apply (law_trans R HR _ (sadd R (coeff R m k) (sz R))); [|apply (law_add_0 R HR)].
    apply (law_add_cong R HR); [apply (law_sym R HR), Hm|].
    destruct k; [|apply (law_refl R HR)]. apply (law_trans R HR _ v); [apply (law_sym R HR), Hv|exact Hz].
  - intros (q & m & E1 & Hs). exists v. split; [exact E|].
    destruct (poly_mul_ref_spec O R HI HR q [sneg R a; so R]) as (m' & E1' & _ & Hm).
    rewrite E1 in E1'. injection E1' as <-.
    apply (law_trans R HR _ _ _ Hv). apply (law_trans R HR _ _ _ (poly_value_same R HR p m a Hs)).
    assert (Hcw : commutes_with R a [sneg R a; so R]) by (intros b _; apply HC).
    apply (law_trans R HR _ _ _ (value_mul R HR q [sneg R a; so R] m a Hm Hcw)).
    apply (law_trans R HR _ (smul R (poly_value R q a) (sz R))).
    + apply (law_mul_cong R HR); [apply (law_refl R HR)|].
      apply (law_trans R HR _ _ _ (value_linear R HR a a)). apply sub_self; exact HR.
    + apply mul_0_r; exact HR.
Qed.

(** Over a domain, a polynomial given by n coefficients that has n different roots is 0. *)
Theorem C61_number_of_roots :
  forall (T : Type) (O : RingOps T) (R : ring_sig T),
  implements O R -> ring_laws R -> commutative R -> no_zero_divisors R ->
  forall (p : poly T) (roots : list T),
  pairwise_different R roots -> length p <= length roots ->
  (forall r, In r roots -> exists v, poly_eval_ref O p r = Ok v /\ same R v (sz R)) ->
  forall k, same R (coeff R p k) (sz R).
Proof.
  intros T O R HI HR HC HD p roots Hdiff Hlen Hroots.
  apply (too_many_roots O R HI HR HC HD p roots Hlen Hdiff).
  intros r Hr. destruct (Hroots r Hr) as (v & E & Hz).
  destruct (poly_eval_ref_spec O R HI HR p r) as (v' & E' & Hv). rewrite E in E'. injection E' as <-.
  apply (law_trans R HR _ v); [apply (law_sym R HR), Hv|exact Hz].
Qed.

(** Identity theorem: polynomials of at most n coefficients that [eval] to the same values
    at n different points have the same coefficients. *)
Theorem C61_identity :
  forall (T : Type) (O : RingOps T) (R : ring_sig T),
  implements O R -> ring_laws R -> commutative R -> no_zero_divisors R ->
  forall (p q : poly T) (points : list T),
  pairwise_different R points -> length p <= length points -> length q <= length points ->
  (forall x, In x points -> exists v w,
     poly_eval_ref O p x = Ok v /\ poly_eval_ref O q x = Ok w /\ same R v w) ->
  same_poly R p q.
Proof.
  intros T O R HI HR HC HD p q points Hdiff Hp Hq Hpts.
  destruct (poly_sub_spec O R HI HR p q) as (d & Ed & Hl & Hk).
  assert (Hz : forall k, same R (coeff R d k) (sz R)).
  { apply (too_many_roots O R HI HR HC HD d points); [lia|exact Hdiff|].
    intros x Hx. destruct (Hpts x Hx) as (v & w & E1 & E2 & Hvw).
    destruct (poly_eval_ref_spec O R HI HR p x) as (v' & E1' & Hv). rewrite E1 in E1'. injection E1' as <-.
    destruct (poly_eval_ref_spec O R HI HR q x) as (w' & E2' & Hw). rewrite E2 in E2'. injection E2' as <-.
    apply (law_trans R HR _ _ _ (value_sub R HR p q d x Hk)).
    apply (law_trans R HR _ (ssub R v v)); [|apply sub_self; exact HR].
    apply (law_sub_cong R HR); [apply (law_sym R HR), Hv|].
    apply (law_sym R HR), (law_trans R HR _ _ _ Hvw), Hw. }
  intros k. apply (sub_zero R HR). apply (law_trans R HR _ (coeff R d k)); [|apply Hz].
  apply (law_sym R HR), Hk.
Qed.

(** Degrees add up under multiplication, and the leading coefficients multiply. *)
Theorem C61_degree_of_product :
  forall (T : Type) (O : RingOps T) (R : ring_sig T),
  implements O R -> ring_laws R -> no_zero_divisors R ->
  forall (p q : poly T) m n, degree_is R p m -> degree_is R q n ->
  exists r, poly_mul_ref O p q = Ok r /\ degree_is R r (m + n) /\
    same R (coeff R r (m + n)) (smul R (coeff R p m) (coeff R q n)).
Proof.
  intros T O R HI HR HD p q m n [Hp1 Hp2] [Hq1 Hq2].
  destruct (poly_mul_ref_spec O R HI HR p q) as (r & E & _ & Hr). exists r. split; [exact E|].
  assert (Htop : same R (coeff R r (m + n)) (smul R (coeff R p m) (coeff R q n))).
  { apply (law_trans R HR _ _ _ (Hr (m + n))). apply conv_top; assumption. }
  split; [|exact Htop]. split.
  - intros Hz. destruct (HD (coeff R p m) (coeff R q n)); [|contradiction|contradiction].
    apply (law_trans R HR _ (coeff R r (m + n))); [apply (law_sym R HR), Htop|exact Hz].
  - intros k Hk. apply (law_trans R HR _ _ _ (Hr k)). apply (conv_above R HR p q m n); assumption.
Qed.

(** So polynomials over a domain have no zero divisors either. *)
Theorem C61_product_zero :
  forall (T : Type) (O : RingOps T) (R : ring_sig T),
  implements O R -> ring_laws R -> no_zero_divisors R ->
  (forall x, same R x (sz R) \/ ~ same R x (sz R)) ->
  forall (p q r : poly T), poly_mul_ref O p q = Ok r -> same_poly R r [] ->
  same_poly R p [] \/ same_poly R q [].
Proof.
  intros T O R HI HR HD dec p q r E Hz.
  assert (N : forall k, coeff R [] k = sz R) by (intros [|k]; reflexivity).
  destruct (has_degree R HR dec p) as [Hp|[m Hp]].
  - left. intros k. rewrite N. apply Hp.
  - destruct (has_degree R HR dec q) as [Hq|[n Hq]].
    + right. intros k. rewrite N. apply Hq.
    + exfalso. destruct (C61_degree_of_product T O R HI HR HD p q m n Hp Hq) as (r' & E' & [Hn _] & _).
      rewrite E in E'. injection E' as <-. apply Hn. rewrite <- (N (m + n)). apply Hz.
Qed.

(** The integers satisfy all hypotheses. *)
Lemma z_domain : no_zero_divisors z_sig.
Proof. intros x y H. simpl in *. apply Z.mul_eq_0. exact H. Qed.

Example C61_case :
  implements z_ops z_sig /\ ring_laws z_sig /\ commutative z_sig /\ no_zero_divisors z_sig /\
  pairwise_different z_sig [1; 2]%Z /\
  (forall r, In r [1; 2]%Z -> poly_eval_ref z_ops [2; -3; 1]%Z r = Ok 0%Z) /\
  degree_is z_sig [2; -3; 1]%Z 2 /\ poly_mul_ref z_ops [-2; 1]%Z [-1; 1]%Z = Ok [2; -3; 1]%Z.
Proof.
  split; [exact z_implements|]. split; [exact z_laws|]. split; [exact z_commutative|]. split; [exact z_domain|].
  split.
  - intros i j x y Hx Hy E. simpl in E. subst y.
    destruct i as [|[|i]], j as [|[|j]]; simpl in Hx, Hy; try reflexivity; try congruence;
      try (destruct i; discriminate Hx); destruct j; discriminate Hy.
  - split; [intros r [<-|[<-|[]]]; reflexivity|]. split; [|reflexivity].
    split; [simpl; discriminate|]. intros k Hk. unfold coeff. rewrite nth_overflow; [reflexivity|simpl; lia].
Qed.

(** Finding: without overflow checks the identity theorem fails for machine integers of
    every width: MIN * x and MIN * x^2 have different coefficients but evaluate to the same
    number at every x. *)
Lemma min_in_range (t : int_type) : in_range t (int_min t) = true.
Proof. apply in_range_iff. unfold int_min, int_max. pose proof (pow_width_pos t). lia. Qed.

Theorem C61_wrapping_identity_refuted :
  forall t : int_type,
  let O := int_ops Release t in
  let min := MkInt (int_min t) (min_in_range t) in
  let p := [r_zero O; min] in
  let q := [r_zero O; r_zero O; min] in
  (exists k, zcoeff p k <> zcoeff q k) /\
  forall x, exists v w, poly_eval_ref O p x = Ok v /\ poly_eval_ref O q x = Ok w /\ ival v = ival w.
Proof.
  intros t O min p q. split.
  - exists 1. unfold zcoeff. simpl. unfold int_min. pose proof (pow_width_pos t). lia.
  - intros x.
    destruct (C48_polynomials_wrap t p q x) as ((v & Ev & Hv) & _).
    destruct (C48_polynomials_wrap t q q x) as ((w & Ew & Hw) & _).
    exists v, w. split; [exact Ev|]. split; [exact Ew|]. rewrite Hv, Hw.
    unfold zcoeff. cbn [length p q zsum map nth ival r_zero O int_ops int_lit min Z.of_nat].
    change (ival x ^ Z.pos (Pos.of_succ_nat 0))%Z with (ival x ^ 1)%Z.
    change (ival x ^ Z.pos (Pos.of_succ_nat 1))%Z with (ival x ^ 2)%Z.
    set (z := ival x). unfold wrap. f_equal.
    pose proof (pow_width t) as Hw2. pose proof (pow_width_pos t) as Hpos.
    set (h := (2 ^ (width t - 1))%Z) in *. unfold int_min. fold h.
    assert (Hev : exists k, (z ^ 2 - z = 2 * k)%Z).
    { exists (z * (z - 1) / 2)%Z. replace (z ^ 2 - z)%Z with (z * (z - 1))%Z by ring.
      apply Z_div_exact_full_2; [lia|].
      assert (E : Z.Even (z * (z - 1))).
      { destruct (Z.Even_or_Odd z) as [[k Hk]|[k Hk]].
        - exists (k * (z - 1))%Z. rewrite Hk at 1. ring.
        - exists (z * k)%Z. replace (z - 1)%Z with (2 * k)%Z by lia. ring. }
      destruct E as [k ->]. rewrite Z.mul_comm. apply Z_mod_mult. }
    destruct Hev as [k Hk].
    replace (0 + 0 * z ^ 0 + - h * z ^ 1 - - h)%Z
      with ((0 + 0 * z ^ 0 + 0 * z ^ 1 + - h * z ^ 2 - - h) + k * (2 * h))%Z.
    + rewrite Hw2. rewrite Z_mod_plus_full. reflexivity.
    + replace (z ^ 2)%Z with (z + 2 * k)%Z by lia. rewrite Z.pow_1_r. ring.
Qed.

Print Assumptions C61_remainder.
Print Assumptions C61_factor.
Print Assumptions C61_number_of_roots.
Print Assumptions C61_identity.
Print Assumptions C61_degree_of_product.
Print Assumptions C61_product_zero.
Print Assumptions C61_wrapping_identity_refuted.
