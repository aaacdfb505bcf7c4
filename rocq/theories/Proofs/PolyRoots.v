(** Remainder theorem, number of roots, degrees. *)
From Coq Require Import List Arith Lia Bool Setoid Morphisms.
From Verif Require Import Base.Outcome Model.Traits Model.Polynomial
  Spec.Ring Spec.Sums Spec.Polynomial Spec.Roots Proofs.RingTheory Proofs.PolynomialProofs.
Import ListNotations.

Section Roots.
Context {T : Type} (O : RingOps T) (R : ring_sig T) (HI : implements O R) (HR : ring_laws R).
Local Infix "[=]" := (same R) (at level 70, no associativity).
Local Infix "[+]" := (sadd R) (at level 50, left associativity).
Local Infix "[*]" := (smul R) (at level 40, left associativity).
Local Infix "[-]" := (ssub R) (at level 50, left associativity).
#[local] Instance K1 : Equivalence (same R).
Proof. exact (same_equiv R HR). Qed.
#[local] Instance K2 : Proper (same R ==> same R ==> same R) (sadd R).
Proof. exact (sadd_proper R HR). Qed.
#[local] Instance K3 : Proper (same R ==> same R ==> same R) (ssub R).
Proof. exact (ssub_proper R HR). Qed.
#[local] Instance K4 : Proper (same R ==> same R ==> same R) (smul R).
Proof. exact (smul_proper R HR). Qed.
#[local] Instance K5 : Proper (same R ==> same R) (sneg R).
Proof. exact (sneg_proper R HR). Qed.
Notation cf := (coeff R).

(** Synthetic division by x - a. *)
Fixpoint quot (p : list T) (a : T) : list T :=
  match p with
  | [] => []
  | _ :: p' => match p' with [] => [] | _ => poly_value R p' a :: quot p' a end
  end.

Lemma quot_length p a : length (quot p a) = length p - 1.
Proof.
  induction p as [|c p IH]; [reflexivity|]. destruct p as [|d p]; [reflexivity|].
  change (quot (c :: d :: p) a) with (poly_value R (d :: p) a :: quot (d :: p) a).
  cbn [length] in *. rewrite IH. lia.
Qed.

Lemma conv_linear_0 q a : convolution R q [sneg R a; so R] 0 [=] sneg R (cf q 0 [*] a).
Proof. unfold convolution. simpl sum_n. unfold coeff at 2. simpl nth. nc_ring HR. Qed.

Lemma conv_linear_S q a k :
  convolution R q [sneg R a; so R] (S k) [=] cf q k [-] cf q (S k) [*] a.
Proof.
  unfold convolution. replace (S (S k)) with (k + 2) by lia. rewrite (sum_split R HR k 2). rewrite sum_zero.
  - cbn [sum_n]. rewrite Nat.add_0_r, Nat.add_1_r, Nat.sub_diag.
    replace (S k - k) with 1 by lia. unfold coeff at 2 4. simpl nth. nc_ring HR.
  - exact HR.
  - intros i Hi. unfold coeff at 2. rewrite nth_overflow by (cbn [length]; lia). nc_ring HR.
Qed.

(** p = q * (x - a) + p(a), coefficient by coefficient. *)
Lemma division p a k :
  cf p k [=] convolution R (quot p a) [sneg R a; so R] k [+] (if k =? 0 then poly_value R p a else sz R).
Proof.
  revert k. induction p as [|c p IH]; intros k.
  - assert (E : forall k, cf (@nil T) k = sz R) by (intros [|?]; reflexivity).
    destruct k as [|k]; simpl quot.
    + rewrite conv_linear_0, E. cbn [Nat.eqb]. unfold poly_value. simpl. nc_ring HR.
    + rewrite conv_linear_S, !E. cbn [Nat.eqb]. nc_ring HR.
  - assert (Q0 : cf (quot (c :: p) a) 0 [=] poly_value R p a).
    { destruct p as [|d p]; [unfold coeff, poly_value; simpl; reflexivity|]. reflexivity. }
    assert (QS : forall k, cf (quot (c :: p) a) (S k) = cf (quot p a) k).
    { intros k0. destruct p as [|d p]; [destruct k0; reflexivity|]. reflexivity. }
    destruct k as [|k].
    + rewrite conv_linear_0. cbn [Nat.eqb]. rewrite (poly_value_cons R HR).
      change (cf (c :: p) 0) with c. rewrite Q0. nc_ring HR.
    + rewrite conv_linear_S. cbn [Nat.eqb]. change (cf (c :: p) (S k)) with (cf p k).
      rewrite QS. destruct k as [|k].
      * rewrite Q0. rewrite (IH 0), conv_linear_0. cbn [Nat.eqb]. nc_ring HR.
      * rewrite QS, (IH (S k)), conv_linear_S. cbn [Nat.eqb]. nc_ring HR.
Qed.

Lemma value_linear a x : poly_value R [sneg R a; so R] x [=] x [-] a.
Proof. unfold poly_value. simpl. unfold coeff. simpl. nc_ring HR. Qed.

Lemma value_const a x : poly_value R [a] x [=] a.
Proof. unfold poly_value. simpl. unfold coeff. simpl. nc_ring HR. Qed.

Lemma sub_zero x y : x [-] y [=] sz R -> x [=] y.
Proof.
  intros H. transitivity ((x [-] y) [+] y); [nc_ring HR|]. rewrite H. nc_ring HR.
Qed.

Section Domain.
Context (HC : commutative R) (HD : no_zero_divisors R).

(** value of p at x = quot(x) * (x - a) + p(a) *)
Lemma division_value p a x :
  poly_value R p x [=] poly_value R (quot p a) x [*] (x [-] a) [+] poly_value R p a.
Proof.
  destruct (poly_mul_ref_spec O R HI HR (quot p a) [sneg R a; so R]) as (m & _ & _ & Hm).
  assert (Hmv : poly_value R m x [=] poly_value R (quot p a) x [*] (x [-] a)).
  { rewrite (value_mul R HR (quot p a) [sneg R a; so R] m x Hm).
    - rewrite value_linear. reflexivity.
    - intros b Hb. apply HC. }
  rewrite <- Hmv, <- (value_const (poly_value R p a) x).
  apply (value_add R HR). intros k. rewrite (division p a k), (Hm k).
  destruct k as [|[|k]]; reflexivity.
Qed.

Lemma too_many_roots : forall (p rs : list T), length p <= length rs ->
  pairwise_different R rs -> (forall r, In r rs -> poly_value R p r [=] sz R) ->
  forall k, cf p k [=] sz R.
Proof.
  intros p. remember (length p) as n eqn:En. revert p En.
  induction n as [|n IH]; intros p En rs Hl Hd Hr k.
  - destruct p; [|discriminate En]. destruct k; reflexivity.
  - destruct rs as [|r rs]; [simpl in Hl; lia|].
    assert (Hq : forall k, cf (quot p r) k [=] sz R).
    { apply (IH (quot p r)) with (rs := rs).
      - rewrite quot_length. lia.
      - simpl in Hl. lia.
      - intros i j x y Hi Hj E. assert (S i = S j); [|lia]. exact (Hd (S i) (S j) x y Hi Hj E).
      - intros s Hs. pose proof (division_value p r s) as E.
        rewrite (Hr s (or_intror Hs)), (Hr r (or_introl eq_refl)) in E.
        destruct (HD (poly_value R (quot p r) s) (s [-] r)) as [H|H]; [|exact H|].
        + rewrite (law_add_0 R HR) in E. symmetry. exact E.
        + exfalso. apply sub_zero in H. apply In_nth_error in Hs as [i Hi].
          pose proof (Hd (S i) 0 s r Hi eq_refl H). discriminate. }
    rewrite (division p r k).
    destruct k as [|k]; cbn [Nat.eqb].
    + rewrite (Hr r (or_introl eq_refl)), conv_linear_0, (Hq 0). nc_ring HR.
    + rewrite conv_linear_S, (Hq k), (Hq (S k)). nc_ring HR.
Qed.
End Domain.

Lemma conv_top p q m n : (forall k, m < k -> cf p k [=] sz R) -> (forall k, n < k -> cf q k [=] sz R) ->
  convolution R p q (m + n) [=] cf p m [*] cf q n.
Proof.
  intros Hp Hq. unfold convolution. rewrite (sum_single R HR (S (m + n)) m).
  - replace (m + n - m) with n by lia. reflexivity.
  - lia.
  - intros i Hi Hne. destruct (Nat.lt_ge_cases m i).
    + rewrite (Hp i) by assumption. nc_ring HR.
    + rewrite (Hq (m + n - i)) by lia. nc_ring HR.
Qed.

Lemma conv_above p q m n k : (forall k, m < k -> cf p k [=] sz R) -> (forall k, n < k -> cf q k [=] sz R) ->
  m + n < k -> convolution R p q k [=] sz R.
Proof.
  intros Hp Hq Hk. unfold convolution. apply sum_zero; [exact HR|]. intros i Hi.
  destruct (Nat.lt_ge_cases m i).
  - rewrite (Hp i) by assumption. nc_ring HR.
  - rewrite (Hq (k - i)) by lia. nc_ring HR.
Qed.

(** Every polynomial is 0 or has a degree, when "= 0" can be decided. *)
Lemma has_degree (dec : forall x, x [=] sz R \/ ~ x [=] sz R) p :
  (forall k, cf p k [=] sz R) \/ exists m, degree_is R p m.
Proof.
  assert (G : forall n, (forall k, n <= k -> cf p k [=] sz R) ->
    (forall k, cf p k [=] sz R) \/ exists m, degree_is R p m).
  { induction n as [|n IH]; intros H.
    - left. intros k. apply H. lia.
    - destruct (dec (cf p n)) as [E|E].
      + apply IH. intros k Hk. destruct (Nat.eq_dec k n) as [->|]; [exact E|]. apply H. lia.
      + right. exists n. split; [exact E|]. intros k Hk. apply H. lia. }
  apply (G (length p)). intros k Hk. rewrite coeff_past by exact Hk. reflexivity.
Qed.
End Roots.
