(** The product of polynomials when the element operations never panic, without using any
    law: which products are added in which order. *)
From Coq Require Import List Arith Lia Bool.
From Verif Require Import Base.Outcome Model.Traits Model.Polynomial Spec.Ring Spec.Sums.
Import ListNotations.

(** First and one past the last index [i] with [i < m] and [k - n < i <= k]. *)
Definition conv_lo (n k : nat) : nat := S k - n.
Definition conv_hi (m k : nat) : nat := min m (S k).

Section Exact.
Context {T : Type} (O : RingOps T) (R : ring_sig T) (HI : implements O R).

Definition term (p q : list T) (k i : nat) : T := smul R (nth i p (sz R)) (nth (k - i) q (sz R)).

(** Sum of the products with first index in [lo, hi), from left to right. *)
Definition partial_conv (p q : list T) (k hi : nat) : T :=
  sum_n R (min hi (S k) - conv_lo (length q) k) (fun t => term p q k (conv_lo (length q) k + t)).

Lemma partial_step p q k i :
  partial_conv p q k (S i)
  = if (i <=? k) && (k <? i + length q) then sadd R (partial_conv p q k i) (term p q k i) else partial_conv p q k i.
Proof.
  unfold partial_conv, conv_lo.
  destruct (Nat.leb_spec i k), (Nat.ltb_spec k (i + length q)); cbn [andb].
  - replace (min (S i) (S k) - (S k - length q)) with (S (min i (S k) - (S k - length q))) by lia.
    cbn [sum_n]. do 2 f_equal. lia.
  - f_equal. lia.
  - f_equal. lia.
  - f_equal. lia.
Qed.

Lemma inner_exact p q i a0 : i < length p -> length a0 = length p + length q - 1 ->
  exists a, for_range 0 (length q)
    (fun j a => bind (vget p i) (fun x => bind (vget q j) (fun y => bind (r_mul O x y)
       (fun prod => vupd a (i + j) (fun s => r_add O s prod))))) a0 = Ok a
  /\ length a = length a0
  /\ forall k, nth k a (sz R) = if (i <=? k) && (k <? i + length q) then sadd R (nth k a0 (sz R)) (term p q k i) else nth k a0 (sz R).
Proof.
  intros Hi Hl0.
  destruct (for_range_inv 0 (length q)
    (fun j a => bind (vget p i) (fun x => bind (vget q j) (fun y => bind (r_mul O x y)
       (fun prod => vupd a (i + j) (fun s => r_add O s prod)))))
    (fun j a => length a = length a0 /\ forall k, nth k a (sz R) =
       if (i <=? k) && (k <? i + j) then sadd R (nth k a0 (sz R)) (term p q k i) else nth k a0 (sz R)) a0)
    as (r & Hr & Hl & Hk).
  - lia.
  - split; [reflexivity|]. intros k.
    destruct (Nat.leb_spec i k), (Nat.ltb_spec k (i + 0)); simpl; auto; lia.
  - intros j a Hj (Hl & Hk).
    rewrite (vget_ok p i (sz R)) by lia. rewrite (vget_ok q j (sz R)) by lia. cbn [bind].
    rewrite (impl_mul O R HI). cbn [bind].
    erewrite (vupd_ok a (i + j) _ (sz R)); [|lia|apply (impl_add O R HI)].
    eexists. split; [reflexivity|]. split; [rewrite list_upd_length; exact Hl|].
    intros k. rewrite nth_list_upd.
    destruct (Nat.eqb_spec k (i + j)) as [->|Hne]; cbn [andb].
    + replace (i + j <? length a) with true by (symmetry; apply Nat.ltb_lt; lia).
      rewrite (Hk (i + j)). unfold term.
      replace (i + j <? i + j) with false by (symmetry; apply Nat.ltb_ge; lia).
      replace (i + j <? i + S j) with true by (symmetry; apply Nat.ltb_lt; lia).
      replace (i <=? i + j) with true by (symmetry; apply Nat.leb_le; lia). cbn [andb].
      replace (i + j - i) with j by lia. reflexivity.
    + rewrite (Hk k). destruct (Nat.leb_spec i k), (Nat.ltb_spec k (i + j)), (Nat.ltb_spec k (i + S j)); simpl; auto; lia.
  - exists r. auto.
Qed.

(** Coefficient [k] of the product is
    ((0 + p_lo*q_(k-lo)) + p_(lo+1)*q_(k-lo-1)) + ... *)
Lemma poly_mul_exact p q : exists r, poly_mul_ref O p q = Ok r
  /\ length r = (if (length p =? 0) || (length q =? 0) then 0 else length p + length q - 1)
  /\ forall k, k < length r -> nth k r (sz R)
       = sum_n R (conv_hi (length p) k - conv_lo (length q) k) (fun t => term p q k (conv_lo (length q) k + t)).
Proof.
  unfold poly_mul_ref. destruct ((length p =? 0) || (length q =? 0)) eqn:E.
  - exists []. split; [reflexivity|]. split; [reflexivity|]. simpl. intros; lia.
  - apply orb_false_iff in E. rewrite !Nat.eqb_neq in E.
    destruct (for_range_inv 0 (length p)
      (fun i a => for_range 0 (length q)
         (fun j a => bind (vget p i) (fun x => bind (vget q j) (fun y => bind (r_mul O x y)
            (fun prod => vupd a (i + j) (fun s => r_add O s prod))))) a)
      (fun i a => length a = length p + length q - 1 /\ forall k, nth k a (sz R) = partial_conv p q k i)
      (repeat (r_zero O) (length p + length q - 1))) as (r & Hr & Hl & Hk).
    + lia.
    + split; [apply repeat_length|]. intros k. rewrite (impl_zero O R HI). rewrite nth_repeat.
      unfold partial_conv. simpl. reflexivity.
    + intros i a Hi (Hl & Hk).
      destruct (inner_exact p q i a) as (a' & Ha' & Hl' & Hk'); [lia|exact Hl|].
      exists a'. split; [exact Ha'|]. split; [lia|]. intros k. rewrite Hk', Hk, partial_step. reflexivity.
    + exists r. rewrite Hr. split; [reflexivity|]. split; [exact Hl|]. intros k _. apply Hk.
Qed.
End Exact.
