(** Proofs about Model/Polynomial.v. *)
From Coq Require Import List Arith Lia Bool Setoid Morphisms.
From Verif Require Import Base.Outcome Model.Traits Model.Polynomial
  Spec.Ring Spec.Sums Spec.Polynomial Proofs.RingTheory.
Import ListNotations.

Section Poly.
Context {T : Type} (O : RingOps T) (R : ring_sig T) (HI : implements O R) (HR : ring_laws R).
Local Infix "[=]" := (same R) (at level 70, no associativity).
Local Infix "[+]" := (sadd R) (at level 50, left associativity).
Local Infix "[*]" := (smul R) (at level 40, left associativity).
Local Infix "[-]" := (ssub R) (at level 50, left associativity).
#[local] Instance J1 : Equivalence (same R).
Proof. exact (same_equiv R HR). Qed.
#[local] Instance J2 : Proper (same R ==> same R ==> same R) (sadd R).
Proof. exact (sadd_proper R HR). Qed.
#[local] Instance J3 : Proper (same R ==> same R ==> same R) (ssub R).
Proof. exact (ssub_proper R HR). Qed.
#[local] Instance J4 : Proper (same R ==> same R ==> same R) (smul R).
Proof. exact (smul_proper R HR). Qed.
#[local] Instance J5 : Proper (same R ==> same R) (sneg R).
Proof. exact (sneg_proper R HR). Qed.

Notation cf := (coeff R).

Lemma coeff_past p i : length p <= i -> cf p i = sz R.
Proof. intros H. unfold coeff. apply nth_overflow. exact H. Qed.

(** ** Evaluation *)

Lemma poly_value_snoc p a x :
  poly_value R (p ++ [a]) x [=] poly_value R p x [+] a [*] pow R x (length p).
Proof.
  unfold poly_value. rewrite app_length. simpl. rewrite Nat.add_comm. simpl.
  unfold coeff. rewrite app_nth2, Nat.sub_diag by lia. simpl.
  apply (law_add_cong R HR); [|reflexivity].
  apply sum_ext; [exact HR|]. intros i Hi. rewrite app_nth1 by lia. reflexivity.
Qed.

Lemma poly_value_cons a p x : poly_value R (a :: p) x [=] poly_value R p x [*] x [+] a.
Proof.
  unfold poly_value. simpl length. rewrite sum_S_l by exact HR.
  rewrite <- sum_mul_r by exact HR. cbn [coeff nth pow].
  rewrite (law_add_comm R HR). apply (law_add_cong R HR).
  - apply sum_ext; [exact HR|]. intros i Hi. change (cf (a :: p) (S i)) with (cf p i).
    cbn [pow]. nc_ring HR.
  - change (cf (a :: p) 0) with a. nc_ring HR.
Qed.

Lemma horner_loop p x : exists y,
  for_each (fun a y => bind (r_mul O y x) (fun y => r_add O y a)) (rev p) (r_zero O) = Ok y
  /\ y [=] poly_value R p x.
Proof.
  induction p as [|a p IH].
  - exists (sz R). simpl. rewrite (impl_zero O R HI). split; reflexivity.
  - destruct IH as (y & Hy & Hv). cbn [rev].
    exists (y [*] x [+] a). rewrite for_each_app, Hy. simpl.
    rewrite (impl_mul O R HI). simpl. rewrite (impl_add O R HI). simpl.
    split; [reflexivity|]. rewrite poly_value_cons, Hv. reflexivity.
Qed.

Lemma poly_eval_ref_spec p x : exists y,
  poly_eval_ref O p x = Ok y /\ y [=] poly_value R p x.
Proof. exact (horner_loop p x). Qed.

(** Value does not depend on trailing zeros. *)
Lemma poly_value_upto p x n : length p <= n ->
  poly_value R p x [=] sum_n R n (fun i => cf p i [*] pow R x i).
Proof.
  intros H. unfold poly_value. symmetry. apply sum_extend; [exact HR|exact H|].
  intros i Hi. rewrite coeff_past by lia. apply mul_0_l; exact HR.
Qed.

Lemma poly_value_same p q x : same_poly R p q -> poly_value R p x [=] poly_value R q x.
Proof.
  intros H. rewrite (poly_value_upto p x (max (length p) (length q))) by lia.
  rewrite (poly_value_upto q x (max (length p) (length q))) by lia.
  apply sum_ext; [exact HR|]. intros i _. rewrite (H i). reflexivity.
Qed.

(** ** Addition and subtraction *)

(** Exact effect of the index loop [self[i] op= rhs[i]] when self is long enough. *)
Lemma zip_loop (g : T -> T -> outcome T) (f : T -> T -> T) (Hg : forall x y, g x y = Ok (f x y))
  (q s : list T) : length q <= length s ->
  exists r, for_range 0 (length q)
      (fun i a => bind (vget q i) (fun x => vupd a i (fun s => g s x))) s = Ok r
    /\ length r = length s
    /\ forall k, nth k r (sz R) = if k <? length q then f (nth k s (sz R)) (nth k q (sz R))
                                  else nth k s (sz R).
Proof.
  intros Hle.
  destruct (for_range_inv 0 (length q)
    (fun i a => bind (vget q i) (fun x => vupd a i (fun s => g s x)))
    (fun i a => length a = length s /\
       forall k, nth k a (sz R) = if k <? i then f (nth k s (sz R)) (nth k q (sz R))
                                  else nth k s (sz R)) s) as (r & Hr & Hl & Hk).
  - lia.
  - split; [reflexivity|]. intros k. replace (k <? 0) with false by reflexivity. reflexivity.
  - intros i a Hi (Hl & Hk). rewrite (vget_ok q i (sz R)) by lia. simpl.
    erewrite (vupd_ok a i _ (sz R)); [|lia|apply Hg].
    eexists. split; [reflexivity|]. split; [rewrite list_upd_length; exact Hl|].
    intros k. rewrite nth_list_upd.
    destruct (Nat.eqb_spec k i) as [->|Hne]; simpl.
    + replace (i <? length a) with true by (symmetry; apply Nat.ltb_lt; lia).
      rewrite (Hk i). rewrite Nat.ltb_irrefl.
      replace (i <? S i) with true by (symmetry; apply Nat.ltb_lt; lia). reflexivity.
    + rewrite (Hk k). destruct (k <? i) eqn:E1, (k <? S i) eqn:E2; auto;
        rewrite ?Nat.ltb_lt, ?Nat.ltb_ge in *; lia.
  - exists r. auto.
Qed.

Lemma nth_resize p n k : nth k (resize_with p n (r_zero O)) (sz R) = nth k p (sz R).
Proof.
  unfold resize_with. rewrite (impl_zero O R HI).
  destruct (Nat.lt_ge_cases k (length p)).
  - apply app_nth1; assumption.
  - rewrite app_nth2 by assumption. rewrite (nth_overflow p) by assumption.
    apply nth_repeat.
Qed.

Lemma resize_length p n : length (resize_with p n (r_zero O)) = max (length p) n.
Proof. unfold resize_with. rewrite app_length, repeat_length. lia. Qed.

Lemma assign_ref_loop (g : T -> T -> outcome T) (f : T -> T -> T)
  (Hg : forall x y, g x y = Ok (f x y)) (p q : list T) :
  exists r,
    for_range 0 (length q)
      (fun i a => bind (vget q i) (fun x => vupd a i (fun s => g s x)))
      (if length p <? length q then resize_with p (length q) (r_zero O) else p) = Ok r
    /\ length r = max (length p) (length q)
    /\ forall k, cf r k = if k <? length q then f (cf p k) (cf q k) else cf p k.
Proof.
  set (s := if length p <? length q then _ else p).
  assert (Hs : length s = max (length p) (length q)).
  { unfold s. destruct (Nat.ltb_spec (length p) (length q)); [apply resize_length|lia]. }
  assert (Hn : forall k, nth k s (sz R) = nth k p (sz R)).
  { intros k. unfold s. destruct (length p <? length q); [apply nth_resize|reflexivity]. }
  destruct (zip_loop g f Hg q s) as (r & Hr & Hl & Hk); [lia|].
  exists r. split; [exact Hr|]. split; [lia|].
  intros k. unfold coeff. rewrite Hk, Hn. reflexivity.
Qed.

Lemma poly_add_assign_ref_spec p q : exists r,
  poly_add_assign_ref O p q = Ok r /\ length r = max (length p) (length q)
  /\ forall i, cf r i [=] cf p i [+] cf q i.
Proof.
  destruct (assign_ref_loop (r_add O) (sadd R) (impl_add O R HI) p q) as (r & Hr & Hl & Hk).
  exists r. split; [exact Hr|]. split; [exact Hl|]. intros i. rewrite Hk.
  destruct (Nat.ltb_spec i (length q)); [reflexivity|].
  rewrite (coeff_past q i) by assumption. symmetry. apply (law_add_0 R HR).
Qed.

Lemma poly_sub_assign_ref_spec p q : exists r,
  poly_sub_assign_ref O p q = Ok r /\ length r = max (length p) (length q)
  /\ forall i, cf r i [=] cf p i [-] cf q i.
Proof.
  destruct (assign_ref_loop (r_sub O) (ssub R) (impl_sub O R HI) p q) as (r & Hr & Hl & Hk).
  exists r. split; [exact Hr|]. split; [exact Hl|]. intros i. rewrite Hk.
  destruct (Nat.ltb_spec i (length q)); [reflexivity|].
  rewrite (coeff_past q i) by assumption. nc_ring HR.
Qed.

Lemma add_long p q : length q <= length p -> exists r,
  for_each (fun '(i, x) a => vupd a i (fun s => r_add O s x)) (enumerate q) p = Ok r
  /\ length r = length p /\ forall i, cf r i [=] cf p i [+] cf q i.
Proof.
  intros Hle. rewrite (for_each_enumerate _ q (sz R)).
  destruct (zip_loop (r_add O) (sadd R) (impl_add O R HI) q p Hle) as (r & Hr & Hl & Hk).
  exists r. split; [|split; [exact Hl|]].
  - rewrite <- Hr. unfold for_range. apply for_each_ext. intros i s Hi.
    apply in_seq in Hi. rewrite (vget_ok q i (sz R)) by lia. reflexivity.
  - intros i. unfold coeff. rewrite Hk. destruct (Nat.ltb_spec i (length q)); [reflexivity|].
    rewrite (nth_overflow q) by assumption. symmetry. apply (law_add_0 R HR).
Qed.

Lemma poly_add_spec p q : exists r,
  poly_add O p q = Ok r /\ length r = max (length p) (length q)
  /\ forall i, cf r i [=] cf p i [+] cf q i.
Proof.
  unfold poly_add. cbn [poly_add_rec]. destruct (Nat.ltb_spec (length p) (length q)).
  - replace (length q <? length p) with false by (symmetry; apply Nat.ltb_ge; lia).
    destruct (add_long q p) as (r & Hr & Hl & Hk); [lia|].
    exists r. split; [exact Hr|]. split; [lia|].
    intros i. rewrite Hk. apply (law_add_comm R HR).
  - destruct (add_long p q) as (r & Hr & Hl & Hk); [lia|].
    exists r. split; [exact Hr|]. split; [lia|]. exact Hk.
Qed.

Lemma poly_add_assign_spec p q : exists r,
  poly_add_assign O p q = Ok r /\ length r = max (length p) (length q)
  /\ forall i, cf r i [=] cf p i [+] cf q i.
Proof.
  unfold poly_add_assign. rewrite (for_each_enumerate _ q (sz R)).
  destruct (for_range_inv 0 (length q)
    (fun i a => if i <? length p
                then vupd a i (fun s => r_add O s (nth i q (sz R)))
                else Ok (a ++ [nth i q (sz R)]))
    (fun i a => length a = max (length p) i /\
       forall k, cf a k [=] cf p k [+] (if k <? i then cf q k else sz R)) p)
    as (r & Hr & Hl & Hk).
  - lia.
  - split; [lia|]. intros k. replace (k <? 0) with false by reflexivity.
    symmetry. apply (law_add_0 R HR).
  - intros i a Hi (Hl & Hk).
    destruct (Nat.ltb_spec i (length p)) as [Hlt|Hge].
    + erewrite (vupd_ok a i _ (sz R)); [|lia|apply (impl_add O R HI)].
      eexists. split; [reflexivity|]. split; [rewrite list_upd_length; lia|].
      intros k. unfold coeff. rewrite nth_list_upd.
      destruct (Nat.eqb_spec k i) as [->|Hne]; simpl.
      * replace (i <? length a) with true by (symmetry; apply Nat.ltb_lt; lia).
        pose proof (Hk i) as Hki. rewrite Nat.ltb_irrefl in Hki.
        replace (i <? S i) with true by (symmetry; apply Nat.ltb_lt; lia).
        unfold coeff in Hki. rewrite Hki. nc_ring HR.
      * pose proof (Hk k) as Hkk. unfold coeff in Hkk. rewrite Hkk.
        replace (k <? S i) with (k <? i); [reflexivity|].
        destruct (Nat.ltb_spec k i), (Nat.ltb_spec k (S i)); auto; lia.
    + eexists. split; [reflexivity|]. split; [rewrite app_length; simpl; lia|].
      intros k. unfold coeff.
      destruct (Nat.lt_ge_cases k (length a)) as [Hka|Hka].
      * rewrite app_nth1 by exact Hka. pose proof (Hk k) as Hkk. unfold coeff in Hkk.
        rewrite Hkk. replace (k <? S i) with (k <? i); [reflexivity|].
        destruct (Nat.ltb_spec k i), (Nat.ltb_spec k (S i)); auto; lia.
      * rewrite app_nth2 by exact Hka. rewrite (nth_overflow p) by lia.
        destruct (Nat.eq_dec k i) as [->|Hne].
        -- replace (i - length a) with 0 by lia. cbn [nth].
           replace (i <? S i) with true by (symmetry; apply Nat.ltb_lt; lia).
           symmetry; apply (law_add_0_l R HR).
        -- rewrite nth_overflow by (simpl; lia).
           replace (k <? S i) with false by (symmetry; apply Nat.ltb_ge; lia).
           nc_ring HR.
  - exists r. split; [exact Hr|]. split; [exact Hl|]. intros i. rewrite Hk.
    destruct (Nat.ltb_spec i (length q)); [reflexivity|].
    rewrite (coeff_past q i) by assumption. reflexivity.
Qed.

Lemma poly_neg_spec p : exists r,
  poly_neg O p = Ok r /\ length r = length p /\ forall i, cf r i [=] sneg R (cf p i).
Proof.
  exists (map (sneg R) p). split; [|split].
  - apply mapM_total. intros x _. apply (impl_neg O R HI).
  - apply map_length.
  - intros i. unfold coeff. destruct (Nat.lt_ge_cases i (length p)).
    + rewrite (nth_indep _ (sz R) (sneg R (sz R))) by (rewrite map_length; assumption).
      rewrite map_nth. reflexivity.
    + rewrite !nth_overflow by (rewrite ?map_length; assumption).
      symmetry. apply neg_0; exact HR.
Qed.

Lemma poly_sub_spec p q : exists r,
  poly_sub O p q = Ok r /\ length r = max (length p) (length q)
  /\ forall i, cf r i [=] cf p i [-] cf q i.
Proof.
  destruct (poly_neg_spec q) as (n & Hn & Hln & Hkn).
  destruct (poly_add_spec p n) as (r & Hr & Hl & Hk).
  exists r. unfold poly_sub. rewrite Hn. simpl. split; [exact Hr|]. split; [lia|].
  intros i. rewrite Hk, Hkn. nc_ring HR.
Qed.

Lemma poly_sub_assign_spec p q : exists r,
  poly_sub_assign O p q = Ok r /\ length r = max (length p) (length q)
  /\ forall i, cf r i [=] cf p i [-] cf q i.
Proof.
  destruct (poly_neg_spec q) as (n & Hn & Hln & Hkn).
  destruct (poly_add_assign_spec p n) as (r & Hr & Hl & Hk).
  exists r. unfold poly_sub_assign. rewrite Hn. simpl. split; [exact Hr|]. split; [lia|].
  intros i. rewrite Hk, Hkn. nc_ring HR.
Qed.

(** ** Multiplication *)

Notation sum := (sum_n R).

Definition conv_upto (p q : list T) (n k : nat) : T :=
  sum n (fun i => if i <=? k then cf p i [*] cf q (k - i) else sz R).

Lemma conv_upto_full p q n k : length p <= n -> conv_upto p q n k [=] convolution R p q k.
Proof.
  intros Hn. unfold conv_upto, convolution.
  set (f := fun i => if i <=? k then cf p i [*] cf q (k - i) else sz R).
  assert (E1 : sum n f [=] sum (min n (S k)) f).
  { apply sum_extend; [exact HR|lia|]. intros i Hi. unfold f.
    destruct (Nat.leb_spec i k); [lia|reflexivity]. }
  assert (E2 : sum (S k) f [=] sum (min n (S k)) f).
  { apply sum_extend; [exact HR|lia|]. intros i Hi. unfold f.
    destruct (Nat.leb_spec i k); [|lia]. rewrite coeff_past by lia. apply mul_0_l; exact HR. }
  rewrite E1, <- E2. apply sum_ext; [exact HR|]. intros i Hi. unfold f.
  destruct (Nat.leb_spec i k); [reflexivity|lia].
Qed.

Lemma mul_inner p q i a0 (Hi : i < length p) :
  length a0 = length p + length q - 1 ->
  exists a, for_range 0 (length q)
    (fun j a => bind (vget p i) (fun x => bind (vget q j) (fun y => bind (r_mul O x y)
       (fun prod => vupd a (i + j) (fun s => r_add O s prod))))) a0 = Ok a
  /\ length a = length a0
  /\ forall k, cf a k [=] cf a0 k [+] (if i <=? k then cf p i [*] cf q (k - i) else sz R).
Proof.
  intros Hl0.
  destruct (for_range_inv 0 (length q)
    (fun j a => bind (vget p i) (fun x => bind (vget q j) (fun y => bind (r_mul O x y)
       (fun prod => vupd a (i + j) (fun s => r_add O s prod)))))
    (fun j a => length a = length a0 /\
       forall k, cf a k [=] cf a0 k [+]
          (if (i <=? k) && (k <? i + j) then cf p i [*] cf q (k - i) else sz R)) a0)
    as (r & Hr & Hl & Hk).
  - lia.
  - split; [reflexivity|]. intros k.
    replace ((i <=? k) && (k <? i + 0)) with false; [nc_ring HR|].
    destruct (Nat.leb_spec i k), (Nat.ltb_spec k (i + 0)); simpl; auto; lia.
  - intros j a Hj (Hl & Hk).
    rewrite (vget_ok p i (sz R)) by lia. rewrite (vget_ok q j (sz R)) by lia. cbn [bind].
    rewrite (impl_mul O R HI). cbn [bind].
    erewrite (vupd_ok a (i + j) _ (sz R)); [|lia|apply (impl_add O R HI)].
    eexists. split; [reflexivity|]. split; [rewrite list_upd_length; exact Hl|].
    intros k. unfold coeff at 1. rewrite nth_list_upd.
    destruct (Nat.eqb_spec k (i + j)) as [->|Hne]; simpl.
    + replace (i + j <? length a) with true by (symmetry; apply Nat.ltb_lt; lia).
      pose proof (Hk (i + j)) as Hkk. unfold coeff at 1 in Hkk. rewrite Hkk.
      replace (i + j <? i + j) with false by (symmetry; apply Nat.ltb_ge; lia).
      replace (i + j <? i + S j) with true by (symmetry; apply Nat.ltb_lt; lia).
      replace (i <=? i + j) with true by (symmetry; apply Nat.leb_le; lia). simpl.
      replace (i + j - i) with j by lia. unfold coeff. nc_ring HR.
    + pose proof (Hk k) as Hkk. unfold coeff at 1 in Hkk. rewrite Hkk.
      replace ((i <=? k) && (k <? i + S j)) with ((i <=? k) && (k <? i + j)); [reflexivity|].
      destruct (Nat.leb_spec i k), (Nat.ltb_spec k (i + j)), (Nat.ltb_spec k (i + S j));
        simpl; auto; lia.
  - exists r. split; [exact Hr|]. split; [exact Hl|]. intros k. rewrite (Hk k).
    destruct (Nat.leb_spec i k), (Nat.ltb_spec k (i + length q)); simpl; try reflexivity.
    rewrite (coeff_past q) by lia. apply (law_add_cong R HR); [reflexivity|].
    symmetry; apply mul_0_r; exact HR.
Qed.

Lemma convolution_past p q k :
  length p + length q - 1 <= k -> convolution R p q k [=] sz R.
Proof.
  intros H. unfold convolution. apply sum_zero; [exact HR|]. intros i Hi.
  destruct (Nat.lt_ge_cases i (length p)).
  - rewrite (coeff_past q) by lia. apply mul_0_r; exact HR.
  - rewrite (coeff_past p) by lia. apply mul_0_l; exact HR.
Qed.

Lemma poly_mul_ref_spec p q : exists r,
  poly_mul_ref O p q = Ok r
  /\ length r = (if (length p =? 0) || (length q =? 0) then 0 else length p + length q - 1)
  /\ forall k, cf r k [=] convolution R p q k.
Proof.
  unfold poly_mul_ref.
  destruct ((length p =? 0) || (length q =? 0)) eqn:E.
  - exists []. split; [reflexivity|]. split; [reflexivity|]. intros k.
    rewrite (coeff_past [] k) by (simpl; lia). symmetry.
    apply orb_true_iff in E. rewrite !Nat.eqb_eq in E.
    apply sum_zero; [exact HR|]. intros i Hi. destruct E as [E|E].
    + rewrite (coeff_past p) by lia. apply mul_0_l; exact HR.
    + rewrite (coeff_past q) by lia. apply mul_0_r; exact HR.
  - apply orb_false_iff in E. rewrite !Nat.eqb_neq in E.
    destruct (for_range_inv 0 (length p)
      (fun i a => for_range 0 (length q)
         (fun j a => bind (vget p i) (fun x => bind (vget q j) (fun y => bind (r_mul O x y)
            (fun prod => vupd a (i + j) (fun s => r_add O s prod))))) a)
      (fun i a => length a = length p + length q - 1 /\ forall k, cf a k [=] conv_upto p q i k)
      (repeat (r_zero O) (length p + length q - 1))) as (r & Hr & Hl & Hk).
    + lia.
    + split; [apply repeat_length|]. intros k. rewrite (impl_zero O R HI).
      unfold coeff, conv_upto. simpl. rewrite nth_repeat. reflexivity.
    + intros i a Hi (Hl & Hk).
      destruct (mul_inner p q i a) as (a' & Ha' & Hl' & Hk'); [lia|exact Hl|].
      exists a'. split; [exact Ha'|]. split; [lia|]. intros k. rewrite Hk', Hk.
      reflexivity.
    + exists r. rewrite Hr. split; [reflexivity|]. split; [exact Hl|]. intros k.
      rewrite Hk. apply conv_upto_full. lia.
Qed.

(** ** Homomorphism laws of evaluation *)

Lemma value_add p q r x :
  (forall i, cf r i [=] cf p i [+] cf q i) ->
  poly_value R r x [=] poly_value R p x [+] poly_value R q x.
Proof.
  intros H. set (n := max (length r) (max (length p) (length q))).
  rewrite (poly_value_upto p x n), (poly_value_upto q x n), (poly_value_upto r x n) by lia.
  rewrite <- sum_add by exact HR. apply sum_ext; [exact HR|]. intros i _.
  rewrite (H i). nc_ring HR.
Qed.

Lemma value_sub p q r x :
  (forall i, cf r i [=] cf p i [-] cf q i) ->
  poly_value R r x [=] poly_value R p x [-] poly_value R q x.
Proof.
  intros H. set (n := max (length r) (max (length p) (length q))).
  rewrite (poly_value_upto p x n), (poly_value_upto q x n), (poly_value_upto r x n) by lia.
  rewrite <- sum_sub by exact HR. apply sum_ext; [exact HR|]. intros i _.
  rewrite (H i). nc_ring HR.
Qed.

Lemma value_neg p r x :
  (forall i, cf r i [=] sneg R (cf p i)) ->
  poly_value R r x [=] sneg R (poly_value R p x).
Proof.
  intros H. set (n := max (length r) (length p)).
  rewrite (poly_value_upto p x n), (poly_value_upto r x n) by lia.
  rewrite <- sum_neg by exact HR. apply sum_ext; [exact HR|]. intros i _.
  rewrite (H i). nc_ring HR.
Qed.

(** Product of two power sums, grouped by total degree. *)
Lemma cauchy n f g :
  (forall i, n <= i -> f i [=] sz R) -> (forall i, n <= i -> g i [=] sz R) ->
  sum n f [*] sum n g [=] sum (n + n) (fun k => sum (S k) (fun i => f i [*] g (k - i))).
Proof.
  intros Hf Hg. destruct n as [|n'].
  { simpl. nc_ring HR. }
  set (n := S n') in *.
  assert (E : exists m, n + n = S m) by (exists (n' + n); unfold n; lia).
  destruct E as (m & Hm). rewrite Hm.
  rewrite (sum_triangle R HR m (fun k i => f i [*] g (k - i))).
  rewrite (sum_extend R HR n (S m)); [|lia|].
  - rewrite <- (sum_mul_r R HR n (sum n g) f). apply sum_ext; [exact HR|]. intros j Hj.
    rewrite <- sum_mul_l by exact HR.
    rewrite (sum_extend R HR n (S (m - j))).
    + apply sum_ext; [exact HR|]. intros i Hi. replace (j + i - j) with i by lia. reflexivity.
    + lia.
    + intros i Hi. replace (j + i - j) with i by lia.
      rewrite (Hg i) by lia. apply mul_0_r; exact HR.
  - intros j Hj. apply sum_zero; [exact HR|]. intros i Hi.
    rewrite (Hf j) by lia. apply mul_0_l; exact HR.
Qed.

Lemma commutes_coeff x q i : commutes_with R x q -> x [*] cf q i [=] cf q i [*] x.
Proof.
  intros H. destruct (Nat.lt_ge_cases i (length q)).
  - apply H. apply nth_In. assumption.
  - rewrite coeff_past by assumption. nc_ring HR.
Qed.

Lemma value_mul p q r x :
  (forall k, cf r k [=] convolution R p q k) -> commutes_with R x q ->
  poly_value R r x [=] poly_value R p x [*] poly_value R q x.
Proof.
  intros H Hc. set (n := max (length r) (max (length p) (length q))).
  rewrite (poly_value_upto p x n), (poly_value_upto q x n), (poly_value_upto r x (n + n)) by lia.
  rewrite cauchy.
  - apply sum_ext; [exact HR|]. intros k _. rewrite (H k). unfold convolution.
    rewrite <- sum_mul_r by exact HR. apply sum_ext; [exact HR|]. intros i Hi.
    replace (pow R x k) with (pow R x (i + (k - i))) by (f_equal; lia).
    rewrite pow_add by exact HR.
    assert (E : pow R x i [*] cf q (k - i) [=] cf q (k - i) [*] pow R x i)
      by (apply pow_commute; [exact HR|apply commutes_coeff; exact Hc]).
    rewrite <- !(law_mul_assoc R HR). rewrite (law_mul_assoc R HR (cf p i)), <- E.
    nc_ring HR.
  - intros i Hi. rewrite coeff_past by lia. apply mul_0_l; exact HR.
  - intros i Hi. rewrite coeff_past by lia. apply mul_0_l; exact HR.
Qed.

End Poly.
