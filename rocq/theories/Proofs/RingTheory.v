(** Consequences of the ring laws of Spec/Ring.v: a non-commutative ring tactic
    and facts about finite sums and powers.  Nothing here is about the code. *)
From Coq Require Import List Arith Lia Setoid Morphisms.
From Coq Require Ncring Ncring_tac Cring.
From Verif Require Import Base.Outcome Model.Traits Spec.Ring Spec.Sums.
Import ListNotations.

Section Theory.
Context {T : Type} (R : ring_sig T) (HR : ring_laws R).

Lemma same_equiv : Equivalence (same R).
Proof.
  split.
  - exact (law_refl R HR).
  - exact (law_sym R HR).
  - exact (law_trans R HR).
Qed.

Lemma sadd_proper : Proper (same R ==> same R ==> same R) (sadd R).
Proof. intros x x' Hx y y' Hy. apply (law_add_cong R HR); assumption. Qed.
Lemma ssub_proper : Proper (same R ==> same R ==> same R) (ssub R).
Proof. intros x x' Hx y y' Hy. apply (law_sub_cong R HR); assumption. Qed.
Lemma smul_proper : Proper (same R ==> same R ==> same R) (smul R).
Proof. intros x x' Hx y y' Hy. apply (law_mul_cong R HR); assumption. Qed.
Lemma sneg_proper : Proper (same R ==> same R) (sneg R).
Proof. intros x x' Hx. apply (law_neg_cong R HR); assumption. Qed.

Lemma law_add_0_l x : same R (sadd R (sz R) x) x.
Proof.
  apply (law_trans R HR _ (sadd R x (sz R)));
    [apply (law_add_comm R HR)|apply (law_add_0 R HR)].
Qed.

#[local] Instance ring_ops_inst :
  @Ncring.Ring_ops T (sz R) (so R) (sadd R) (smul R) (ssub R) (sneg R) (same R).
Proof. Defined.

Lemma ncring_of_laws : @Ncring.Ring T _ _ _ _ _ _ _ ring_ops_inst.
Proof.
  constructor.
  - exact same_equiv.
  - exact sadd_proper.
  - exact smul_proper.
  - exact ssub_proper.
  - exact sneg_proper.
  - exact law_add_0_l.
  - exact (law_add_comm R HR).
  - intros x y z. apply (law_sym R HR), (law_add_assoc R HR).
  - exact (law_mul_1_l R HR).
  - exact (law_mul_1_r R HR).
  - intros x y z. apply (law_sym R HR), (law_mul_assoc R HR).
  - intros x y z. apply (law_distr_r R HR).
  - intros x y z. apply (law_distr_l R HR).
  - exact (law_sub_def R HR).
  - exact (law_add_neg R HR).
Qed.

Lemma cring_of_laws : commutative R ->
  @Cring.Cring T _ _ _ _ _ _ _ ring_ops_inst ncring_of_laws.
Proof. intros H x y. apply H. Qed.
End Theory.

(** Ring normalisation for a goal [same R _ _], given [HR : ring_laws R]. *)
Ltac nc_ring HR :=
  match type of HR with
  | ring_laws ?R =>
      let ro := fresh "ro" in let ri := fresh "ri" in
      pose (ro := ring_ops_inst R);
      pose proof (ncring_of_laws R HR : @Ncring.Ring _ _ _ _ _ _ _ _ ro) as ri;
      Ncring_tac.non_commutative_ring
  end.
Ltac c_ring HR HC :=
  match type of HR with
  | ring_laws ?R =>
      let ro := fresh "ro" in let ri := fresh "ri" in let ci := fresh "ci" in
      pose (ro := ring_ops_inst R);
      pose proof (ncring_of_laws R HR : @Ncring.Ring _ _ _ _ _ _ _ _ ro) as ri;
      pose proof (cring_of_laws R HR HC : @Cring.Cring _ _ _ _ _ _ _ _ ro ri) as ci;
      Cring.cring
  end.

Section Sums.
Context {T : Type} (R : ring_sig T) (HR : ring_laws R).
Local Infix "[=]" := (same R) (at level 70, no associativity).
Local Infix "[+]" := (sadd R) (at level 50, left associativity).
Local Infix "[*]" := (smul R) (at level 40, left associativity).
Local Infix "[-]" := (ssub R) (at level 50, left associativity).


#[local] Instance J1 : Equivalence (same R).
Proof. exact (same_equiv R HR). Qed.
#[local] Instance J2 : Proper (same R ==> same R ==> same R) (sadd R).
Proof. exact (sadd_proper R HR). Qed.
#[local] Instance J3 : Proper (same R ==> same R ==> same R) (ssub R).
Proof. exact (ssub_proper R HR). Qed.
#[local] Instance J4 : Proper (same R ==> same R ==> same R) (smul R).
Proof. exact (smul_proper R HR). Qed.
#[local] Instance J5 : Proper (same R ==> same R) (sneg R).
Proof. exact (sneg_proper R HR). Qed.

Notation sum := (sum_n R).

Lemma mul_0_l x : sz R [*] x [=] sz R.
Proof. nc_ring HR. Qed.
Lemma mul_0_r x : x [*] sz R [=] sz R.
Proof. nc_ring HR. Qed.
Lemma neg_0 : sneg R (sz R) [=] sz R.
Proof. nc_ring HR. Qed.
Lemma sub_self x : x [-] x [=] sz R.
Proof. nc_ring HR. Qed.

Lemma sum_ext n f g : (forall i, i < n -> f i [=] g i) -> sum n f [=] sum n g.
Proof.
  induction n as [|n IH]; intros H; simpl; [reflexivity|].
  rewrite IH by (intros; apply H; lia). rewrite (H n) by lia. reflexivity.
Qed.

Lemma sum_zero n f : (forall i, i < n -> f i [=] sz R) -> sum n f [=] sz R.
Proof.
  induction n as [|n IH]; intros H; simpl; [reflexivity|].
  rewrite IH by (intros; apply H; lia). rewrite (H n) by lia. nc_ring HR.
Qed.

Lemma sum_add n f g : sum n (fun i => f i [+] g i) [=] sum n f [+] sum n g.
Proof. induction n as [|n IH]; simpl; [nc_ring HR|]. rewrite IH. nc_ring HR. Qed.

Lemma sum_neg n f : sum n (fun i => sneg R (f i)) [=] sneg R (sum n f).
Proof. induction n as [|n IH]; simpl; [nc_ring HR|]. rewrite IH. nc_ring HR. Qed.

Lemma sum_sub n f g : sum n (fun i => f i [-] g i) [=] sum n f [-] sum n g.
Proof. induction n as [|n IH]; simpl; [nc_ring HR|]. rewrite IH. nc_ring HR. Qed.

Lemma sum_mul_l n c f : sum n (fun i => c [*] f i) [=] c [*] sum n f.
Proof. induction n as [|n IH]; simpl; [nc_ring HR|]. rewrite IH. nc_ring HR. Qed.

Lemma sum_mul_r n c f : sum n (fun i => f i [*] c) [=] sum n f [*] c.
Proof. induction n as [|n IH]; simpl; [nc_ring HR|]. rewrite IH. nc_ring HR. Qed.

Lemma sum_split m n f : sum (m + n) f [=] sum m f [+] sum n (fun i => f (m + i)).
Proof.
  induction n as [|n IH]; simpl.
  - rewrite Nat.add_0_r. nc_ring HR.
  - replace (m + S n) with (S (m + n)) by lia. simpl. rewrite IH. nc_ring HR.
Qed.

Lemma sum_S_l n f : sum (S n) f [=] f 0 [+] sum n (fun i => f (S i)).
Proof.
  rewrite (sum_split 1 n f). cbn [sum_n]. 
  rewrite (law_add_0_l R HR). reflexivity.
Qed.

(** Extending the range over zero terms. *)
Lemma sum_extend m n f : m <= n -> (forall i, m <= i < n -> f i [=] sz R) ->
  sum n f [=] sum m f.
Proof.
  intros Hle H. replace n with (m + (n - m)) by lia. rewrite sum_split.
  rewrite (sum_zero (n - m)) by (intros; apply H; lia). nc_ring HR.
Qed.

Lemma sum_single n k f : k < n -> (forall i, i < n -> i <> k -> f i [=] sz R) ->
  sum n f [=] f k.
Proof.
  intros Hk H. rewrite (sum_extend (S k) n); [|lia|intros; apply H; lia].
  simpl. rewrite sum_zero by (intros; apply H; lia). nc_ring HR.
Qed.

Lemma sum_swap m n f :
  sum m (fun i => sum n (fun j => f i j)) [=] sum n (fun j => sum m (fun i => f i j)).
Proof.
  induction m as [|m IH]; simpl.
  - symmetry. apply sum_zero. reflexivity.
  - rewrite IH. rewrite <- sum_add. reflexivity.
Qed.

Lemma sum_rev n f : sum n f [=] sum n (fun i => f (n - 1 - i)).
Proof.
  revert f. induction n as [|n IH]; intros f; [reflexivity|].
  rewrite (sum_S_l n (fun i => f (S n - 1 - i))). cbn [sum_n].
  replace (S n - 1 - 0) with n by lia.
  rewrite (law_add_comm R HR). apply (law_add_cong R HR); [reflexivity|].
  rewrite IH. apply sum_ext. intros i Hi.
  replace (S n - 1 - S i) with (n - 1 - i) by lia. reflexivity.
Qed.

(** Summation over a triangle, in both orders. *)
Lemma sum_triangle k g :
  sum (S k) (fun i => sum (S i) (fun j => g i j))
  [=] sum (S k) (fun j => sum (S (k - j)) (fun i => g (j + i) j)).
Proof.
  induction k as [|k IH].
  - reflexivity.
  - change (sum (S (S k)) (fun i => sum (S i) (fun j => g i j)))
      with (sum (S k) (fun i => sum (S i) (fun j => g i j))
            [+] sum (S (S k)) (fun j => g (S k) j)).
    rewrite IH.
    change (sum (S (S k)) (fun j => g (S k) j))
      with (sum (S k) (fun j => g (S k) j) [+] g (S k) (S k)).
    change (sum (S (S k)) (fun j => sum (S (S k - j)) (fun i => g (j + i) j)))
      with (sum (S k) (fun j => sum (S (S k - j)) (fun i => g (j + i) j))
            [+] sum (S (S k - S k)) (fun i => g (S k + i) (S k))).
    replace (S k - S k) with 0 by lia.
    rewrite <- (law_add_assoc R HR).
    apply (law_add_cong R HR).
    + rewrite <- sum_add. apply sum_ext. intros j Hj.
      replace (S k - j) with (S (k - j)) by lia.
      cbn [sum_n]. replace (j + S (k - j)) with (S k) by lia. reflexivity.
    + cbn [sum_n]. rewrite Nat.add_0_r. nc_ring HR.
Qed.

Lemma pow_S_l x n : pow R x (S n) [=] x [*] pow R x n.
Proof.
  induction n as [|n IH]; simpl in *; [nc_ring HR|].
  rewrite IH at 1. nc_ring HR.
Qed.

Lemma pow_add x m n : pow R x (m + n) [=] pow R x m [*] pow R x n.
Proof.
  induction n as [|n IH]; simpl.
  - rewrite Nat.add_0_r. nc_ring HR.
  - replace (m + S n) with (S (m + n)) by lia. simpl. rewrite IH. nc_ring HR.
Qed.

Lemma pow_commute x b n : x [*] b [=] b [*] x -> pow R x n [*] b [=] b [*] pow R x n.
Proof.
  intros H. induction n as [|n IH]; simpl; [nc_ring HR|].
  rewrite (law_mul_assoc R HR), H, <- (law_mul_assoc R HR), IH. nc_ring HR.
Qed.

Lemma pow_proper x y n : x [=] y -> pow R x n [=] pow R y n.
Proof.
  intros H. induction n as [|n IH]; simpl; [reflexivity|]. rewrite IH, H. reflexivity.
Qed.
End Sums.
