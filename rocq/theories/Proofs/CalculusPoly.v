(** Derivatives of polynomials and uniqueness of the derivative, for C88. *)
From Coq Require Import List Reals Lra Psatz.
From Verif Require Import Base.Outcome Model.Traits Model.Complex Model.Polynomial Model.RealInstance
  Spec.Ring Spec.Complex Spec.Calculus Proofs.ComplexProofs Proofs.RealRing Proofs.ComplexReal Proofs.Calculus.
Import ListNotations.
Open Scope R_scope.

Notation C := (complex R).
Notation c0 := (Cx 0 0).
Notation c1 := (Cx 1 0).
Notation Eval := (poly_eval (complex_ops real_ring)).

Add Field c_field2 : c_field.

Fixpoint heval (p : list C) (x : C) : C :=
  match p with [] => c0 | a :: q => cplus (cmult (heval q x) x) a end.

Lemma for_each_app {A S} (f : A -> S -> outcome S) l1 l2 s :
  for_each f (l1 ++ l2) s = (t <- for_each f l1 s ;; for_each f l2 t).
Proof. revert s. induction l1 as [|a l1 IH]; intros s; [reflexivity|]. cbn [app for_each]. destruct (f a s); [apply IH|reflexivity|reflexivity]. Qed.

Lemma eval_ok p x : Eval p x = Ok (heval p x).
Proof.
  unfold poly_eval, poly_eval_ref. induction p as [|a q IH]; [reflexivity|].
  cbn [rev]. rewrite for_each_app, IH. reflexivity.
Qed.

Fixpoint dk (k : nat) (q : list C) : list C :=
  match q with [] => [] | a :: q => Cx (INR (S k) * re a) (INR (S k) * im a) :: dk (S k) q end.

Lemma derived_dk a q : derived (a :: q) = dk 0 q.
Proof.
  unfold derived. generalize 0%nat as k. induction q as [|b q IH]; intros k; [reflexivity|].
  cbn [length seq combine map dk]. f_equal. apply IH.
Qed.

Lemma dk_S q : forall k x, heval (dk (S k) q) x = cplus (heval (dk k q) x) (heval q x).
Proof.
  induction q as [|a q IH]; intros k x; cbn [dk heval]; [ring|]. rewrite IH.
  replace (Cx (INR (S (S k)) * re a) (INR (S (S k)) * im a)) with (cplus (Cx (INR (S k) * re a) (INR (S k) * im a)) a)
    by (rewrite (S_INR (S k)); unfold cplus; cbn [re im]; f_equal; ring).
  ring.
Qed.

Lemma derived_cons a q x : heval (derived (a :: q)) x = cplus (cmult (heval (derived q) x) x) (heval q x).
Proof.
  rewrite derived_dk. destruct q as [|b q]; [cbn; unfold cplus, cmult; cbn; f_equal; ring|]. rewrite derived_dk.
  cbn [dk heval]. rewrite dk_S. replace (Cx (INR 1 * re b) (INR 1 * im b)) with b by (destruct b; cbn; f_equal; ring).
  ring.
Qed.

Lemma D_poly p z : D (Eval p) z (heval (derived p) z).
Proof.
  induction p as [|a q IH].
  - apply (D_ext (fun _ => Ok c0)); [|apply D_const]. exists 1. split; [lra|]. intros h _. reflexivity.
  - rewrite derived_cons.
    pose proof (D_add _ _ z _ _ (D_mul _ _ z _ _ _ _ IH (D_id z) (eval_ok q z) eq_refl) (D_const a z)) as H.
    replace (cplus (cmult (heval (derived q) z) z) (heval q z)) with
      (cplus (cplus (cmult (heval (derived q) z) z) (cmult (heval q z) c1)) c0) by ring.
    refine (D_ext _ _ z _ _ H). exists 1. split; [lra|]. intros h _.
    unfold lift2. rewrite !eval_ok. reflexivity.
Qed.

(** A Taylor coefficient is unique. *)
Lemma has_derivative_unique f z d e : has_derivative f z d -> has_derivative f z e -> d = e.
Proof.
  intros (fz & E & H) (fz' & E' & H'). rewrite E in E'. injection E' as <-.
  assert (M : forall eps, 0 < eps -> modulus (cminus d e) <= eps).
  { intros eps He. destruct (H (eps / 2)) as (d0 & P0 & B0); [lra|]. destruct (H' (eps / 2)) as (d1 & P1 & B1); [lra|].
    pose proof (Rmin_l d0 d1). pose proof (Rmin_r d0 d1). assert (0 < Rmin d0 d1) by (apply Rmin_pos; assumption).
    set (t := Rmin d0 d1 / 2) in *.
    assert (Mt : modulus (Cx t 0) = t).
    { unfold modulus. cbn [re im]. replace (t * t + 0 * 0) with (t * t) by ring. apply sqrt_square. unfold t. lra. }
    destruct (B0 (Cx t 0)) as (w & W & Q); [rewrite Mt; unfold t; lra|]. destruct (B1 (Cx t 0)) as (w' & W' & Q'); [rewrite Mt; unfold t; lra|].
    rewrite W in W'. injection W' as <-. rewrite Mt in Q, Q'.
    assert (modulus (cmult (cminus d e) (Cx t 0)) <= eps * t).
    { replace (cmult (cminus d e) (Cx t 0)) with (cminus (cminus (cminus w fz) (cmult e (Cx t 0))) (cminus (cminus w fz) (cmult d (Cx t 0)))) by ring.
      eapply Rle_trans; [apply modulus_sub|]. lra. }
    rewrite modulus_mul, Mt in H3. apply Rmult_le_reg_r with t; [unfold t; lra|exact H3]. }
  assert (Z : modulus (cminus d e) = 0).
  { apply Rle_antisym; [|apply modulus_pos]. apply Rnot_lt_le. intros L. specialize (M (modulus (cminus d e) / 2) ltac:(lra)). lra. }
  apply modulus_0 in Z. transitivity (cplus (cminus d e) e); [ring|]. rewrite Z. ring.
Qed.

Lemma has_derivative_continuous f z d : has_derivative f z d -> continuous_at f z.
Proof.
  intros (fz & E & H). exists fz. split; [exact E|]. intros eps He.
  destruct (H 1 Rlt_0_1) as (d0 & P0 & B). pose proof (modulus_pos d) as Md.
  set (k := 1 + modulus d). exists (Rmin d0 (eps / k)). 
  assert (0 < eps / k) by (apply Rdiv_lt_0_compat; unfold k; lra).
  split; [apply Rmin_pos; assumption|]. intros h Hh. pose proof (Rmin_l d0 (eps / k)). pose proof (Rmin_r d0 (eps / k)).
  destruct (B h) as (w & W & Q); [lra|]. exists w. split; [exact W|].
  replace (cminus w fz) with (cplus (cminus (cminus w fz) (cmult d h)) (cmult d h)) by ring.
  eapply Rle_lt_trans; [apply modulus_add|]. rewrite modulus_mul.
  apply Rle_lt_trans with (k * modulus h); [unfold k; lra|].
  apply Rlt_le_trans with (k * (eps / k)); [apply Rmult_lt_compat_l; [unfold k|]; lra|]. right. field. unfold k. lra.
Qed.
