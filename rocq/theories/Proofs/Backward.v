(** Backward error analysis: computed values as exact values of perturbed data. *)
From Coq Require Import List ZArith Reals Bool Lia Lra.
From Flocq Require Import Core.Core IEEE754.BinarySingleNaN.
From Verif Require Import Model.Traits Model.Float Spec.Ring Spec.Sums Spec.FloatErr Proofs.FloatErr.
Import ListNotations.
Local Open Scope R_scope.

(** A function out of finitely many existence statements. *)
Lemma finite_choice {A} (x0 : A) n (P : nat -> A -> Prop) :
  (forall i, (i < n)%nat -> exists x, P i x) -> exists f, forall i, (i < n)%nat -> P i (f i).
Proof.
  induction n as [|n IH]; intros H.
  - exists (fun _ => x0). intros i Hi. lia.
  - destruct IH as [f Hf]; [intros i Hi; apply H; lia|]. destruct (H n) as [x Hx]; [lia|].
    exists (fun i => if (i =? n)%nat then x else f i). intros i Hi.
    destruct (Nat.eqb_spec i n) as [->|Hn]; [exact Hx|apply Hf; lia].
Qed.

Section Fmt.
Context (prec emax : Z) {Hp : Prec_gt_0 prec} {He : Prec_lt_emax prec emax}.
Notation fl := (binary_float prec emax).
Notation u := (unit_roundoff prec).
Notation eta := (underflow_unit prec emax).

(** Products of relative perturbations. *)
Lemma perturb_mul d1 d2 g1 g2 : Rabs d1 <= g1 - 1 -> Rabs d2 <= g2 - 1 ->
  exists d, Rabs d <= g1 * g2 - 1 /\ 1 + d = (1 + d1) * (1 + d2).
Proof.
  intros H1 H2. exists (d1 + d2 + d1 * d2). split; [|ring].
  eapply Rle_trans; [apply Rabs_triang|]. rewrite Rabs_mult.
  pose proof (Rabs_triang d1 d2). pose proof (Rabs_pos d1). pose proof (Rabs_pos d2).
  assert (Rabs d1 * Rabs d2 <= (g1 - 1) * (g2 - 1)) by (apply Rmult_le_compat; assumption).
  replace (g1 * g2 - 1) with ((g1 - 1) + (g2 - 1) + (g1 - 1) * (g2 - 1)) by ring. lra.
Qed.
Lemma perturb_abs d g : Rabs d <= g - 1 -> Rabs (1 + d) <= g.
Proof. intros H. eapply Rle_trans; [apply Rabs_triang|]. rewrite Rabs_R1. lra. Qed.
Lemma perturb_u d : Rabs d <= u -> Rabs d <= (1 + u) - 1.
Proof. intros. lra. Qed.
Lemma perturb_0 g : 1 <= g -> Rabs 0 <= g - 1.
Proof. rewrite Rabs_R0. lra. Qed.
Lemma one_u : 1 <= 1 + u.
Proof. pose proof (u_pos prec). lra. Qed.

(** ** Horner's rule *)
Definition hexp (n j : nat) : nat := Nat.min (2 * j + 1) (2 * n).

Lemma horner_backward (p : list fl) x : is_finite (fl_horner prec emax p x) = true ->
  let n := (length p - 1)%nat in
  exists d h : nat -> R,
    B2R (fl_horner prec emax p x) = rsum (length p) (fun j => (entry_R p j * (1 + d j) + h j) * B2R x ^ j)
    /\ (forall j, (j <= n)%nat -> Rabs (d j) <= (1 + u) ^ hexp n j - 1)
    /\ (forall j, (j < n)%nat -> Rabs (h j) <= (1 + u) ^ (2 * j + 1) * eta)
    /\ (forall j, (n <= j)%nat -> h j = 0).
Proof.
  pose proof one_u as U1. pose proof (eta_pos prec emax) as EP. intros F. cbv zeta. revert F.
  induction p as [|a p IH]; intros F.
  - exists (fun _ => 0), (fun _ => 0). cbn [length rsum fl_horner]. split; [apply zero_value|].
    split; [intros; apply perturb_0, pow_ge_1, U1|]. split; [|reflexivity].
    intros j Hj. simpl in Hj. lia.
  - destruct p as [|b p].
    + clear IH. change (fl_horner prec emax [a] x) with (fl_add prec emax (fl_mul prec emax (fl_int prec emax 0) x) a) in *.
      destruct (add_model prec emax _ _ F) as (F1 & F2 & _). destruct (mul_model prec emax _ _ F1) as (_ & F4 & _).
      destruct (mul_0_l prec emax (fl_int prec emax 0) x (proj1 (zero_value prec emax)) (proj2 (zero_value prec emax)) F4) as [Fm Em].
      destruct (add_0_l prec emax _ a Em Fm F2) as [_ Ea].
      exists (fun _ => 0), (fun _ => 0). split.
      { rewrite Ea. cbn [length rsum]. unfold entry_R. cbn [map nth Rpow_def.pow]. ring. }
      split; [intros; apply perturb_0, pow_ge_1, U1|]. split; [|reflexivity]. intros j Hj. simpl in Hj. lia.
    + set (q := b :: p) in *. cbn [length Nat.sub]. rewrite Nat.sub_0_r.
      change (fl_horner prec emax (a :: q) x) with (fl_add prec emax (fl_mul prec emax (fl_horner prec emax q x) x) a) in *.
      destruct (add_model prec emax _ _ F) as (F1 & F2 & d' & Hd & Ed).
      destruct (mul_model prec emax _ _ F1) as (F3 & F4 & e & h' & He' & Hh & Em).
      destruct (IH F3) as (d & h & E & D & B & Z). clear IH.
      assert (Lq : length q = S (length p)) by reflexivity.
      rewrite Lq in D, B, Z. replace (S (length p) - 1)%nat with (length p) in D, B, Z by lia.
      destruct (perturb_mul e d' (1 + u) (1 + u) (perturb_u _ He') (perturb_u _ Hd)) as (k & Hk & Ek).
      exists (fun j => match j with O => d' | S j' => (1 + d j') * (1 + k) - 1 end),
             (fun j => match j with O => h' * (1 + d') | S j' => h j' * (1 + k) end).
      split; [|split; [|split]].
      * rewrite Ed, Em, E, Lq. clear E. rewrite (rsum_shift (S (length p))).
        rewrite (rsum_ext (S (length p))
                   (fun i => (entry_R (a :: q) (S i) * (1 + ((1 + d i) * (1 + k) - 1)) + h i * (1 + k)) * B2R x ^ S i)
                   (fun i => (1 + k) * B2R x * ((entry_R q i * (1 + d i) + h i) * B2R x ^ i))).
        2:{ intros i _. rewrite coeff_S. cbn [Rpow_def.pow]. ring. }
        rewrite rsum_scal. change (entry_R (a :: q) 0) with (B2R a). rewrite Ek. cbn [Rpow_def.pow]. ring.
      * rewrite Lq. intros [|j] Hj.
        { unfold hexp. replace (Nat.min _ _) with 1%nat by lia. rewrite pow_1. apply perturb_u, Hd. }
        assert (Hj' : (j <= length p)%nat) by lia. specialize (D j Hj').
        destruct (perturb_mul (d j) k _ _ D Hk) as (m & Hm & Em'). rewrite <- Em'.
        replace (1 + m - 1) with m by ring. eapply Rle_trans; [exact Hm|].
        replace ((1 + u) ^ hexp (length p) j * ((1 + u) * (1 + u))) with ((1 + u) ^ (hexp (length p) j + 2)) by (rewrite pow_add; cbn [Rpow_def.pow]; ring).
        apply Rplus_le_compat_r, pow_mono; [exact U1|]. unfold hexp. lia.
      * rewrite Lq. intros [|j] Hj.
        { rewrite Rabs_mult, Nat.mul_0_r, Nat.add_0_l, pow_1, Rmult_comm. apply Rmult_le_compat; try apply Rabs_pos; [|exact Hh].
          apply perturb_abs, perturb_u, Hd. }
        assert (Hj' : (j < length p)%nat) by lia. specialize (B j Hj').
        rewrite Rabs_mult. replace (2 * S j + 1)%nat with ((2 * j + 1) + 2)%nat by lia. rewrite pow_add.
        replace ((1 + u) ^ (2 * j + 1) * (1 + u) ^ 2 * eta) with ((1 + u) ^ (2 * j + 1) * eta * ((1 + u) * (1 + u))) by (cbn [Rpow_def.pow]; ring).
        apply Rmult_le_compat; try apply Rabs_pos; [exact B|]. apply perturb_abs, Hk.
      * rewrite Lq. intros [|j] Hj; [lia|]. rewrite Z by lia. ring.
Qed.

(** ** Sums of products *)
Section Dot.
Context (a b : nat -> fl).

Definition backward (n : nat) (r : R) : Prop :=
  exists (d : nat -> R) (m : R),
    r = rsum n (fun i => B2R (a i) * (1 + d i) * B2R (b i)) + m
    /\ (forall i, (i < n)%nat -> Rabs (d i) <= (1 + u) ^ n - 1)
    /\ Rabs m <= INR n * (1 + u) ^ (n - 1) * eta.

Lemma backward_1 : is_finite (fl_mul prec emax (a 0) (b 0)) = true -> backward 1 (B2R (fl_mul prec emax (a 0) (b 0))).
Proof.
  intros F. destruct (mul_model prec emax _ _ F) as (_ & _ & e & h & He' & Hh & E).
  exists (fun _ => e), h. split; [rewrite E; cbn [rsum]; ring|]. split.
  - intros i _. rewrite pow_1. apply perturb_u, He'.
  - cbn [INR Nat.sub Rpow_def.pow]. lra.
Qed.

Lemma backward_S n (s : fl) : is_finite (fl_add prec emax s (fl_mul prec emax (a (S n)) (b (S n)))) = true ->
  backward (S n) (B2R s) -> backward (S (S n)) (B2R (fl_add prec emax s (fl_mul prec emax (a (S n)) (b (S n))))).
Proof.
  intros F (d & m & E & D & M). pose proof one_u as U1. pose proof (eta_pos prec emax) as EP.
  destruct (add_model prec emax _ _ F) as (_ & F2 & d' & Hd & Ed).
  destruct (mul_model prec emax _ _ F2) as (_ & _ & e & h & He' & Hh & Em).
  destruct (perturb_mul e d' (1 + u) (1 + u) (perturb_u _ He') (perturb_u _ Hd)) as (k & Hk & Ek).
  exists (fun i => if (i =? S n)%nat then k else (1 + d i) * (1 + d') - 1), ((m + h) * (1 + d')).
  split; [|split].
  - rewrite Ed, Em, E. change (rsum (S (S n))) with (fun f => rsum (S n) f + f (S n)). cbv beta.
    rewrite (rsum_ext (S n) (fun i => B2R (a i) * (1 + (if (i =? S n)%nat then k else (1 + d i) * (1 + d') - 1)) * B2R (b i))
               (fun i => (1 + d') * (B2R (a i) * (1 + d i) * B2R (b i)))).
    2:{ intros i Hi. destruct (Nat.eqb_spec i (S n)); [lia|]. ring. }
    rewrite rsum_scal, Nat.eqb_refl, Ek. ring.
  - intros i Hi. destruct (Nat.eqb_spec i (S n)) as [->|Hn].
    + eapply Rle_trans; [exact Hk|]. apply Rplus_le_compat_r.
      replace ((1 + u) * (1 + u)) with ((1 + u) ^ 2) by (cbn [Rpow_def.pow]; ring). apply pow_mono; [exact U1|lia].
    + assert (Hi' : (i < S n)%nat) by lia. specialize (D i Hi').
      destruct (perturb_mul (d i) d' _ _ D (perturb_u _ Hd)) as (q & Hq & Eq). rewrite <- Eq.
      replace (1 + q - 1) with q by ring. rewrite (Rmult_comm _ (1 + u)) in Hq. exact Hq.
  - rewrite Rabs_mult. eapply Rle_trans; [|apply (U_step prec emax)].
    apply Rmult_le_compat; try apply Rabs_pos; [|apply perturb_abs, perturb_u, Hd].
    eapply Rle_trans; [apply Rabs_triang|]. lra.
Qed.

Lemma dot_backward n : is_finite (fdot prec emax a b n) = true -> backward n (B2R (fdot prec emax a b n)).
Proof.
  induction n as [|n IH]; intros F.
  - exists (fun _ => 0), 0. split; [cbn [rsum]; rewrite Rplus_0_r; apply zero_value|]. split; [intros; lia|].
    rewrite Rabs_R0. cbn [INR]. lra.
  - destruct n as [|n].
    + change (fdot prec emax a b 1) with (fl_add prec emax (fl_int prec emax 0) (fl_mul prec emax (a 0) (b 0))) in *.
      destruct (add_model prec emax _ _ F) as (_ & F2 & _).
      destruct (add_0_l prec emax _ _ (proj1 (zero_value prec emax)) (proj2 (zero_value prec emax)) F2) as [_ ->].
      apply backward_1, F2.
    + change (fdot prec emax a b (S (S n))) with (fl_add prec emax (fdot prec emax a b (S n)) (fl_mul prec emax (a (S n)) (b (S n)))) in *.
      apply backward_S; [exact F|]. apply IH. apply (add_model prec emax _ _ F).
Qed.
Lemma dot1_backward n : is_finite (fdot1 prec emax a b n) = true -> backward (S n) (B2R (fdot1 prec emax a b n)).
Proof.
  induction n as [|n IH]; intros F.
  - apply backward_1, F.
  - apply backward_S; [exact F|]. apply IH. apply (add_model prec emax _ _ F).
Qed.
End Dot.
End Fmt.
