(** IEEE addition, multiplication and square root are monotone (rounding is), infinities
    included; so are Horner's rule and sums of products of non-negative numbers. *)
From Coq Require Import List ZArith Reals Bool Lia Lra.
From Flocq Require Import Core.Core IEEE754.BinarySingleNaN.
From Verif Require Import Base.Outcome Base.Array Model.Traits Model.Float
  Spec.Ring Spec.Sums Spec.FloatErr Proofs.FloatErr Proofs.FloatRound Proofs.FloatSpecial.
Import ListNotations.
Local Open Scope R_scope.

Section Fmt.
Context (prec emax : Z) {Hp : Prec_gt_0 prec} {He : Prec_lt_emax prec emax}.
Notation fl := (binary_float prec emax).
Notation add := (fl_add prec emax).
Notation sub := (fl_sub prec emax).
Notation mul := (fl_mul prec emax).
Notation nan := (@B754_nan prec emax).
Notation zero := (fl_int prec emax 0).
Notation sig := (float_sig prec emax).
Notation rnd := (round radix2 (SpecFloat.fexp prec emax) (round_mode mode_NE)).
Notation big := (bpow radix2 emax).
Notation pinf := (@B754_infinity prec emax false).
Notation minf := (@B754_infinity prec emax true).
Notation "x <=. y" := (Bleb x y = true) (at level 70).

(** ** The order *)
Lemma leb_iff (x y : fl) : x <=. y <->
  is_nan x = false /\ is_nan y = false /\
  (x = minf \/ y = pinf \/ (is_finite x = true /\ is_finite y = true /\ B2R x <= B2R y)).
Proof.
  destruct (is_finite x && is_finite y)%bool eqn:F.
  - apply andb_prop in F as [Fx Fy]. rewrite Bleb_correct by assumption. split.
    + intros H. split; [destruct x; (reflexivity || discriminate)|]. split; [destruct y; (reflexivity || discriminate)|].
      right. right. split; [exact Fx|split; [exact Fy|]]. revert H. apply Rle_bool_true_iff || idtac.
      intros H. destruct (Rle_bool_spec (B2R x) (B2R y)); [assumption|discriminate].
    + intros (_ & _ & [->|[->|(_ & _ & H)]]); try discriminate. apply Rle_bool_true, H.
  - split.
    + intros H. destruct x as [s|s| |s m e B], y as [t|t| |t m' e' B']; try discriminate F; try destruct s; try destruct t; try discriminate H;
        (split; [reflexivity|split; [reflexivity|auto]]).
    + intros (Nx & Ny & [->|[->|(Fx & Fy & _)]]).
      * destruct y as [t|t| |t m' e' B']; try discriminate; try destruct t; reflexivity.
      * destruct x as [t|t| |t m' e' B']; try discriminate; try destruct t; reflexivity.
      * rewrite Fx, Fy in F. discriminate.
Qed.

Lemma leb_finite (x y : fl) : is_finite x = true -> is_finite y = true -> (x <=. y <-> B2R x <= B2R y).
Proof.
  intros Fx Fy. rewrite leb_iff. split.
  - intros (_ & _ & [->|[->|(_ & _ & H)]]); [discriminate|discriminate|exact H].
  - intros H. split; [destruct x; (reflexivity || discriminate)|]. split; [destruct y; (reflexivity || discriminate)|]. auto.
Qed.

Lemma leb_refl (x : fl) : is_nan x = false -> x <=. x.
Proof.
  intros H. apply leb_iff. split; [exact H|split; [exact H|]].
  destruct x as [s|s| |s m e B]; try discriminate; try (right; right; repeat split; (reflexivity || lra)).
  destruct s; auto.
Qed.

Lemma leb_trans (x y z : fl) : x <=. y -> y <=. z -> x <=. z.
Proof.
  rewrite !leb_iff. intros (Nx & Ny & H1) (_ & Nz & H2). split; [exact Nx|split; [exact Nz|]].
  destruct H1 as [->|[->|(Fx & Fy & H1)]]; [auto| |].
  - destruct H2 as [?|[->|(F & _)]]; [discriminate|auto|discriminate].
  - destruct H2 as [->|[->|(_ & Fz & H2)]]; [discriminate|auto|]. right. right. repeat split; auto. lra.
Qed.

Lemma zero_zero : zero <=. zero.
Proof. apply leb_refl. destruct (zero_value prec emax) as [_ F]. destruct zero; (reflexivity || discriminate). Qed.

Lemma minf_least (y : fl) : is_nan y = false -> minf <=. y.
Proof. intros H. apply leb_iff. auto. Qed.
Lemma pinf_greatest (x : fl) : is_nan x = false -> x <=. pinf.
Proof. intros H. apply leb_iff. auto. Qed.

Lemma finite_num (x : fl) : is_finite x = true -> is_nan x = false.
Proof. destruct x; (reflexivity || discriminate). Qed.

Lemma nonneg_iff (x : fl) : zero <=. x <-> is_nan x = false /\ (x = pinf \/ (is_finite x = true /\ 0 <= B2R x)).
Proof.
  destruct (zero_value prec emax) as [V F]. rewrite leb_iff, V. split.
  - intros (_ & Nx & [E|[->|(_ & Fx & H)]]); [rewrite E in F; discriminate| |]; auto.
  - intros (Nx & [->|(Fx & H)]); repeat split; auto using finite_num.
Qed.

(** ** Correct rounding, overflow included *)
Definition rounded (v : R) (r : fl) : Prop :=
  (Rabs (rnd v) < big /\ is_finite r = true /\ B2R r = rnd v)
  \/ (big <= rnd v /\ r = pinf) \/ (rnd v <= - big /\ r = minf).

Lemma rounded_num v r : rounded v r -> is_nan r = false.
Proof. intros [(_ & F & _)|[(_ & ->)|(_ & ->)]]; [apply finite_num, F|reflexivity|reflexivity]. Qed.

Lemma rounded_mono v w r s : v <= w -> rounded v r -> rounded w s -> r <=. s.
Proof.
  intros H Hr Hs. pose proof (rounded_num _ _ Hr) as Nr. pose proof (rounded_num _ _ Hs) as Ns.
  pose proof (rnd_le prec emax _ _ H) as L. pose proof (bpow_gt_0 radix2 emax) as P.
  destruct Hr as [(A & Fr & Vr)|[(A & ->)|(A & ->)]]; [| |apply minf_least, Ns];
    destruct Hs as [(B & Fs & Vs)|[(B & ->)|(B & ->)]]; try (apply pinf_greatest; assumption).
  - apply leb_finite; [exact Fr|exact Fs|]. lra.
  - apply Rabs_lt_inv in A. lra.
  - apply Rabs_lt_inv in B. lra.
  - lra.
Qed.

Lemma overflow_inf s (x : fl) : B2SF x = binary_overflow prec emax mode_NE s -> x = B754_infinity s.
Proof. intros H. apply B2SF_inj. rewrite H. reflexivity. Qed.

Lemma rnd_sign_overflow v s : (s = false -> 0 <= v) -> (s = true -> v <= 0) -> big <= Rabs (rnd v) ->
  rounded v (B754_infinity s).
Proof.
  intros Hf Ht H. right. destruct s.
  - right. split; [|reflexivity]. pose proof (rnd_nonpos prec emax v (Ht eq_refl)). rewrite Rabs_left1 in H by assumption. lra.
  - left. split; [|reflexivity]. pose proof (rnd_nonneg prec emax v (Hf eq_refl)). rewrite Rabs_pos_eq in H by assumption. lra.
Qed.

Lemma sign_nonneg (x : fl) : is_finite x = true -> Bsign x = false -> 0 <= B2R x.
Proof.
  destruct x as [s|s| |s m e B]; intros F S; try discriminate; [simpl; lra|]. simpl in S. subst s.
  apply F2R_ge_0. simpl. lia.
Qed.
Lemma sign_nonpos (x : fl) : is_finite x = true -> Bsign x = true -> B2R x <= 0.
Proof.
  destruct x as [s|s| |s m e B]; intros F S; try discriminate; [simpl; lra|]. simpl in S. subst s.
  apply F2R_le_0. simpl. lia.
Qed.

Lemma add_rounded (x y : fl) : is_finite x = true -> is_finite y = true -> rounded (B2R x + B2R y) (add x y).
Proof.
  intros Fx Fy. pose proof (Bplus_correct prec emax Hp He mode_NE x y Fx Fy) as C. unfold fl_add.
  destruct (Rlt_bool_spec (Rabs (rnd (B2R x + B2R y))) big) as [L|L].
  - destruct C as (V & F & _). left. auto.
  - destruct C as (C & S). apply overflow_inf in C. rewrite C. apply rnd_sign_overflow; [| |exact L].
    + intros E. rewrite E in S. pose proof (sign_nonneg x Fx E). symmetry in S. pose proof (sign_nonneg y Fy S). lra.
    + intros E. rewrite E in S. pose proof (sign_nonpos x Fx E). symmetry in S. pose proof (sign_nonpos y Fy S). lra.
Qed.

Lemma mul_rounded (x y : fl) : is_finite x = true -> is_finite y = true -> rounded (B2R x * B2R y) (mul x y).
Proof.
  intros Fx Fy. pose proof (Bmult_correct prec emax Hp He mode_NE x y) as C. unfold fl_mul.
  destruct (Rlt_bool_spec (Rabs (rnd (B2R x * B2R y))) big) as [L|L].
  - destruct C as (V & F & _). left. rewrite F, Fx, Fy. auto.
  - apply overflow_inf in C. rewrite C. apply rnd_sign_overflow; [| |exact L];
      destruct (Bsign x) eqn:Sx, (Bsign y) eqn:Sy; simpl; try discriminate; intros _.
    + pose proof (sign_nonpos x Fx Sx). pose proof (sign_nonpos y Fy Sy). nra.
    + pose proof (sign_nonneg x Fx Sx). pose proof (sign_nonneg y Fy Sy). nra.
    + pose proof (sign_nonpos x Fx Sx). pose proof (sign_nonneg y Fy Sy). nra.
    + pose proof (sign_nonneg x Fx Sx). pose proof (sign_nonpos y Fy Sy). nra.
Qed.

(** ** Monotone operations *)
Lemma add_minf_l (y : fl) : is_nan (add minf y) = false -> add minf y = minf.
Proof. destruct y as [s|s| |s m e B]; try destruct s; simpl; (reflexivity || discriminate). Qed.
Lemma add_minf_r (x : fl) : is_nan (add x minf) = false -> add x minf = minf.
Proof. destruct x as [s|s| |s m e B]; try destruct s; simpl; (reflexivity || discriminate). Qed.
Lemma add_pinf_l (y : fl) : is_nan (add pinf y) = false -> add pinf y = pinf.
Proof. destruct y as [s|s| |s m e B]; try destruct s; simpl; (reflexivity || discriminate). Qed.
Lemma add_pinf_r (x : fl) : is_nan (add x pinf) = false -> add x pinf = pinf.
Proof. destruct x as [s|s| |s m e B]; try destruct s; simpl; (reflexivity || discriminate). Qed.

Lemma add_mono (x x' y y' : fl) : x <=. x' -> y <=. y' ->
  is_nan (add x y) = false -> is_nan (add x' y') = false -> add x y <=. add x' y'.
Proof.
  intros Hx Hy N N'. apply leb_iff in Hx as (Nx & Nx' & Hx). apply leb_iff in Hy as (Ny & Ny' & Hy).
  destruct Hx as [->|[->|(Fx & Fx' & Hx)]].
  { rewrite add_minf_l by exact N. apply minf_least, N'. }
  { rewrite add_pinf_l by exact N'. apply pinf_greatest, N. }
  destruct Hy as [->|[->|(Fy & Fy' & Hy)]].
  { rewrite add_minf_r by exact N. apply minf_least, N'. }
  { rewrite add_pinf_r by exact N'. apply pinf_greatest, N. }
  eapply rounded_mono; [|apply add_rounded; assumption|apply add_rounded; assumption]. lra.
Qed.

Lemma opp_mono (x y : fl) : x <=. y -> Bopp y <=. Bopp x.
Proof.
  intros H. apply leb_iff in H as (Nx & Ny & H). apply leb_iff.
  split; [rewrite is_nan_Bopp; exact Ny|]. split; [rewrite is_nan_Bopp; exact Nx|].
  destruct H as [->|[->|(Fx & Fy & H)]]; [right; left; reflexivity|left; reflexivity|].
  right. right. rewrite !is_finite_Bopp, !B2R_Bopp. repeat split; auto. lra.
Qed.

Lemma sub_mono (x x' y y' : fl) : x <=. x' -> y <=. y' ->
  is_nan (sub x y') = false -> is_nan (sub x' y) = false -> sub x y' <=. sub x' y.
Proof. rewrite !sub_add. intros Hx Hy. apply add_mono; [exact Hx|apply opp_mono, Hy]. Qed.

Lemma nonneg_zero_num (x : fl) : zero <=. x -> is_nan x = false.
Proof. intros H. apply nonneg_iff in H. tauto. Qed.

Lemma mul_pinf (y : fl) : zero <=. y -> is_nan (mul pinf y) = false -> mul pinf y = pinf.
Proof.
  intros H. apply nonneg_iff in H as (_ & [->|(F & H)]); [reflexivity|].
  destruct y as [s|s| |s m e B]; simpl; try discriminate.
  destruct s; [|reflexivity]. exfalso. cut (B2R (B754_finite true m e B) < 0); [lra|]. apply F2R_lt_0. reflexivity.
Qed.

Lemma mul_mono (x x' y y' : fl) : zero <=. x -> x <=. x' -> zero <=. y -> y <=. y' ->
  is_nan (mul x y) = false -> is_nan (mul x' y') = false -> mul x y <=. mul x' y'.
Proof.
  intros Px Hx Py Hy N N'.
  pose proof (leb_trans _ _ _ Px Hx) as Px'. pose proof (leb_trans _ _ _ Py Hy) as Py'.
  pose proof Px' as Qx. pose proof Py' as Qy.
  apply nonneg_iff in Qx as (_ & [E|(Fx' & _)]).
  { subst x'. rewrite (mul_pinf y' Py' N'). apply pinf_greatest, N. }
  apply nonneg_iff in Qy as (_ & [E|(Fy' & _)]).
  { subst y'. rewrite FloatComm.fl_mul_comm in N' |- *. rewrite (FloatComm.fl_mul_comm _ _ x' pinf), (mul_pinf x' Px' N').
    apply pinf_greatest. rewrite FloatComm.fl_mul_comm. exact N. }
  assert (Fx : is_finite x = true /\ 0 <= B2R x /\ B2R x <= B2R x').
  { apply nonneg_iff in Px as (_ & [->|(Fx & P)]); apply leb_iff in Hx as (_ & _ & [E|[E|(F1 & _ & L)]]); try discriminate; try (rewrite E in *; discriminate); auto. }
  assert (Fy : is_finite y = true /\ 0 <= B2R y /\ B2R y <= B2R y').
  { apply nonneg_iff in Py as (_ & [->|(Fy & P)]); apply leb_iff in Hy as (_ & _ & [E|[E|(F1 & _ & L)]]); try discriminate; try (rewrite E in *; discriminate); auto. }
  destruct Fx as (Fx & P1 & L1), Fy as (Fy & P2 & L2).
  eapply rounded_mono; [|apply mul_rounded; assumption|apply mul_rounded; assumption].
  apply Rmult_le_compat; assumption.
Qed.

Lemma rounded_nonneg v r : 0 <= v -> rounded v r -> zero <=. r.
Proof.
  intros H Hr. apply nonneg_iff. split; [apply (rounded_num _ _ Hr)|]. pose proof (rnd_nonneg prec emax v H).
  pose proof (bpow_gt_0 radix2 emax). destruct Hr as [(_ & F & V)|[(_ & ->)|(L & ->)]]; [right; split; [exact F|lra]|auto|lra].
Qed.

Lemma add_nonneg (x y : fl) : zero <=. x -> zero <=. y -> zero <=. add x y.
Proof.
  intros Hx Hy. pose proof Hx as Qx. pose proof Hy as Qy.
  apply nonneg_iff in Qx as (Nx & [->|(Fx & Px)]).
  { apply nonneg_iff in Qy as (Ny & [->|(Fy & Py)]); [reflexivity|]. rewrite add_pinf_l; [reflexivity|].
    destruct y as [s|s| |s m e B]; try discriminate; reflexivity. }
  apply nonneg_iff in Qy as (Ny & [->|(Fy & Py)]).
  { rewrite add_pinf_r; [reflexivity|]. destruct x as [s|s| |s m e B]; try discriminate; reflexivity. }
  eapply rounded_nonneg; [|apply add_rounded; assumption]. lra.
Qed.

Lemma mul_nonneg (x y : fl) : is_finite x = true -> is_finite y = true -> zero <=. x -> zero <=. y -> zero <=. mul x y.
Proof.
  intros Fx Fy Hx Hy. destruct (zero_value prec emax) as [V F].
  apply (leb_finite _ _ F Fx) in Hx. apply (leb_finite _ _ F Fy) in Hy. rewrite V in Hx, Hy.
  eapply rounded_nonneg; [|apply mul_rounded; assumption]. apply Rmult_le_pos; assumption.
Qed.

(** 0 <= x <= y, both finite. *)
Definition ordered (x y : fl) : Prop := zero <=. x /\ x <=. y /\ is_finite y = true.

Lemma ordered_finite (x y : fl) : ordered x y ->
  is_finite x = true /\ is_finite y = true /\ zero <=. x /\ zero <=. y /\ x <=. y.
Proof.
  intros (P & H & F). split; [|split; [exact F|split; [exact P|split; [eapply leb_trans; eassumption|exact H]]]].
  apply nonneg_iff in P as (_ & [->|(Fx & _)]); [|exact Fx].
  apply leb_iff in H as (_ & _ & [E|[E|(E & _)]]); [discriminate|subst; discriminate|discriminate].
Qed.

Lemma mul_ordered (x x' y y' : fl) : ordered x x' -> ordered y y' -> zero <=. mul x y /\ mul x y <=. mul x' y'.
Proof.
  intros Hx Hy. apply ordered_finite in Hx as (Fx & Fx' & P1 & P2 & L1), Hy as (Fy & Fy' & P3 & P4 & L2).
  split; [apply mul_nonneg; assumption|]. apply mul_mono; auto; eapply rounded_num; apply mul_rounded; assumption.
Qed.

Lemma sum_mono (f g : nat -> fl) n : (forall i, (i < n)%nat -> zero <=. f i /\ f i <=. g i) ->
  zero <=. sum_n sig n f /\ sum_n sig n f <=. sum_n sig n g.
Proof.
  induction n as [|n IH]; intros H; cbn [sum_n]; [split; exact zero_zero|].
  destruct IH as [P L]; [intros; apply H; lia|]. destruct (H n) as [P' L']; [lia|].
  pose proof (add_nonneg _ _ P P'). split; [assumption|].
  apply add_mono; auto; apply nonneg_zero_num; [assumption|].
  apply add_nonneg; [apply (leb_trans _ _ _ P L)|apply (leb_trans _ _ _ P' L')].
Qed.

Lemma fdot_mono (a a' b b' : nat -> fl) n :
  (forall i, (i < n)%nat -> ordered (a i) (a' i)) -> (forall i, (i < n)%nat -> ordered (b i) (b' i)) ->
  zero <=. fdot prec emax a b n /\ fdot prec emax a b n <=. fdot prec emax a' b' n.
Proof. intros Ha Hb. apply sum_mono. intros i Hi. apply mul_ordered; auto. Qed.

Lemma fdot1_mono (a a' b b' : nat -> fl) n :
  (forall i, (i <= n)%nat -> ordered (a i) (a' i)) -> (forall i, (i <= n)%nat -> ordered (b i) (b' i)) ->
  zero <=. fdot1 prec emax a b n /\ fdot1 prec emax a b n <=. fdot1 prec emax a' b' n.
Proof.
  induction n as [|n IH]; intros Ha Hb; cbn [fdot1]; [apply mul_ordered; auto|].
  destruct IH as [P L]; [intros; apply Ha; lia|intros; apply Hb; lia|].
  destruct (mul_ordered _ _ _ _ (Ha (S n) (le_n _)) (Hb (S n) (le_n _))) as [P' L'].
  pose proof (add_nonneg _ _ P P'). split; [assumption|].
  apply add_mono; auto; apply nonneg_zero_num; [assumption|].
  apply add_nonneg; [apply (leb_trans _ _ _ P L)|apply (leb_trans _ _ _ P' L')].
Qed.

(** ** Horner's rule *)
Lemma horner_nonneg p x : (forall k, is_finite (nth k p zero) = true /\ zero <=. nth k p zero) ->
  is_finite x = true -> zero <=. x ->
  zero <=. fl_horner prec emax p x /\ (B2R x = 0 -> is_finite (fl_horner prec emax p x) = true).
Proof.
  intros H Fx Px. induction p as [|a p IH]; cbn [fl_horner]; [split; [exact zero_zero|intros _; apply (zero_value prec emax)]|].
  destruct IH as [P F]; [intros k; apply (H (S k))|]. destruct (H O) as [Fa Pa]. simpl in Fa, Pa.
  assert (Pm : zero <=. mul (fl_horner prec emax p x) x /\ (B2R x = 0 -> is_finite (mul (fl_horner prec emax p x) x) = true /\ B2R (mul (fl_horner prec emax p x) x) = 0)).
  { destruct (Req_dec (B2R x) 0) as [E|E].
    - specialize (F E). split; [apply mul_nonneg; assumption|]. intros _.
      pose proof (mul_0_l prec emax x (fl_horner prec emax p x) E Fx F) as M.
      rewrite FloatComm.fl_mul_comm in M. exact M.
    - split; [|congruence]. pose proof P as Q. apply nonneg_iff in Q as (_ & [->|(Fh & _)]); [|apply mul_nonneg; assumption].
      rewrite mul_pinf; [reflexivity|exact Px|]. destruct x as [s|s| |s m e B]; try discriminate; [elim E; reflexivity|destruct s; reflexivity]. }
  destruct Pm as [Pm Fm]. split; [apply add_nonneg; assumption|].
  intros E. destruct (Fm E) as [Fm' Vm]. apply (add_0_l prec emax _ a Vm Fm' Fa).
Qed.

Lemma horner_step_num p x : (forall k, is_finite (nth k p zero) = true /\ zero <=. nth k p zero) ->
  is_finite x = true -> zero <=. x -> is_nan (mul (fl_horner prec emax p x) x) = false.
Proof.
  intros H Fx Px. destruct (horner_nonneg p x H Fx Px) as [P F].
  destruct (Req_dec (B2R x) 0) as [E|E].
  - apply nonneg_zero_num, mul_nonneg; auto.
  - pose proof P as Q. apply nonneg_iff in Q as (_ & [->|(Fh & _)]); [|apply nonneg_zero_num, mul_nonneg; assumption].
    destruct x as [s|s| |s m e B]; try discriminate; [elim E; reflexivity|destruct s; reflexivity].
Qed.

Lemma horner_zero_step x : is_finite x = true -> zero <=. x -> add (mul zero x) zero = zero.
Proof.
  intros Fx Px. destruct x as [s|s| |s m e B]; try discriminate; [destruct s; reflexivity|].
  destruct s; reflexivity.
Qed.

Lemma horner_unfold p x : is_finite x = true -> zero <=. x ->
  fl_horner prec emax p x = add (mul (fl_horner prec emax (tl p) x) x) (nth 0 p zero).
Proof. intros Fx Px. destruct p as [|a p]; [symmetry; apply horner_zero_step; assumption|reflexivity]. Qed.

Lemma nth_tl {A} (p : list A) d k : nth k (tl p) d = nth (S k) p d.
Proof. destruct p; [destruct k; reflexivity|reflexivity]. Qed.

Lemma horner_mono p q x y : (forall k, ordered (nth k p zero) (nth k q zero)) -> ordered x y ->
  fl_horner prec emax p x <=. fl_horner prec emax q y.
Proof.
  intros H Hx. pose proof (ordered_finite _ _ Hx) as (Fx & Fy & Px & Py & Lx).
  remember (max (length p) (length q)) as n eqn:En. assert (Hn : (max (length p) (length q) <= n)%nat) by lia. clear En.
  revert p q H Hn. induction n as [|n IH]; intros p q H Hn.
  { destruct p, q; simpl in Hn; try lia. exact zero_zero. }
  rewrite (horner_unfold p x Fx Px), (horner_unfold q y Fy Py).
  assert (Hp' : forall k, is_finite (nth k (tl p) zero) = true /\ zero <=. nth k (tl p) zero).
  { intros k. rewrite nth_tl. destruct (ordered_finite _ _ (H (S k))) as (A & _ & B & _). auto. }
  assert (Hq' : forall k, is_finite (nth k (tl q) zero) = true /\ zero <=. nth k (tl q) zero).
  { intros k. rewrite nth_tl. destruct (ordered_finite _ _ (H (S k))) as (_ & A & _ & B & _). auto. }
  pose proof (ordered_finite _ _ (H O)) as (F0 & F0' & P0 & P0' & L0).
  pose proof (horner_nonneg (tl p) x Hp' Fx Px) as [Pp _]. pose proof (horner_nonneg (tl q) y Hq' Fy Py) as [Pq _].
  assert (L : mul (fl_horner prec emax (tl p) x) x <=. mul (fl_horner prec emax (tl q) y) y).
  { apply mul_mono; auto using horner_step_num. apply IH; [intros k; rewrite !nth_tl; apply H|].
    destruct p, q; simpl in *; lia. }
  assert (Pm : zero <=. mul (fl_horner prec emax (tl p) x) x).
  { eapply leb_trans; [|apply mul_mono with (x := zero) (y := zero); auto using horner_step_num; exact zero_zero]. exact zero_zero. }
  apply add_mono; auto; apply nonneg_zero_num, add_nonneg; auto. apply (leb_trans _ _ _ Pm L).
Qed.

(** ** Squares, absolute values, square roots *)
Lemma square_mono (x y : fl) : Babs x <=. Babs y -> zero <=. mul x x /\ mul x x <=. mul y y.
Proof.
  intros H. apply leb_iff in H as (Nx & Ny & H).
  assert (NX : x <> nan) by (intros ->; discriminate). assert (NY : y <> nan) by (intros ->; discriminate).
  pose proof (square_nonneg prec emax x NX) as Sx. pose proof (square_nonneg prec emax y NY) as Sy.
  pose proof (nonneg_leb prec emax _ Sx) as [Lx Mx]. pose proof (nonneg_leb prec emax _ Sy) as [Ly My]. split; [exact Lx|].
  destruct H as [E|[E|(Fx & Fy & H)]].
  - destruct x; discriminate.
  - assert (Ey : mul y y = pinf) by (destruct y as [s|s| |s m e B]; try discriminate; destruct s; reflexivity).
    rewrite Ey. apply pinf_greatest, Mx.
  - rewrite is_finite_Babs in Fx, Fy. rewrite !B2R_Babs in H.
    eapply rounded_mono; [|apply mul_rounded; assumption|apply mul_rounded; assumption].
    rewrite <- (Rabs_pos_eq (B2R x * B2R x)), <- (Rabs_pos_eq (B2R y * B2R y)) by apply Rle_0_sqr.
    rewrite !Rabs_mult. apply Rmult_le_compat; auto using Rabs_pos.
Qed.

Lemma sqrt_mono (x y : fl) : zero <=. x -> x <=. y -> Bsqrt mode_NE x <=. Bsqrt mode_NE y.
Proof.
  intros Px L. pose proof (leb_trans _ _ _ Px L) as Py.
  assert (N : forall x : fl, zero <=. x -> nonneg prec emax x).
  { clear. intros x H. apply nonneg_iff in H as (_ & [->|(F & P)]); [right; right; reflexivity|].
    destruct x as [s|s| |s m e B]; try discriminate; [left; eexists; reflexivity|]. destruct s; [|right; left; eauto].
    exfalso. cut (B2R (B754_finite true m e B) < 0); [lra|]. apply F2R_lt_0. reflexivity. }
  pose proof (nonneg_leb _ _ _ (sqrt_nonneg _ _ _ (N x Px))) as [_ Nx].
  pose proof (nonneg_leb _ _ _ (sqrt_nonneg _ _ _ (N y Py))) as [_ Ny].
  apply leb_iff in L as (_ & _ & [->|[->|(Fx & Fy & L)]]); [discriminate|simpl; apply pinf_greatest, Nx|].
  apply nonneg_iff in Px as (_ & [->|(_ & Px)]); [discriminate|].
  pose proof (sqrt_round prec emax x Fx Px) as Rx. pose proof (sqrt_round prec emax y Fy ltac:(lra)) as Ry.
  apply leb_finite; [apply Rx|apply Ry|]. rewrite (proj2 Rx), (proj2 Ry). apply rnd_le, sqrt_le_1_alt, L.
all: exact Hp. Qed.
End Fmt.
