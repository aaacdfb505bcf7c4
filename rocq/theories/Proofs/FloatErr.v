(** The standard model of floating-point arithmetic, derived from Flocq's IEEE semantics, and
    the error analysis of Horner's rule and of sums of products. *)
From Coq Require Import List ZArith Reals Bool Lia Lra Psatz.
From Flocq Require Import Core.Core IEEE754.BinarySingleNaN Relative Plus_error.
From Verif Require Import Base.Outcome Model.Traits Model.Float Model.Polynomial
  Spec.Ring Spec.Sums Spec.FloatErr.
Import ListNotations.
Local Open Scope R_scope.

(** ** Real sums *)
Lemma rsum_ext n f g : (forall i, (i < n)%nat -> f i = g i) -> rsum n f = rsum n g.
Proof. induction n; simpl; intros H; [reflexivity|]. rewrite IHn, H; auto. Qed.
Lemma rsum_shift n f : rsum (S n) f = f O + rsum n (fun i => f (S i)).
Proof. induction n; simpl in *; [ring|]. rewrite IHn. ring. Qed.
Lemma rsum_scal n c f : rsum n (fun i => c * f i) = c * rsum n f.
Proof. induction n; simpl; [ring|]. rewrite IHn. ring. Qed.
Lemma rsum_nonneg n f : (forall i, (i < n)%nat -> 0 <= f i) -> 0 <= rsum n f.
Proof. induction n; simpl; intros H; [lra|]. assert (0 <= f n) by auto. assert (0 <= rsum n f) by auto. lra. Qed.
Lemma rsum_le n f g : (forall i, (i < n)%nat -> f i <= g i) -> rsum n f <= rsum n g.
Proof. induction n; simpl; intros H; [lra|]. assert (f n <= g n) by auto. assert (rsum n f <= rsum n g) by auto. lra. Qed.
Lemma rsum_abs n f : Rabs (rsum n f) <= rsum n (fun i => Rabs (f i)).
Proof. induction n; simpl; [rewrite Rabs_R0; lra|]. eapply Rle_trans; [apply Rabs_triang|]. lra. Qed.

Lemma pow_ge_1 x n : 1 <= x -> 1 <= x ^ n.
Proof. intros. induction n; simpl; [lra|]. nra. Qed.
Lemma pow_mono x n m : 1 <= x -> (n <= m)%nat -> x ^ n <= x ^ m.
Proof. intros. apply Rle_pow; assumption. Qed.

Section Fmt.
Context (prec emax : Z) {Hp : Prec_gt_0 prec} {He : Prec_lt_emax prec emax}.
Notation fl := (binary_float prec emax).
Notation u := (unit_roundoff prec).
Notation eta := (underflow_unit prec emax).
Notation rnd := (round radix2 (SpecFloat.fexp prec emax) (round_mode mode_NE)).
Notation big := (too_big emax).

Lemma u_ro_eq : u_ro radix2 prec = u.
Proof. unfold u_ro, unit_roundoff. rewrite bpow_plus. change (bpow radix2 1) with 2. lra. Qed.
Lemma u_pos : 0 < u. Proof. apply bpow_gt_0. Qed.
Lemma eta_pos : 0 < eta. Proof. apply bpow_gt_0. Qed.
Lemma eta_eq : / 2 * bpow radix2 (SpecFloat.emin prec emax) = eta.
Proof.
  unfold underflow_unit, SpecFloat.emin. replace (3 - emax - prec)%Z with ((2 - emax - prec) + 1)%Z by ring.
  rewrite bpow_plus. change (bpow radix2 1) with 2. lra.
Qed.
Lemma u_ratio e : Rabs e <= u_ro radix2 prec / (1 + u_ro radix2 prec) -> Rabs e <= u.
Proof.
  rewrite u_ro_eq. pose proof u_pos. intros H1. eapply Rle_trans; [exact H1|].
  apply Rmult_le_reg_r with (1 + u); [lra|]. unfold Rdiv. rewrite Rmult_assoc, Rinv_l by lra. nra.
Qed.

Lemma format (x : fl) : generic_format radix2 (FLT_exp (SpecFloat.emin prec emax) prec) (B2R x).
Proof. apply generic_format_B2R. Qed.

Lemma rnd_add (x y : fl) : exists d, Rabs d <= u /\ rnd (B2R x + B2R y) = (B2R x + B2R y) * (1 + d).
Proof.
  destruct (FLT_plus_error_N_ex radix2 (SpecFloat.emin prec emax) prec (fun z => negb (Z.even z)) _ _ (format x) (format y))
    as (d & Hd & E).
  exists d. split; [apply u_ratio, Hd|]. exact E.
Qed.

Lemma rnd_any (v : R) : exists e h, Rabs e <= u /\ Rabs h <= eta /\ rnd v = v * (1 + e) + h.
Proof.
  destruct (relative_error_N_FLT'_ex radix2 (SpecFloat.emin prec emax) prec Hp (fun z => negb (Z.even z)) v)
    as (e & h & He' & Hh & _ & E).
  exists e, h. rewrite <- eta_eq. split; [apply u_ratio, He'|]. split; [exact Hh|exact E].
Qed.

Lemma overflow_not_finite m s (x : fl) : B2SF x = binary_overflow prec emax m s -> m = mode_NE -> is_finite x = false.
Proof. intros H ->. destruct x; [destruct s0; discriminate|reflexivity|reflexivity|discriminate]. Qed.

Lemma add_finite_args (x y : fl) : is_finite (fl_add prec emax x y) = true -> is_finite x = true /\ is_finite y = true.
Proof.
  unfold fl_add. destruct x as [sx|sx| |sx mx ex Bx], y as [sy|sy| |sy my ey By]; simpl; auto; try discriminate;
    destruct (Bool.eqb sx sy); discriminate.
Qed.

Lemma add_model (x y : fl) : is_finite (fl_add prec emax x y) = true ->
  is_finite x = true /\ is_finite y = true
  /\ exists d, Rabs d <= u /\ B2R (fl_add prec emax x y) = (B2R x + B2R y) * (1 + d).
Proof.
  intros H. destruct (add_finite_args x y H) as [Fx Fy]. split; [exact Fx|split; [exact Fy|]].
  pose proof (Bplus_correct prec emax Hp He mode_NE x y Fx Fy) as C. destruct (Rlt_bool _ _).
  - destruct C as (E & _ & _). destruct (rnd_add x y) as (d & Hd & Ed). exists d. split; [exact Hd|].
    unfold fl_add. rewrite E. exact Ed.
  - destruct C as (C & _). apply overflow_not_finite in C; [|reflexivity]. unfold fl_add in H. congruence.
Qed.

Lemma opp_finite (x : fl) : is_finite (Bopp x) = is_finite x.
Proof. destruct x; reflexivity. Qed.

Lemma sub_add (x y : fl) : fl_sub prec emax x y = fl_add prec emax x (Bopp y).
Proof. destruct x, y; reflexivity. Qed.

Lemma sub_model (x y : fl) : is_finite (fl_sub prec emax x y) = true ->
  is_finite x = true /\ is_finite y = true
  /\ exists d, Rabs d <= u /\ B2R (fl_sub prec emax x y) = (B2R x - B2R y) * (1 + d).
Proof.
  rewrite sub_add. intros H. destruct (add_model _ _ H) as (Fx & Fy & d & Hd & E).
  rewrite opp_finite in Fy. rewrite B2R_Bopp in E. split; [exact Fx|split; [exact Fy|]]. exists d.
  split; [exact Hd|]. rewrite E. ring.
Qed.

Lemma mul_model (x y : fl) : is_finite (fl_mul prec emax x y) = true ->
  is_finite x = true /\ is_finite y = true
  /\ exists e h, Rabs e <= u /\ Rabs h <= eta /\ B2R (fl_mul prec emax x y) = B2R x * B2R y * (1 + e) + h.
Proof.
  intros H. pose proof (Bmult_correct prec emax Hp He mode_NE x y) as C. destruct (Rlt_bool _ _).
  - destruct C as (E & F & _). unfold fl_mul in H. rewrite F in H. apply andb_prop in H as [Fx Fy].
    split; [exact Fx|split; [exact Fy|]]. destruct (rnd_any (B2R x * B2R y)) as (e & h & He' & Hh & Ed).
    exists e, h. split; [exact He'|split; [exact Hh|]]. unfold fl_mul. rewrite E. exact Ed.
  - apply overflow_not_finite in C; [|reflexivity]. unfold fl_mul in H. congruence.
Qed.

Lemma add_finite (x y : fl) : is_finite x = true -> is_finite y = true ->
  (1 + u) * Rabs (B2R x + B2R y) < big -> is_finite (fl_add prec emax x y) = true.
Proof.
  intros Fx Fy H. pose proof (Bplus_correct prec emax Hp He mode_NE x y Fx Fy) as C.
  rewrite Rlt_bool_true in C; [apply C|].
  destruct (rnd_add x y) as (d & Hd & ->). rewrite Rabs_mult. eapply Rle_lt_trans; [|exact H].
  rewrite Rmult_comm. apply Rmult_le_compat_r; [apply Rabs_pos|].
  eapply Rle_trans; [apply Rabs_triang|]. rewrite Rabs_R1. lra.
Qed.

Lemma mul_finite (x y : fl) : is_finite x = true -> is_finite y = true ->
  (1 + u) * Rabs (B2R x * B2R y) + eta < big -> is_finite (fl_mul prec emax x y) = true.
Proof.
  intros Fx Fy H. pose proof (Bmult_correct prec emax Hp He mode_NE x y) as C.
  rewrite Rlt_bool_true in C.
  - destruct C as (_ & F & _). unfold fl_mul. rewrite F, Fx, Fy. reflexivity.
  - destruct (rnd_any (B2R x * B2R y)) as (e & h & He' & Hh & ->).
    eapply Rle_lt_trans; [|exact H]. eapply Rle_trans; [apply Rabs_triang|]. rewrite Rabs_mult.
    assert (Rabs (1 + e) <= 1 + u) by (eapply Rle_trans; [apply Rabs_triang|]; rewrite Rabs_R1; lra).
    pose proof (Rabs_pos (B2R x * B2R y)). nra.
Qed.

(** Adding to or multiplying by a zero is exact. *)
Lemma add_0_l (x y : fl) : B2R x = 0 -> is_finite x = true -> is_finite y = true ->
  is_finite (fl_add prec emax x y) = true /\ B2R (fl_add prec emax x y) = B2R y.
Proof.
  intros H0 Fx Fy. pose proof (Bplus_correct prec emax Hp He mode_NE x y Fx Fy) as C.
  rewrite H0, Rplus_0_l in C. rewrite (round_generic radix2 _ _ (B2R y)) in C by apply generic_format_B2R.
  rewrite Rlt_bool_true in C by apply abs_B2R_lt_emax. destruct C as (E & F & _). auto.
Qed.

Lemma mul_0_l (x y : fl) : B2R x = 0 -> is_finite x = true -> is_finite y = true ->
  is_finite (fl_mul prec emax x y) = true /\ B2R (fl_mul prec emax x y) = 0.
Proof.
  intros H0 Fx Fy. pose proof (Bmult_correct prec emax Hp He mode_NE x y) as C.
  rewrite H0, Rmult_0_l, round_0, Rabs_R0 in C by apply valid_rnd_round_mode.
  rewrite Rlt_bool_true in C by apply bpow_gt_0. destruct C as (E & F & _). unfold fl_mul.
  rewrite F, Fx, Fy. auto.
Qed.

Lemma zero_value : B2R (fl_int prec emax 0) = 0 /\ is_finite (fl_int prec emax 0) = true.
Proof. split; reflexivity. Qed.

(** Error of an approximation [v] of [w] whose size is bounded by [a]. *)
Lemma abs_le_plus v w a e : Rabs w <= a -> Rabs (v - w) <= e -> Rabs v <= a + e.
Proof. intros H1 H2. replace v with (w + (v - w)) by ring. eapply Rle_trans; [apply Rabs_triang|]. lra. Qed.

(** One step of Horner's rule / of a dot product: [s' = (s*x(1+e)+h + a)(1+d)]. *)
Lemma horner_step y yh x a e h d Y k U :
  Rabs y <= Y -> Rabs (yh - y) <= ((1 + u) ^ k - 1) * Y + U -> 0 <= U ->
  Rabs e <= u -> Rabs h <= eta -> Rabs d <= u ->
  Rabs ((yh * x * (1 + e) + h + a) * (1 + d) - (y * x + a))
  <= ((1 + u) ^ (k + 2) - 1) * (Y * Rabs x + Rabs a) + (U * (1 + u) ^ 2 * Rabs x + (1 + u) * eta).
Proof.
  intros Hy Hyh HU He' Hh Hd. pose proof u_pos as Hu. pose proof eta_pos as Ht.
  set (g := (1 + u) ^ k) in *. assert (Hg : 1 <= g) by (apply pow_ge_1; lra).
  replace ((1 + u) ^ (k + 2)) with (g * (1 + u) ^ 2) by (unfold g; rewrite pow_add; reflexivity).
  replace ((yh * x * (1 + e) + h + a) * (1 + d) - (y * x + a))
    with ((yh - y) * x * ((1 + e) * (1 + d)) + y * x * ((1 + e) * (1 + d) - 1) + h * (1 + d) + a * d) by ring.
  assert (H1 : Rabs ((1 + e) * (1 + d) - 1) <= (1 + u) ^ 2 - 1).
  { replace ((1 + e) * (1 + d) - 1) with (e + d + e * d) by ring.
    eapply Rle_trans; [apply Rabs_triang|]. eapply Rle_trans; [apply Rplus_le_compat_r, Rabs_triang|].
    rewrite Rabs_mult. pose proof (Rabs_pos e). pose proof (Rabs_pos d).
    assert (Rabs e * Rabs d <= u * u) by (apply Rmult_le_compat; assumption). nra. }
  assert (H2 : Rabs ((1 + e) * (1 + d)) <= (1 + u) ^ 2).
  { replace ((1 + e) * (1 + d)) with (1 + ((1 + e) * (1 + d) - 1)) by ring.
    eapply Rle_trans; [apply Rabs_triang|]. rewrite Rabs_R1. lra. }
  assert (H3 : Rabs (1 + d) <= 1 + u) by (eapply Rle_trans; [apply Rabs_triang|]; rewrite Rabs_R1; lra).
  set (X := Rabs x). assert (HX : 0 <= X) by apply Rabs_pos.
  assert (HY : 0 <= Y) by (eapply Rle_trans; [apply Rabs_pos|exact Hy]).
  eapply Rle_trans; [apply Rabs_triang|]. eapply Rle_trans; [apply Rplus_le_compat_r, Rabs_triang|].
  eapply Rle_trans; [apply Rplus_le_compat_r, Rplus_le_compat_r, Rabs_triang|].
  rewrite !Rabs_mult. rewrite <- (Rabs_mult (1 + e)). fold X.
  assert (T1 : Rabs (yh - y) * X * Rabs ((1 + e) * (1 + d)) <= ((g - 1) * Y + U) * X * (1 + u) ^ 2).
  { apply Rmult_le_compat; [apply Rmult_le_pos; [apply Rabs_pos|exact HX]|apply Rabs_pos| |exact H2].
    apply Rmult_le_compat_r; assumption. }
  assert (T2 : Rabs y * X * Rabs ((1 + e) * (1 + d) - 1) <= Y * X * ((1 + u) ^ 2 - 1)).
  { apply Rmult_le_compat; [apply Rmult_le_pos; [apply Rabs_pos|exact HX]|apply Rabs_pos| |exact H1].
    apply Rmult_le_compat_r; assumption. }
  assert (T3 : Rabs h * Rabs (1 + d) <= eta * (1 + u)) by (apply Rmult_le_compat; try apply Rabs_pos; assumption).
  assert (T4 : Rabs a * Rabs d <= Rabs a * (g * (1 + u) ^ 2 - 1)).
  { apply Rmult_le_compat_l; [apply Rabs_pos|]. eapply Rle_trans; [exact Hd|]. nra. }
  lra.
Qed.

(** Horner's rule as a recursive function. *)
Fixpoint fl_horner (p : list fl) (x : fl) : fl :=
  match p with
  | [] => fl_int prec emax 0
  | a :: p' => fl_add prec emax (fl_mul prec emax (fl_horner p' x) x) a
  end.

Lemma poly_eval_horner p x : poly_eval (float_ring prec emax) p x = Ok (fl_horner p x).
Proof.
  unfold poly_eval, poly_eval_ref. induction p as [|a p IH]; [reflexivity|].
  simpl rev. rewrite for_each_app, IH. reflexivity.
Qed.

Lemma coeff_S a (p : list fl) i : entry_R (a :: p) (S i) = entry_R p i.
Proof. reflexivity. Qed.

Lemma exact_cons a (p : list fl) x : exact_eval (a :: p) x = exact_eval p x * x + B2R a.
Proof.
  unfold exact_eval. simpl length. rewrite rsum_shift. change (entry_R (a :: p) 0) with (B2R a).
  rewrite (rsum_ext _ _ (fun i => x * (entry_R p i * x ^ i))) by (intros; rewrite coeff_S; simpl; ring).
  rewrite rsum_scal. simpl. ring.
Qed.
Lemma abs_cons a (p : list fl) x : abs_eval (a :: p) x = abs_eval p x * Rabs x + Rabs (B2R a).
Proof.
  unfold abs_eval. simpl length. rewrite rsum_shift. change (entry_R (a :: p) 0) with (B2R a).
  rewrite (rsum_ext _ _ (fun i => Rabs x * (Rabs (entry_R p i) * Rabs x ^ i))) by (intros; rewrite coeff_S; simpl; ring).
  rewrite rsum_scal. simpl. ring.
Qed.
Lemma exact_le_abs (p : list fl) x : Rabs (exact_eval p x) <= abs_eval p x.
Proof.
  unfold exact_eval, abs_eval. eapply Rle_trans; [apply rsum_abs|]. apply rsum_le. intros i _.
  rewrite Rabs_mult, RPow_abs. lra.
Qed.
Lemma abs_eval_nonneg (p : list fl) x : 0 <= abs_eval p x.
Proof. eapply Rle_trans; [apply Rabs_pos|apply exact_le_abs]. Qed.

Lemma horner_finite_args p x : is_finite (fl_horner p x) = true ->
  Forall (fun a : fl => is_finite a = true) p /\ (p <> [] -> is_finite x = true).
Proof.
  induction p as [|a p IH]; simpl; intros H; [split; [constructor|congruence]|].
  destruct (add_model _ _ H) as (F1 & F2 & _). destruct (mul_model _ _ F1) as (F3 & F4 & _).
  destruct (IH F3) as [FA _]. split; [constructor; assumption|auto].
Qed.

Definition ufl (x : R) (n : nat) : R := rsum n (fun i => (1 + u) ^ (2 * i + 1) * Rabs x ^ i) * eta.

Lemma ufl_nonneg x n : 0 <= ufl x n.
Proof.
  apply Rmult_le_pos; [|apply Rlt_le, eta_pos]. apply rsum_nonneg. intros. pose proof u_pos.
  apply Rmult_le_pos; apply pow_le; [lra|apply Rabs_pos].
Qed.

Lemma ufl_S x n : ufl x (S n) = ufl x n * (1 + u) ^ 2 * Rabs x + (1 + u) * eta.
Proof.
  unfold ufl. rewrite rsum_shift.
  rewrite (rsum_ext _ _ (fun i => ((1 + u) ^ 2 * Rabs x) * ((1 + u) ^ (2 * i + 1) * Rabs x ^ i))).
  - rewrite rsum_scal. simpl. ring.
  - intros i _. replace (2 * S i + 1)%nat with (2 * i + 1 + 2)%nat by lia. rewrite (pow_add _ (2 * i + 1) 2).
    change (Rabs x ^ S i) with (Rabs x * Rabs x ^ i). ring.
Qed.

Lemma horner_error p x : is_finite (fl_horner p x) = true ->
  Rabs (B2R (fl_horner p x) - exact_eval p (B2R x))
  <= ((1 + u) ^ (2 * (length p - 1)) - 1) * abs_eval p (B2R x) + ufl (B2R x) (length p - 1).
Proof.
  induction p as [|a p IH]; intros H.
  - unfold ufl, exact_eval, abs_eval. simpl. rewrite Rminus_0_r, Rabs_R0. lra.
  - destruct p as [|b p].
    + cbn [length Nat.sub]. change (2 * 0)%nat with O. simpl pow.
      rewrite exact_cons, abs_cons. unfold exact_eval at 1, abs_eval at 1. simpl rsum.
      change (fl_horner [a] x) with (fl_add prec emax (fl_mul prec emax (fl_int prec emax 0) x) a) in *.
      destruct (add_model _ _ H) as (F1 & F2 & _). destruct (mul_model _ _ F1) as (_ & F4 & _).
      destruct (mul_0_l (fl_int prec emax 0) x (proj1 zero_value) (proj2 zero_value) F4) as [Fm Em].
      destruct (add_0_l _ a Em Fm F2) as [_ Ea].
      rewrite Ea. unfold ufl. simpl rsum.
      replace (B2R a - (0 * B2R x + B2R a)) with 0 by ring. rewrite Rabs_R0. lra.
    + set (q := b :: p) in *. cbn [length Nat.sub]. replace (length p - 0)%nat with (length p) by lia.
      change (fl_horner (a :: q) x) with (fl_add prec emax (fl_mul prec emax (fl_horner q x) x) a) in *.
      destruct (add_model _ _ H) as (F1 & F2 & d & Hd & Ed).
      destruct (mul_model _ _ F1) as (F3 & F4 & e & h & He' & Hh & Em).
      specialize (IH F3). replace (length q - 1)%nat with (length p) in IH by (simpl; lia).
      rewrite Ed, Em, exact_cons, abs_cons.
      replace (length q) with (S (length p)) by reflexivity. rewrite Nat.sub_0_r.
      rewrite ufl_S. replace (2 * S (length p))%nat with (2 * length p + 2)%nat by lia.
      apply horner_step; auto.
      * apply exact_le_abs.
      * apply ufl_nonneg.
Qed.

(** ** No overflow in Horner's rule *)
Definition horner_bound (p : list fl) (X : R) : R :=
  (1 + u) ^ (2 * (length p - 1)) * abs_eval p X + ufl X (length p - 1).

Lemma horner_bound_cons a b p X : 1 <= X ->
  horner_bound (a :: b :: p) X
  = (1 + u) ^ 2 * X * horner_bound (b :: p) X + (1 + u) ^ (2 * S (length p)) * Rabs (B2R a) + (1 + u) * eta.
Proof.
  intros HX. unfold horner_bound. cbn [length Nat.sub]. rewrite Nat.sub_0_r, ufl_S, abs_cons.
  rewrite (Rabs_pos_eq X) by lra. replace (2 * S (length p))%nat with (2 * length p + 2)%nat by lia.
  rewrite pow_add. ring.
Qed.

Lemma horner_no_overflow p x X : Forall (fun a : fl => is_finite a = true) p -> is_finite x = true ->
  1 <= X -> Rabs (B2R x) <= X -> horner_bound p X < big ->
  is_finite (fl_horner p x) = true /\ Rabs (B2R (fl_horner p x)) <= horner_bound p X.
Proof.
  intros Hf Fx HX HxX. pose proof u_pos as Hu. pose proof eta_pos as Ht.
  induction p as [|a p IH]; intros HB.
  - split; [reflexivity|]. simpl. rewrite Rabs_R0. unfold horner_bound.
    apply Rplus_le_le_0_compat; [|apply ufl_nonneg]. apply Rmult_le_pos; [apply pow_le; lra|apply abs_eval_nonneg].
  - inversion Hf as [|? ? Fa Hf']; subst. specialize (IH Hf'). destruct p as [|b p].
    + destruct (mul_0_l (fl_int prec emax 0) x (proj1 zero_value) (proj2 zero_value) Fx) as [Fm Em].
      destruct (add_0_l _ a Em Fm Fa) as [F Ea].
      change (fl_horner [a] x) with (fl_add prec emax (fl_mul prec emax (fl_int prec emax 0) x) a).
      split; [exact F|]. rewrite Ea. unfold horner_bound. rewrite abs_cons. unfold abs_eval, ufl. simpl. lra.
    + rewrite horner_bound_cons in * by exact HX.
      set (M := horner_bound (b :: p) X) in *. set (g := (1 + u) ^ (2 * S (length p))) in *.
      assert (HM : 0 <= M).
      { unfold M, horner_bound. apply Rplus_le_le_0_compat; [|apply ufl_nonneg].
        apply Rmult_le_pos; [apply pow_le; lra|apply abs_eval_nonneg]. }
      assert (Hg : 1 + u <= g).
      { unfold g. replace (1 + u) with ((1 + u) ^ 1) at 1 by ring. apply pow_mono; [lra|lia]. }
      pose proof (Rabs_pos (B2R a)) as Ha.
      assert (HMX : M <= M * X) by nra.
      assert (HX2 : M * X <= (1 + u) ^ 2 * X * M).
      { assert (1 <= (1 + u) ^ 2) by (apply pow_ge_1; lra). assert (0 <= M * X) by nra. nra. }
      assert (Hga : (1 + u) * Rabs (B2R a) <= g * Rabs (B2R a)) by (apply Rmult_le_compat_r; assumption).
      assert (Hga0 : 0 <= g * Rabs (B2R a)) by (apply Rmult_le_pos; lra).
      assert (Hue : 0 < u * eta) by (apply Rmult_lt_0_compat; assumption).
      destruct IH as [Fy Hy]; [lra|].
      set (y := fl_horner (b :: p) x) in *.
      change (fl_horner (a :: b :: p) x) with (fl_add prec emax (fl_mul prec emax y x) a).
      assert (Hyx : Rabs (B2R y * B2R x) <= M * X)
        by (rewrite Rabs_mult; apply Rmult_le_compat; try apply Rabs_pos; assumption).
      assert (E2 : (1 + u) ^ 2 * X * M = (1 + u) * (M * X) + u * ((1 + u) * (M * X))) by ring.
      assert (P2 : 0 <= u * ((1 + u) * (M * X))) by (apply Rmult_le_pos; [lra|]; apply Rmult_le_pos; [lra|nra]).
      assert (Q : (1 + u) * Rabs (B2R y * B2R x) <= (1 + u) * (M * X)) by (apply Rmult_le_compat_l; [lra|exact Hyx]).
      assert (Fm : is_finite (fl_mul prec emax y x) = true) by (apply mul_finite; auto; lra).
      destruct (mul_model _ _ Fm) as (_ & _ & e & h & He' & Hh & Em).
      assert (Hm : Rabs (B2R (fl_mul prec emax y x)) <= (1 + u) * (M * X) + eta).
      { rewrite Em. eapply Rle_trans; [apply Rabs_triang|]. rewrite Rabs_mult.
        assert (Rabs (1 + e) <= 1 + u) by (eapply Rle_trans; [apply Rabs_triang|]; rewrite Rabs_R1; lra).
        apply Rplus_le_compat; [|exact Hh]. rewrite (Rmult_comm (1 + u)).
        apply Rmult_le_compat; try apply Rabs_pos; assumption. }
      assert (Hs : Rabs (B2R (fl_mul prec emax y x) + B2R a) <= (1 + u) * (M * X) + eta + Rabs (B2R a))
        by (eapply Rle_trans; [apply Rabs_triang|]; lra).
      assert (Ht' : (1 + u) * Rabs (B2R (fl_mul prec emax y x) + B2R a)
                   <= (1 + u) ^ 2 * X * M + g * Rabs (B2R a) + (1 + u) * eta).
      { eapply Rle_trans; [apply Rmult_le_compat_l; [lra|exact Hs]|].
        replace ((1 + u) * ((1 + u) * (M * X) + eta + Rabs (B2R a)))
          with ((1 + u) ^ 2 * X * M + (1 + u) * Rabs (B2R a) + (1 + u) * eta) by ring. lra. }
      assert (F : is_finite (fl_add prec emax (fl_mul prec emax y x) a) = true) by (apply add_finite; auto; lra).
      split; [exact F|]. destruct (add_model _ _ F) as (_ & _ & d & Hd & Ed). rewrite Ed, Rabs_mult.
      eapply Rle_trans; [|exact Ht']. rewrite Rmult_comm. apply Rmult_le_compat_r; [apply Rabs_pos|].
      eapply Rle_trans; [apply Rabs_triang|]. rewrite Rabs_R1. lra.
Qed.

(** ** Sums of products *)
Definition float_sig : ring_sig fl := {|
  sz := fl_int prec emax 0; so := fl_int prec emax 1;
  sadd := fl_add prec emax; ssub := fl_sub prec emax; smul := fl_mul prec emax; sneg := @Bopp prec emax;
  same := fun x y => x = y \/ Beqb x y = true |}.

Lemma float_implements : implements (float_ring prec emax) float_sig.
Proof. constructor; try reflexivity. intros x y H. right. exact H. Qed.

Lemma dot_step s sh ab e h d S g U :
  Rabs s <= S -> Rabs (sh - s) <= (g - 1) * S + U -> 0 <= U -> 1 + u <= g ->
  Rabs e <= u -> Rabs h <= eta -> Rabs d <= u ->
  Rabs ((sh + (ab * (1 + e) + h)) * (1 + d) - (s + ab))
  <= (g * (1 + u) - 1) * (S + Rabs ab) + (U + eta) * (1 + u).
Proof.
  intros Hs Hsh HU Hg He' Hh Hd. pose proof u_pos as Hu. pose proof eta_pos as Ht.
  replace ((sh + (ab * (1 + e) + h)) * (1 + d) - (s + ab))
    with ((sh - s) * (1 + d) + s * d + ab * ((1 + e) * (1 + d) - 1) + h * (1 + d)) by ring.
  assert (H1 : Rabs ((1 + e) * (1 + d) - 1) <= (1 + u) ^ 2 - 1).
  { replace ((1 + e) * (1 + d) - 1) with (e + d + e * d) by ring.
    eapply Rle_trans; [apply Rabs_triang|]. eapply Rle_trans; [apply Rplus_le_compat_r, Rabs_triang|].
    rewrite Rabs_mult. pose proof (Rabs_pos e). pose proof (Rabs_pos d).
    assert (Rabs e * Rabs d <= u * u) by (apply Rmult_le_compat; assumption). nra. }
  assert (H3 : Rabs (1 + d) <= 1 + u) by (eapply Rle_trans; [apply Rabs_triang|]; rewrite Rabs_R1; lra).
  assert (HS : 0 <= S) by (eapply Rle_trans; [apply Rabs_pos|exact Hs]).
  eapply Rle_trans; [apply Rabs_triang|]. eapply Rle_trans; [apply Rplus_le_compat_r, Rabs_triang|].
  eapply Rle_trans; [apply Rplus_le_compat_r, Rplus_le_compat_r, Rabs_triang|]. rewrite !Rabs_mult.
  assert (T1 : Rabs (sh - s) * Rabs (1 + d) <= ((g - 1) * S + U) * (1 + u))
    by (apply Rmult_le_compat; try apply Rabs_pos; assumption).
  assert (T2 : Rabs s * Rabs d <= S * u) by (apply Rmult_le_compat; try apply Rabs_pos; assumption).
  assert (T3 : Rabs ab * Rabs ((1 + e) * (1 + d) - 1) <= Rabs ab * (g * (1 + u) - 1)).
  { apply Rmult_le_compat_l; [apply Rabs_pos|]. eapply Rle_trans; [exact H1|]. nra. }
  assert (T4 : Rabs h * Rabs (1 + d) <= eta * (1 + u)) by (apply Rmult_le_compat; try apply Rabs_pos; assumption).
  lra.
Qed.

Section Dot.
Context (a b : nat -> fl).
Notation exact n := (rsum n (fun i => B2R (a i) * B2R (b i))).
Notation mags n := (rsum n (fun i => Rabs (B2R (a i)) * Rabs (B2R (b i)))).
Notation U n := (INR n * (1 + u) ^ (n - 1) * eta).

Lemma exact_le_mags n : Rabs (exact n) <= mags n.
Proof. eapply Rle_trans; [apply rsum_abs|]. apply rsum_le. intros. rewrite Rabs_mult. lra. Qed.
Lemma mags_nonneg n : 0 <= mags n.
Proof. eapply Rle_trans; [apply Rabs_pos|apply exact_le_mags]. Qed.
Lemma U_nonneg n : 0 <= U n.
Proof.
  pose proof u_pos. pose proof eta_pos. apply Rmult_le_pos; [|lra]. apply Rmult_le_pos; [apply pos_INR|apply pow_le; lra].
Qed.
Lemma U_step n : (U (S n) + eta) * (1 + u) <= U (S (S n)).
Proof.
  pose proof u_pos. pose proof eta_pos. replace (S (S n) - 1)%nat with (S n) by lia. replace (S n - 1)%nat with n by lia.
  rewrite (S_INR (S n)). assert (1 <= (1 + u) ^ n) by (apply pow_ge_1; lra).
  assert (E : (INR (S n) + 1) * (1 + u) ^ S n * eta
          = (INR (S n) * (1 + u) ^ n * eta + (1 + u) ^ n * eta) * (1 + u))
    by (change ((1 + u) ^ S n) with ((1 + u) * (1 + u) ^ n); ring).
  rewrite E. apply Rmult_le_compat_r; [lra|]. apply Rplus_le_compat_l. nra.
Qed.

Lemma one_product x y : is_finite (fl_mul prec emax x y) = true ->
  Rabs (B2R (fl_mul prec emax x y) - (0 + B2R x * B2R y))
  <= ((1 + u) ^ 1 - 1) * (0 + Rabs (B2R x) * Rabs (B2R y)) + INR 1 * (1 + u) ^ 0 * eta.
Proof.
  intros F. destruct (mul_model _ _ F) as (_ & _ & e & h & He' & Hh & ->).
  replace (B2R x * B2R y * (1 + e) + h - (0 + B2R x * B2R y)) with (B2R x * B2R y * e + h) by ring.
  eapply Rle_trans; [apply Rabs_triang|]. rewrite !Rabs_mult. simpl.
  pose proof (Rabs_pos (B2R x)). pose proof (Rabs_pos (B2R y)).
  assert (Rabs (B2R x) * Rabs (B2R y) * Rabs e <= Rabs (B2R x) * Rabs (B2R y) * u).
  { apply Rmult_le_compat_l; [apply Rmult_le_pos; assumption|exact He']. }
  lra.
Qed.

Definition fdot n : fl := sum_n float_sig n (fun i => fl_mul prec emax (a i) (b i)).
Fixpoint fdot1 n : fl :=
  match n with
  | O => fl_mul prec emax (a 0) (b 0)
  | S n' => fl_add prec emax (fdot1 n') (fl_mul prec emax (a n) (b n))
  end.

Lemma dot_next sh n : is_finite (fl_add prec emax sh (fl_mul prec emax (a (S n)) (b (S n)))) = true ->
  Rabs (B2R sh - exact (S n)) <= ((1 + u) ^ S n - 1) * mags (S n) + U (S n) ->
  Rabs (B2R (fl_add prec emax sh (fl_mul prec emax (a (S n)) (b (S n)))) - exact (S (S n)))
  <= ((1 + u) ^ S (S n) - 1) * mags (S (S n)) + U (S (S n)).
Proof.
  intros F IH. pose proof u_pos as Hu. destruct (add_model _ _ F) as (_ & F2 & d & Hd & ->).
  destruct (mul_model _ _ F2) as (_ & _ & e & h & He' & Hh & ->).
  change (exact (S (S n))) with (exact (S n) + B2R (a (S n)) * B2R (b (S n))).
  change (mags (S (S n))) with (mags (S n) + Rabs (B2R (a (S n))) * Rabs (B2R (b (S n)))).
  rewrite <- Rabs_mult. eapply Rle_trans.
  - apply (dot_step (exact (S n)) (B2R sh) _ e h d (mags (S n)) ((1 + u) ^ S n) (U (S n))); auto.
    + apply exact_le_mags.
    + apply U_nonneg.
    + replace (1 + u) with ((1 + u) ^ 1) at 1 by ring. apply pow_mono; [lra|lia].
  - apply Rplus_le_compat; [|apply U_step]. apply Req_le. change ((1 + u) ^ S (S n)) with ((1 + u) * (1 + u) ^ S n). ring.
Qed.

Lemma dot_error n : is_finite (fdot n) = true ->
  Rabs (B2R (fdot n) - exact n) <= ((1 + u) ^ n - 1) * mags n + U n.
Proof.
  destruct n as [|n].
  - intros _. simpl. rewrite Rminus_0_r, Rabs_R0. lra.
  - induction n as [|n IH]; intros F.
    + change (fdot 1) with (fl_add prec emax (fl_int prec emax 0) (fl_mul prec emax (a 0) (b 0))) in *.
      destruct (add_model _ _ F) as (_ & F2 & _).
      destruct (add_0_l (fl_int prec emax 0) _ (proj1 zero_value) (proj2 zero_value) F2) as [_ ->].
      apply one_product, F2.
    + change (fdot (S (S n))) with (fl_add prec emax (fdot (S n)) (fl_mul prec emax (a (S n)) (b (S n)))) in *.
      apply dot_next; [exact F|]. apply IH. apply (add_model _ _ F).
Qed.

Lemma dot1_error n : is_finite (fdot1 n) = true ->
  Rabs (B2R (fdot1 n) - exact (S n)) <= ((1 + u) ^ S n - 1) * mags (S n) + U (S n).
Proof.
  induction n as [|n IH]; intros F.
  - apply one_product, F.
  - apply (dot_next (fdot1 n)); [exact F|]. apply IH. apply (add_model _ _ F).
Qed.

Lemma dot_finite_args n : is_finite (fdot n) = true -> forall i, (i < n)%nat -> is_finite (a i) = true /\ is_finite (b i) = true.
Proof.
  induction n as [|n IH]; intros F i Hi; [lia|].
  destruct (add_model _ _ F) as (F1 & F2 & _). destruct (mul_model _ _ F2) as (F3 & F4 & _).
  destruct (Nat.eq_dec i n) as [->|]; [split; assumption|apply IH; [exact F1|lia]].
Qed.

Lemma dot_no_overflow n : (forall i, (i < n)%nat -> is_finite (a i) = true /\ is_finite (b i) = true) ->
  (1 + u) ^ n * mags n + U n < big -> is_finite (fdot n) = true.
Proof.
  pose proof u_pos as Hu. pose proof eta_pos as Ht. induction n as [|n IH]; intros Hf HB; [reflexivity|].
  destruct (Hf n) as [Fa Fb]; [lia|].
  assert (Hm : mags (S n) = mags n + Rabs (B2R (a n) * B2R (b n))) by (simpl; rewrite Rabs_mult; reflexivity).
  rewrite Hm in HB. set (P := Rabs (B2R (a n) * B2R (b n))) in *. assert (HP : 0 <= P) by apply Rabs_pos.
  pose proof (mags_nonneg n) as HS.
  assert (G : 1 <= (1 + u) ^ n) by (apply pow_ge_1; lra).
  assert (Fm : is_finite (fl_mul prec emax (a n) (b n)) = true).
  { apply mul_finite; auto. fold P. eapply Rle_lt_trans; [|exact HB].
    assert (eta <= U (S n)).
    { replace (S n - 1)%nat with n by lia. rewrite S_INR. pose proof (pos_INR n) as HN.
      assert (1 <= (INR n + 1) * (1 + u) ^ n) by nra.
      rewrite <- (Rmult_1_l eta) at 1. apply Rmult_le_compat_r; lra. }
    assert ((1 + u) * P <= (1 + u) ^ S n * (mags n + P)).
    { change ((1 + u) ^ S n) with ((1 + u) * (1 + u) ^ n). rewrite Rmult_assoc. apply Rmult_le_compat_l; [lra|].
      apply Rle_trans with ((1 + u) ^ n * P); [nra|]. apply Rmult_le_compat_l; lra. }
    lra. }
  destruct n as [|n].
  - apply (add_0_l (fl_int prec emax 0) _ (proj1 zero_value) (proj2 zero_value) Fm).
  - assert (HUn : U (S n) <= U (S (S n))).
    { eapply Rle_trans; [|apply U_step]. pose proof (U_nonneg (S n)). nra. }
    assert (F1 : is_finite (fdot (S n)) = true).
    { apply IH; [intros; apply Hf; lia|]. eapply Rle_lt_trans; [|exact HB]. apply Rplus_le_compat; [|exact HUn].
      change ((1 + u) ^ S (S n)) with ((1 + u) * (1 + u) ^ S n). rewrite Rmult_assoc.
      assert (0 <= (1 + u) ^ S n * mags (S n)) by (apply Rmult_le_pos; lra).
      assert (0 <= (1 + u) ^ S n * P) by (apply Rmult_le_pos; lra).
      rewrite Rmult_plus_distr_l. nra. }
    pose proof (dot_error _ F1) as E1.
    assert (B1 : Rabs (B2R (fdot (S n))) <= (1 + u) ^ S n * mags (S n) + U (S n)).
    { eapply Rle_trans; [apply (abs_le_plus _ (exact (S n)) (mags (S n))); [apply exact_le_mags|exact E1]|]. lra. }
    destruct (mul_model _ _ Fm) as (_ & _ & e & h & He' & Hh & Em).
    assert (B2 : Rabs (B2R (fl_mul prec emax (a (S n)) (b (S n)))) <= (1 + u) * P + eta).
    { rewrite Em. eapply Rle_trans; [apply Rabs_triang|]. rewrite Rabs_mult. fold P.
      assert (Rabs (1 + e) <= 1 + u) by (eapply Rle_trans; [apply Rabs_triang|]; rewrite Rabs_R1; lra). nra. }
    change (fdot (S (S n))) with (fl_add prec emax (fdot (S n)) (fl_mul prec emax (a (S n)) (b (S n)))).
    apply add_finite; auto.
    eapply Rle_lt_trans; [|exact HB].
    assert (B3 : Rabs (B2R (fdot (S n)) + B2R (fl_mul prec emax (a (S n)) (b (S n))))
                 <= ((1 + u) ^ S n * mags (S n) + U (S n)) + ((1 + u) * P + eta))
      by (eapply Rle_trans; [apply Rabs_triang|]; lra).
    eapply Rle_trans; [apply Rmult_le_compat_l; [lra|exact B3]|].
    pose proof (U_step n) as US.
    assert (Gp : (1 + u) * P <= (1 + u) ^ S n * P).
    { apply Rmult_le_compat_r; [exact HP|]. replace (1 + u) with ((1 + u) ^ 1) at 1 by ring. apply pow_mono; [lra|lia]. }
    change ((1 + u) ^ S (S n)) with ((1 + u) * (1 + u) ^ S n).
    assert ((1 + u) * ((1 + u) * P) <= (1 + u) * ((1 + u) ^ S n * P)) by (apply Rmult_le_compat_l; [lra|exact Gp]).
    lra.
Qed.
End Dot.

(** gamma bounds the powers. *)
Lemma pow_gamma k : INR k * u < 1 -> (1 + u) ^ k - 1 <= gamma prec k.
Proof.
  intros H. pose proof u_pos as Hu. unfold gamma.
  assert (B : forall n, INR n * u < 1 -> (1 + u) ^ n * (1 - INR n * u) <= 1).
  { clear k H. induction n as [|n IH]; intros Hn; [simpl; lra|].
    rewrite S_INR in *. assert (Hn' : INR n * u < 1) by nra. specialize (IH Hn').
    assert (0 <= (1 + u) ^ n) by (apply pow_le; lra). change ((1 + u) ^ S n) with ((1 + u) * (1 + u) ^ n).
    assert (K : (1 + u) * (1 - (INR n + 1) * u) <= 1 - INR n * u) 
      by (pose proof (pos_INR n); assert (0 <= (INR n + 1) * (u * u))
            by (apply Rmult_le_pos; [lra|apply Rmult_le_pos; lra]); lra).
    apply (Rmult_le_compat_l ((1 + u) ^ n)) in K; [|assumption]. lra. }
  specialize (B k H). apply Rmult_le_reg_r with (1 - INR k * u); [lra|].
  unfold Rdiv. rewrite Rmult_assoc, Rinv_l by lra. lra.
Qed.
End Fmt.
