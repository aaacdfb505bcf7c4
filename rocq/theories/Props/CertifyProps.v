(** Property C100: what computed values prove about the exact ones.

    A user evaluates a float polynomial [p] at [x], getting [r], and the polynomial with the
    absolute values of the coefficients at |x|, getting [s].  If |r| is large compared to [s],
    the exact value p(x) has the sign of [r]; where computed signs alternate there are roots of
    the exact polynomial, and with as many alternations as the degree these are all its roots. *)
From Coq Require Import List Arith ZArith NArith Reals Bool Lia Lra.
From Flocq Require Import Core.Core IEEE754.BinarySingleNaN.
From Verif Require Import Base.Outcome Base.Usize Base.Array Model.Traits Model.Float Model.RealInstance Model.Polynomial Model.Complex
  Model.SVector Model.DVector
  Spec.Ring Spec.Sums Spec.Polynomial Spec.Roots Spec.FloatErr
  Proofs.FloatErr Proofs.FloatInt Proofs.RealRing Proofs.PolynomialProofs Proofs.Backward
  Props.FloatProps Props.PolyRootsProps.
Import ListNotations.
Local Open Scope R_scope.

(** ** Real polynomials *)
Lemma rsum_continuous n (f : nat -> R -> R) : (forall i, continuity (f i)) -> continuity (fun x => rsum n (fun i => f i x)).
Proof.
  intros H. induction n as [|n IH]; cbn [rsum].
  - apply continuity_const. intros ? ?. reflexivity.
  - apply (continuity_plus (fun x => rsum n (fun i => f i x)) (f n) IH (H n)).
Qed.
Lemma power_continuous i : continuity (fun x => x ^ i).
Proof.
  induction i as [|i IH]; cbn [pow].
  - apply continuity_const. intros ? ?. reflexivity.
  - apply (continuity_mult (fun x => x) (fun x => x ^ i)); [|exact IH].
    apply derivable_continuous, derivable_id.
Qed.

Section Fmt.
Context (prec emax : Z) {Hp : Prec_gt_0 prec} {He : Prec_lt_emax prec emax}.
Notation fl := (binary_float prec emax).
Notation FO := (float_ring prec emax).
Notation u := (unit_roundoff prec).
Notation eta := (underflow_unit prec emax).

Lemma exact_continuous (p : poly fl) : continuity (exact_eval p).
Proof.
  unfold exact_eval. apply (rsum_continuous _ (fun i x => entry_R p i * x ^ i)). intros i.
  apply (continuity_scal (fun x => x ^ i) (entry_R p i)), power_continuous.
Qed.

(** ** The test *)
(** g = (1 + u)^(2n) - 1, the relative error of Horner's rule in degree n. *)
Definition growth (n : nat) : R := (1 + u) ^ (2 * n) - 1.
(** What underflow can add at [x] (zero if there is no underflow). *)
Definition underflow (n : nat) (x : R) : R := rsum n (fun i => (1 + u) ^ (2 * i + 1) * Rabs x ^ i) * eta.

(** [r] is the value of [p] at [x], [s] that of the polynomial with coefficients |a_i| at |x|,
    both are finite and g s + underflow < (1 - g) |r|. *)
Definition certified (p : poly fl) (x r : fl) : Prop :=
  let n := (length p - 1)%nat in
  exists s, poly_eval FO p x = Ok r /\ poly_eval FO (map (@Babs prec emax) p) (Babs x) = Ok s
  /\ is_finite r = true /\ is_finite s = true
  /\ growth n * B2R s + underflow n (B2R x) < (1 - growth n) * Rabs (B2R r).

Lemma entry_abs (p : poly fl) i : entry_R (map (@Babs prec emax) p) i = Rabs (entry_R p i).
Proof.
  unfold entry_R. rewrite map_map. revert i.
  induction p as [|a p IH]; intros [|i]; cbn [map nth]; try (rewrite Rabs_R0; reflexivity); [apply B2R_Babs|apply IH].
Qed.
Lemma abs_exact (p : poly fl) x : exact_eval (map (@Babs prec emax) p) (Rabs x) = abs_eval p x.
Proof. unfold exact_eval, abs_eval. rewrite map_length. apply rsum_ext. intros i _. rewrite entry_abs. reflexivity. Qed.
Lemma abs_abs (p : poly fl) x : abs_eval (map (@Babs prec emax) p) (Rabs x) = abs_eval p x.
Proof. unfold abs_eval. rewrite map_length. apply rsum_ext. intros i _. rewrite entry_abs, !Rabs_Rabsolu. reflexivity. Qed.

Lemma growth_nonneg n : 0 <= growth n.
Proof.
  unfold growth. assert (1 <= (1 + u) ^ (2 * n)) by (apply pow_R1_Rle; pose proof (u_pos prec); lra). lra.
Qed.

(** The error is below the bound of the test. *)
Lemma test_bound (p : poly fl) (x r s : fl) :
  let n := (length p - 1)%nat in
  poly_eval FO p x = Ok r -> poly_eval FO (map (@Babs prec emax) p) (Babs x) = Ok s ->
  is_finite r = true -> is_finite s = true -> growth n < 1 ->
  (1 - growth n) * Rabs (B2R r - exact_eval p (B2R x)) <= growth n * B2R s + underflow n (B2R x).
Proof.
  intros n Er Es Fr Fs Hg. rewrite poly_eval_horner in Er, Es.
  assert (E1 : fl_horner prec emax p x = r) by (injection Er; auto).
  assert (E2 : fl_horner prec emax (map (@Babs prec emax) p) (Babs x) = s) by (injection Es; auto). subst r s.
  pose proof (horner_error prec emax p x Fr) as H1. pose proof (horner_error prec emax _ _ Fs) as H2.
  rewrite B2R_Babs, abs_exact, abs_abs, map_length in H2.
  assert (Eu : ufl prec emax (Rabs (B2R x)) (length p - 1) = underflow n (B2R x)).
  { unfold ufl, underflow. f_equal. apply rsum_ext. intros i _. rewrite Rabs_Rabsolu. reflexivity. }
  rewrite Eu in H2. change (ufl prec emax (B2R x) (length p - 1)) with (underflow n (B2R x)) in H1.
  fold n in H1, H2. change ((1 + u) ^ (2 * n) - 1) with (growth n) in H1, H2.
  set (g := growth n) in *. set (U := underflow n (B2R x)) in *. set (A := abs_eval p (B2R x)) in *.
  pose proof (growth_nonneg n) as G0. fold g in G0.
  assert (H3 : (1 - g) * A <= B2R (fl_horner prec emax (map (@Babs prec emax) p) (Babs x)) + U).
  { apply Rabs_le_inv in H2. lra. }
  set (S := B2R (fl_horner prec emax (map (@Babs prec emax) p) (Babs x))) in *.
  apply Rle_trans with ((1 - g) * (g * A + U)); [apply Rmult_le_compat_l; lra|].
  apply (Rmult_le_compat_l g) in H3; [|exact G0]. lra.
Qed.
Lemma certified_growth (p : poly fl) x r : certified p x r -> growth (length p - 1) < 1.
Proof.
  intros (s & Er & Es & Fr & Fs & T). destruct (Rlt_or_le (growth (length p - 1)) 1) as [H|H]; [exact H|exfalso].
  assert (0 <= B2R s).
  { rewrite poly_eval_horner in Es. assert (E2 : fl_horner prec emax (map (@Babs prec emax) p) (Babs x) = s) by (injection Es; auto).
    subst s. clear -Hp He Fs.
    assert (N : forall q (y : fl), Forall (fun a => 0 <= B2R a) q -> 0 <= B2R y -> is_finite (fl_horner prec emax q y) = true ->
                0 <= B2R (fl_horner prec emax q y)).
    { induction q as [|a q IH]; intros y Hq Hy F; [cbn; lra|]. inversion Hq; subst.
      change (fl_horner prec emax (a :: q) y) with (fl_add prec emax (fl_mul prec emax (fl_horner prec emax q y) y) a) in *.
      destruct (add_model prec emax _ _ F) as (F1 & F2 & d & Hd & ->).
      destruct (mul_model prec emax _ _ F1) as (F3 & F4 & _).
      assert (M : 0 <= B2R (fl_mul prec emax (fl_horner prec emax q y) y)).
      { unfold fl_mul in *. pose proof (Bmult_correct prec emax Hp He mode_NE (fl_horner prec emax q y) y) as BC.
        destruct (Rlt_bool _ _) in BC.
        - destruct BC as [-> _]. apply round_ge_generic; [apply fexp_correct; assumption|apply valid_rnd_round_mode|apply generic_format_0|].
          apply Rmult_le_pos; [apply IH; assumption|exact Hy].
        - exfalso. unfold binary_overflow in BC. cbn in BC.
          destruct (Bmult mode_NE (fl_horner prec emax q y) y); cbn in F1, BC; discriminate. }
      apply Rmult_le_pos; [lra|]. assert (u <= 1).
      { unfold unit_roundoff. change 1 with (bpow radix2 0). apply bpow_le. unfold Prec_gt_0 in Hp. lia. }
      apply Rabs_le_inv in Hd. lra. }
    apply N; [|rewrite B2R_Babs; apply Rabs_pos|exact Fs]. apply Forall_forall. intros a Ha. apply in_map_iff in Ha.
    destruct Ha as (b & <- & _). rewrite B2R_Babs. apply Rabs_pos. }
  assert (0 <= underflow (length p - 1) (B2R x)) by (apply (ufl_nonneg prec emax)).
  pose proof (Rabs_pos (B2R r)). assert (0 <= growth (length p - 1) * B2R s) by (apply Rmult_le_pos; lra).
  assert ((1 - growth (length p - 1)) * Rabs (B2R r) <= 0); [|lra].
  replace 0 with (0 * Rabs (B2R r)) by ring. apply Rmult_le_compat_r; lra.
Qed.

(** ** Signs *)
Theorem C100_sign :
  forall (p : poly fl) (x r : fl), certified p x r ->
  (0 < B2R r -> 0 < exact_eval p (B2R x)) /\ (B2R r < 0 -> exact_eval p (B2R x) < 0) /\ B2R r <> 0.
Proof.
  intros p x r C. pose proof (certified_growth p x r C) as Hg. destruct C as (s & Er & Es & Fr & Fs & T).
  pose proof (test_bound p x r s Er Es Fr Fs Hg) as B. cbv zeta in T, B.
  assert (D : Rabs (B2R r - exact_eval p (B2R x)) < Rabs (B2R r)).
  { apply (Rmult_lt_reg_l (1 - growth (length p - 1))); lra. }
  split; [|split].
  - intros H. rewrite (Rabs_pos_eq (B2R r)) in D by lra. apply Rabs_lt_inv in D. lra.
  - intros H. rewrite (Rabs_left (B2R r)) in D by lra. apply Rabs_lt_inv in D. lra.
  - intros H. rewrite H, Rabs_R0 in D. pose proof (Rabs_pos (0 - exact_eval p (B2R x))). lra.
Qed.

(** The test is never met at an exact root. *)
Theorem C100_no_false_alarm :
  forall (p : poly fl) (x r : fl), exact_eval p (B2R x) = 0 -> ~ certified p x r.
Proof.
  intros p x r H C. destruct (C100_sign p x r C) as (P & M & Z). destruct (Rtotal_order (B2R r) 0) as [L|[L|L]].
  - apply M in L. lra.
  - exact (Z L).
  - apply P in L. lra.
Qed.

(** ** Roots *)
Lemma root_between (p : poly fl) a b : a < b -> exact_eval p a * exact_eval p b < 0 ->
  exists z, a < z < b /\ exact_eval p z = 0.
Proof.
  intros L H. destruct (IVT_cor (exact_eval p) a b (exact_continuous p)) as (z & [Z1 Z2] & Z3); [lra|lra|].
  exists z. split; [|exact Z3].
  assert (z <> a) by (intros ->; rewrite Z3 in H; lra). assert (z <> b) by (intros ->; rewrite Z3 in H; lra). lra.
Qed.

Theorem C100_root :
  forall (p : poly fl) (a b ra rb : fl), certified p a ra -> certified p b rb -> B2R a < B2R b ->
  B2R ra * B2R rb < 0 ->
  exists z, B2R a < z < B2R b /\ exact_eval p z = 0.
Proof.
  intros p a b ra rb Ca Cb L H. apply root_between; [exact L|].
  destruct (C100_sign p a ra Ca) as (P1 & M1 & Z1). destruct (C100_sign p b rb Cb) as (P2 & M2 & Z2).
  destruct (Rtotal_order (B2R ra) 0) as [La|[La|La]]; [|contradiction|];
  destruct (Rtotal_order (B2R rb) 0) as [Lb|[Lb|Lb]]; try contradiction; try nra.
Qed.

Lemma real_nzd : no_zero_divisors real_sig.
Proof. intros x y H. cbn in *. apply Rmult_integral in H. exact H. Qed.
Lemma real_value (p : poly fl) x : exists v, poly_eval_ref real_ring (map (fun a : fl => B2R a) p) x = Ok v /\ v = exact_eval p x.
Proof.
  destruct (poly_eval_ref_spec real_ring real_sig real_implements real_laws (map (fun a : fl => B2R a) p) x) as (v & E & Hv).
  exists v. split; [exact E|]. cbn in Hv. rewrite Hv. unfold poly_value, exact_eval. rewrite map_length.
  generalize (length p). intros n. induction n as [|n IH]; [reflexivity|]. cbn [sum_n rsum]. rewrite IH. cbn [sadd smul real_sig].
  f_equal. f_equal. clear. induction n as [|n IH]; [reflexivity|].
  change (Sums.pow real_sig x n * x = x * x ^ n). rewrite IH. ring.
Qed.

(** More distinct roots than the length of the coefficient list allows: all coefficients vanish. *)
Lemma few_roots (p : poly fl) (z : nat -> R) k :
  (forall i j, (i < j)%nat -> (j < k)%nat -> z i < z j) -> (forall i, (i < k)%nat -> exact_eval p (z i) = 0) ->
  forall t, exact_eval p t = 0 -> (forall i, (i < k)%nat -> t <> z i) -> (length p <= S k)%nat -> forall x, exact_eval p x = 0.
Proof.
  intros Z1 Z2 t Ht Hn Hl x.
  assert (H : forall i, same real_sig (coeff real_sig (map (fun a : fl => B2R a) p) i) 0).
  { apply (C61_number_of_roots R real_ring real_sig real_implements real_laws real_comm real_nzd
             (map (fun a : fl => B2R a) p) (t :: map z (seq 0 k))).
    - intros i j a b Ha Hb E. cbn in E. subst b.
      assert (Nth : forall m y, nth_error (map z (seq 0 k)) m = Some y -> (m < k)%nat /\ y = z m).
      { intros m y Hm. rewrite nth_error_map in Hm. destruct (nth_error (seq 0 k) m) as [q|] eqn:Q; [|discriminate Hm].
        assert (m < k)%nat by (rewrite <- (seq_length k 0); apply nth_error_Some; congruence).
        apply (nth_error_nth _ _ 0%nat) in Q. rewrite seq_nth in Q by assumption. cbn in Hm. injection Hm as <-. subst q. split; auto. }
      destruct i as [|i], j as [|j]; cbn [nth_error] in Ha, Hb; [reflexivity| | |].
      + exfalso. injection Ha as <-. apply Nth in Hb. destruct Hb as [Hj ->]. exact (Hn j Hj eq_refl).
      + exfalso. injection Hb as <-. apply Nth in Ha. destruct Ha as [Hj ->]. exact (Hn i Hj eq_refl).
      + apply Nth in Ha, Hb. destruct Ha as [Hi ->], Hb as [Hj E]. f_equal.
        destruct (Nat.lt_trichotomy i j) as [L|[L|L]]; [|exact L|].
        * pose proof (Z1 i j L Hj). lra.
        * pose proof (Z1 j i L Hi). lra.
    - cbn [length]. rewrite !map_length, seq_length. exact Hl.
    - intros r [<-|Hr].
      + destruct (real_value p t) as (v & E & ->). eexists. split; [exact E|exact Ht].
      + apply in_map_iff in Hr. destruct Hr as (i & <- & Hi). apply in_seq in Hi.
        destruct (real_value p (z i)) as (v & E & ->). eexists. split; [exact E|]. apply Z2. lia. }
  destruct (real_value p x) as (v & E & <-). unfold exact_eval in *.
  destruct (poly_eval_ref_spec real_ring real_sig real_implements real_laws (map (fun a : fl => B2R a) p) x) as (v' & E' & Hv').
  rewrite E in E'. injection E' as <-. cbn in Hv'. rewrite Hv'. unfold poly_value. clear -H.
  generalize (length (map (fun a : fl => B2R a) p)). intros n. induction n as [|n IH]; [reflexivity|].
  cbn [sum_n]. rewrite IH. specialize (H n). cbn in H |- *. rewrite H. ring.
Qed.

(** Points x 0 < x 1 < ... < x k at which the test is met with alternating signs: there is a root
    between any two neighbours; if the polynomial has length k + 1 these are all its real roots. *)
Theorem C100_all_roots :
  forall (p : poly fl) (k : nat) (x r : nat -> fl),
  (forall i, (i <= k)%nat -> certified p (x i) (r i)) ->
  (forall i, (i < k)%nat -> B2R (x i) < B2R (x (S i)) /\ B2R (r i) * B2R (r (S i)) < 0) ->
  exists z : nat -> R,
    (forall i, (i < k)%nat -> B2R (x i) < z i < B2R (x (S i)) /\ exact_eval p (z i) = 0)
    /\ ((length p <= S k)%nat -> forall t, exact_eval p t = 0 -> exists i, (i < k)%nat /\ t = z i).
Proof.
  intros p k x r C A.
  destruct (finite_choice 0 k (fun i z => B2R (x i) < z < B2R (x (S i)) /\ exact_eval p z = 0)) as (z & Z).
  { intros i Hi. destruct (A i Hi) as [L Sg]. apply (C100_root p (x i) (x (S i)) (r i) (r (S i))); auto; apply C; lia. }
  exists z. split; [exact Z|]. intros Hl t Ht.
  assert (M : forall i j, (i < j)%nat -> (j <= k)%nat -> B2R (x i) < B2R (x j)).
  { intros i j L. induction L as [|j L IH]; intros Hj; [apply A; lia|].
    eapply Rlt_trans; [apply IH; lia|apply A; lia]. }
  assert (Z1 : forall i j, (i < j)%nat -> (j < k)%nat -> z i < z j).
  { intros i j L Hj. destruct (Z i ltac:(lia)) as [[_ B1] _]. destruct (Z j Hj) as [[B2 _] _].
    destruct (Nat.eq_dec (S i) j) as [<-|N]; [lra|]. pose proof (M (S i) j ltac:(lia) ltac:(lia)). lra. }
  destruct (existsb (fun i => if Req_EM_T t (z i) then true else false) (seq 0 k)) eqn:Ex.
  - apply existsb_exists in Ex. destruct Ex as (i & Hi & Hq). apply in_seq in Hi. exists i. split; [lia|].
    destruct (Req_EM_T t (z i)) as [E|]; [exact E|discriminate Hq].
  - exfalso. assert (N : forall i, (i < k)%nat -> t <> z i).
    { intros i Hi E. assert (existsb (fun i => if Req_EM_T t (z i) then true else false) (seq 0 k) = true); [|congruence].
      apply existsb_exists. exists i. split; [apply in_seq; lia|]. destruct (Req_EM_T t (z i)); [reflexivity|contradiction]. }
    pose proof (few_roots p z k Z1 (fun i Hi => proj2 (Z i Hi)) t Ht N Hl (B2R (x 0%nat))) as Q.
    exact (C100_no_false_alarm p (x 0%nat) (r 0%nat) Q (C 0%nat ltac:(lia))).
Qed.

(** ** Inner products: on which side of a hyperplane *)
Notation dot_exact n a b := (rsum n (fun i => entry_R a i * entry_R b i)).
Notation dot_mag n a b := (rsum n (fun i => Rabs (entry_R a i) * Rabs (entry_R b i))).
Definition dot_abs (a b : dvector fl) (s : fl) : Prop :=
  dvector_dot (r_zero FO) (r_add FO) (r_mul FO) prim_conj (map (@Babs prec emax) a) (map (@Babs prec emax) b) = Ok s.
Theorem C100_dot_sign :
  forall (a b : dvector fl) (r s : fl), length a = length b ->
  let n := length a in
  let g := (1 + u) ^ n - 1 in
  dvector_dot (r_zero FO) (r_add FO) (r_mul FO) prim_conj a b = Ok r -> dot_abs a b s ->
  is_finite r = true -> is_finite s = true -> g < 1 ->
  g * B2R s + INR n * (1 + u) ^ (n - 1) * eta < (1 - g) * Rabs (B2R r) ->
  (0 < B2R r -> 0 < dot_exact n a b) /\ (B2R r < 0 -> dot_exact n a b < 0) /\ B2R r <> 0.
Proof.
  intros a b r s E n g Er Es Fr Fs Hg T.
  destruct (C52_dvector_dot_error prec emax a b E) as (r' & Er' & B). rewrite Er in Er'.
  assert (E0 : r = r') by (injection Er'; auto). subst r'. specialize (B Fr).
  destruct (C52_dvector_dot_error prec emax (map (@Babs prec emax) a) (map (@Babs prec emax) b)) as (s' & Es' & B').
  { rewrite !map_length. exact E. }
  unfold dot_abs in Es. rewrite Es in Es'. assert (E1 : s = s') by (injection Es'; auto). subst s'. specialize (B' Fs).
  rewrite map_length in B'. fold n in B, B'.
  assert (X1 : dot_exact n (map (@Babs prec emax) a) (map (@Babs prec emax) b) = dot_mag n a b).
  { apply rsum_ext. intros i _. rewrite !entry_abs. reflexivity. }
  assert (X2 : dot_mag n (map (@Babs prec emax) a) (map (@Babs prec emax) b) = dot_mag n a b).
  { apply rsum_ext. intros i _. rewrite !entry_abs, !Rabs_Rabsolu. reflexivity. }
  rewrite X1, X2 in B'. unfold dot_bound in B, B'. fold g in B, B'.
  set (U := INR n * (1 + u) ^ (n - 1) * eta) in *. set (M := dot_mag n a b) in *.
  assert (G0 : 0 <= g) by (unfold g; assert (1 <= (1 + u) ^ n) by (apply pow_R1_Rle; pose proof (u_pos prec); lra); lra).
  assert (H3 : (1 - g) * M <= B2R s + U) by (apply Rabs_le_inv in B'; lra).
  assert (D : Rabs (B2R r - dot_exact n a b) < Rabs (B2R r)).
  { eapply Rle_lt_trans; [exact B|]. apply (Rmult_lt_reg_l (1 - g)); [lra|]. eapply Rle_lt_trans; [|exact T].
    apply (Rmult_le_compat_l g) in H3; [|exact G0]. lra. }
  split; [|split].
  - intros H. rewrite (Rabs_pos_eq (B2R r)) in D by lra. apply Rabs_lt_inv in D. lra.
  - intros H. rewrite (Rabs_left (B2R r)) in D by lra. apply Rabs_lt_inv in D. lra.
  - intros H. rewrite H, Rabs_R0 in D. pose proof (Rabs_pos (0 - dot_exact n a b)). lra.
Qed.
End Fmt.

(** ** Cases in binary64 *)
(** x^2 - 2 at -2, 0, 2: the test is met with signs +, -, +; so there are exactly two roots, one
    in (-2, 0), one in (0, 2). *)
Definition C100_p : poly f64 := [f64_of_Z (-2); f64_of_Z 0; f64_of_Z 1].
Definition C100_x (i : nat) : f64 := f64_of_Z (2 * Z.of_nat i - 2).
Definition C100_r (i : nat) : f64 := fl_horner 53 1024 C100_p (C100_x i).
Lemma C100_value k : (Z.abs k <= 2 ^ 53)%Z -> is_finite (f64_of_Z k) = true /\ B2R (f64_of_Z k) = IZR k.
Proof. exact (fl_int_exact 53 1024 k). Qed.
Lemma C100_small : unit_roundoff 53 <= / 1000 /\ underflow_unit 53 1024 <= / 1000 /\ 0 < unit_roundoff 53 /\ 0 < underflow_unit 53 1024.
Proof.
  unfold unit_roundoff, underflow_unit.
  assert (H : bpow radix2 (-10) <= / 1000) by (cbn; lra).
  pose proof (bpow_le radix2 (-(53)) (-10) ltac:(lia)). pose proof (bpow_le radix2 (2 - 1024 - 53) (-10) ltac:(lia)).
  pose proof (bpow_gt_0 radix2 (-(53))). pose proof (bpow_gt_0 radix2 (2 - 1024 - 53)). lra.
Qed.
Lemma C100_equal (x : f64) k : (Z.abs k <= 2 ^ 53)%Z -> is_finite x && Beqb x (f64_of_Z k) = true -> is_finite x = true /\ B2R x = IZR k.
Proof.
  intros Hk H. apply andb_prop in H. destruct H as [F H]. split; [exact F|]. destruct (C100_value k Hk) as [Fk <-].
  rewrite (Beqb_correct 53 1024 x (f64_of_Z k) F Fk) in H. destruct (Req_bool_spec (B2R x) (B2R (f64_of_Z k))); [assumption|discriminate H].
Qed.
Lemma C100_test k r s : (Z.abs k <= 2)%Z ->
  let y := fl_horner 53 1024 C100_p (f64_of_Z k) in
  let t := fl_horner 53 1024 (map (@Babs 53 1024) C100_p) (Babs (f64_of_Z k)) in
  is_finite y && Beqb y (f64_of_Z r) = true -> is_finite t && Beqb t (f64_of_Z s) = true ->
  (Z.abs r = 2)%Z -> (0 <= s <= 6)%Z -> certified 53 1024 C100_p (f64_of_Z k) y.
Proof.
  intros Hk y t Er Es Hr Hs. exists t. destruct (C100_value k ltac:(lia)) as [Fk Vk].
  destruct (C100_equal y r ltac:(lia) Er) as [Fr Vr]. destruct (C100_equal t s ltac:(lia) Es) as [Fs Vs].
  assert (P1 : poly_eval f64_ring C100_p (f64_of_Z k) = Ok y) by apply poly_eval_horner.
  assert (P2 : poly_eval f64_ring (map (@Babs 53 1024) C100_p) (Babs (f64_of_Z k)) = Ok t) by apply poly_eval_horner.
  clearbody y t.
  do 4 (split; [assumption|]). rewrite Vk, Vr, Vs, <- abs_IZR, Hr. unfold growth, underflow.
  change (length C100_p - 1)%nat with 2%nat. cbn [rsum Nat.mul Nat.add pow].
  destruct C100_small as (U1 & U2 & U3 & U4). set (u := unit_roundoff 53) in *. set (e := underflow_unit 53 1024) in *.
  assert (0 <= IZR s <= 6) by (split; [apply (IZR_le 0)|apply (IZR_le _ 6)]; lia).
  assert (Rabs (IZR k) <= 2) by (rewrite <- abs_IZR; apply (IZR_le _ 2); lia). pose proof (Rabs_pos (IZR k)).
  assert (B3 : (1 + u) * ((1 + u) * (1 + u)) <= 2) by nra. assert (B4 : (1 + u) * ((1 + u) * ((1 + u) * (1 + u))) - 1 <= / 200) by nra.
  assert (B4' : 0 <= (1 + u) * ((1 + u) * ((1 + u) * (1 + u))) - 1) by nra.
  rewrite !Rmult_1_r. set (g := (1 + u) * ((1 + u) * ((1 + u) * (1 + u))) - 1) in *.
  set (c := (1 + u) * ((1 + u) * (1 + u))) in *. assert (0 <= c) by (unfold c; nra).
  assert (c * Rabs (IZR k) <= 4) by nra. assert (0 <= c * Rabs (IZR k)) by nra.
  assert (Hgs : g * IZR s <= / 200 * 6) by (apply Rmult_le_compat; lra).
  replace ((1 + u) ^ 4 - 1) with g by (unfold g, c; ring).
  replace (0 + (1 + u) ^ 1 + (1 + u) ^ 3 * Rabs (IZR k) ^ 1) with (1 + u + c * Rabs (IZR k)) by (unfold c; ring).
  assert (Hq : (1 + u + c * Rabs (IZR k)) * e <= 6 * / 1000) by (apply Rmult_le_compat; lra).
  lra.
Qed.
Example C100_case :
  (forall i, (i <= 2)%nat -> certified 53 1024 C100_p (C100_x i) (C100_r i))
  /\ (forall i, (i < 2)%nat -> B2R (C100_x i) < B2R (C100_x (S i)) /\ B2R (C100_r i) * B2R (C100_r (S i)) < 0)
  /\ (length C100_p <= 3)%nat.
Proof.
  split; [|split; [|cbn; lia]].
  - intros [|[|[|i]]] Hi; [| | |lia].
    + apply (C100_test (-2) 2 6); try lia; vm_compute; reflexivity.
    + apply (C100_test 0 (-2) 2); try lia; vm_compute; reflexivity.
    + apply (C100_test 2 2 6); try lia; vm_compute; reflexivity.
  - assert (V : B2R (C100_r 0) = 2 /\ B2R (C100_r 1) = -2 /\ B2R (C100_r 2) = 2).
    { split; [|split]; [apply (C100_equal _ 2)|apply (C100_equal _ (-2))|apply (C100_equal _ 2)]; try lia; vm_compute; reflexivity. }
    destruct V as (V0 & V1 & V2).
    intros [|[|i]] Hi; [| |lia]; rewrite ?V0, ?V1, ?V2; unfold C100_x;
      rewrite !(fun k H => proj2 (C100_value k H)) by (cbn; lia); cbn; lra.
Qed.
(** (3, 4) and (1, -2): the inner product is certainly negative. *)
Definition C100_dot (a b : dvector f64) : outcome f64 := dvector_dot (r_zero f64_ring) (r_add f64_ring) (r_mul f64_ring) prim_conj a b.
Example C100_case_dot :
  let a := [f64_of_Z 3; f64_of_Z 4] in let b := [f64_of_Z 1; f64_of_Z (-2)] in
  exists r s, C100_dot a b = Ok r /\ dot_abs 53 1024 a b s /\ is_finite r = true /\ is_finite s = true
  /\ (let u := unit_roundoff 53 in let g := (1 + u) ^ 2 - 1 in
      g < 1 /\ g * B2R s + INR 2 * (1 + u) ^ (2 - 1) * underflow_unit 53 1024 < (1 - g) * Rabs (B2R r)).
Proof.
  intros a b.
  assert (C1 : on_ok (C100_dot a b) (fun r => is_finite r && Beqb r (f64_of_Z (-5))) = true) by (vm_compute; reflexivity).
  assert (C2 : on_ok (C100_dot (map (@Babs 53 1024) a) (map (@Babs 53 1024) b)) (fun r => is_finite r && Beqb r (f64_of_Z 11)) = true)
    by (vm_compute; reflexivity).
  destruct (C100_dot a b) as [r| |] eqn:E1; try discriminate C1.
  destruct (C100_dot (map (@Babs 53 1024) a) (map (@Babs 53 1024) b)) as [s| |] eqn:E2; try discriminate C2.
  exists r, s. split; [reflexivity|]. split; [exact E2|].
  destruct (C100_equal r (-5) ltac:(lia) C1) as [F1 V1]. destruct (C100_equal s 11 ltac:(lia) C2) as [F2 V2].
  split; [exact F1|]. split; [exact F2|]. rewrite V1, V2, <- abs_IZR. cbv zeta.
  destruct C100_small as (U1 & U2 & U3 & U4). set (u := unit_roundoff 53) in *. set (e := underflow_unit 53 1024) in *.
  change (2 - 1)%nat with 1%nat. change (Z.abs (-5)) with 5%Z. rewrite pow_1. replace (INR 2) with 2 by (cbn; lra).
  assert ((1 + u) ^ 2 - 1 <= / 200) by nra. assert ((1 + u) * e <= 2 * / 1000) by (apply Rmult_le_compat; lra). split; nra.
Qed.

Print Assumptions C100_sign.
Print Assumptions C100_no_false_alarm.
Print Assumptions C100_root.
Print Assumptions C100_all_roots.
Print Assumptions C100_dot_sign.
