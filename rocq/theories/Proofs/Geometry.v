(** Cauchy-Schwarz and its consequences for real sums, as used for the inner products. *)
From Coq Require Import List Arith Lia Reals Lra.
From Verif Require Import Spec.Ring Spec.Sums Proofs.RealRing.
Local Open Scope R_scope.

Definition rs (n : nat) (f : nat -> R) : R := sum_n real_sig n f.

Lemma rs_S n f : rs (S n) f = rs n f + f n. Proof. reflexivity. Qed.
Lemma rs_0 f : rs 0 f = 0. Proof. reflexivity. Qed.

Lemma rs_ext n f g : (forall i, (i < n)%nat -> f i = g i) -> rs n f = rs n g.
Proof.
  induction n as [|n IH]; intros H; [reflexivity|]. rewrite !rs_S, IH, H by (intros; try apply H; lia). reflexivity.
Qed.
Lemma rs_plus n f g : rs n (fun i => f i + g i) = rs n f + rs n g.
Proof. induction n as [|n IH]; [rewrite !rs_0; ring|]. rewrite !rs_S, IH. ring. Qed.
Lemma rs_minus n f g : rs n (fun i => f i - g i) = rs n f - rs n g.
Proof. induction n as [|n IH]; [rewrite !rs_0; ring|]. rewrite !rs_S, IH. ring. Qed.
Lemma rs_scal n c f : rs n (fun i => c * f i) = c * rs n f.
Proof. induction n as [|n IH]; [rewrite !rs_0; ring|]. rewrite !rs_S, IH. ring. Qed.
Lemma rs_zero n f : (forall i, (i < n)%nat -> f i = 0) -> rs n f = 0.
Proof. intros H. induction n as [|n IH]; [reflexivity|]. rewrite rs_S, IH, H by (intros; try apply H; lia). ring. Qed.
Lemma rs_nonneg n f : (forall i, (i < n)%nat -> 0 <= f i) -> 0 <= rs n f.
Proof.
  intros H. induction n as [|n IH]; [rewrite rs_0; lra|]. rewrite rs_S.
  assert (0 <= rs n f) by (apply IH; intros; apply H; lia). assert (0 <= f n) by (apply H; lia). lra.
Qed.
Lemma rs_le n f g : (forall i, (i < n)%nat -> f i <= g i) -> rs n f <= rs n g.
Proof.
  intros H. induction n as [|n IH]; [rewrite !rs_0; lra|]. rewrite !rs_S.
  assert (rs n f <= rs n g) by (apply IH; intros; apply H; lia). assert (f n <= g n) by (apply H; lia). lra.
Qed.
Lemma rs_nonneg_zero n f : (forall i, (i < n)%nat -> 0 <= f i) -> rs n f = 0 -> forall i, (i < n)%nat -> f i = 0.
Proof.
  intros H. induction n as [|n IH]; intros E i Hi; [lia|]. rewrite rs_S in E.
  assert (0 <= rs n f) by (apply rs_nonneg; intros; apply H; lia). assert (0 <= f n) by (apply H; lia).
  destruct (Nat.eq_dec i n) as [->|N]; [lra|]. apply IH; [intros; apply H; lia|lra|lia].
Qed.
Lemma rs_swap n m f : rs n (fun i => rs m (f i)) = rs m (fun j => rs n (fun i => f i j)).
Proof.
  induction n as [|n IH].
  - rewrite rs_0. symmetry. apply rs_zero. reflexivity.
  - rewrite rs_S, IH, <- rs_plus. reflexivity.
Qed.

(** Complex pairs (a i, b i), (c i, d i): the Hermitian product has the parts P and Q. *)
Section CS.
Context (n : nat) (a b c d : nat -> R).
Let U := rs n (fun i => a i * a i + b i * b i).
Let V := rs n (fun i => c i * c i + d i * d i).
Let P := rs n (fun i => c i * a i + d i * b i).
Let Q := rs n (fun i => c i * b i - d i * a i).

Lemma lagrange :
  rs n (fun i => (V * a i - (P * c i - Q * d i)) * (V * a i - (P * c i - Q * d i))
               + (V * b i - (P * d i + Q * c i)) * (V * b i - (P * d i + Q * c i)))
  = V * (U * V - (P * P + Q * Q)).
Proof.
  rewrite (rs_ext n _ (fun i => V * V * (a i * a i + b i * b i)
     + (- (2 * V * P) * (c i * a i + d i * b i) + (- (2 * V * Q) * (c i * b i - d i * a i)
     + (P * P + Q * Q) * (c i * c i + d i * d i))))) by (intros; ring).
  rewrite !rs_plus, !rs_scal. fold U V P Q. ring.
Qed.

Lemma U_nonneg : 0 <= U.
Proof. apply rs_nonneg. intros i _. pose proof (Rle_0_sqr (a i)). pose proof (Rle_0_sqr (b i)). unfold Rsqr in *. lra. Qed.
Lemma V_nonneg : 0 <= V.
Proof. apply rs_nonneg. intros i _. pose proof (Rle_0_sqr (c i)). pose proof (Rle_0_sqr (d i)). unfold Rsqr in *. lra. Qed.

Lemma V_zero : V = 0 -> forall i, (i < n)%nat -> c i = 0 /\ d i = 0.
Proof.
  intros E i Hi.
  assert (Z : c i * c i + d i * d i = 0).
  { apply (rs_nonneg_zero n (fun i => c i * c i + d i * d i)); [|exact E|exact Hi].
    intros k _. pose proof (Rle_0_sqr (c k)). pose proof (Rle_0_sqr (d k)). unfold Rsqr in *. lra. }
  pose proof (Rle_0_sqr (c i)) as H1. pose proof (Rle_0_sqr (d i)) as H2. unfold Rsqr in *.
  split; apply Rsqr_eq_0; unfold Rsqr; lra.
Qed.

Lemma PQ_zero : V = 0 -> P = 0 /\ Q = 0.
Proof.
  intros E. split; apply rs_zero; intros i Hi; destruct (V_zero E i Hi) as [-> ->]; ring.
Qed.

Lemma cauchy_schwarz : P * P + Q * Q <= U * V.
Proof.
  pose proof V_nonneg as HV. destruct HV as [HV|HV].
  - assert (L : 0 <= V * (U * V - (P * P + Q * Q))).
    { rewrite <- lagrange. apply rs_nonneg. intros i _. apply Rplus_le_le_0_compat; apply Rle_0_sqr. }
    apply Rnot_lt_le. intros X. assert (V * (U * V - (P * P + Q * Q)) < 0); [|lra].
    replace (V * (U * V - (P * P + Q * Q))) with (- (V * ((P * P + Q * Q) - U * V))) by ring.
    apply Ropp_lt_gt_0_contravar. apply Rmult_lt_0_compat; lra.
  - destruct (PQ_zero (eq_sym HV)) as [-> ->]. rewrite <- HV. lra.
Qed.

Lemma equality_dependent : P * P + Q * Q = U * V ->
  forall i, (i < n)%nat -> V * a i = P * c i - Q * d i /\ V * b i = P * d i + Q * c i.
Proof.
  intros E i Hi.
  pose proof lagrange as L. rewrite E in L. replace (V * (U * V - U * V)) with 0 in L by ring.
  pose proof (rs_nonneg_zero n _ (fun k _ => Rplus_le_le_0_compat _ _ (Rle_0_sqr _) (Rle_0_sqr _)) L i Hi) as Z. cbv beta in Z.
  unfold Rsqr in Z.
  set (x := V * a i - (P * c i - Q * d i)) in *. set (y := V * b i - (P * d i + Q * c i)) in *.
  pose proof (Rle_0_sqr x) as H1. pose proof (Rle_0_sqr y) as H2. unfold Rsqr in *.
  assert (x = 0) by (apply Rsqr_eq_0; unfold Rsqr; lra). assert (y = 0) by (apply Rsqr_eq_0; unfold Rsqr; lra).
  unfold x, y in *. lra.
Qed.
End CS.

Lemma sqrt_triangle U V W P : 0 <= U -> 0 <= V -> W = U + V + 2 * P -> P * P <= U * V -> 0 <= W ->
  sqrt W <= sqrt U + sqrt V.
Proof.
  intros HU HV -> HP HW. apply Rsqr_incr_0_var; [|pose proof (sqrt_pos U); pose proof (sqrt_pos V); lra].
  rewrite Rsqr_sqrt by exact HW. unfold Rsqr.
  replace ((sqrt U + sqrt V) * (sqrt U + sqrt V)) with (sqrt U * sqrt U + sqrt V * sqrt V + 2 * (sqrt U * sqrt V)) by ring.
  rewrite !sqrt_sqrt by assumption. rewrite <- sqrt_mult by assumption.
  assert (P <= sqrt (U * V)); [|lra].
  destruct (Rle_dec P 0) as [N|N]; [pose proof (sqrt_pos (U * V)); lra|].
  rewrite <- (sqrt_square P) by lra. apply sqrt_le_1_alt. exact HP.
Qed.

(** The real case. *)
Lemma cs_real n (a c : nat -> R) :
  rs n (fun i => a i * c i) * rs n (fun i => a i * c i) <= rs n (fun i => a i * a i) * rs n (fun i => c i * c i).
Proof.
  pose proof (cauchy_schwarz n a (fun _ => 0) c (fun _ => 0)) as H. cbv beta in H.
  rewrite (rs_ext n (fun i => a i * a i + 0 * 0) (fun i => a i * a i)) in H by (intros; ring).
  rewrite (rs_ext n (fun i => c i * c i + 0 * 0) (fun i => c i * c i)) in H by (intros; ring).
  rewrite (rs_ext n (fun i => c i * a i + 0 * 0) (fun i => a i * c i)) in H by (intros; ring).
  rewrite (rs_ext n (fun i => c i * 0 - 0 * a i) (fun i => 0)) in H by (intros; ring).
  rewrite (rs_zero n (fun _ => 0)) in H by reflexivity. lra.
Qed.

Lemma cs_real_eq n (a c : nat -> R) :
  rs n (fun i => a i * c i) * rs n (fun i => a i * c i) = rs n (fun i => a i * a i) * rs n (fun i => c i * c i)
  <-> exists s t, (s <> 0 \/ t <> 0) /\ forall i, (i < n)%nat -> s * a i = t * c i.
Proof.
  split.
  - intros E. pose proof (equality_dependent n a (fun _ => 0) c (fun _ => 0)) as H. cbv beta in H.
    rewrite (rs_ext n (fun i => a i * a i + 0 * 0) (fun i => a i * a i)) in H by (intros; ring).
    rewrite (rs_ext n (fun i => c i * c i + 0 * 0) (fun i => c i * c i)) in H by (intros; ring).
    rewrite (rs_ext n (fun i => c i * a i + 0 * 0) (fun i => a i * c i)) in H by (intros; ring).
    rewrite (rs_ext n (fun i => c i * 0 - 0 * a i) (fun i => 0)) in H by (intros; ring).
    rewrite (rs_zero n (fun _ => 0)) in H by reflexivity.
    destruct (Req_dec (rs n (fun i => c i * c i)) 0) as [Z|Z].
    + exists 0, 1. split; [right; lra|]. intros i Hi.
      assert (X : c i * c i = 0) by (apply (rs_nonneg_zero n (fun i => c i * c i)); [intros; apply Rle_0_sqr|exact Z|exact Hi]).
      apply Rmult_integral in X. destruct X as [->| ->]; ring.
    + exists (rs n (fun i => c i * c i)), (rs n (fun i => a i * c i)). split; [left; exact Z|].
      intros i Hi. destruct (H ltac:(lra) i Hi) as [H1 _]. lra.
  - intros (s & t & [Hs|Ht] & H).
    + assert (A : forall i, (i < n)%nat -> a i = t / s * c i).
      { intros i Hi. apply (Rmult_eq_reg_l s); [|exact Hs]. rewrite H by exact Hi. field. exact Hs. }
      rewrite (rs_ext n (fun i => a i * c i) (fun i => t / s * (c i * c i))) by (intros i Hi; rewrite A by exact Hi; ring).
      rewrite (rs_ext n (fun i => a i * a i) (fun i => t / s * (t / s) * (c i * c i))) by (intros i Hi; rewrite A by exact Hi; ring).
      rewrite !rs_scal. ring.
    + assert (A : forall i, (i < n)%nat -> c i = s / t * a i).
      { intros i Hi. apply (Rmult_eq_reg_l t); [|exact Ht]. rewrite <- H by exact Hi. field. exact Ht. }
      rewrite (rs_ext n (fun i => a i * c i) (fun i => s / t * (a i * a i))) by (intros i Hi; rewrite A by exact Hi; ring).
      rewrite (rs_ext n (fun i => c i * c i) (fun i => s / t * (s / t) * (a i * a i))) by (intros i Hi; rewrite A by exact Hi; ring).
      rewrite !rs_scal. ring.
Qed.
