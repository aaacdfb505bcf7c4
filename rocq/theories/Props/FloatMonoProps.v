(** Property C79: f32/f64 computations with non-negative numbers are monotone.

    [Bleb x y = true] is Rust's [x <= y] (false when one of them is NaN).  All results here are
    ordinary or infinite, never NaN, where the theorem says [<=]. *)
From Coq Require Import List ZArith NArith Reals Bool Lia Lra.
From Flocq Require Import Core.Core IEEE754.BinarySingleNaN.
From Verif Require Import Base.Outcome Base.Usize Base.Array Model.Traits Model.Float Model.Polynomial Model.Complex
  Model.SVector Model.SMatrix Model.DVector Model.DMatrix
  Spec.Ring Spec.Sums Spec.Matrix Spec.DExpr Spec.DMatrix Spec.FloatErr
  Proofs.FloatErr Proofs.FloatInt Proofs.FloatComm Proofs.FloatSpecial Proofs.FloatMono
  Proofs.SMatrixProofs Proofs.DVectorProofs Proofs.DMatrixProofs Proofs.PolyExact
  Props.FloatProps Props.FloatPolyProps.
Import ListNotations.
Local Open Scope R_scope.

Section Fmt.
Context (prec emax : Z) {Hp : Prec_gt_0 prec} {He : Prec_lt_emax prec emax}.
Notation fl := (binary_float prec emax).
Notation FO := (float_ring prec emax).
Notation FF := (float_field prec emax).
Notation sig := (float_sig prec emax).
Notation zero := (fl_int prec emax 0).
Notation "x <=. y" := (Bleb x y = true) (at level 70).
Notation "x ~ y" := (same_up_to_zero x y) (at level 70).

(** 0 <= x <= y, and y is not infinite. *)
Definition between_zero_and (x y : fl) : Prop := zero <=. x /\ x <=. y /\ is_finite y = true.

(** ** Evaluation *)
Theorem C79_eval_monotone :
  forall (p q : poly fl) (x y : fl),
  (forall k, between_zero_and (nth k p zero) (nth k q zero)) -> between_zero_and x y ->
  exists r s, poly_eval FO p x = Ok r /\ poly_eval FO q y = Ok s /\ zero <=. r /\ r <=. s.
Proof.
  intros p q x y H Hx. exists (fl_horner prec emax p x), (fl_horner prec emax q y).
  split; [apply poly_eval_horner|]. split; [apply poly_eval_horner|]. split.
  - destruct (ordered_finite _ _ _ _ Hx) as (Fx & _ & Px & _). apply horner_nonneg; auto.
    intros k. destruct (ordered_finite _ _ _ _ (H k)) as (F & _ & P & _). auto.
  - apply horner_mono; assumption.
Qed.

(** ** Dot products *)
Theorem C79_dot_monotone :
  forall (n : nat) (a b a' b' : svector fl n),
  (forall i, (i < n)%nat -> between_zero_and (vec_at sig a i) (vec_at sig a' i)) ->
  (forall i, (i < n)%nat -> between_zero_and (vec_at sig b i) (vec_at sig b' i)) ->
  exists r s, svector_dot FO a b = Ok r /\ svector_dot FO a' b' = Ok s /\ zero <=. r /\ r <=. s.
Proof.
  intros n a b a' b' Ha Hb. unfold svector_dot. rewrite !(svector_dot_total FO _ (float_implements prec emax)).
  do 2 eexists. split; [reflexivity|]. split; [reflexivity|].
  apply (fdot_mono prec emax (vec_at sig a) (vec_at sig a') (vec_at sig b) (vec_at sig b')); assumption.
Qed.

Theorem C79_dvector_dot_monotone :
  forall a b a' b' : dvector fl, length a = length b -> length a' = length a -> length b' = length b ->
  (forall i, (i < length a)%nat -> between_zero_and (nth i a zero) (nth i a' zero)) ->
  (forall i, (i < length b)%nat -> between_zero_and (nth i b zero) (nth i b' zero)) ->
  exists r s, dvector_dot (r_zero FO) (r_add FO) (r_mul FO) prim_conj a b = Ok r
  /\ dvector_dot (r_zero FO) (r_add FO) (r_mul FO) prim_conj a' b' = Ok s /\ zero <=. r /\ r <=. s.
Proof.
  intros a b a' b' E Ea Eb Ha Hb. unfold dvector_dot.
  pose proof (dvector_dot_value sig (r_add FO) (r_mul FO) prim_conj (fun x => x)
    (fun _ _ => eq_refl) (fun _ _ => eq_refl) (fun _ => eq_refl)) as D.
  do 2 eexists. split; [apply D, E|]. split; [apply D; congruence|].
  rewrite Ea.
  apply (fdot_mono prec emax (fun i => nth i a zero) (fun i => nth i a' zero) (fun i => nth i b zero) (fun i => nth i b' zero));
    [assumption|rewrite E; assumption].
Qed.

(** ** Matrices *)
Theorem C79_smatrix_product_monotone :
  forall (L M N : nat) (a a' : smatrix fl L M) (b b' : smatrix fl M N),
  (forall i m, (i < L)%nat -> (m < M)%nat -> between_zero_and (mat_at sig a i m) (mat_at sig a' i m)) ->
  (forall m j, (m < M)%nat -> (j < N)%nat -> between_zero_and (mat_at sig b m j) (mat_at sig b' m j)) ->
  exists r s, smatrix_mul FO a b = Ok r /\ smatrix_mul FO a' b' = Ok s
  /\ forall i j, (i < L)%nat -> (j < N)%nat -> zero <=. mat_at sig r i j /\ mat_at sig r i j <=. mat_at sig s i j.
Proof.
  intros L M N a a' b b' Ha Hb. unfold smatrix_mul. rewrite !(smatrix_mul_total FO _ (float_implements prec emax)).
  do 2 eexists. split; [reflexivity|]. split; [reflexivity|]. intros i j Hi Hj. rewrite !mat_at_tab by assumption.
  apply (fdot_mono prec emax (fun m => mat_at sig a i m) (fun m => mat_at sig a' i m)
           (fun m => mat_at sig b m j) (fun m => mat_at sig b' m j)); intros; [apply Ha|apply Hb]; assumption.
Qed.

Theorem C79_smatrix_vector_monotone :
  forall (M N : nat) (a a' : smatrix fl M N) (v v' : svector fl N),
  (forall i j, (i < M)%nat -> (j < N)%nat -> between_zero_and (mat_at sig a i j) (mat_at sig a' i j)) ->
  (forall j, (j < N)%nat -> between_zero_and (vec_at sig v j) (vec_at sig v' j)) ->
  exists r s, smatrix_mul_vec FO a v = Ok r /\ smatrix_mul_vec FO a' v' = Ok s
  /\ forall i, (i < M)%nat -> zero <=. vec_at sig r i /\ vec_at sig r i <=. vec_at sig s i.
Proof.
  intros M N a a' v v' Ha Hv. rewrite !(smatrix_mul_vec_total FO _ (float_implements prec emax)).
  do 2 eexists. split; [reflexivity|]. split; [reflexivity|]. intros i Hi. rewrite !vec_at_tab by assumption.
  apply (fdot_mono prec emax (fun m => mat_at sig a i m) (fun m => mat_at sig a' i m)
           (fun m => vec_at sig v m) (fun m => vec_at sig v' m)); intros; [apply Ha|apply Hv]; assumption.
Qed.

Theorem C79_dmatrix_product_monotone :
  forall (md : target) (a b a' b' : dmatrix fl), dm_wf md a -> dm_wf md b -> dm_wf md a' -> dm_wf md b' ->
  dm_cols a = dm_rows b -> (1 <= dm_cols a)%N ->
  dm_rows a' = dm_rows a -> dm_cols a' = dm_cols a -> dm_rows b' = dm_rows b -> dm_cols b' = dm_cols b ->
  (forall i j, (i < dm_rows a)%N -> (j < dm_cols a)%N -> between_zero_and (dm_at sig a i j) (dm_at sig a' i j)) ->
  (forall i j, (i < dm_rows b)%N -> (j < dm_cols b)%N -> between_zero_and (dm_at sig b i j) (dm_at sig b' i j)) ->
  exists r s, (e <- dmatrix_mul md (r_mul FO) (r_add FO) a b ;; m_eval e) = Ok r
  /\ (e <- dmatrix_mul md (r_mul FO) (r_add FO) a' b' ;; m_eval e) = Ok s
  /\ forall i j, (i < dm_rows a)%N -> (j < dm_cols b)%N ->
     zero <=. dm_at sig r i j /\ dm_at sig r i j <=. dm_at sig s i j.
Proof.
  intros md a b a' b' Wa Wb Wa' Wb' E H1 R1 C1 R2 C2 Ha Hb.
  pose proof (dm_mul_total sig (r_add FO) (r_mul FO) (fun _ _ => eq_refl) (fun _ _ => eq_refl) md) as T.
  rewrite (T a b Wa Wb E H1), (T a' b' Wa' Wb') by congruence. clear T.
  do 2 eexists. split; [reflexivity|]. split; [reflexivity|]. intros i j Hi Hj. rewrite R1, C1, C2.
  rewrite !dm_at_tab by assumption. change (smul sig) with (fl_mul prec emax).
  rewrite (sum1_fdot1 prec emax (fun m => dm_at sig a i (N.of_nat m)) (fun m => dm_at sig b (N.of_nat m) j)).
  rewrite (sum1_fdot1 prec emax (fun m => dm_at sig a' i (N.of_nat m)) (fun m => dm_at sig b' (N.of_nat m) j)).
  apply fdot1_mono; intros m Hm; [apply Ha|apply Hb]; lia.
Qed.

(** ** Products of polynomials *)
Lemma leb_same (x y x' y' : fl) : x ~ x' -> y ~ y' -> x <=. y -> x' <=. y'.
Proof.
  intros [->|(s & t & -> & ->)] [->|(s' & t' & -> & ->)] H; try exact H.
Qed.

Lemma sum_window (f : nat -> fl) lo cnt extra :
  (forall i, (i < lo + cnt + extra)%nat -> (i < lo)%nat \/ (lo + cnt <= i)%nat -> is_zero _ _ (f i)) ->
  sum_n sig cnt (fun t => f (lo + t)%nat) ~ sum_n sig (lo + cnt + extra) f.
Proof.
  intros H. induction extra as [|x IH].
  - rewrite Nat.add_0_r in *. induction cnt as [|c IHc].
    + rewrite Nat.add_0_r in *. apply same_sym, same_zero, sum_zeros. intros i Hi. apply H; lia.
    + rewrite Nat.add_succ_r. cbn [sum_n]. apply add_same_l, IHc. intros i Hi Hc. apply H; lia.
  - rewrite Nat.add_succ_r. cbn [sum_n]. eapply same_trans; [apply IH; intros; apply H; lia|].
    apply same_sym, add_zero_r, H; lia.
Qed.

Lemma product_full (p q r : poly fl) k : (forall i, is_finite (nth i p zero) = true) -> (forall i, is_finite (nth i q zero) = true) ->
  poly_mul FO p q = Ok r ->
  nth k r zero ~ fdot prec emax (fun i => nth i p zero) (fun i => nth (k - i) q zero) (S k).
Proof.
  intros Fp Fq E. destruct (poly_mul_exact FO _ (float_implements prec emax) p q) as (r' & Hr & Hl & Hn).
  unfold poly_mul in E. rewrite E in Hr. injection Hr as <-.
  assert (Zp : forall i j, (length p <= i)%nat -> is_zero prec emax (fl_mul prec emax (nth i p zero) (nth j q zero))).
  { intros i j H. rewrite nth_overflow by exact H. apply mul_zero_l; [eexists; reflexivity|apply Fq]. }
  assert (Zq : forall i j, (length q <= j)%nat -> is_zero prec emax (fl_mul prec emax (nth i p zero) (nth j q zero))).
  { intros i j H. rewrite (nth_overflow q) by exact H. apply mul_zero_r; [eexists; reflexivity|apply Fp]. }
  destruct (Nat.lt_ge_cases k (length r)) as [Hk|Hk].
  - pose proof (Hn k Hk) as Hnk. change (sz sig) with zero in Hnk. rewrite Hnk. clear Hnk.
    set (lo := conv_lo (length q) k). set (cnt := (conv_hi (length p) k - lo)%nat).
    assert (Hlen : (length r = length p + length q - 1 /\ 0 < length p /\ 0 < length q)%nat).
    { destruct (Nat.eqb_spec (length p) 0), (Nat.eqb_spec (length q) 0); simpl in Hl; lia. }
    assert (Hb : (S k = lo + cnt + (S k - (lo + cnt)))%nat) by (unfold cnt, lo, conv_lo, conv_hi; lia).
    unfold fdot. rewrite Hb.
    apply (sum_window (fun i => fl_mul prec emax (nth i p zero) (nth (k - i) q zero))).
    intros i Hi Hc. unfold cnt, lo, conv_lo, conv_hi in *.
    destruct (Nat.lt_ge_cases i (length p)); [apply Zq|apply Zp]; lia.
  - rewrite nth_overflow by exact Hk. apply same_sym, same_zero. apply sum_zeros. intros i Hi.
    destruct (Nat.lt_ge_cases i (length p)); [|apply Zp; assumption].
    destruct (Nat.lt_ge_cases (k - i) (length q)); [|apply Zq; assumption].
    destruct (Nat.eqb_spec (length p) 0), (Nat.eqb_spec (length q) 0); simpl in Hl; lia.
Qed.

Theorem C79_poly_product_monotone :
  forall p q p' q' : poly fl,
  (forall k, between_zero_and (nth k p zero) (nth k p' zero)) ->
  (forall k, between_zero_and (nth k q zero) (nth k q' zero)) ->
  exists r s, poly_mul FO p q = Ok r /\ poly_mul FO p' q' = Ok s
  /\ forall k, zero <=. nth k r zero /\ nth k r zero <=. nth k s zero.
Proof.
  intros p q p' q' H1 H2.
  destruct (poly_mul_exact FO _ (float_implements prec emax) p q) as (r & Hr & _).
  destruct (poly_mul_exact FO _ (float_implements prec emax) p' q') as (s & Hs & _).
  exists r, s. split; [exact Hr|]. split; [exact Hs|]. intros k.
  assert (F1 : forall i, is_finite (nth i p zero) = true) by (intros i; apply (ordered_finite _ _ _ _ (H1 i))).
  assert (F2 : forall i, is_finite (nth i q zero) = true) by (intros i; apply (ordered_finite _ _ _ _ (H2 i))).
  assert (F3 : forall i, is_finite (nth i p' zero) = true) by (intros i; apply (ordered_finite _ _ _ _ (H1 i))).
  assert (F4 : forall i, is_finite (nth i q' zero) = true) by (intros i; apply (ordered_finite _ _ _ _ (H2 i))).
  pose proof (same_sym _ _ _ _ (product_full p q r k F1 F2 Hr)) as E1.
  pose proof (same_sym _ _ _ _ (product_full p' q' s k F3 F4 Hs)) as E2.
  destruct (fdot_mono prec emax (fun i => nth i p zero) (fun i => nth i p' zero)
              (fun i => nth (k - i) q zero) (fun i => nth (k - i) q' zero) (S k)) as [P L]; [intros; apply H1|intros; apply H2|].
  split; [apply (leb_same _ _ _ _ (same_refl _ _ zero) E1 P)|apply (leb_same _ _ _ _ E1 E2 L)].
Qed.

(** ** Sums and differences, for numbers of any sign *)
Definition at_most_unless_nan (x y : fl) : Prop := is_nan x = true \/ is_nan y = true \/ x <=. y.

Lemma nth_sum (p q r : poly fl) k : (forall k, nth_error r k = sum_at prec emax (nth_error p k) (nth_error q k)) ->
  nth k r zero ~ fl_add prec emax (nth k p zero) (nth k q zero).
Proof.
  intros N. specialize (N k). rewrite !nth_default_eq || idtac.
  assert (D : forall l : list fl, nth k l zero = match nth_error l k with Some x => x | None => zero end).
  { intros l. destruct (nth_error l k) eqn:E; [apply nth_error_nth, E|apply nth_overflow, nth_error_None, E]. }
  rewrite !D, N. unfold sum_at. destruct (nth_error p k), (nth_error q k).
  - apply same_refl.
  - apply same_sym, add_zero_r. eexists. reflexivity.
  - apply same_sym, add_zero_l. eexists. reflexivity.
  - right. eexists _, _. split; reflexivity.
Qed.

Lemma nan_same (x y : fl) : x ~ y -> is_nan x = is_nan y.
Proof. intros [->|(s & t & -> & ->)]; reflexivity. Qed.

Theorem C79_poly_sum_monotone :
  forall p q p' q' : poly fl,
  (forall k, nth k p zero <=. nth k p' zero) -> (forall k, nth k q zero <=. nth k q' zero) ->
  exists r s, poly_add FO p q = Ok r /\ poly_add FO p' q' = Ok s
  /\ forall k, at_most_unless_nan (nth k r zero) (nth k s zero).
Proof.
  intros p q p' q' H1 H2.
  destruct (C64_sums prec emax p q) as (r & _ & Hr & _ & _ & Nr & _).
  destruct (C64_sums prec emax p' q') as (s & _ & Hs & _ & _ & Ns & _).
  exists r, s. split; [exact Hr|]. split; [exact Hs|]. intros k.
  pose proof (nth_sum p q r k Nr) as E1. pose proof (nth_sum p' q' s k Ns) as E2.
  unfold at_most_unless_nan. rewrite (nan_same _ _ E1), (nan_same _ _ E2).
  destruct (is_nan (fl_add prec emax (nth k p zero) (nth k q zero))) eqn:M1; [auto|].
  destruct (is_nan (fl_add prec emax (nth k p' zero) (nth k q' zero))) eqn:M2; [auto|]. right. right.
  eapply leb_same; [apply same_sym, E1|apply same_sym, E2|]. apply add_mono; auto.
Qed.

(** Subtraction reverses the order in its second operand. *)
Theorem C79_poly_difference_monotone :
  forall p q p' q' : poly fl,
  (forall k, nth k p zero <=. nth k p' zero) -> (forall k, nth k q' zero <=. nth k q zero) ->
  exists r s, poly_sub FO p q = Ok r /\ poly_sub FO p' q' = Ok s
  /\ forall k, at_most_unless_nan (nth k r zero) (nth k s zero).
Proof.
  intros p q p' q' H1 H2.
  assert (Hn : forall q : poly fl, poly_neg FO q = Ok (map (@Bopp prec emax) q)) by (intros; apply mapM_total; reflexivity).
  unfold poly_sub. rewrite !Hn. cbn [bind].
  apply C79_poly_sum_monotone; [exact H1|]. intros k.
  assert (D : forall l : list fl, nth k (map (@Bopp prec emax) l) zero ~ Bopp (nth k l zero)).
  { intros l. destruct (Nat.lt_ge_cases k (length l)) as [H|H].
    - rewrite (nth_indep _ zero (Bopp zero)) by (rewrite map_length; exact H). rewrite map_nth. apply same_refl.
    - rewrite !nth_overflow by (rewrite ?map_length; exact H). right. eexists _, _. split; reflexivity. }
  eapply leb_same; [apply same_sym, D|apply same_sym, D|]. apply opp_mono, H2.
Qed.

(** ** Norm and absolute value of complex numbers, infinite components allowed *)
Theorem C79_abs_monotone :
  forall (libm : FunOps fl) (z w : complex fl),
  Babs (re z) <=. Babs (re w) -> Babs (im z) <=. Babs (im w) ->
  exists m n a b, complex_sqr_norm FO z = Ok m /\ complex_sqr_norm FO w = Ok n
  /\ complex_abs FF (float_fun prec emax libm) z = Ok a /\ complex_abs FF (float_fun prec emax libm) w = Ok b
  /\ zero <=. m /\ m <=. n /\ zero <=. a /\ a <=. b.
Proof.
  intros libm [x y] [x' y'] Hx Hy. cbn [re im] in *. do 4 eexists. do 4 (split; [reflexivity|]).
  cbn [re im]. destruct (square_mono prec emax x x' Hx) as [P1 L1], (square_mono prec emax y y' Hy) as [P2 L2].
  pose proof (leb_trans prec emax _ _ _ P1 L1) as P3. pose proof (leb_trans prec emax _ _ _ P2 L2) as P4.
  pose proof (add_nonneg prec emax _ _ P1 P2) as P5. pose proof (add_nonneg prec emax _ _ P3 P4) as P6.
  assert (L : fl_add prec emax (fl_mul prec emax x x) (fl_mul prec emax y y)
              <=. fl_add prec emax (fl_mul prec emax x' x') (fl_mul prec emax y' y')).
  { apply add_mono; auto; eapply nonneg_zero_num; eassumption. }
  split; [exact P5|]. split; [exact L|]. split.
  - apply (sqrt_mono prec emax zero); [reflexivity|exact P5].
  - apply sqrt_mono; assumption.
Qed.
End Fmt.

(** 1/3 + x <= 1/2 + 2x + x^2 on 0 <= x: the hypotheses hold for these and the results differ. *)
Definition mono_p : poly f64 := [third; f64_of_Z 1].
Definition mono_q : poly f64 := [f64_of_Z 1; f64_of_Z 2; f64_of_Z 1].
Example C79_case :
  (forall k, between_zero_and 53 1024 (nth k mono_p (fl_int 53 1024 0)) (nth k mono_q (fl_int 53 1024 0)))
  /\ between_zero_and 53 1024 third (f64_of_Z 3)
  /\ on_ok (poly_eval f64_ring mono_p third) (fun r =>
       on_ok (poly_eval f64_ring mono_q (f64_of_Z 3)) (fun s => Bltb (f64_of_Z 0) r && Bltb r s)) = true
  /\ on_ok (poly_mul f64_ring mono_p mono_p) (fun r =>
       on_ok (poly_mul f64_ring mono_q mono_q) (fun s => (length s =? 5)%nat && (length r =? 3)%nat
         && Bltb (nth 1 r (f64_of_Z 0)) (nth 1 s (f64_of_Z 0)))) = true.
Proof.
  split; [|split; [|split; vm_compute; reflexivity]].
  - intros [|[|[|k]]]; [| | |destruct k]; (split; [vm_compute; reflexivity|split; vm_compute; reflexivity]).
  - split; [vm_compute; reflexivity|split; vm_compute; reflexivity].
Qed.

(** |3 + 4i| <= |-3 + inf i|. *)
Example C79_case_abs :
  Bleb (Babs (f64_of_Z 3)) (Babs (f64_of_Z (-3))) = true /\ Bleb (Babs (f64_of_Z 4)) (Babs (@B754_infinity 53 1024 true)) = true.
Proof. split; vm_compute; reflexivity. Qed.

Print Assumptions C79_eval_monotone.
Print Assumptions C79_dot_monotone.
Print Assumptions C79_dvector_dot_monotone.
Print Assumptions C79_smatrix_product_monotone.
Print Assumptions C79_smatrix_vector_monotone.
Print Assumptions C79_dmatrix_product_monotone.
Print Assumptions C79_poly_product_monotone.
Print Assumptions C79_poly_sum_monotone.
Print Assumptions C79_poly_difference_monotone.
Print Assumptions C79_abs_monotone.
