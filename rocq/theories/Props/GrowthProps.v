(** Property C107: what decides the relative accuracy of float results.  Without cancellation eval, dot products and matrix
    products have a small relative error; in general the relative error is the condition number of the problem times it; the
    dependence on the number of terms is really linear; with cancellation not even the sign is right. *)
From Coq Require Import List ZArith NArith Reals Bool Lia Lra.
From Flocq Require Import Core.Core IEEE754.BinarySingleNaN.
From Verif Require Import Base.Outcome Base.Usize Base.Array Model.Traits Model.Float Model.Polynomial
  Model.SVector Model.SMatrix Model.DVector Model.DMatrix Spec.DExpr Spec.DMatrix Spec.FloatErr
  Proofs.FloatErr Proofs.FloatRound Proofs.DMatrixProofs Props.FloatProps.
Import ListNotations.
Local Open Scope R_scope.

Notation dot_exact n a b := (rsum n (fun i => entry_R a i * entry_R b i)).
Notation dot_mag n a b := (rsum n (fun i => Rabs (entry_R a i) * Rabs (entry_R b i))).

(** The bound [dot_bound] with the magnitude replaced by [kappa] times the exact value. *)
Definition relative_bound (prec emax : Z) (n : nat) (kappa exact : R) : R :=
  ((1 + unit_roundoff prec) ^ n - 1) * kappa * Rabs exact
  + INR n * (1 + unit_roundoff prec) ^ (n - 1) * underflow_unit prec emax.
(** The underflow term of Horner's rule. *)
Definition horner_underflow (prec emax : Z) (n : nat) (x : R) : R :=
  rsum n (fun i => (1 + unit_roundoff prec) ^ (2 * i + 1) * Rabs x ^ i) * underflow_unit prec emax.

Section Fmt.
Context (prec emax : Z) {Hp : Prec_gt_0 prec} {He : Prec_lt_emax prec emax}.
Notation fl := (binary_float prec emax).
Notation FO := (float_ring prec emax).
Notation u := (unit_roundoff prec).

Lemma growth_nonneg n : 0 <= (1 + u) ^ n - 1.
Proof.
  assert (U : 0 <= u) by apply bpow_ge_0. induction n; cbn [pow]; [lra|]. assert (0 <= u * ((1 + u) ^ n)) by (apply Rmult_le_pos; lra). lra.
Qed.

Lemma bound_kappa n mag kappa exact : mag <= kappa * Rabs exact -> dot_bound prec emax n mag <= relative_bound prec emax n kappa exact.
Proof.
  intros H. unfold dot_bound, relative_bound. apply Rplus_le_compat_r. rewrite Rmult_assoc. apply Rmult_le_compat_l; [apply growth_nonneg|exact H].
Qed.

Lemma products_nonneg n (f g : nat -> R) : (forall i, (i < n)%nat -> 0 <= f i * g i) ->
  rsum n (fun i => Rabs (f i) * Rabs (g i)) <= 1 * Rabs (rsum n (fun i => f i * g i)).
Proof.
  intros H. rewrite Rmult_1_l, (Rabs_pos_eq (rsum n _)) by (apply rsum_nonneg; exact H). right. apply rsum_ext. intros i Hi.
  rewrite <- Rabs_mult. apply Rabs_pos_eq. apply H; exact Hi.
Qed.

(** ** The condition number *)
Theorem C107_eval_condition : forall (p : poly fl) (x r : fl) (kappa : R), poly_eval FO p x = Ok r -> is_finite r = true ->
  abs_eval p (B2R x) <= kappa * Rabs (exact_eval p (B2R x)) ->
  let n := (length p - 1)%nat in
  Rabs (B2R r - exact_eval p (B2R x))
  <= ((1 + u) ^ (2 * n) - 1) * kappa * Rabs (exact_eval p (B2R x)) + horner_underflow prec emax n (B2R x).
Proof.
  intros p x r kappa E F K n. destruct (C51_horner_error prec emax p x) as (r' & E' & B). rewrite E in E'. injection E' as <-.
  eapply Rle_trans; [exact (B F)|]. apply Rplus_le_compat_r. rewrite Rmult_assoc. apply Rmult_le_compat_l; [apply growth_nonneg|exact K].
Qed.

Theorem C107_dot_condition : forall (n : nat) (a b : svector fl n) (r : fl) (kappa : R), svector_dot FO a b = Ok r -> is_finite r = true ->
  dot_mag n (entries a) (entries b) <= kappa * Rabs (dot_exact n (entries a) (entries b)) ->
  Rabs (B2R r - dot_exact n (entries a) (entries b)) <= relative_bound prec emax n kappa (dot_exact n (entries a) (entries b)).
Proof.
  intros n a b r kappa E F K. destruct (C52_svector_dot_error prec emax n a b) as (r' & E' & B). rewrite E in E'. injection E' as <-.
  eapply Rle_trans; [exact (B F)|]. apply bound_kappa. exact K.
Qed.

Theorem C107_dynamic_dot_condition : forall (a b : dvector fl) (r : fl) (kappa : R), length a = length b ->
  dvector_dot (r_zero FO) (r_add FO) (r_mul FO) prim_conj a b = Ok r -> is_finite r = true ->
  dot_mag (length a) a b <= kappa * Rabs (dot_exact (length a) a b) ->
  Rabs (B2R r - dot_exact (length a) a b) <= relative_bound prec emax (length a) kappa (dot_exact (length a) a b).
Proof.
  intros a b r kappa L E F K. destruct (C52_dvector_dot_error prec emax a b L) as (r' & E' & B). rewrite E in E'. injection E' as <-.
  eapply Rle_trans; [exact (B F)|]. apply bound_kappa. exact K.
Qed.

(** ** No cancellation: a_i x^i >= 0 for all i, or u_i v_i >= 0 for all i *)
Theorem C107_eval_relative : forall (p : poly fl) (x r : fl), poly_eval FO p x = Ok r -> is_finite r = true ->
  (forall i, (i < length p)%nat -> 0 <= entry_R p i * B2R x ^ i) ->
  let n := (length p - 1)%nat in
  Rabs (B2R r - exact_eval p (B2R x)) <= ((1 + u) ^ (2 * n) - 1) * exact_eval p (B2R x) + horner_underflow prec emax n (B2R x).
Proof.
  intros p x r E F H n. assert (P : 0 <= exact_eval p (B2R x)) by (apply rsum_nonneg; exact H).
  pose proof (C107_eval_condition p x r 1 E F) as C. cbv zeta in C. rewrite Rmult_1_l, Rmult_1_r, (Rabs_pos_eq (exact_eval _ _)) in C by exact P. apply C.
  right. apply rsum_ext. intros i Hi. rewrite RPow_abs, <- Rabs_mult. apply Rabs_pos_eq. apply H; exact Hi.
Qed.

Theorem C107_dot_relative : forall (n : nat) (a b : svector fl n) (r : fl), svector_dot FO a b = Ok r -> is_finite r = true ->
  (forall i, (i < n)%nat -> 0 <= entry_R (entries a) i * entry_R (entries b) i) ->
  Rabs (B2R r - dot_exact n (entries a) (entries b)) <= relative_bound prec emax n 1 (dot_exact n (entries a) (entries b)).
Proof. intros n a b r E F H. apply C107_dot_condition; [exact E|exact F|]. apply products_nonneg. exact H. Qed.

Theorem C107_dynamic_dot_relative : forall (a b : dvector fl) (r : fl), length a = length b ->
  dvector_dot (r_zero FO) (r_add FO) (r_mul FO) prim_conj a b = Ok r -> is_finite r = true ->
  (forall i, (i < length a)%nat -> 0 <= entry_R a i * entry_R b i) ->
  Rabs (B2R r - dot_exact (length a) a b) <= relative_bound prec emax (length a) 1 (dot_exact (length a) a b).
Proof. intros a b r L E F H. apply C107_dynamic_dot_condition; [exact L|exact E|exact F|]. apply products_nonneg. exact H. Qed.

(** Products of matrices: every finite entry whose terms have no opposite signs, in particular all entries of products of
    matrices with non-negative entries. *)
Theorem C107_matrix_product_relative : forall (L M N : nat) (a : smatrix fl L M) (b : smatrix fl M N) r, smatrix_mul FO a b = Ok r ->
  forall i j, (i < L)%nat -> (j < N)%nat -> forall x, nth_error (nth i (map entries (entries r)) []) j = Some x -> is_finite x = true ->
  (forall m, (m < M)%nat -> 0 <= smat_R a i m * smat_R b m j) ->
  Rabs (B2R x - rsum M (fun m => smat_R a i m * smat_R b m j)) <= relative_bound prec emax M 1 (rsum M (fun m => smat_R a i m * smat_R b m j)).
Proof.
  intros L M N a b r E i j Hi Hj x Hx F H. destruct (C52_smatrix_product_error prec emax L M N a b) as (r' & E' & B). rewrite E in E'. injection E' as <-.
  eapply Rle_trans; [exact (B i j Hi Hj x Hx F)|]. apply bound_kappa. apply (products_nonneg M (fun m => smat_R a i m) (fun m => smat_R b m j)). exact H.
Qed.

Theorem C107_matrix_vector_relative : forall (M N : nat) (a : smatrix fl M N) (v : svector fl N) r, smatrix_mul_vec FO a v = Ok r ->
  forall i, (i < M)%nat -> forall x, nth_error (entries r) i = Some x -> is_finite x = true ->
  (forall j, (j < N)%nat -> 0 <= smat_R a i j * entry_R (entries v) j) ->
  Rabs (B2R x - rsum N (fun j => smat_R a i j * entry_R (entries v) j))
  <= relative_bound prec emax N 1 (rsum N (fun j => smat_R a i j * entry_R (entries v) j)).
Proof.
  intros M N a v r E i Hi x Hx F H. destruct (C52_smatrix_vector_error prec emax M N a v) as (r' & E' & B). rewrite E in E'. injection E' as <-.
  eapply Rle_trans; [exact (B i Hi x Hx F)|]. apply bound_kappa. apply (products_nonneg N (fun j => smat_R a i j) (fun j => entry_R (entries v) j)). exact H.
Qed.

Theorem C107_dynamic_product_relative : forall (md : target) (a b : dmatrix fl), dm_wf md a -> dm_wf md b -> dm_cols a = dm_rows b -> (1 <= dm_cols a)%N ->
  let k := N.to_nat (dm_cols a) in
  forall r, (e <- dmatrix_mul md (r_mul FO) (r_add FO) a b ;; m_eval e) = Ok r ->
  forall i j, (i < dm_rows a)%N -> (j < dm_cols b)%N -> forall x,
  nth_error (dm_data r) (N.to_nat (i * dm_cols b + j)) = Some x -> is_finite x = true ->
  (forall m, (m < k)%nat -> 0 <= dmat_R a i (N.of_nat m) * dmat_R b (N.of_nat m) j) ->
  Rabs (B2R x - rsum k (fun m => dmat_R a i (N.of_nat m) * dmat_R b (N.of_nat m) j))
  <= relative_bound prec emax k 1 (rsum k (fun m => dmat_R a i (N.of_nat m) * dmat_R b (N.of_nat m) j)).
Proof.
  intros md a b Wa Wb S C k r E i j Hi Hj x Hx F H. destruct (C52_dmatrix_product_error prec emax md a b Wa Wb S C) as (r' & E' & _ & _ & B). rewrite E in E'. injection E' as <-.
  eapply Rle_trans; [exact (B i j Hi Hj x Hx F)|]. apply bound_kappa. apply (products_nonneg k (fun m => dmat_R a i (N.of_nat m)) (fun m => dmat_R b (N.of_nat m) j)). exact H.
Qed.

(** ** The error does grow with the number of terms *)
(** 1 and u as floats, with the products and sums formed below. *)
Definition absorbs (one tiny : fl) : Prop :=
  B2R one = 1 /\ B2R tiny = u /\ fl_mul prec emax tiny one = tiny /\ fl_mul prec emax one one = one
  /\ fl_mul prec emax (fl_int prec emax 0) one = fl_int prec emax 0
  /\ fl_add prec emax (fl_int prec emax 0) one = one /\ fl_add prec emax one tiny = one.

Context (one tiny : fl) (HA : absorbs one tiny).

Lemma rsum_const n c : rsum n (fun _ => c) = INR n * c.
Proof. induction n; [cbn; ring|]. rewrite S_INR. cbn [rsum]. rewrite IHn. ring. Qed.
Lemma entry_repeat n i : (i < n)%nat -> entry_R (repeat tiny n) i = u.
Proof.
  destruct HA as (_ & Vt & _). intros H. unfold entry_R. rewrite <- Vt. revert i H. induction n; intros i H; [lia|]. destruct i; [reflexivity|]. cbn. apply IHn. lia.
Qed.
Lemma entry_one n i : (i < n)%nat -> entry_R (repeat one n) i = 1.
Proof.
  destruct HA as (V1 & _). intros H. unfold entry_R. rewrite <- V1. revert i H. induction n; intros i H; [lia|]. destruct i; [reflexivity|]. cbn. apply IHn. lia.
Qed.

Lemma sum_absorbs n : for_each (fun a y => y <- r_mul FO y one ;; r_add FO y a) (repeat tiny n) one = Ok one.
Proof.
  destruct HA as (_ & _ & _ & M1 & _ & _ & A). induction n; [reflexivity|]. cbn [repeat for_each]. change (r_mul FO one one) with (Ok (fl_mul prec emax one one)). rewrite M1.
  cbn [bind]. change (r_add FO one tiny) with (Ok (fl_add prec emax one tiny)). rewrite A. exact IHn.
Qed.

Lemma horner_absorbs n : poly_eval FO (repeat tiny n ++ [one]) one = Ok one.
Proof.
  destruct HA as (_ & _ & _ & _ & MZ & AZ & _). unfold poly_eval, poly_eval_ref. rewrite rev_app_distr. cbn [rev app for_each].
  change (r_mul FO (r_zero FO) one) with (Ok (fl_mul prec emax (fl_int prec emax 0) one)). rewrite MZ. cbn [bind].
  change (r_add FO (fl_int prec emax 0) one) with (Ok (fl_add prec emax (fl_int prec emax 0) one)). rewrite AZ. cbn [bind].
  replace (rev (repeat tiny n)) with (repeat tiny n); [apply sum_absorbs|].
  clear. induction n; [reflexivity|]. cbn [rev repeat]. rewrite <- IHn. apply repeat_cons.
Qed.
Lemma horner_exact n : exact_eval (repeat tiny n ++ [one]) 1 = INR n * u + 1.
Proof.
  destruct HA as (V1 & _). unfold exact_eval. rewrite app_length, repeat_length. cbn [length]. rewrite Nat.add_1_r. cbn [rsum]. f_equal.
  - rewrite <- rsum_const. apply rsum_ext. intros i Hi. rewrite pow1, Rmult_1_r. unfold entry_R. rewrite map_app, app_nth1 by (rewrite map_length, repeat_length; exact Hi). apply entry_repeat. exact Hi.
  - rewrite pow1, Rmult_1_r. unfold entry_R. rewrite map_app, app_nth2; rewrite map_length, repeat_length; [|lia]. rewrite Nat.sub_diag. exact V1.
Qed.

Lemma dot_absorbs n : for_each (fun '(l, r) sum => prod <- r_mul FO l r ;; r_add FO sum prod) (combine (repeat tiny n) (repeat one n)) one = Ok one.
Proof.
  destruct HA as (_ & _ & Mt & _ & _ & _ & A). induction n; [reflexivity|]. cbn [repeat combine for_each]. change (r_mul FO tiny one) with (Ok (fl_mul prec emax tiny one)). rewrite Mt.
  cbn [bind]. change (r_add FO one tiny) with (Ok (fl_add prec emax one tiny)). rewrite A. exact IHn.
Qed.
Lemma dot_list n : for_each (fun '(l, r) sum => prod <- r_mul FO l r ;; r_add FO sum prod) (combine (one :: repeat tiny n) (one :: repeat one n)) (r_zero FO) = Ok one.
Proof.
  destruct HA as (_ & _ & _ & M1 & _ & AZ & _). cbn [combine for_each]. change (r_mul FO one one) with (Ok (fl_mul prec emax one one)). rewrite M1.
  cbn [bind]. change (r_add FO (r_zero FO) one) with (Ok (fl_add prec emax (fl_int prec emax 0) one)). rewrite AZ. apply dot_absorbs.
Qed.
Lemma dot_list_exact n : dot_exact (S n) (one :: repeat tiny n) (one :: repeat one n) = 1 + INR n * u.
Proof.
  destruct HA as (V1 & _). rewrite rsum_shift. f_equal.
  - unfold entry_R. cbn. rewrite V1. ring.
  - rewrite <- rsum_const. apply rsum_ext. intros i Hi. change (entry_R (one :: repeat tiny n) (S i)) with (entry_R (repeat tiny n) i). change (entry_R (one :: repeat one n) (S i)) with (entry_R (repeat one n) i).
    rewrite entry_repeat, entry_one by exact Hi. ring.
Qed.

Lemma growth n :
  (exists (p : poly fl) (x r : fl), length p = S n /\ poly_eval FO p x = Ok r /\ is_finite r = true
     /\ (forall i, (i < length p)%nat -> 0 <= entry_R p i * B2R x ^ i) /\ exact_eval p (B2R x) = 1 + INR n * u
     /\ Rabs (B2R r - exact_eval p (B2R x)) = INR n * u)
  /\ (exists (a b : svector fl (S n)) (r : fl), svector_dot FO a b = Ok r /\ is_finite r = true
     /\ (forall i, (i < S n)%nat -> 0 <= entry_R (entries a) i * entry_R (entries b) i) /\ dot_exact (S n) (entries a) (entries b) = 1 + INR n * u
     /\ Rabs (B2R r - dot_exact (S n) (entries a) (entries b)) = INR n * u)
  /\ (exists (a b : dvector fl) (r : fl), length a = S n /\ length b = S n /\ dvector_dot (r_zero FO) (r_add FO) (r_mul FO) prim_conj a b = Ok r /\ is_finite r = true
     /\ (forall i, (i < S n)%nat -> 0 <= entry_R a i * entry_R b i) /\ dot_exact (S n) a b = 1 + INR n * u
     /\ Rabs (B2R r - dot_exact (S n) a b) = INR n * u).
Proof.
  pose proof HA as (V1 & Vt & _). assert (U : 0 <= u) by apply bpow_ge_0. assert (N0 : 0 <= INR n) by apply pos_INR. assert (NU : 0 <= INR n * u) by (apply Rmult_le_pos; assumption).
  assert (F1 : is_finite one = true).
  { destruct one; try reflexivity; cbn in V1; lra. }
  assert (Q : forall s, s = 1 + INR n * u -> Rabs (B2R one - s) = INR n * u).
  { intros s ->. rewrite V1. replace (1 - (1 + INR n * u)) with (- (INR n * u)) by ring. rewrite Rabs_Ropp. apply Rabs_pos_eq. exact NU. }
  assert (E1 : forall i, (i < S n)%nat -> 0 <= entry_R (one :: repeat tiny n) i * entry_R (one :: repeat one n) i).
  { intros i Hi. destruct i as [|i].
    - unfold entry_R. cbn. rewrite V1. lra.
    - change (entry_R (one :: repeat tiny n) (S i)) with (entry_R (repeat tiny n) i). change (entry_R (one :: repeat one n) (S i)) with (entry_R (repeat one n) i).
      rewrite entry_repeat, entry_one by lia. lra. }
  split; [|split].
  - exists (repeat tiny n ++ [one]), one, one. rewrite V1. assert (L : length (repeat tiny n ++ [one]) = S n) by (rewrite app_length, repeat_length; cbn; lia).
    assert (X : exact_eval (repeat tiny n ++ [one]) 1 = 1 + INR n * u) by (rewrite horner_exact; ring).
    split; [exact L|]. split; [apply horner_absorbs|]. split; [exact F1|]. split; [|split; [exact X|rewrite <- V1 at 1; apply Q; exact X]].
    intros i Hi. rewrite pow1, Rmult_1_r. rewrite L in Hi. unfold entry_R. rewrite map_app. destruct (Nat.lt_ge_cases i n) as [A|A].
    + rewrite app_nth1 by (rewrite map_length, repeat_length; exact A). change (0 <= entry_R (repeat tiny n) i). rewrite entry_repeat by exact A. exact U.
    + replace i with n by lia. rewrite app_nth2; rewrite map_length, repeat_length; [|lia]. rewrite Nat.sub_diag. cbn. lra.
  - exists (acons one (tab n (fun _ => tiny))), (acons one (tab n (fun _ => one))), one.
    assert (R : forall t : fl, entries (acons one (tab n (fun _ => t))) = one :: repeat t n).
    { intros t. change (entries (acons one (tab n (fun _ => t)))) with (one :: entries (tab n (fun _ => t))). rewrite entries_tab. f_equal. clear.
      generalize O. induction n; intros k; [reflexivity|]. cbn [seq map repeat]. f_equal. apply IHn. }
    unfold svector_dot, svector_dot_ref. rewrite !R. split; [apply dot_list|]. split; [exact F1|]. split; [exact E1|]. split; [apply dot_list_exact|apply Q, dot_list_exact].
  - exists (one :: repeat tiny n), (one :: repeat one n), one. split; [cbn; rewrite repeat_length; reflexivity|]. split; [cbn; rewrite repeat_length; reflexivity|].
    split; [exact (dot_list n)|]. split; [exact F1|]. split; [exact E1|]. split; [apply dot_list_exact|apply Q, dot_list_exact].
Qed.
End Fmt.

Definition u32 : f32 := fl_div 24 128 (fl_int 24 128 1) (fl_int 24 128 16777216).
Definition u64 : f64 := fl_div 53 1024 (fl_int 53 1024 1) (fl_int 53 1024 9007199254740992).

Lemma absorbs_f32 : absorbs 24 128 (fl_int 24 128 1) u32.
Proof.
  split; [vm_compute; lra|]. split; [unfold unit_roundoff; vm_compute; lra|]. repeat split; apply B2SF_inj; vm_compute; reflexivity.
Qed.
Lemma absorbs_f64 : absorbs 53 1024 (fl_int 53 1024 1) u64.
Proof.
  split; [vm_compute; lra|]. split; [unfold unit_roundoff; vm_compute; lra|]. repeat split; apply B2SF_inj; vm_compute; reflexivity.
Qed.

(** For every n there is a polynomial of degree n, and there are vectors of length n + 1, without cancellation, for which the
    error is n u (relative to the exact value 1 + n u). *)
Theorem C107_eval_growth : forall n : nat,
  (exists (p : poly f64) (x r : f64), length p = S n /\ poly_eval f64_ring p x = Ok r /\ is_finite r = true
     /\ (forall i, (i < length p)%nat -> 0 <= entry_R p i * B2R x ^ i) /\ exact_eval p (B2R x) = 1 + INR n * unit_roundoff 53
     /\ Rabs (B2R r - exact_eval p (B2R x)) = INR n * unit_roundoff 53)
  /\ (exists (p : poly f32) (x r : f32), length p = S n /\ poly_eval f32_ring p x = Ok r /\ is_finite r = true
     /\ (forall i, (i < length p)%nat -> 0 <= entry_R p i * B2R x ^ i) /\ exact_eval p (B2R x) = 1 + INR n * unit_roundoff 24
     /\ Rabs (B2R r - exact_eval p (B2R x)) = INR n * unit_roundoff 24).
Proof. intros n. split; [exact (proj1 (growth 53 1024 _ _ absorbs_f64 n))|exact (proj1 (growth 24 128 _ _ absorbs_f32 n))]. Qed.
Theorem C107_dot_growth : forall n : nat,
  (exists (a b : svector f64 (S n)) (r : f64), svector_dot f64_ring a b = Ok r /\ is_finite r = true
     /\ (forall i, (i < S n)%nat -> 0 <= entry_R (entries a) i * entry_R (entries b) i)
     /\ dot_exact (S n) (entries a) (entries b) = 1 + INR n * unit_roundoff 53
     /\ Rabs (B2R r - dot_exact (S n) (entries a) (entries b)) = INR n * unit_roundoff 53)
  /\ (exists (a b : svector f32 (S n)) (r : f32), svector_dot f32_ring a b = Ok r /\ is_finite r = true
     /\ (forall i, (i < S n)%nat -> 0 <= entry_R (entries a) i * entry_R (entries b) i)
     /\ dot_exact (S n) (entries a) (entries b) = 1 + INR n * unit_roundoff 24
     /\ Rabs (B2R r - dot_exact (S n) (entries a) (entries b)) = INR n * unit_roundoff 24).
Proof. intros n. split; [exact (proj1 (proj2 (growth 53 1024 _ _ absorbs_f64 n)))|exact (proj1 (proj2 (growth 24 128 _ _ absorbs_f32 n)))]. Qed.
Theorem C107_dynamic_dot_growth : forall n : nat,
  exists (a b : dvector f64) (r : f64), length a = S n /\ length b = S n
     /\ dvector_dot (r_zero f64_ring) (r_add f64_ring) (r_mul f64_ring) prim_conj a b = Ok r /\ is_finite r = true
     /\ (forall i, (i < S n)%nat -> 0 <= entry_R a i * entry_R b i) /\ dot_exact (S n) a b = 1 + INR n * unit_roundoff 53
     /\ Rabs (B2R r - dot_exact (S n) a b) = INR n * unit_roundoff 53.
Proof. intros n. exact (proj2 (proj2 (growth 53 1024 _ _ absorbs_f64 n))). Qed.

(** ** With cancellation: the exact value of x^3 + u x^2 - x - u/2 at 1 is u/2 > 0, the computed one is -u/2 < 0; the exact
    inner product of (1, u, -1, -u/2) and (1, 1, 1, 1) is the same, and so is the computed one. *)
Theorem C107_sign_refuted :
  (exists (p : poly f64) (x r : f64), poly_eval f64_ring p x = Ok r /\ is_finite r = true /\ B2R r < 0 < exact_eval p (B2R x))
  /\ (exists (a b : svector f64 4) (r : f64), svector_dot f64_ring a b = Ok r /\ is_finite r = true /\ B2R r < 0 < dot_exact 4 (entries a) (entries b)).
Proof.
  set (one := fl_int 53 1024 1). set (h := fl_div 53 1024 u64 (fl_int 53 1024 2)). set (m x := Bopp x : f64).
  assert (V1 : B2R one = 1) by (vm_compute; lra). assert (Vt : B2R u64 = / 9007199254740992) by (vm_compute; lra). assert (Vh : B2R h = / 18014398509481984) by (vm_compute; lra).
  split.
  - set (st y a := fl_add 53 1024 (fl_mul 53 1024 y one) a).
    set (r := st (st (st (st (fl_int 53 1024 0) one) u64) (m one)) (m h)).
    exists [m h; m one; u64; one], one, r. split; [reflexivity|]. split; [vm_compute; reflexivity|].
    assert (Vr : B2R r = - / 18014398509481984) by (vm_compute; lra). rewrite Vr.
    unfold exact_eval, entry_R. cbn [length map rsum nth]. unfold m. rewrite !B2R_Bopp, V1, Vt, Vh. cbn [pow]. lra.
  - set (st y a := fl_add 53 1024 y (fl_mul 53 1024 a one)).
    set (r := st (st (st (st (fl_int 53 1024 0) one) u64) (m one)) (m h)).
    exists (acons one (acons u64 (acons (m one) (acons (m h) anil)))), (acons one (acons one (acons one (acons one anil)))), r.
    split; [reflexivity|]. split; [vm_compute; reflexivity|]. assert (Vr : B2R r = - / 18014398509481984) by (vm_compute; lra). rewrite Vr.
    unfold entry_R. cbn [entries acons anil map rsum nth]. unfold m. rewrite !B2R_Bopp, V1, Vt, Vh. lra.
Qed.

(** The hypotheses of the relative bounds are met by x^2 + 3 x + 1/3 at 2. *)
Example C107_case :
  let third := fl_div 53 1024 (fl_int 53 1024 1) (fl_int 53 1024 3) in
  let p := [third; fl_int 53 1024 3; fl_int 53 1024 1] in
  on_ok (poly_eval f64_ring p (fl_int 53 1024 2)) (fun r => is_finite r && Bltb (fl_int 53 1024 10) r) = true
  /\ (forall i, (i < length p)%nat -> 0 <= entry_R p i * B2R (fl_int 53 1024 2) ^ i).
Proof.
  intros third p. split; [vm_compute; reflexivity|].
  assert (V3 : 0 <= B2R third) by (vm_compute; lra). assert (Va : B2R (fl_int 53 1024 3) = 3) by (vm_compute; lra).
  assert (Vb : B2R (fl_int 53 1024 1) = 1) by (vm_compute; lra). assert (Vc : B2R (fl_int 53 1024 2) = 2) by (vm_compute; lra).
  intros i Hi. unfold p, entry_R. cbn [length p] in Hi. destruct i as [|[|[|i]]]; cbn [map nth pow]; rewrite ?Va, ?Vb, ?Vc; try lra. cbn in Hi. lia.
Qed.

Print Assumptions C107_eval_condition.
Print Assumptions C107_dot_condition.
Print Assumptions C107_dynamic_dot_condition.
Print Assumptions C107_eval_relative.
Print Assumptions C107_dot_relative.
Print Assumptions C107_dynamic_dot_relative.
Print Assumptions C107_matrix_product_relative.
Print Assumptions C107_matrix_vector_relative.
Print Assumptions C107_dynamic_product_relative.
Print Assumptions C107_eval_growth.
Print Assumptions C107_dot_growth.
Print Assumptions C107_dynamic_dot_growth.
Print Assumptions C107_sign_refuted.
