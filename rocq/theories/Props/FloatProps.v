(** Rounding errors of the generic code with f32/f64 elements. *)
From Coq Require Import List ZArith NArith Reals Bool Lia Lra.
From Flocq Require Import Core.Core IEEE754.BinarySingleNaN.
From Verif Require Import Base.Outcome Base.Usize Base.Array Model.Traits Model.Float Model.Polynomial Model.Complex
  Model.SVector Model.SMatrix Model.DVector Model.DMatrix
  Spec.Ring Spec.Sums Spec.Matrix Spec.DExpr Spec.DMatrix Spec.FloatErr
  Proofs.FloatErr Proofs.FloatInt Proofs.FloatComm Proofs.SMatrixProofs Proofs.DVectorProofs Proofs.DMatrixProofs.
Import ListNotations.
Local Open Scope R_scope.

Section Fmt.
Context (prec emax : Z) {Hp : Prec_gt_0 prec} {He : Prec_lt_emax prec emax}.
Notation fl := (binary_float prec emax).
Notation FO := (float_ring prec emax).
Notation u := (unit_roundoff prec).
Notation eta := (underflow_unit prec emax).

(** ** C51: Horner's rule *)

(** [eval] never panics; a finite result is within the a-priori bound of the exact value, where
    [n] is the degree. *)
Theorem C51_horner_error :
  forall (p : poly fl) (x : fl),
  let n := (length p - 1)%nat in
  exists r, poly_eval FO p x = Ok r
  /\ (is_finite r = true ->
      Rabs (B2R r - exact_eval p (B2R x))
      <= ((1 + u) ^ (2 * n) - 1) * abs_eval p (B2R x)
         + rsum n (fun i => (1 + u) ^ (2 * i + 1) * Rabs (B2R x) ^ i) * eta).
Proof.
  intros p x n. exists (fl_horner prec emax p x). split; [apply poly_eval_horner|]. apply horner_error.
Qed.

(** The same with Higham's gamma_{2n}. *)
Corollary C51_horner_gamma :
  forall (p : poly fl) (x r : fl),
  let n := (length p - 1)%nat in
  poly_eval FO p x = Ok r -> is_finite r = true -> INR (2 * n) * u < 1 ->
  Rabs (B2R r - exact_eval p (B2R x))
  <= gamma prec (2 * n) * abs_eval p (B2R x)
     + rsum n (fun i => (1 + gamma prec (2 * i + 1)) * Rabs (B2R x) ^ i) * eta.
Proof.
  intros p x r n E F H. destruct (C51_horner_error p x) as (r' & E' & B). rewrite E in E'. injection E' as <-.
  eapply Rle_trans; [apply B, F|]. fold n. apply Rplus_le_compat.
  - apply Rmult_le_compat_r; [apply abs_eval_nonneg|]. apply pow_gamma, H.
  - apply Rmult_le_compat_r; [apply Rlt_le, eta_pos|]. apply rsum_le. intros i Hi.
    apply Rmult_le_compat_r; [apply pow_le, Rabs_pos|].
    assert (G : INR (2 * i + 1) * u < 1).
    { eapply Rle_lt_trans; [|exact H]. apply Rmult_le_compat_r; [apply Rlt_le, u_pos|]. apply le_INR. lia. }
    pose proof (pow_gamma prec (2 * i + 1) G). lra.
Qed.

(** A finite result is only possible with finite coefficients and a finite argument; finite
    inputs that are not too large give a finite result. *)
Theorem C51_finite :
  forall (p : poly fl) (x r : fl), poly_eval FO p x = Ok r ->
  (is_finite r = true -> Forall (fun a => is_finite a = true) p /\ (p <> [] -> is_finite x = true))
  /\ (Forall (fun a => is_finite a = true) p -> is_finite x = true ->
      let n := (length p - 1)%nat in
      let X := Rmax 1 (Rabs (B2R x)) in
      (1 + u) ^ (2 * n) * abs_eval p X + rsum n (fun i => (1 + u) ^ (2 * i + 1) * X ^ i) * eta < bpow radix2 emax ->
      is_finite r = true).
Proof.
  intros p x r E. rewrite poly_eval_horner in E. injection E as <-. split; [apply horner_finite_args|].
  intros Fp Fx n X HB. apply (horner_no_overflow prec emax p x X); auto.
  - apply Rmax_l.
  - apply Rmax_r.
  - eapply Rle_lt_trans; [|exact HB]. unfold horner_bound, ufl. fold n.
    rewrite (Rabs_pos_eq X); [lra|]. eapply Rle_trans; [|apply Rmax_l]. lra.
Qed.

(** ** C52: dot products and matrix products *)
Notation dot_exact n a b := (rsum n (fun i => entry_R a i * entry_R b i)).
Notation dot_mag n a b := (rsum n (fun i => Rabs (entry_R a i) * Rabs (entry_R b i))).

Lemma entry_nth (l : list fl) d i : B2R d = 0 -> B2R (nth i l d) = entry_R l i.
Proof. intros H. unfold entry_R. rewrite <- H. symmetry. apply (map_nth (@B2R prec emax)). Qed.

Lemma fdot_bound n (a b : nat -> fl) f g :
  (forall i, (i < n)%nat -> B2R (a i) = f i) -> (forall i, (i < n)%nat -> B2R (b i) = g i) ->
  is_finite (fdot prec emax a b n) = true ->
  Rabs (B2R (fdot prec emax a b n) - rsum n (fun i => f i * g i))
  <= dot_bound prec emax n (rsum n (fun i => Rabs (f i) * Rabs (g i))).
Proof.
  intros Ha Hb F. pose proof (dot_error prec emax a b n F) as E. unfold dot_bound.
  rewrite (rsum_ext n (fun i => f i * g i) (fun i => B2R (a i) * B2R (b i))) by (intros; rewrite Ha, Hb; auto).
  rewrite (rsum_ext n (fun i => Rabs (f i) * Rabs (g i)) (fun i => Rabs (B2R (a i)) * Rabs (B2R (b i))))
    by (intros; rewrite Ha, Hb; auto).
  exact E.
Qed.

Lemma fdot1_bound n (a b : nat -> fl) f g :
  (forall i, (i < S n)%nat -> B2R (a i) = f i) -> (forall i, (i < S n)%nat -> B2R (b i) = g i) ->
  is_finite (fdot1 prec emax a b n) = true ->
  Rabs (B2R (fdot1 prec emax a b n) - rsum (S n) (fun i => f i * g i))
  <= dot_bound prec emax (S n) (rsum (S n) (fun i => Rabs (f i) * Rabs (g i))).
Proof.
  intros Ha Hb F. pose proof (dot1_error prec emax a b n F) as E. unfold dot_bound.
  rewrite (rsum_ext (S n) (fun i => f i * g i) (fun i => B2R (a i) * B2R (b i))) by (intros; rewrite Ha, Hb; auto).
  rewrite (rsum_ext (S n) (fun i => Rabs (f i) * Rabs (g i)) (fun i => Rabs (B2R (a i)) * Rabs (B2R (b i))))
    by (intros; rewrite Ha, Hb; auto).
  exact E.
Qed.

Theorem C52_svector_dot_error :
  forall (n : nat) (a b : svector fl n),
  exists r, svector_dot FO a b = Ok r
  /\ (is_finite r = true ->
      Rabs (B2R r - dot_exact n (entries a) (entries b)) <= dot_bound prec emax n (dot_mag n (entries a) (entries b))).
Proof.
  intros n a b. unfold svector_dot. rewrite (svector_dot_total FO _ (float_implements prec emax)).
  eexists; split; [reflexivity|]. intros F.
  apply (fdot_bound n (fun i => vec_at (float_sig prec emax) a i) (fun i => vec_at (float_sig prec emax) b i)); auto;
    intros; apply entry_nth; reflexivity.
Qed.

(** Finite inputs that are not too large give a finite result; others never do. *)
Theorem C52_svector_dot_finite :
  forall (n : nat) (a b : svector fl n) (r : fl), svector_dot FO a b = Ok r ->
  (is_finite r = true -> Forall (fun x => is_finite x = true) (entries a) /\ Forall (fun x => is_finite x = true) (entries b))
  /\ (Forall (fun x => is_finite x = true) (entries a) -> Forall (fun x => is_finite x = true) (entries b) ->
      dot_mag n (entries a) (entries b) + dot_bound prec emax n (dot_mag n (entries a) (entries b)) < bpow radix2 emax ->
      is_finite r = true).
Proof.
  intros n a b r E. unfold svector_dot in E. rewrite (svector_dot_total FO _ (float_implements prec emax)) in E.
  injection E as <-.
  change (sum_n (float_sig prec emax) n _) with
    (fdot prec emax (vec_at (float_sig prec emax) a) (vec_at (float_sig prec emax) b) n).
  assert (FA : forall (v : svector fl n), (forall i, (i < n)%nat -> is_finite (vec_at (float_sig prec emax) v i) = true) ->
                Forall (fun x => is_finite x = true) (entries v)).
  { intros v Hv. apply Forall_nth. intros i d Hi. rewrite entries_length in Hi.
    rewrite (nth_indep _ d (sz (float_sig prec emax))) by (rewrite entries_length; exact Hi). apply Hv, Hi. }
  split.
  - intros F. pose proof (dot_finite_args prec emax _ _ n F) as D. split; apply FA; intros; apply D; assumption.
  - intros Fa Fb HB. apply dot_no_overflow.
    + intros i Hi. rewrite Forall_forall in Fa, Fb. split; [apply Fa|apply Fb]; apply nth_In; rewrite entries_length; exact Hi.
    + eapply Rle_lt_trans; [|exact HB]. unfold dot_bound.
      rewrite (rsum_ext n _ (fun i => Rabs (entry_R (entries a) i) * Rabs (entry_R (entries b) i)))
        by (intros; unfold vec_at; rewrite !entry_nth by reflexivity; reflexivity).
      lra.
Qed.

Theorem C52_dvector_dot_error :
  forall (a b : dvector fl), length a = length b ->
  let n := length a in
  exists r, dvector_dot (r_zero FO) (r_add FO) (r_mul FO) prim_conj a b = Ok r
  /\ (is_finite r = true -> Rabs (B2R r - dot_exact n a b) <= dot_bound prec emax n (dot_mag n a b)).
Proof.
  intros a b E n. unfold dvector_dot.
  pose proof (dvector_dot_value (float_sig prec emax) (r_add FO) (r_mul FO) prim_conj (fun x => x)
    (fun _ _ => eq_refl) (fun _ _ => eq_refl) (fun _ => eq_refl) a b E) as D.
  eexists; split; [exact D|]. intros F.
  apply (fdot_bound n (fun i => nth i a (fl_int prec emax 0)) (fun i => nth i b (fl_int prec emax 0))); auto;
    intros; apply entry_nth; reflexivity.
Qed.

(** Every finite entry of a matrix product is close to the exact entry. *)
Theorem C52_smatrix_product_error :
  forall (L M N : nat) (a : smatrix fl L M) (b : smatrix fl M N),
  exists r, smatrix_mul FO a b = Ok r
  /\ forall i j, (i < L)%nat -> (j < N)%nat -> forall x, nth_error (nth i (map entries (entries r)) []) j = Some x ->
     is_finite x = true ->
     Rabs (B2R x - rsum M (fun m => smat_R a i m * smat_R b m j))
     <= dot_bound prec emax M (rsum M (fun m => Rabs (smat_R a i m) * Rabs (smat_R b m j))).
Proof.
  intros L M N a b. unfold smatrix_mul. rewrite (smatrix_mul_total FO _ (float_implements prec emax)).
  eexists; split; [reflexivity|]. intros i j Hi Hj x Hx F.
  pose proof (mat_at_tab (float_sig prec emax) L N (fun l n => sum_n (float_sig prec emax) M (fun m =>
      smul (float_sig prec emax) (mat_at (float_sig prec emax) a l m) (mat_at (float_sig prec emax) b m n))) i j Hi Hj) as E.
  unfold mat_at at 1 in E. rewrite (nth_error_nth _ _ _ Hx) in E. subst x.
  apply (fdot_bound M (fun m => mat_at (float_sig prec emax) a i m) (fun m => mat_at (float_sig prec emax) b m j)); auto;
    intros; apply entry_nth; reflexivity.
Qed.

Theorem C52_smatrix_vector_error :
  forall (M N : nat) (a : smatrix fl M N) (v : svector fl N),
  exists r, smatrix_mul_vec FO a v = Ok r
  /\ forall i, (i < M)%nat -> forall x, nth_error (entries r) i = Some x -> is_finite x = true ->
     Rabs (B2R x - rsum N (fun j => smat_R a i j * entry_R (entries v) j))
     <= dot_bound prec emax N (rsum N (fun j => Rabs (smat_R a i j) * Rabs (entry_R (entries v) j))).
Proof.
  intros M N a v. rewrite (smatrix_mul_vec_total FO _ (float_implements prec emax)).
  eexists; split; [reflexivity|]. intros i Hi x Hx F.
  pose proof (@vec_at_tab _ (float_sig prec emax) M (fun i => sum_n (float_sig prec emax) N (fun j =>
      smul (float_sig prec emax) (mat_at (float_sig prec emax) a i j) (vec_at (float_sig prec emax) v j))) i Hi) as E.
  unfold vec_at at 1 in E. rewrite (nth_error_nth _ _ _ Hx) in E. subst x.
  apply (fdot_bound N (fun j => mat_at (float_sig prec emax) a i j) (fun j => vec_at (float_sig prec emax) v j)); auto;
    intros; apply entry_nth; reflexivity.
Qed.

Lemma sum1_fdot1 a b n : sum1 (float_sig prec emax) n (fun i => fl_mul prec emax (a i) (b i)) = fdot1 prec emax a b n.
Proof. induction n as [|n IH]; [reflexivity|]. simpl. rewrite IH. reflexivity. Qed.

Theorem C52_dmatrix_product_error :
  forall (md : target) (a b : dmatrix fl), dm_wf md a -> dm_wf md b -> dm_cols a = dm_rows b -> (1 <= dm_cols a)%N ->
  let k := N.to_nat (dm_cols a) in
  exists r, (e <- dmatrix_mul md (r_mul FO) (r_add FO) a b ;; m_eval e) = Ok r
  /\ dm_rows r = dm_rows a /\ dm_cols r = dm_cols b
  /\ forall i j, (i < dm_rows a)%N -> (j < dm_cols b)%N -> forall x,
     nth_error (dm_data r) (N.to_nat (i * dm_cols b + j)) = Some x -> is_finite x = true ->
     Rabs (B2R x - rsum k (fun m => dmat_R a i (N.of_nat m) * dmat_R b (N.of_nat m) j))
     <= dot_bound prec emax k (rsum k (fun m => Rabs (dmat_R a i (N.of_nat m)) * Rabs (dmat_R b (N.of_nat m) j))).
Proof.
  intros md a b Wa Wb E H1 k.
  rewrite (dm_mul_total (float_sig prec emax) (r_add FO) (r_mul FO) (fun _ _ => eq_refl) (fun _ _ => eq_refl) md a b Wa Wb E H1).
  eexists; split; [reflexivity|]. split; [reflexivity|]. split; [reflexivity|]. intros i j Hi Hj x Hx F.
  match type of Hx with nth_error (dm_data (dm_tab _ _ ?g)) _ = _ =>
    pose proof (dm_at_tab (float_sig prec emax) (dm_rows a) (dm_cols b) g i j Hi Hj) as D end.
  unfold dm_at at 1 in D. change (dm_cols (dm_tab (dm_rows a) (dm_cols b) _)) with (dm_cols b) in D.
  rewrite (nth_error_nth _ _ _ Hx) in D. subst x.
  change (smul (float_sig prec emax)) with (fl_mul prec emax) in *.
  rewrite (sum1_fdot1 (fun m => dm_at (float_sig prec emax) a i (N.of_nat m)) (fun m => dm_at (float_sig prec emax) b (N.of_nat m) j)) in *.
  assert (Ek : k = S (Nat.pred (N.to_nat (dm_cols a)))) by (unfold k; lia). 
  rewrite Ek. set (n := Nat.pred (N.to_nat (dm_cols a))) in *.
  apply (fdot1_bound n (fun m => dm_at (float_sig prec emax) a i (N.of_nat m)) (fun m => dm_at (float_sig prec emax) b (N.of_nat m) j)); auto;
    intros; apply entry_nth; reflexivity.
Qed.

(** ** C53: complex multiplication *)

(** Same bit pattern in both components (all NaNs identified), except that a zero may have the other sign. *)
Definition complex_same_up_to_zero (z w : complex fl) : Prop :=
  same_up_to_zero (re z) (re w) /\ same_up_to_zero (im z) (im w).

Theorem C53_mul_commutative :
  forall z w : complex fl, complex_mul FO z w = complex_mul FO w z.
Proof.
  intros [a b] [c d]. unfold complex_mul, complex_mul_ref. cbn [re im r_mul r_add r_sub float_ring bind].
  rewrite (fl_mul_comm prec emax a c), (fl_mul_comm prec emax b d), (fl_mul_comm prec emax a d), (fl_mul_comm prec emax b c).
  rewrite (fl_add_comm prec emax (fl_mul prec emax d a)). reflexivity.
Qed.

(** [z.conj() * w.conj()] is [(z * w).conj()], up to the sign of zeros. *)
Theorem C53_conj_of_product :
  forall z w : complex fl, exists cz cw p q,
  complex_conj (r_neg FO) z = Ok cz /\ complex_conj (r_neg FO) w = Ok cw
  /\ (x <- complex_mul FO z w ;; complex_conj (r_neg FO) x) = Ok p
  /\ complex_mul FO cz cw = Ok q
  /\ complex_same_up_to_zero p q.
Proof.
  intros [a b] [c d]. do 4 eexists. split; [reflexivity|]. split; [reflexivity|]. split; [reflexivity|].
  split; [reflexivity|]. split; cbn [re im complex_new].
  - left. rewrite (fl_mul_opp_l prec emax), (fl_mul_opp_r prec emax), Bopp_involutive. reflexivity.
  - rewrite (fl_mul_opp_l prec emax), (fl_mul_opp_r prec emax).
    destruct (fl_add_opp prec emax (fl_mul prec emax a d) (fl_mul prec emax b c)) as [<-|(s & t & E1 & E2)].
    + left. reflexivity.
    + right. rewrite E1, E2. eauto.
Qed.

(** Componentwise error of a finite product. *)
Theorem C53_mul_error :
  forall z w : complex fl,
  let a := B2R (re z) in let b := B2R (im z) in let c := B2R (re w) in let d := B2R (im w) in
  exists p, complex_mul FO z w = Ok p
  /\ (is_finite (re p) = true ->
      Rabs (B2R (re p) - (a * c - b * d)) <= (2 * u + u ^ 2) * (Rabs (a * c) + Rabs (b * d)) + 2 * (1 + u) * eta)
  /\ (is_finite (im p) = true ->
      Rabs (B2R (im p) - (a * d + b * c)) <= (2 * u + u ^ 2) * (Rabs (a * d) + Rabs (b * c)) + 2 * (1 + u) * eta).
Proof.
  intros z w a b c d. eexists. split; [reflexivity|]. cbn [re im complex_new].
  pose proof (u_pos prec) as Hu. pose proof (eta_pos prec emax) as Ht.
  assert (K : forall s t e1 h1 e2 h2 dd, Rabs e1 <= u -> Rabs e2 <= u -> Rabs dd <= u -> Rabs h1 <= eta -> Rabs h2 <= eta ->
     Rabs ((s * (1 + e1) + h1 + (t * (1 + e2) + h2)) * (1 + dd) - (s + t))
     <= (2 * u + u ^ 2) * (Rabs s + Rabs t) + 2 * (1 + u) * eta).
  { clear. intros s t e1 h1 e2 h2 dd H1 H2 Hd Hh1 Hh2.
    pose proof (u_pos prec) as Hu. pose proof (eta_pos prec emax) as Ht.
    assert (Q : forall e, Rabs e <= u -> Rabs ((1 + e) * (1 + dd) - 1) <= 2 * u + u ^ 2).
    { intros e Hee. replace ((1 + e) * (1 + dd) - 1) with (e + dd + e * dd) by ring.
      eapply Rle_trans; [apply Rabs_triang|]. eapply Rle_trans; [apply Rplus_le_compat_r, Rabs_triang|].
      rewrite Rabs_mult. pose proof (Rabs_pos e). pose proof (Rabs_pos dd).
      assert (Rabs e * Rabs dd <= u * u) by (apply Rmult_le_compat; assumption). lra. }
    assert (H3 : Rabs (1 + dd) <= 1 + u) by (eapply Rle_trans; [apply Rabs_triang|]; rewrite Rabs_R1; lra).
    replace ((s * (1 + e1) + h1 + (t * (1 + e2) + h2)) * (1 + dd) - (s + t))
      with (s * ((1 + e1) * (1 + dd) - 1) + t * ((1 + e2) * (1 + dd) - 1) + (h1 + h2) * (1 + dd)) by ring.
    eapply Rle_trans; [apply Rabs_triang|]. eapply Rle_trans; [apply Rplus_le_compat_r, Rabs_triang|].
    rewrite !Rabs_mult.
    assert (T1 : Rabs s * Rabs ((1 + e1) * (1 + dd) - 1) <= Rabs s * (2 * u + u ^ 2))
      by (apply Rmult_le_compat_l; [apply Rabs_pos|apply Q, H1]).
    assert (T2 : Rabs t * Rabs ((1 + e2) * (1 + dd) - 1) <= Rabs t * (2 * u + u ^ 2))
      by (apply Rmult_le_compat_l; [apply Rabs_pos|apply Q, H2]).
    assert (T3 : Rabs (h1 + h2) * Rabs (1 + dd) <= 2 * eta * (1 + u)).
    { apply Rmult_le_compat; try apply Rabs_pos; [|exact H3]. eapply Rle_trans; [apply Rabs_triang|]. lra. }
    lra. }
  split; intros F.
  - destruct (sub_model prec emax _ _ F) as (F1 & F2 & dd & Hd & ->).
    destruct (mul_model prec emax _ _ F1) as (_ & _ & e1 & h1 & He1 & Hh1 & ->).
    destruct (mul_model prec emax _ _ F2) as (_ & _ & e2 & h2 & He2 & Hh2 & ->).
    fold a b c d.
    specialize (K (a * c) (- (b * d)) e1 h1 e2 (- h2) dd He1 He2 Hd Hh1).
    rewrite !Rabs_Ropp in K. specialize (K Hh2).
    replace ((a * c * (1 + e1) + h1 - (b * d * (1 + e2) + h2)) * (1 + dd) - (a * c - b * d))
      with ((a * c * (1 + e1) + h1 + (- (b * d) * (1 + e2) + - h2)) * (1 + dd) - (a * c + - (b * d))) by ring.
    exact K.
  - destruct (add_model prec emax _ _ F) as (F1 & F2 & dd & Hd & ->).
    destruct (mul_model prec emax _ _ F1) as (_ & _ & e1 & h1 & He1 & Hh1 & ->).
    destruct (mul_model prec emax _ _ F2) as (_ & _ & e2 & h2 & He2 & Hh2 & ->).
    fold a b c d. apply K; assumption.
Qed.
End Fmt.

(** ** Non-trivial cases in binary64 *)
Definition on_ok {A} (m : outcome A) (f : A -> bool) : bool := match m with Ok a => f a | _ => false end.
Definition third : f64 := fl_div 53 1024 (f64_of_Z 1) (f64_of_Z 3).

(** 1 + 2x + 3x^2 at x = fl(1/3): finite, and not equal to the float nearest to 2. *)
Example C51_case :
  on_ok (poly_eval f64_ring [f64_of_Z 1; f64_of_Z 2; f64_of_Z 3] third)
        (fun r => is_finite r && Bltb (f64_of_Z 1) r) = true
  /\ INR 4 * unit_roundoff 53 < 1.
Proof.
  split; [vm_compute; reflexivity|]. unfold unit_roundoff.
  assert (bpow radix2 (-53) < bpow radix2 (-3)) by (apply bpow_lt; lia).
  change (bpow radix2 (-3)) with (/ 8) in H. revert H. change (- (53))%Z with (-53)%Z. generalize (bpow radix2 (-53)). intros b H. simpl INR. lra.
Qed.

(** 1 + x at x = 1 satisfies the no-overflow hypothesis. *)
Example C51_case_finite :
  let p := [f64_of_Z 1; f64_of_Z 1] in
  let X := Rmax 1 (Rabs (B2R (f64_of_Z 1))) in
  Forall (fun a : f64 => is_finite a = true) p /\ is_finite (f64_of_Z 1) = true
  /\ (1 + unit_roundoff 53) ^ (2 * 1) * abs_eval p X
     + rsum 1 (fun i => (1 + unit_roundoff 53) ^ (2 * i + 1) * X ^ i) * underflow_unit 53 1024 < bpow radix2 1024.
Proof.
  intros p X. split; [repeat constructor|]. split; [reflexivity|].
  assert (E1 : B2R (f64_of_Z 1) = 1) by (apply (fl_int_exact 53 1024 1); lia).
  assert (EX : X = 1) by (unfold X; rewrite E1, Rabs_R1; apply Rmax_left; lra).
  rewrite EX. unfold abs_eval, p. simpl length. unfold rsum. unfold entry_R. cbn [nth map]. rewrite E1, Rabs_R1.
  assert (U : unit_roundoff 53 <= 1) by (change 1 with (bpow radix2 0); apply bpow_le; lia).
  assert (T : underflow_unit 53 1024 <= 1) by (change 1 with (bpow radix2 0); apply bpow_le; lia).
  assert (B : 16 <= bpow radix2 1024) by (change 16 with (bpow radix2 4); apply bpow_le; lia).
  pose proof (u_pos 53). pose proof (eta_pos 53 1024). set (u := unit_roundoff 53) in *. set (t := underflow_unit 53 1024) in *.
  cbn [Nat.mul Nat.add pow]. nra.
Qed.

Example C52_case :
  on_ok (svector_dot f64_ring (acons third (acons (f64_of_Z 3) anil)) (acons third (acons third anil)))
        (fun r => is_finite r && Bltb (f64_of_Z 1) r) = true.
Proof. vm_compute. reflexivity. Qed.

Example C53_case :
  on_ok (complex_mul f64_ring (Cx third (f64_of_Z 2)) (Cx (f64_of_Z 5) third))
        (fun p => is_finite (re p) && is_finite (im p) && Bltb (f64_of_Z 10) (im p)) = true.
Proof. vm_compute. reflexivity. Qed.

Print Assumptions C51_horner_error.
Print Assumptions C51_horner_gamma.
Print Assumptions C51_finite.
Print Assumptions C52_svector_dot_error.
Print Assumptions C52_svector_dot_finite.
Print Assumptions C52_dvector_dot_error.
Print Assumptions C52_smatrix_product_error.
Print Assumptions C52_smatrix_vector_error.
Print Assumptions C52_dmatrix_product_error.
Print Assumptions C53_mul_commutative.
Print Assumptions C53_conj_of_product.
Print Assumptions C53_mul_error.
