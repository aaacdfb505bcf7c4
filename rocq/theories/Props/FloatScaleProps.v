(** Property C85: powers of two.  Multiplying the data of an f32/f64 computation by powers of two
    multiplies the result by the corresponding power, exactly, as long as nothing overflows and no
    product loses precision to underflow: rounding errors do not depend on the unit of measurement.
    [scaled k x y]: y is exactly 2^k x.  [safe v]: the exact result [v] is zero or at least the
    smallest number of full precision. *)
From Coq Require Import List ZArith NArith Reals Bool Lia Lra.
From Flocq Require Import Core.Core IEEE754.BinarySingleNaN.
From Verif Require Import Base.Outcome Base.Usize Base.Array Model.Traits Model.Float Model.Polynomial Model.Complex
  Model.SVector Model.SMatrix Model.DVector Model.DMatrix
  Spec.Ring Spec.Sums Spec.Matrix Spec.DExpr Spec.DMatrix Spec.FloatErr Spec.FloatScale
  Proofs.FloatErr Proofs.FloatInt Proofs.FloatScale
  Proofs.SMatrixProofs Proofs.DVectorProofs Proofs.DMatrixProofs Proofs.PolyExact
  Props.FloatProps Props.FloatPolyProps.
Import ListNotations.
Open Scope nat_scope.

Section Fmt.
Context (prec emax : Z) {Hp : Prec_gt_0 prec} {He : Prec_lt_emax prec emax}.
Notation fl := (binary_float prec emax).
Notation FO := (float_ring prec emax).
Notation FF := (float_field prec emax).
Notation sig := (float_sig prec emax).
Notation zero := (fl_int prec emax 0).
Notation safe := (no_underflow emax).

(** [x * y] is free of underflow. *)
Definition safe_product (x y : fl) : Prop := safe (B2R x * B2R y).

(** ** Sums and differences: only overflow matters; each entry may have its own exponent. *)
Theorem C85_svector_sums :
  forall (n : nat) (k : nat -> Z) (a b a' b' r r' d d' : svector fl n),
  (forall i, i < n -> scaled (k i) (vec_at sig a i) (vec_at sig a' i)) ->
  (forall i, i < n -> scaled (k i) (vec_at sig b i) (vec_at sig b' i)) ->
  svector_add FO a b = Ok r -> svector_add FO a' b' = Ok r' ->
  svector_sub FO a b = Ok d -> svector_sub FO a' b' = Ok d' ->
  (forall i, i < n -> is_finite (vec_at sig r i) = true -> is_finite (vec_at sig r' i) = true ->
     scaled (k i) (vec_at sig r i) (vec_at sig r' i))
  /\ (forall i, i < n -> is_finite (vec_at sig d i) = true -> is_finite (vec_at sig d' i) = true ->
     scaled (k i) (vec_at sig d i) (vec_at sig d' i)).
Proof.
  intros n k a b a' b' r r' d d' Ha Hb. unfold svector_add, svector_sub.
  rewrite !(svector_add_total FO _ (float_implements prec emax)), !(svector_sub_total FO _ (float_implements prec emax)).
  intros E1 E2 E3 E4. injection E1 as <-. injection E2 as <-. injection E3 as <-. injection E4 as <-.
  split; intros i Hi; rewrite !vec_at_tab by exact Hi; intros F F'; [apply add_scale|apply sub_scale]; auto.
Qed.

Theorem C85_smatrix_sums :
  forall (m n : nat) (k : nat -> nat -> Z) (a b a' b' r r' d d' : smatrix fl m n),
  (forall i j, i < m -> j < n -> scaled (k i j) (mat_at sig a i j) (mat_at sig a' i j)) ->
  (forall i j, i < m -> j < n -> scaled (k i j) (mat_at sig b i j) (mat_at sig b' i j)) ->
  smatrix_add FO a b = Ok r -> smatrix_add FO a' b' = Ok r' ->
  smatrix_sub FO a b = Ok d -> smatrix_sub FO a' b' = Ok d' ->
  (forall i j, i < m -> j < n -> is_finite (mat_at sig r i j) = true -> is_finite (mat_at sig r' i j) = true ->
     scaled (k i j) (mat_at sig r i j) (mat_at sig r' i j))
  /\ (forall i j, i < m -> j < n -> is_finite (mat_at sig d i j) = true -> is_finite (mat_at sig d' i j) = true ->
     scaled (k i j) (mat_at sig d i j) (mat_at sig d' i j)).
Proof.
  intros m n k a b a' b' r r' d d' Ha Hb. unfold smatrix_add, smatrix_sub.
  rewrite !(smatrix_add_total FO _ (float_implements prec emax)), !(smatrix_sub_total FO _ (float_implements prec emax)).
  intros E1 E2 E3 E4. injection E1 as <-. injection E2 as <-. injection E3 as <-. injection E4 as <-.
  split; intros i j Hi Hj; rewrite !mat_at_tab by assumption; intros F F'; [apply add_scale|apply sub_scale]; auto.
Qed.

(** Polynomials, coefficient by coefficient ([nth j p zero]: coefficient [j]). *)
Theorem C85_poly_sums :
  forall (k : nat -> Z) (p q p' q' s s' d d' : poly fl), length p' = length p -> length q' = length q ->
  (forall j, scaled (k j) (nth j p zero) (nth j p' zero)) -> (forall j, scaled (k j) (nth j q zero) (nth j q' zero)) ->
  poly_add FO p q = Ok s -> poly_add FO p' q' = Ok s' -> poly_sub FO p q = Ok d -> poly_sub FO p' q' = Ok d' ->
  forall j, (is_finite (nth j s zero) = true -> is_finite (nth j s' zero) = true -> scaled (k j) (nth j s zero) (nth j s' zero))
         /\ (is_finite (nth j d zero) = true -> is_finite (nth j d' zero) = true -> scaled (k j) (nth j d zero) (nth j d' zero)).
Proof.
  intros k p q p' q' s s' d d' Lp Lq Ep Eq H1 H2 H3 H4 j.
  destruct (C64_sums prec emax p q) as (t & _ & Hs & _ & _ & Ns & _). rewrite H1 in Hs. injection Hs as <-.
  destruct (C64_sums prec emax p' q') as (t' & _ & Hs' & _ & _ & Ns' & _). rewrite H2 in Hs'. injection Hs' as <-.
  destruct (C64_differences prec emax p q) as (e & _ & Hd & _ & _ & Nd & _). rewrite H3 in Hd. injection Hd as <-.
  destruct (C64_differences prec emax p' q') as (e' & _ & Hd' & _ & _ & Nd' & _). rewrite H4 in Hd'. injection Hd' as <-.
  assert (X : forall (l : list fl) i, nth i l zero = match nth_error l i with Some x => x | None => zero end).
  { induction l as [|x l IH]; intros [|i]; simpl; auto. }
  assert (Y : forall (l : list fl), nth_error l j = None <-> length l <= j) by (intros l; apply nth_error_None).
  rewrite !X. rewrite (Ns j), (Ns' j), (Nd j), (Nd' j). specialize (Ep j). specialize (Eq j). rewrite !X in Ep, Eq.
  pose proof (Y p) as Yp. pose proof (Y p') as Yp'. pose proof (Y q) as Yq. pose proof (Y q') as Yq'.
  destruct (nth_error p j) as [x|] eqn:Np, (nth_error p' j) as [x'|] eqn:Np';
    try (exfalso; assert (length p <= j) by (apply Yp; reflexivity); assert (@Some fl x' = None) by (apply Yp'; lia); discriminate);
    try (exfalso; assert (length p' <= j) by (apply Yp'; reflexivity); assert (@Some fl x = None) by (apply Yp; lia); discriminate);
  (destruct (nth_error q j) as [y|] eqn:Nq, (nth_error q' j) as [y'|] eqn:Nq';
    try (exfalso; assert (length q <= j) by (apply Yq; reflexivity); assert (@Some fl y' = None) by (apply Yq'; lia); discriminate);
    try (exfalso; assert (length q' <= j) by (apply Yq'; reflexivity); assert (@Some fl y = None) by (apply Yq; lia); discriminate));
  cbn [sum_at diff_at]; split; intros F F'; auto using add_scale, sub_scale, opp_scale, scaled_zero.
Qed.

(** ** Sums of products.  [s i]: the exponent of entry [i] of the left factor, [m - s i]: of the right one. *)
Theorem C85_svector_dot :
  forall (n : nat) (m : Z) (s : nat -> Z) (a b a' b' : svector fl n) (r r' : fl),
  (forall i, i < n -> scaled (s i) (vec_at sig a i) (vec_at sig a' i)) ->
  (forall i, i < n -> scaled (m - s i) (vec_at sig b i) (vec_at sig b' i)) ->
  (forall i, i < n -> safe_product (vec_at sig a i) (vec_at sig b i) /\ safe_product (vec_at sig a' i) (vec_at sig b' i)) ->
  svector_dot FO a b = Ok r -> svector_dot FO a' b' = Ok r' -> is_finite r = true -> is_finite r' = true ->
  scaled m r r'.
Proof.
  intros n m s a b a' b' r r' Ha Hb Hs. unfold svector_dot. rewrite !(svector_dot_total FO _ (float_implements prec emax)).
  intros E E' F F'. injection E as <-. injection E' as <-.
  apply (fdot_scale prec emax (vec_at sig a) (vec_at sig b) (vec_at sig a') (vec_at sig b') m s (fun i => (m - s i)%Z) n);
    auto; try (intros; apply Hs; assumption). intros; lia.
Qed.

(** Products of matrices: scaling the rows of [a] by 2^(r i), its columns by 2^(- s j), the rows of [b]
    by 2^(s j) and its columns by 2^(c l) scales entry (i, l) of the product by 2^(r i + c l). *)
Theorem C85_smatrix_product :
  forall (L M N : nat) (r s c : nat -> Z) (a a' : smatrix fl L M) (b b' : smatrix fl M N) (p p' : smatrix fl L N),
  (forall i j, i < L -> j < M -> scaled (r i - s j) (mat_at sig a i j) (mat_at sig a' i j)) ->
  (forall j l, j < M -> l < N -> scaled (s j + c l) (mat_at sig b j l) (mat_at sig b' j l)) ->
  smatrix_mul FO a b = Ok p -> smatrix_mul FO a' b' = Ok p' ->
  forall i l, i < L -> l < N ->
  (forall j, j < M -> safe_product (mat_at sig a i j) (mat_at sig b j l) /\ safe_product (mat_at sig a' i j) (mat_at sig b' j l)) ->
  is_finite (mat_at sig p i l) = true -> is_finite (mat_at sig p' i l) = true ->
  scaled (r i + c l) (mat_at sig p i l) (mat_at sig p' i l).
Proof.
  intros L M N r s c a a' b b' p p' Ha Hb. unfold smatrix_mul. rewrite !(smatrix_mul_total FO _ (float_implements prec emax)).
  intros E E' i l Hi Hl Hs. injection E as <-. injection E' as <-. rewrite !mat_at_tab by assumption. intros F F'.
  apply (fdot_scale prec emax (fun j => mat_at sig a i j) (fun j => mat_at sig b j l) (fun j => mat_at sig a' i j)
           (fun j => mat_at sig b' j l) (r i + c l)%Z (fun j => r i - s j)%Z (fun j => s j + c l)%Z M);
    auto; try (intros; apply Hs; assumption). intros; lia.
Qed.

Theorem C85_smatrix_vector :
  forall (M N : nat) (r s : nat -> Z) (a a' : smatrix fl M N) (v v' : svector fl N) (p p' : svector fl M),
  (forall i j, i < M -> j < N -> scaled (r i - s j) (mat_at sig a i j) (mat_at sig a' i j)) ->
  (forall j, j < N -> scaled (s j) (vec_at sig v j) (vec_at sig v' j)) ->
  smatrix_mul_vec FO a v = Ok p -> smatrix_mul_vec FO a' v' = Ok p' ->
  forall i, i < M ->
  (forall j, j < N -> safe_product (mat_at sig a i j) (vec_at sig v j) /\ safe_product (mat_at sig a' i j) (vec_at sig v' j)) ->
  is_finite (vec_at sig p i) = true -> is_finite (vec_at sig p' i) = true ->
  scaled (r i) (vec_at sig p i) (vec_at sig p' i).
Proof.
  intros M N r s a a' v v' p p' Ha Hv. rewrite !(smatrix_mul_vec_total FO _ (float_implements prec emax)).
  intros E E' i Hi Hs. injection E as <-. injection E' as <-. rewrite !vec_at_tab by assumption. intros F F'.
  apply (fdot_scale prec emax (fun j => mat_at sig a i j) (fun j => vec_at sig v j) (fun j => mat_at sig a' i j)
           (fun j => vec_at sig v' j) (r i)%Z (fun j => r i - s j)%Z s N);
    auto; try (intros; apply Hs; assumption). intros; lia.
Qed.

Theorem C85_dmatrix_product :
  forall (md : target) (r s c : N -> Z) (a b a' b' p p' : dmatrix fl),
  dm_wf md a -> dm_wf md b -> dm_wf md a' -> dm_wf md b' -> dm_cols a = dm_rows b -> (1 <= dm_cols a)%N ->
  dm_rows a' = dm_rows a -> dm_cols a' = dm_cols a -> dm_rows b' = dm_rows b -> dm_cols b' = dm_cols b ->
  (forall i j, (i < dm_rows a)%N -> (j < dm_cols a)%N -> scaled (r i - s j) (dm_at sig a i j) (dm_at sig a' i j)) ->
  (forall j l, (j < dm_rows b)%N -> (l < dm_cols b)%N -> scaled (s j + c l) (dm_at sig b j l) (dm_at sig b' j l)) ->
  (e <- dmatrix_mul md (r_mul FO) (r_add FO) a b ;; m_eval e) = Ok p ->
  (e <- dmatrix_mul md (r_mul FO) (r_add FO) a' b' ;; m_eval e) = Ok p' ->
  forall i l, (i < dm_rows a)%N -> (l < dm_cols b)%N ->
  (forall j, (j < dm_cols a)%N -> safe_product (dm_at sig a i j) (dm_at sig b j l) /\ safe_product (dm_at sig a' i j) (dm_at sig b' j l)) ->
  is_finite (dm_at sig p i l) = true -> is_finite (dm_at sig p' i l) = true ->
  scaled (r i + c l) (dm_at sig p i l) (dm_at sig p' i l).
Proof.
  intros md r s c a b a' b' p p' Wa Wb Wa' Wb' E H1 R1 C1 R2 C2 Ha Hb.
  pose proof (dm_mul_total sig (r_add FO) (r_mul FO) (fun _ _ => eq_refl) (fun _ _ => eq_refl) md) as T.
  rewrite (T a b Wa Wb E H1), (T a' b' Wa' Wb') by congruence. clear T.
  intros P P' i l Hi Hl Hs. injection P as <-. injection P' as <-. rewrite R1, C1, C2.
  rewrite !dm_at_tab by assumption. change (smul sig) with (fl_mul prec emax).
  rewrite (sum1_fdot1 prec emax (fun m => dm_at sig a i (N.of_nat m)) (fun m => dm_at sig b (N.of_nat m) l)).
  rewrite (sum1_fdot1 prec emax (fun m => dm_at sig a' i (N.of_nat m)) (fun m => dm_at sig b' (N.of_nat m) l)).
  intros F F'.
  apply (fdot1_scale prec emax (fun m => dm_at sig a i (N.of_nat m)) (fun m => dm_at sig b (N.of_nat m) l)
     (fun m => dm_at sig a' i (N.of_nat m)) (fun m => dm_at sig b' (N.of_nat m) l) (r i + c l)%Z
     (fun m => r i - s (N.of_nat m))%Z (fun m => s (N.of_nat m) + c l)%Z (N.to_nat (dm_cols a)));
    try assumption; try lia; intros m Hm; try (apply Ha; lia); try (apply Hb; lia); try (apply Hs; lia).
Qed.

(** ** Polynomials.  The coefficients of 2^m p(x / 2^k) are 2^(m - k j) a_j; at 2^k x it has the value
    2^m p(x).  The products formed by Horner's rule are those of the values of the tails of [p] with [x]. *)
Definition safe_horner (p : poly fl) (x : fl) : Prop :=
  forall j y, 0 < j <= length p -> poly_eval FO (skipn j p) x = Ok y -> safe_product y x.

Theorem C85_evaluation :
  forall (m k : Z) (p p' : poly fl) (x x' r r' : fl), scaled k x x' -> length p' = length p ->
  (forall j, j < length p -> scaled (m - k * Z.of_nat j) (nth j p zero) (nth j p' zero)) ->
  safe_horner p x -> safe_horner p' x' ->
  poly_eval FO p x = Ok r -> poly_eval FO p' x' = Ok r' -> is_finite r = true -> is_finite r' = true ->
  scaled m r r'.
Proof.
  intros m k p p' x x' r r' Hx L H S S'. rewrite !poly_eval_horner. intros E E' F F'. injection E as <-. injection E' as <-.
  apply (horner_scale prec emax k); try assumption.
  intros j Hj. split; [apply (S j)|apply (S' j)]; try (rewrite L; exact Hj); try exact Hj; apply poly_eval_horner.
Qed.

Theorem C85_poly_product :
  forall (m k : Z) (n : Z) (p q p' q' r r' : poly fl), length p' = length p -> length q' = length q ->
  (forall j, j < length p -> scaled (m - k * Z.of_nat j) (nth j p zero) (nth j p' zero)) ->
  (forall j, j < length q -> scaled (n - k * Z.of_nat j) (nth j q zero) (nth j q' zero)) ->
  (forall i j, i < length p -> j < length q ->
     safe_product (nth i p zero) (nth j q zero) /\ safe_product (nth i p' zero) (nth j q' zero)) ->
  poly_mul FO p q = Ok r -> poly_mul FO p' q' = Ok r' ->
  length r' = length r
  /\ forall j, j < length r -> is_finite (nth j r zero) = true -> is_finite (nth j r' zero) = true ->
     scaled (m + n - k * Z.of_nat j) (nth j r zero) (nth j r' zero).
Proof.
  intros m k n p q p' q' r r' Lp Lq Ep Eq Hs H H'.
  destruct (poly_mul_exact FO _ (float_implements prec emax) p q) as (t & Ht & Lt & Nt). unfold poly_mul in H. rewrite H in Ht. injection Ht as <-.
  destruct (poly_mul_exact FO _ (float_implements prec emax) p' q') as (t' & Ht' & Lt' & Nt'). unfold poly_mul in H'. rewrite H' in Ht'. injection Ht' as <-.
  rewrite Lp, Lq in *. split; [congruence|]. change (sz sig) with zero in *. intros j Hj. rewrite (Nt j Hj), (Nt' j) by congruence.
  assert (W : forall t, t < conv_hi (length p) j - conv_lo (length q) j ->
    conv_lo (length q) j + t < length p /\ j - (conv_lo (length q) j + t) < length q /\ conv_lo (length q) j + t <= j).
  { intros t Ht. unfold conv_lo, conv_hi in *. 
    destruct (Nat.eqb_spec (length p) 0), (Nat.eqb_spec (length q) 0); simpl in Lt; lia. }
  intros F F'. set (lo := conv_lo (length q) j) in *.
  apply (fdot_scale prec emax (fun t => nth (lo + t) p zero) (fun t => nth (j - (lo + t)) q zero)
    (fun t => nth (lo + t) p' zero) (fun t => nth (j - (lo + t)) q' zero) (m + n - k * Z.of_nat j)%Z
    (fun t => m - k * Z.of_nat (lo + t))%Z (fun t => n - k * Z.of_nat (j - (lo + t)))%Z
    (conv_hi (length p) j - lo)); try assumption; try apply Nat.le_refl;
    intros t Ht; destruct (W t Ht) as (W1 & W2 & W3);
    [apply Ep; exact W1|apply Eq; exact W2|rewrite Nat2Z.inj_sub by exact W3; ring|apply Hs; assumption|apply Hs; assumption].
Qed.

(** ** Complex numbers *)
Definition cscaled (k : Z) (z w : complex fl) : Prop := scaled k (re z) (re w) /\ scaled k (im z) (im w).
Definition cfin (z : complex fl) : Prop := is_finite (re z) = true /\ is_finite (im z) = true.
(** All four products of a component of [z] with one of [w]. *)
Definition safe_products (z w : complex fl) : Prop :=
  safe_product (re z) (re w) /\ safe_product (re z) (im w) /\ safe_product (im z) (re w) /\ safe_product (im z) (im w).

Theorem C85_complex_sums :
  forall (k : Z) (z w z' w' s s' d d' : complex fl), cscaled k z z' -> cscaled k w w' ->
  complex_add (r_add FO) z w = Ok s -> complex_add (r_add FO) z' w' = Ok s' ->
  complex_sub (r_sub FO) z w = Ok d -> complex_sub (r_sub FO) z' w' = Ok d' ->
  (cfin s -> cfin s' -> cscaled k s s') /\ (cfin d -> cfin d' -> cscaled k d d').
Proof.
  intros k z w z' w' s s' d d' (Z1 & Z2) (W1 & W2) E1 E2 E3 E4. cbn in E1, E2, E3, E4.
  injection E1 as <-. injection E2 as <-. injection E3 as <-. injection E4 as <-.
  split; intros (F1 & F2) (F1' & F2'); cbn [re im complex_new] in *; split; cbn [re im];
    [apply add_scale|apply add_scale|apply sub_scale|apply sub_scale]; assumption.
Qed.

Theorem C85_complex_product :
  forall (j k : Z) (z w z' w' p p' : complex fl), cscaled j z z' -> cscaled k w w' ->
  safe_products z w -> safe_products z' w' ->
  complex_mul FO z w = Ok p -> complex_mul FO z' w' = Ok p' -> cfin p -> cfin p' ->
  cscaled (j + k) p p'.
Proof.
  intros j k z w z' w' p p' (Z1 & Z2) (W1 & W2) (S1 & S2 & S3 & S4) (T1 & T2 & T3 & T4) E E'. cbn in E, E'.
  injection E as <-. injection E' as <-. intros (F1 & F2) (G1 & G2). cbn [re im complex_new] in *.
  destruct (sub_model _ _ _ _ F1) as (A1 & A2 & _). destruct (add_model _ _ _ _ F2) as (A3 & A4 & _).
  destruct (sub_model _ _ _ _ G1) as (B1 & B2 & _). destruct (add_model _ _ _ _ G2) as (B3 & B4 & _).
  split; cbn [re im]; [apply sub_scale|apply add_scale]; try assumption; apply mul_scale; assumption.
Qed.

(** Squared norm and absolute value. *)
Theorem C85_complex_norms :
  forall (libm : FunOps fl) (k : Z) (z z' : complex fl) (n n' r r' : fl), cscaled k z z' ->
  safe_product (re z) (re z) -> safe_product (im z) (im z) -> safe_product (re z') (re z') -> safe_product (im z') (im z') ->
  complex_sqr_norm FO z = Ok n -> complex_sqr_norm FO z' = Ok n' -> is_finite n = true -> is_finite n' = true ->
  scaled (2 * k) n n'
  /\ (complex_abs FF (float_fun prec emax libm) z = Ok r -> complex_abs FF (float_fun prec emax libm) z' = Ok r' ->
      scaled k r r').
Proof.
  intros libm k z z' n n' r r' (Z1 & Z2) S1 S2 T1 T2. unfold complex_abs. change (f_ring FF) with FO. intros E E'.
  rewrite E, E'. cbn in E, E'. injection E as <-. injection E' as <-. intros F F'.
  destruct (add_model _ _ _ _ F) as (A1 & A2 & _). destruct (add_model _ _ _ _ F') as (B1 & B2 & _).
  assert (X : scaled (k + k) (fl_add prec emax (fl_mul prec emax (re z) (re z)) (fl_mul prec emax (im z) (im z)))
                (fl_add prec emax (fl_mul prec emax (re z') (re z')) (fl_mul prec emax (im z') (im z')))).
  { apply add_scale; try assumption; apply mul_scale; assumption. }
  split; [replace (2 * k)%Z with (k + k)%Z by ring; exact X|].
  cbn [bind float_fun fn_sqrt]. intros Er Er'. injection Er as <-. injection Er' as <-.
  apply sqrt_scale; try assumption.
  assert (Q : forall v : fl, is_finite (fl_mul prec emax v v) = true -> (0 <= B2R (fl_mul prec emax v v))%R).
  { intros v Fv. rewrite (mul_value _ _ _ _ Fv). apply FloatRound.rnd_nonneg; try assumption. apply Rle_0_sqr. }
  rewrite (add_value _ _ _ _ F). apply FloatRound.rnd_nonneg; try assumption. 
  pose proof (Q _ A1). pose proof (Q _ A2). lra.
Qed.

(** Quotients: here the intermediate results that can underflow include the reciprocal of the squared
    norm and the products with it. *)
Definition quotient_safe (z w : complex fl) : Prop :=
  let n := fl_add prec emax (fl_mul prec emax (re w) (re w)) (fl_mul prec emax (im w) (im w)) in
  let rcp := fl_div prec emax (r_one FO) n in
  let p1 := fl_add prec emax (fl_mul prec emax (re z) (re w)) (fl_mul prec emax (im z) (im w)) in
  let p2 := fl_sub prec emax (fl_mul prec emax (im z) (re w)) (fl_mul prec emax (re z) (im w)) in
  B2R n <> 0%R /\ is_finite n = true
  /\ safe_products z w /\ safe_product (re w) (re w) /\ safe_product (im w) (im w)
  /\ safe (B2R (r_one FO) / B2R n) /\ safe_product p1 rcp /\ safe_product p2 rcp.

Theorem C85_complex_quotient :
  forall (j k : Z) (z w z' w' q q' : complex fl), cscaled j z z' -> cscaled k w w' ->
  quotient_safe z w -> quotient_safe z' w' ->
  complex_div FF z w = Ok q -> complex_div FF z' w' = Ok q' -> cfin q -> cfin q' ->
  cscaled (j - k) q q'.
Proof.
  intros j k z w z' w' q q' (Z1 & Z2) (W1 & W2) (N0 & Nf & (S1 & S2 & S3 & S4) & S5 & S6 & S7 & S8 & S9)
    (N0' & Nf' & (T1 & T2 & T3 & T4) & T5 & T6 & T7 & T8 & T9) E E'. cbn in E, E'.
  injection E as <-. injection E' as <-. intros (F1 & F2) (G1 & G2). cbn [re im complex_new] in *.
  destruct (mul_model _ _ _ _ F1) as (A1 & A2 & _). destruct (mul_model _ _ _ _ F2) as (A3 & _ & _).
  destruct (mul_model _ _ _ _ G1) as (B1 & B2 & _). destruct (mul_model _ _ _ _ G2) as (B3 & _ & _).
  destruct (add_model _ _ _ _ A1) as (A4 & A5 & _). destruct (sub_model _ _ _ _ A3) as (A6 & A7 & _).
  destruct (add_model _ _ _ _ B1) as (B4 & B5 & _). destruct (sub_model _ _ _ _ B3) as (B6 & B7 & _).
  destruct (add_model _ _ _ _ Nf) as (A8 & A9 & _). destruct (add_model _ _ _ _ Nf') as (B8 & B9 & _).
  assert (X : scaled (0 - (k + k)) (fl_div prec emax (r_one FO) (fl_add prec emax (fl_mul prec emax (re w) (re w)) (fl_mul prec emax (im w) (im w))))
                (fl_div prec emax (r_one FO) (fl_add prec emax (fl_mul prec emax (re w') (re w')) (fl_mul prec emax (im w') (im w'))))).
  { apply div_scale; try assumption. { unfold scaled. simpl. ring. }
    apply add_scale; try assumption; apply mul_scale; assumption. }
  split; cbn [re im]; replace (j - k)%Z with (j + k + (0 - (k + k)))%Z by ring; apply mul_scale; try assumption.
  - apply add_scale; try assumption; apply mul_scale; assumption.
  - apply sub_scale; try assumption; apply mul_scale; assumption.
Qed.
End Fmt.

(** ** Cases in binary64 *)
(** Reading both relations off mantissas and exponents. *)
Lemma scaled_parts (x y : f64) k s m e : B2SF x = SpecFloat.S754_finite s m e -> B2SF y = SpecFloat.S754_finite s m (k + e) ->
  scaled k x y.
Proof.
  intros Hx Hy. unfold scaled. rewrite <- (SF2R_B2SF _ _ x), <- (SF2R_B2SF _ _ y), Hx, Hy. cbn [SF2R]. unfold F2R. cbn [Fnum Fexp].
  rewrite bpow_plus. ring.
Qed.
Lemma safe_parts (x y : f64) s m e s' m' e' : B2SF x = SpecFloat.S754_finite s m e -> B2SF y = SpecFloat.S754_finite s' m' e' ->
  (-1022 <= e + e')%Z -> safe_product 53 1024 x y.
Proof.
  intros Hx Hy H. right. rewrite <- (SF2R_B2SF _ _ x), <- (SF2R_B2SF _ _ y), Hx, Hy. cbn [SF2R].
  assert (B : forall s m e, (bpow radix2 e <= Rabs (F2R (Float radix2 (cond_Zopp s (Z.pos m)) e)))%R).
  { intros t n g. rewrite <- F2R_Zabs. unfold F2R. cbn [Fnum Fexp]. rewrite abs_cond_Zopp. cbn [Z.abs].
    pose proof (bpow_gt_0 radix2 g). assert (1 <= IZR (Z.pos n))%R by (apply IZR_le; lia). nra. }
  rewrite Rabs_mult. apply Rle_trans with (bpow radix2 (e + e')); [apply bpow_le; exact H|]. rewrite bpow_plus.
  apply Rmult_le_compat; try apply bpow_ge_0; apply B.
Qed.

(** 2^5 (1/3) and 2^-4 (1/3), and 3 and 7 times powers of two. *)
Definition third_up : f64 := fl_mul 53 1024 third (f64_of_Z 32).
Definition third_down : f64 := fl_div 53 1024 third (f64_of_Z 16).
Definition scale_a : svector f64 2 := acons third (acons (f64_of_Z 3) anil).
Definition scale_a' : svector f64 2 := acons third_up (acons (f64_of_Z 12) anil).
Definition scale_b : svector f64 2 := acons third (acons (f64_of_Z 7) anil).
Definition scale_b' : svector f64 2 := acons third_down (acons (fl_div 53 1024 (f64_of_Z 7) (f64_of_Z 2)) anil).
Definition scale_s (i : nat) : Z := match i with O => 5%Z | _ => 2%Z end.

(** The hypotheses of [C85_svector_dot] hold, for an inexact dot product. *)
Example C85_case_hypotheses :
  (forall i, i < 2 -> scaled (scale_s i) (vec_at (float_sig 53 1024) scale_a i) (vec_at (float_sig 53 1024) scale_a' i))
  /\ (forall i, i < 2 -> scaled (1 - scale_s i) (vec_at (float_sig 53 1024) scale_b i) (vec_at (float_sig 53 1024) scale_b' i))
  /\ (forall i, i < 2 -> safe_product 53 1024 (vec_at (float_sig 53 1024) scale_a i) (vec_at (float_sig 53 1024) scale_b i)
                      /\ safe_product 53 1024 (vec_at (float_sig 53 1024) scale_a' i) (vec_at (float_sig 53 1024) scale_b' i)).
Proof.
  split; [|split]; intros [|[|i]] Hi; try lia.
  - eapply (scaled_parts third third_up); [vm_compute; reflexivity|vm_compute; reflexivity].
  - eapply (scaled_parts (f64_of_Z 3) (f64_of_Z 12)); [vm_compute; reflexivity|vm_compute; reflexivity].
  - eapply (scaled_parts third third_down); [vm_compute; reflexivity|vm_compute; reflexivity].
  - eapply (scaled_parts (f64_of_Z 7)); [vm_compute; reflexivity|vm_compute; reflexivity].
  - split; eapply safe_parts; try (vm_compute; reflexivity); vm_compute; discriminate.
  - split; eapply safe_parts; try (vm_compute; reflexivity); vm_compute; discriminate.
Qed.
Example C85_case_dot :
  on_ok (svector_dot f64_ring scale_a scale_b) (fun r => on_ok (svector_dot f64_ring scale_a' scale_b') (fun r' =>
    is_finite r && is_finite r' && Beqb r' (fl_mul 53 1024 r (f64_of_Z 2)) && Bltb (f64_of_Z 21) r)) = true.
Proof. vm_compute. reflexivity. Qed.

(** Without the condition on underflow the claim is false: for x = 1/3 and y = 2^-1022 the products
    x * y and x * (2^30 y) are both finite and positive, but the second is not 2^30 times the first. *)
Definition tiny_f64 : f64 := Bldexp mode_NE (f64_of_Z 1) (-1022).
Example C85_underflow_matters :
  let p := fl_mul 53 1024 third tiny_f64 in
  let p' := fl_mul 53 1024 third (Bldexp mode_NE (f64_of_Z 1) (-992)) in
  is_finite p && is_finite p' && Bltb (f64_of_Z 0) p
  && negb (Beqb p' (fl_mul 53 1024 p (Bldexp mode_NE (f64_of_Z 1) 30))) = true.
Proof. vm_compute. reflexivity. Qed.

Print Assumptions C85_svector_sums.
Print Assumptions C85_smatrix_sums.
Print Assumptions C85_poly_sums.
Print Assumptions C85_svector_dot.
Print Assumptions C85_smatrix_product.
Print Assumptions C85_smatrix_vector.
Print Assumptions C85_dmatrix_product.
Print Assumptions C85_evaluation.
Print Assumptions C85_poly_product.
Print Assumptions C85_complex_sums.
Print Assumptions C85_complex_product.
Print Assumptions C85_complex_norms.
Print Assumptions C85_complex_quotient.
