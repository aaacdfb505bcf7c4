(** Property C80: changing signs commutes with f32/f64 computations, rounding included.

    [x ~ y]: the same float (all NaNs identified), except that a zero may have the other sign. *)
From Coq Require Import List ZArith NArith Reals Bool Lia Lra.
From Flocq Require Import Core.Core IEEE754.BinarySingleNaN.
From Verif Require Import Base.Outcome Base.Usize Base.Array Model.Traits Model.Float Model.Polynomial Model.Complex
  Model.SVector Model.SMatrix Model.DVector Model.DMatrix
  Spec.Ring Spec.Sums Spec.Matrix Spec.DExpr Spec.DMatrix Spec.FloatErr
  Proofs.FloatErr Proofs.FloatInt Proofs.FloatComm Proofs.FloatSpecial
  Proofs.SMatrixProofs Proofs.DVectorProofs Proofs.DMatrixProofs Proofs.PolyExact
  Props.FloatProps Props.FloatPolyProps.
Import ListNotations.

Section Fmt.
Context (prec emax : Z) {Hp : Prec_gt_0 prec} {He : Prec_lt_emax prec emax}.
Notation fl := (binary_float prec emax).
Notation FO := (float_ring prec emax).
Notation FF := (float_field prec emax).
Notation sig := (float_sig prec emax).
Notation zero := (fl_int prec emax 0).
Notation add := (fl_add prec emax).
Notation sub := (fl_sub prec emax).
Notation mul := (fl_mul prec emax).
Notation "x ~ y" := (same_up_to_zero x y) (at level 70).
Notation "z ~~ w" := (complex_same_up_to_zero prec emax z w) (at level 70).

(** [-x] for floats and complex floats, [conj], multiplication by i. *)
Notation minus := (@Bopp prec emax).
Definition cminus (z : complex fl) : complex fl := Cx (minus (re z)) (minus (im z)).
Definition cconj (z : complex fl) : complex fl := Cx (re z) (minus (im z)).
Definition times_i (z : complex fl) : complex fl := Cx (minus (im z)) (re z).

(** They are what the code computes. *)
Lemma C80_neg_is_cminus : forall z, complex_neg (r_neg FO) z = Ok (cminus z) /\ complex_conj (r_neg FO) z = Ok (cconj z).
Proof. intros [a b]. split; reflexivity. Qed.

Lemma sub_opp (x y : fl) : sub (minus x) (minus y) ~ minus (sub x y).
Proof. rewrite !fl_sub_def. apply fl_add_opp. Qed.
Lemma sub_swap (x y : fl) : sub x y ~ minus (sub y x).
Proof.
  rewrite !fl_sub_def, fl_add_comm. rewrite <- (fl_opp_opp prec emax x) at 1. apply fl_add_opp.
Qed.
Lemma opp_l (x y : fl) : minus x ~ y -> x ~ minus y.
Proof. intros H. apply opp_same in H. rewrite fl_opp_opp in H. exact H. Qed.
Lemma square_opp (x : fl) : mul (minus x) (minus x) = mul x x.
Proof. rewrite fl_mul_opp_l, fl_mul_opp_r. apply fl_opp_opp. Qed.

Lemma mul_opp_same (x y r : fl) : x ~ minus y -> mul x r ~ minus (mul y r).
Proof. intros H. rewrite <- fl_mul_opp_l. apply mul_same_l, H. Qed.

(** ** Complex numbers *)
Theorem C80_complex_products :
  forall z w : complex fl, exists p p1 p2,
  complex_mul FO z w = Ok p /\ complex_mul FO (cminus z) w = Ok p1 /\ complex_mul FO z (cminus w) = Ok p2
  /\ p1 ~~ cminus p /\ p2 ~~ cminus p
  /\ complex_mul FO (cminus z) (cminus w) = Ok p.
Proof.
  intros [a b] [c d]. do 3 eexists. do 3 (split; [reflexivity|]). cbn [re im cminus complex_new].
  rewrite !fl_mul_opp_l, !fl_mul_opp_r.
  split; [split; cbn [re im]; [apply sub_opp|apply fl_add_opp]|].
  split; [split; cbn [re im]; [apply sub_opp|apply fl_add_opp]|].
  unfold complex_mul, complex_mul_ref. cbn [re im r_mul r_add r_sub float_ring bind cminus].
  rewrite !fl_mul_opp_l, !fl_mul_opp_r, !fl_opp_opp. reflexivity.
Qed.

Theorem C80_complex_quotients :
  forall z w : complex fl, exists p p1 p2 p3,
  complex_div FF z w = Ok p /\ complex_div FF (cminus z) w = Ok p1 /\ complex_div FF z (cminus w) = Ok p2
  /\ complex_div FF (cconj z) (cconj w) = Ok p3
  /\ p1 ~~ cminus p /\ p2 ~~ cminus p /\ p3 ~~ cconj p
  /\ complex_div FF (cminus z) (cminus w) = Ok p.
Proof.
  intros [a b] [c d]. do 4 eexists. do 4 (split; [reflexivity|]).
  unfold complex_same_up_to_zero, complex_new, cminus, cconj. cbn [re im]. rewrite !square_opp.
  set (rcp := fl_div prec emax _ _).
  repeat (rewrite fl_mul_opp_l || rewrite fl_mul_opp_r || rewrite fl_opp_opp).
  split; [split; [apply mul_opp_same, fl_add_opp|apply mul_opp_same, sub_opp]|].
  split; [split; [apply mul_opp_same, fl_add_opp|apply mul_opp_same, sub_opp]|].
  split; [split; [apply same_refl|apply mul_opp_same, sub_opp]|].
  unfold complex_div, complex_div_ref, complex_sqr_norm. cbn [re im r_mul r_add r_sub r_one f_div f_ring float_field float_ring bind cminus].
  rewrite !square_opp. fold rcp. rewrite !fl_mul_opp_l, !fl_mul_opp_r, !fl_opp_opp. reflexivity.
Qed.

(** The squared norm and the absolute value depend on |re| and |im| only, and are the same for
    [z] and [i z]. *)
Theorem C80_norms :
  forall (libm : FunOps fl) (z : complex fl), let FE := float_fun prec emax libm in
  complex_sqr_norm FO (cminus z) = complex_sqr_norm FO z
  /\ complex_sqr_norm FO (cconj z) = complex_sqr_norm FO z
  /\ complex_sqr_norm FO (times_i z) = complex_sqr_norm FO z
  /\ complex_abs FF FE (cminus z) = complex_abs FF FE z
  /\ complex_abs FF FE (cconj z) = complex_abs FF FE z
  /\ complex_abs FF FE (times_i z) = complex_abs FF FE z.
Proof.
  intros libm [a b] FE.
  unfold complex_abs, complex_sqr_norm.
  cbn [re im r_mul r_add f_ring float_field float_ring bind cminus cconj times_i].
  rewrite !square_opp, (fl_add_comm prec emax (mul b b)). auto 6.
Qed.

(** Multiplying by [i] or [-i] with [*] is exact for numbers without infinities and NaN. *)
Theorem C80_times_i :
  forall z : complex fl, is_finite (re z) = true -> is_finite (im z) = true ->
  exists p q, complex_mul FO (Cx zero (r_one FO)) z = Ok p /\ complex_mul FO z (Cx zero (minus (r_one FO))) = Ok q
  /\ p ~~ times_i z /\ q ~~ cminus (times_i z).
Proof.
  intros [a b] Fa Fb. cbn [re im] in *. do 2 eexists. split; [reflexivity|]. split; [reflexivity|].
  unfold complex_same_up_to_zero. cbn [re im complex_new cminus times_i]. change (r_one FO) with (fl_int prec emax 1).
  rewrite !fl_mul_opp_r, !fl_sub_def, !fl_opp_opp, !mul_one_l, !mul_one_r.
  assert (Z : forall x : fl, is_finite x = true -> is_zero prec emax (mul zero x) /\ is_zero prec emax (mul x zero)).
  { intros x F. split; [apply mul_zero_l|apply mul_zero_r]; auto; eexists; reflexivity. }
  destruct (Z a Fa) as [Z1 Z2], (Z b Fb) as [Z3 Z4].
  split; split; try (apply add_zero_l; assumption); try (apply add_zero_r; assumption).
Qed.

(** ** Dot products and matrix products *)
Lemma sum_opp (f g : nat -> fl) n : (forall i, i < n -> g i = minus (f i)) -> sum_n sig n g ~ minus (sum_n sig n f).
Proof.
  induction n as [|n IH]; intros H; cbn [sum_n].
  - right. eexists _, _. split; reflexivity.
  - rewrite (H n) by lia. eapply same_trans; [apply add_same_l, IH; intros; apply H; lia|apply fl_add_opp].
Qed.

Lemma sum_ext (f g : nat -> fl) n : (forall i, i < n -> g i = f i) -> sum_n sig n g = sum_n sig n f.
Proof. induction n as [|n IH]; intros H; cbn [sum_n]; [reflexivity|]. rewrite IH, (H n) by (intros; auto; lia). reflexivity. Qed.

Lemma fdot1_opp (a b a' b' : nat -> fl) n : (forall i, i <= n -> mul (a' i) (b' i) = minus (mul (a i) (b i))) ->
  fdot1 prec emax a' b' n ~ minus (fdot1 prec emax a b n).
Proof.
  induction n as [|n IH]; intros H; cbn [fdot1]; [left; apply H; lia|].
  rewrite (H (S n)) by lia. eapply same_trans; [apply add_same_l, IH; intros; apply H; lia|apply fl_add_opp].
Qed.

Theorem C80_dot_products :
  forall (n : nat) (a b a' b' : svector fl n),
  (forall i, i < n -> vec_at sig a' i = minus (vec_at sig a i)) ->
  (forall i, i < n -> vec_at sig b' i = minus (vec_at sig b i)) ->
  exists r r1 r2, svector_dot FO a b = Ok r /\ svector_dot FO a' b = Ok r1 /\ svector_dot FO a b' = Ok r2
  /\ r1 ~ minus r /\ r2 ~ minus r /\ svector_dot FO a' b' = Ok r.
Proof.
  intros n a b a' b' Ha Hb. unfold svector_dot. rewrite !(svector_dot_total FO _ (float_implements prec emax)).
  do 3 eexists. do 3 (split; [reflexivity|]). split; [|split].
  - apply sum_opp. intros i Hi. rewrite Ha by exact Hi. apply fl_mul_opp_l.
  - apply sum_opp. intros i Hi. rewrite Hb by exact Hi. apply fl_mul_opp_r.
  - f_equal. apply sum_ext. intros i Hi. rewrite Ha, Hb by exact Hi. cbn [smul]. unfold float_sig. cbn [smul]. rewrite fl_mul_opp_l, fl_mul_opp_r. apply fl_opp_opp.
Qed.

(** Changing the sign of the same entries of both vectors changes nothing. *)
Theorem C80_dot_sign_pattern :
  forall (n : nat) (flip : nat -> bool) (a b a' b' : svector fl n),
  (forall i, i < n -> vec_at sig a' i = if flip i then minus (vec_at sig a i) else vec_at sig a i) ->
  (forall i, i < n -> vec_at sig b' i = if flip i then minus (vec_at sig b i) else vec_at sig b i) ->
  svector_dot FO a' b' = svector_dot FO a b.
Proof.
  intros n flip a b a' b' Ha Hb. unfold svector_dot. rewrite !(svector_dot_total FO _ (float_implements prec emax)).
  f_equal. apply sum_ext. intros i Hi. rewrite Ha, Hb by exact Hi. unfold float_sig. cbn [smul].
  destruct (flip i); [|reflexivity]. rewrite fl_mul_opp_l, fl_mul_opp_r. apply fl_opp_opp.
Qed.

Theorem C80_static_products :
  forall (L M N : nat) (a : smatrix fl L M) (b : smatrix fl M N) (v : svector fl M),
  exists na nb r r1 r2 s s1,
  smatrix_neg FO a = Ok na /\ smatrix_neg FO b = Ok nb
  /\ smatrix_mul FO a b = Ok r /\ smatrix_mul FO na b = Ok r1 /\ smatrix_mul FO a nb = Ok r2
  /\ smatrix_mul_vec FO a v = Ok s /\ smatrix_mul_vec FO na v = Ok s1
  /\ (forall i j, i < L -> j < N -> mat_at sig r1 i j ~ minus (mat_at sig r i j) /\ mat_at sig r2 i j ~ minus (mat_at sig r i j))
  /\ (forall i, i < L -> vec_at sig s1 i ~ minus (vec_at sig s i))
  /\ smatrix_mul FO na nb = Ok r.
Proof.
  intros L M N a b v.
  rewrite !(smatrix_neg_total FO _ (float_implements prec emax)). unfold smatrix_mul.
  do 7 eexists. split; [reflexivity|]. split; [reflexivity|].
  rewrite !(smatrix_mul_total FO _ (float_implements prec emax)), !(smatrix_mul_vec_total FO _ (float_implements prec emax)).
  do 5 (split; [reflexivity|]). split; [|split].
  - intros i j Hi Hj. rewrite !mat_at_tab by assumption. split; apply sum_opp; intros m Hm; rewrite !mat_at_tab by assumption;
      [apply fl_mul_opp_l|apply fl_mul_opp_r].
  - intros i Hi. rewrite !vec_at_tab by assumption. apply sum_opp. intros m Hm. rewrite mat_at_tab by assumption. apply fl_mul_opp_l.
  - f_equal. apply tab_ext. intros i Hi. apply tab_ext. intros j Hj. apply sum_ext. intros m Hm.
    rewrite !mat_at_tab by assumption. unfold float_sig. cbn [smul sneg]. rewrite fl_mul_opp_l, fl_mul_opp_r. apply fl_opp_opp.
Qed.

Theorem C80_dynamic_products :
  forall (md : target) (a b a' b' : dmatrix fl), dm_wf md a -> dm_wf md b -> dm_wf md a' -> dm_wf md b' ->
  dm_cols a = dm_rows b -> (1 <= dm_cols a)%N ->
  dm_rows a' = dm_rows a -> dm_cols a' = dm_cols a -> dm_rows b' = dm_rows b -> dm_cols b' = dm_cols b ->
  (forall i j, (i < dm_rows a)%N -> (j < dm_cols a)%N -> dm_at sig a' i j = minus (dm_at sig a i j)) ->
  (forall i j, (i < dm_rows b)%N -> (j < dm_cols b)%N -> dm_at sig b' i j = minus (dm_at sig b i j)) ->
  exists r r1 r2, (e <- dmatrix_mul md (r_mul FO) (r_add FO) a b ;; m_eval e) = Ok r
  /\ (e <- dmatrix_mul md (r_mul FO) (r_add FO) a' b ;; m_eval e) = Ok r1
  /\ (e <- dmatrix_mul md (r_mul FO) (r_add FO) a b' ;; m_eval e) = Ok r2
  /\ forall i j, (i < dm_rows a)%N -> (j < dm_cols b)%N ->
     dm_at sig r1 i j ~ minus (dm_at sig r i j) /\ dm_at sig r2 i j ~ minus (dm_at sig r i j).
Proof.
  intros md a b a' b' Wa Wb Wa' Wb' E H1 R1 C1 R2 C2 Ha Hb.
  pose proof (dm_mul_total sig (r_add FO) (r_mul FO) (fun _ _ => eq_refl) (fun _ _ => eq_refl) md) as T.
  rewrite (T a b Wa Wb E H1), (T a' b Wa' Wb), (T a b' Wa Wb') by congruence. clear T.
  do 3 eexists. do 3 (split; [reflexivity|]). intros i j Hi Hj. rewrite R1, C1, C2.
  rewrite !dm_at_tab by assumption. change (smul sig) with (fl_mul prec emax).
  rewrite (sum1_fdot1 prec emax (fun m => dm_at sig a i (N.of_nat m)) (fun m => dm_at sig b (N.of_nat m) j)).
  rewrite (sum1_fdot1 prec emax (fun m => dm_at sig a' i (N.of_nat m)) (fun m => dm_at sig b (N.of_nat m) j)).
  rewrite (sum1_fdot1 prec emax (fun m => dm_at sig a i (N.of_nat m)) (fun m => dm_at sig b' (N.of_nat m) j)).
  split; apply fdot1_opp; intros m Hm; [rewrite Ha by lia; apply fl_mul_opp_l|rewrite Hb by lia; apply fl_mul_opp_r].
Qed.

(** Changing the sign of the same entries of both DVectors changes nothing; of all entries of one
    of them, the sign of the result. *)
Theorem C80_dvector_dot :
  forall (flip : nat -> bool) (a b a' b' : dvector fl),
  length a = length b -> length a' = length a -> length b' = length b ->
  (forall i, i < length a -> nth i a' zero = if flip i then minus (nth i a zero) else nth i a zero) ->
  (forall i, i < length a -> nth i b' zero = if flip i then minus (nth i b zero) else nth i b zero) ->
  let dot := dvector_dot (r_zero FO) (r_add FO) (r_mul FO) prim_conj in
  dot a' b' = dot a b
  /\ exists r r1 r2, dot a b = Ok r /\ dot (map minus a) b = Ok r1 /\ dot a (map minus b) = Ok r2
     /\ r1 ~ minus r /\ r2 ~ minus r.
Proof.
  intros flip a b a' b' E La Lb Ha Hb dot.
  assert (T : forall p q : dvector fl, length p = length q -> dot p q = Ok (sum_n sig (length p) (fun i => smul sig (nth i p zero) (nth i q zero)))).
  { intros p q Epq. exact (dvector_dot_value sig (r_add FO) (r_mul FO) prim_conj (fun x => x)
      (fun _ _ => eq_refl) (fun _ _ => eq_refl) (fun _ => eq_refl) p q Epq). }
  assert (NM : forall (p : dvector fl) i, i < length p -> nth i (map minus p) zero = minus (nth i p zero)).
  { intros p i Hi. rewrite (nth_indep _ zero (minus zero)) by (rewrite map_length; exact Hi). apply map_nth. }
  split.
  - rewrite !T by congruence. rewrite La. f_equal. apply sum_ext. intros i Hi. rewrite Ha, Hb by exact Hi.
    unfold float_sig. cbn [smul]. destruct (flip i); [|reflexivity]. rewrite fl_mul_opp_l, fl_mul_opp_r. apply fl_opp_opp.
  - rewrite (T a b E), (T (map minus a) b), (T a (map minus b)) by (rewrite map_length; assumption).
    do 3 eexists. do 3 (split; [reflexivity|]). rewrite map_length.
    split; apply sum_opp; intros i Hi; [rewrite (NM a i Hi); apply fl_mul_opp_l|].
    rewrite (NM b i) by (rewrite <- E; exact Hi). apply fl_mul_opp_r.
Qed.

(** Changing the sign of some columns of the first factor and of the same rows of the second does
    not change a product at all; changing the sign of a row of the first (a column of the second)
    changes that of the row (column) of the product. *)
Theorem C80_static_sign_patterns :
  forall (L M N : nat) (inner row col : nat -> bool) (a a' : smatrix fl L M) (b b' : smatrix fl M N) (v v' : svector fl M),
  let signed (f : bool) (x : fl) := if f then minus x else x in
  (forall i m, i < L -> m < M -> mat_at sig a' i m = signed (xorb (row i) (inner m)) (mat_at sig a i m)) ->
  (forall m j, m < M -> j < N -> mat_at sig b' m j = signed (xorb (inner m) (col j)) (mat_at sig b m j)) ->
  (forall m, m < M -> vec_at sig v' m = signed (inner m) (vec_at sig v m)) ->
  exists r r' s s', smatrix_mul FO a b = Ok r /\ smatrix_mul FO a' b' = Ok r'
  /\ smatrix_mul_vec FO a v = Ok s /\ smatrix_mul_vec FO a' v' = Ok s'
  /\ (forall i j, i < L -> j < N ->
       if xorb (row i) (col j) then mat_at sig r' i j ~ minus (mat_at sig r i j) else mat_at sig r' i j = mat_at sig r i j)
  /\ (forall i, i < L -> if row i then vec_at sig s' i ~ minus (vec_at sig s i) else vec_at sig s' i = vec_at sig s i).
Proof.
  intros L M N inner row col a a' b b' v v' signed Ha Hb Hv. unfold smatrix_mul. do 4 eexists.
  rewrite !(smatrix_mul_total FO _ (float_implements prec emax)), !(smatrix_mul_vec_total FO _ (float_implements prec emax)).
  do 4 (split; [reflexivity|]).
  assert (P : forall (p q : bool) (x y : fl), smul sig (signed p x) (signed q y) = signed (xorb p q) (smul sig x y)).
  { intros [] [] x y; unfold signed, float_sig; cbn [smul xorb]; rewrite ?fl_mul_opp_l, ?fl_mul_opp_r, ?fl_opp_opp; reflexivity. }
  split.
  - intros i j Hi Hj. rewrite !mat_at_tab by assumption.
    assert (F : forall m, m < M -> smul sig (mat_at sig a' i m) (mat_at sig b' m j)
                = signed (xorb (row i) (col j)) (smul sig (mat_at sig a i m) (mat_at sig b m j))).
    { intros m Hm. rewrite Ha, Hb, P by assumption. f_equal. destruct (row i), (inner m), (col j); reflexivity. }
    destruct (xorb (row i) (col j)); [apply sum_opp; exact F|apply sum_ext; exact F].
  - intros i Hi. rewrite !vec_at_tab by assumption.
    assert (F : forall m, m < M -> smul sig (mat_at sig a' i m) (vec_at sig v' m)
                = signed (row i) (smul sig (mat_at sig a i m) (vec_at sig v m))).
    { intros m Hm. rewrite Ha, Hv, P by assumption. f_equal. destruct (row i), (inner m); reflexivity. }
    destruct (row i); [apply sum_opp; exact F|apply sum_ext; exact F].
Qed.
Theorem C80_dynamic_sign_patterns :
  forall (md : target) (inner row col : N -> bool) (a b a' b' : dmatrix fl),
  dm_wf md a -> dm_wf md b -> dm_wf md a' -> dm_wf md b' ->
  dm_cols a = dm_rows b -> (1 <= dm_cols a)%N ->
  dm_rows a' = dm_rows a -> dm_cols a' = dm_cols a -> dm_rows b' = dm_rows b -> dm_cols b' = dm_cols b ->
  let signed (f : bool) (x : fl) := if f then minus x else x in
  (forall i m, (i < dm_rows a)%N -> (m < dm_cols a)%N -> dm_at sig a' i m = signed (xorb (row i) (inner m)) (dm_at sig a i m)) ->
  (forall m j, (m < dm_rows b)%N -> (j < dm_cols b)%N -> dm_at sig b' m j = signed (xorb (inner m) (col j)) (dm_at sig b m j)) ->
  exists r r', (e <- dmatrix_mul md (r_mul FO) (r_add FO) a b ;; m_eval e) = Ok r
  /\ (e <- dmatrix_mul md (r_mul FO) (r_add FO) a' b' ;; m_eval e) = Ok r'
  /\ forall i j, (i < dm_rows a)%N -> (j < dm_cols b)%N ->
     if xorb (row i) (col j) then dm_at sig r' i j ~ minus (dm_at sig r i j) else dm_at sig r' i j = dm_at sig r i j.
Proof.
  intros md inner row col a b a' b' Wa Wb Wa' Wb' E H1 R1 C1 R2 C2 signed Ha Hb.
  pose proof (dm_mul_total sig (r_add FO) (r_mul FO) (fun _ _ => eq_refl) (fun _ _ => eq_refl) md) as T.
  rewrite (T a b Wa Wb E H1), (T a' b' Wa' Wb') by congruence. clear T.
  do 2 eexists. do 2 (split; [reflexivity|]). intros i j Hi Hj. rewrite R1, C1, C2.
  rewrite !dm_at_tab by assumption.
  assert (P : forall (p q : bool) (x y : fl), smul sig (signed p x) (signed q y) = signed (xorb p q) (smul sig x y)).
  { intros [] [] x y; unfold signed, float_sig; cbn [smul xorb]; rewrite ?fl_mul_opp_l, ?fl_mul_opp_r, ?fl_opp_opp; reflexivity. }
  assert (F : forall m, m <= Nat.pred (N.to_nat (dm_cols a)) ->
              smul sig (dm_at sig a' i (N.of_nat m)) (dm_at sig b' (N.of_nat m) j)
              = signed (xorb (row i) (col j)) (smul sig (dm_at sig a i (N.of_nat m)) (dm_at sig b (N.of_nat m) j))).
  { intros m Hm. rewrite Ha, Hb, P by lia. f_equal. destruct (row i), (inner (N.of_nat m)), (col j); reflexivity. }
  set (k := Nat.pred _) in *. clearbody k. destruct (xorb (row i) (col j)); unfold signed in F.
  - change (smul sig) with (fl_mul prec emax) in *.
    rewrite (sum1_fdot1 prec emax (fun m => dm_at sig a i (N.of_nat m)) (fun m => dm_at sig b (N.of_nat m) j)).
    rewrite (sum1_fdot1 prec emax (fun m => dm_at sig a' i (N.of_nat m)) (fun m => dm_at sig b' (N.of_nat m) j)).
    apply fdot1_opp. intros m Hm. apply F. lia.
  - clear -F. induction k as [|k IH]; cbn [sum1]; [apply F; lia|]. rewrite IH, (F (S k)) by (intros; try apply F; lia). reflexivity.
Qed.

(** ** Polynomials *)
Lemma horner_opp (p : list fl) x : fl_horner prec emax (map minus p) x ~ minus (fl_horner prec emax p x).
Proof.
  induction p as [|a p IH]; cbn [map fl_horner]; [right; eexists _, _; split; reflexivity|].
  eapply same_trans; [apply add_same_l, mul_same_l, IH|]. rewrite fl_mul_opp_l. apply fl_add_opp.
Qed.

(** a_0, -a_1, a_2, ...: the coefficients of p(-x). *)
Fixpoint alternate (p : list fl) : list fl :=
  match p with [] => [] | a :: p' => a :: map minus (alternate p') end.

Lemma horner_alternate (p : list fl) x : fl_horner prec emax (alternate p) (minus x) ~ fl_horner prec emax p x.
Proof.
  induction p as [|a p IH]; cbn [alternate fl_horner]; [apply same_refl|]. apply add_same_l.
  eapply same_trans; [apply mul_same_l, horner_opp|]. rewrite fl_mul_opp_l, fl_mul_opp_r, fl_opp_opp.
  apply mul_same_l, IH.
Qed.

Theorem C80_evaluation :
  forall (p : poly fl) (x : fl), exists np r s t,
  poly_neg FO p = Ok np /\ poly_eval FO p x = Ok r /\ poly_eval FO np x = Ok s /\ s ~ minus r
  (* p(-x) has coefficients a_0, -a_1, a_2, ... *)
  /\ poly_eval FO (alternate p) (minus x) = Ok t /\ t ~ r.
Proof.
  intros p x. exists (map minus p), (fl_horner prec emax p x), (fl_horner prec emax (map minus p) x),
    (fl_horner prec emax (alternate p) (minus x)).
  split; [apply mapM_total; reflexivity|]. rewrite !poly_eval_horner. do 2 (split; [reflexivity|]).
  split; [apply horner_opp|]. split; [reflexivity|apply horner_alternate].
Qed.

Lemma nth_alternate (p : list fl) : forall k, nth_error (alternate p) k
  = option_map (fun a => if Nat.odd k then minus a else a) (nth_error p k).
Proof.
  induction p as [|a p IH]; intros [|k]; try reflexivity. cbn [alternate nth_error].
  rewrite nth_error_map, IH. destruct (nth_error p k) as [b|]; [|reflexivity]. cbn [option_map].
  rewrite Nat.odd_succ, <- Nat.negb_odd. destruct (Nat.odd k); cbn [negb]; [rewrite fl_opp_opp|]; reflexivity.
Qed.

(** What [alternate] is, position by position. *)
Lemma C80_alternate_spec : forall (p : list fl) k, nth_error (alternate p) k
  = option_map (fun a => if Nat.odd k then minus a else a) (nth_error p k).
Proof. exact nth_alternate. Qed.

Theorem C80_poly_products :
  forall p q : poly fl, exists np nq r r1 r2,
  poly_neg FO p = Ok np /\ poly_neg FO q = Ok nq
  /\ poly_mul FO p q = Ok r /\ poly_mul FO np q = Ok r1 /\ poly_mul FO p nq = Ok r2
  /\ length r1 = length r /\ length r2 = length r
  /\ (forall k, k < length r -> nth k r1 zero ~ minus (nth k r zero) /\ nth k r2 zero ~ minus (nth k r zero))
  /\ poly_mul FO np nq = Ok r.
Proof.
  intros p q. exists (map minus p), (map minus q).
  destruct (poly_mul_exact FO _ (float_implements prec emax) p q) as (r & Hr & Lr & Nr).
  destruct (poly_mul_exact FO _ (float_implements prec emax) (map minus p) q) as (r1 & Hr1 & Lr1 & Nr1).
  destruct (poly_mul_exact FO _ (float_implements prec emax) p (map minus q)) as (r2 & Hr2 & Lr2 & Nr2).
  destruct (poly_mul_exact FO _ (float_implements prec emax) (map minus p) (map minus q)) as (r3 & Hr3 & Lr3 & Nr3).
  rewrite !map_length in *.
  exists r, r1, r2. split; [apply mapM_total; reflexivity|]. split; [apply mapM_total; reflexivity|].
  split; [exact Hr|]. split; [exact Hr1|]. split; [exact Hr2|]. split; [congruence|]. split; [congruence|].
  change (sz sig) with zero in *.
  assert (M : forall (l : list fl) i, i < length l -> nth i (map minus l) zero = minus (nth i l zero)).
  { intros l i H. rewrite (nth_indep _ zero (minus zero)) by (rewrite map_length; exact H). apply map_nth. }
  assert (W : forall k t, k < length r -> t < conv_hi (length p) k - conv_lo (length q) k ->
    conv_lo (length q) k + t < length p /\ k - (conv_lo (length q) k + t) < length q).
  { intros k t Hk Ht. unfold conv_lo, conv_hi in *. 
    destruct (Nat.eqb_spec (length p) 0), (Nat.eqb_spec (length q) 0); simpl in Lr; lia. }
  split.
  - intros k Hk. rewrite (Nr k Hk), (Nr1 k), (Nr2 k) by congruence.
    split; apply sum_opp; intros t Ht; destruct (W k t Hk Ht) as [W1 W2]; unfold term; change (sz sig) with zero;
      rewrite M by assumption; [apply fl_mul_opp_l|apply fl_mul_opp_r].
  - rewrite <- Hr. unfold poly_mul. unfold poly_mul in Hr, Hr3. rewrite Hr, Hr3. f_equal.
    apply (nth_ext _ _ zero zero); [congruence|]. intros k Hk. assert (Hk' : k < length r) by congruence.
    rewrite (Nr3 k Hk), (Nr k Hk'). apply sum_ext. intros t Ht. destruct (W k t Hk' Ht) as [W1 W2]. unfold term. change (sz sig) with zero.
    rewrite !M by assumption. unfold float_sig. cbn [smul]. rewrite fl_mul_opp_l, fl_mul_opp_r. apply fl_opp_opp.
Qed.

(** q - p is -(p - q), and -p + -q is -(p + q), coefficient by coefficient. *)
Theorem C80_poly_sums :
  forall p q : poly fl, exists np nq s s' d d',
  poly_neg FO p = Ok np /\ poly_neg FO q = Ok nq
  /\ poly_add FO p q = Ok s /\ poly_add FO np nq = Ok s'
  /\ poly_sub FO p q = Ok d /\ poly_sub FO q p = Ok d'
  /\ forall k, same_up_to_zero_at prec emax (nth_error s' k) (option_map minus (nth_error s k))
            /\ same_up_to_zero_at prec emax (nth_error d' k) (option_map minus (nth_error d k)).
Proof.
  intros p q. exists (map minus p), (map minus q).
  destruct (C64_sums prec emax p q) as (s & _ & Hs & _ & _ & Ns & _).
  destruct (C64_sums prec emax (map minus p) (map minus q)) as (s' & _ & Hs' & _ & _ & Ns' & _).
  destruct (C64_differences prec emax p q) as (d & _ & Hd & _ & _ & Nd & _).
  destruct (C64_differences prec emax q p) as (d' & _ & Hd' & _ & _ & Nd' & _).
  exists s, s', d, d'. split; [apply mapM_total; reflexivity|]. split; [apply mapM_total; reflexivity|].
  do 4 (split; [assumption|]). intros k. rewrite Ns, Ns', Nd, Nd', !nth_error_map.
  destruct (nth_error p k) as [a|], (nth_error q k) as [b|]; cbn [option_map sum_at diff_at same_up_to_zero_at];
    split; try exact I; try apply same_refl; try (left; rewrite fl_opp_opp; reflexivity).
  - apply fl_add_opp.
  - apply sub_swap.
Qed.
End Fmt.

(** Inexact operations: the identities are not between exact results. *)
Definition sign_z : complex f64 := Cx third (f64_of_Z 3).
Definition sign_w : complex f64 := Cx (f64_of_Z 7) third.
Definition csame (z w : complex f64) : bool := Beqb (re z) (re w) && Beqb (im z) (im w).
Example C80_case :
  on_ok (complex_div f64_field sign_z sign_w) (fun q => on_ok (complex_div f64_field sign_z (cminus 53 1024 sign_w)) (fun q' =>
    csame q' (cminus 53 1024 q) && negb (csame q q'))) = true
  /\ on_ok (poly_eval f64_ring [third; f64_of_Z 7; third] third) (fun r =>
       on_ok (poly_eval f64_ring (alternate 53 1024 [third; f64_of_Z 7; third]) (Bopp third)) (fun r' => Beqb r r')) = true.
Proof. split; vm_compute; reflexivity. Qed.

(** A sign pattern: the second column of a and the second row of b change sign, and so does the
    first row of a: the first row of the product changes sign, the second does not change. *)
Example C80_case_pattern :
  let neg := @Bopp 53 1024 in
  let x := third in let y := f64_of_Z 7 in
  let a := MkDM [x; y; y; x] 2 2 in let a' := MkDM [neg x; y; y; neg x] 2 2 in
  let b := MkDM [x; x; y; x] 2 2 in let b' := MkDM [x; x; neg y; neg x] 2 2 in
  let mul p q := e <- dmatrix_mul Release (r_mul f64_ring) (r_add f64_ring) p q ;; m_eval e in
  dm_wf Release a /\ dm_wf Release a' /\ dm_wf Release b /\ dm_wf Release b'
  /\ on_ok (mul a b) (fun r => on_ok (mul a' b') (fun r' =>
       match dm_data r, dm_data r' with
       | [p; q; s; t], [p'; q'; s'; t'] => Beqb p' (neg p) && Beqb q' (neg q) && Beqb s' s && Beqb t' t && negb (Beqb p p')
       | _, _ => false end)) = true.
Proof. repeat split; vm_compute; reflexivity. Qed.

(** The signs of zeros do differ: (0 - 0) = +0 in both, but -(0 - 0) = -0. *)
Example C80_zero_signs :
  let i1 := Cx (f64_of_Z 1) (f64_of_Z 1) in
  on_ok (complex_mul f64_ring i1 i1) (fun p => on_ok (complex_mul f64_ring (cminus 53 1024 i1) i1) (fun q =>
    Beqb (re p) (f64_of_Z 0) && Beqb (re q) (f64_of_Z 0) && negb (Bsign (re p)) && negb (Bsign (re q)))) = true.
Proof. vm_compute. reflexivity. Qed.

Print Assumptions C80_complex_products.
Print Assumptions C80_complex_quotients.
Print Assumptions C80_norms.
Print Assumptions C80_times_i.
Print Assumptions C80_dot_products.
Print Assumptions C80_dot_sign_pattern.
Print Assumptions C80_static_products.
Print Assumptions C80_dynamic_products.
Print Assumptions C80_dvector_dot.
Print Assumptions C80_static_sign_patterns.
Print Assumptions C80_dynamic_sign_patterns.
Print Assumptions C80_evaluation.
Print Assumptions C80_poly_products.
Print Assumptions C80_poly_sums.
