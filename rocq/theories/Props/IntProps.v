(** Properties C47-C49: element types i8 .. i128, isize.

    [int t] is the machine type [t], [ival a] the integer it stands for; [int_ops Debug t] are
    its operators in a build with overflow checks, [int_ops Release t] without.
    [exact_or_overflow m Q]: [m] returns a value satisfying [Q] or panics with an arithmetic
    overflow, nothing else (Spec/Int.v).  [zcoeff], [zvec], [zmat] read off the integer
    coefficients/entries; [zsum n f] = f 0 + ... + f (n-1). *)
From Coq Require Import List Arith ZArith NArith Lia Bool.
From Verif Require Import Base.Outcome Base.Usize Base.Array Base.Sim Model.Traits Model.Int Model.Polynomial
  Model.Complex Model.SVector Model.SMatrix Model.DVector Model.DMatrix
  Spec.Ring Spec.Sums Spec.Agree Spec.Int Spec.Matrix Spec.Polynomial Spec.DExpr Spec.DMatrix
  Proofs.IntegerRing Proofs.PolynomialProofs Proofs.SMatrixProofs Proofs.DVectorProofs Proofs.DMatrixProofs
  Proofs.RingSim Proofs.PolyPartial Proofs.IntProofs Proofs.DExprProofs.
Import ListNotations.
Local Open Scope Z_scope.

(** [x.conj()] for an integer (src/algebra/conj.rs lines 6-15). *)
Definition int_conj {t} (x : int t) : outcome (int t) := Ok x.

(** Entry of a dynamic matrix of machine integers as an integer. *)
Definition zdm {t} (m : dmatrix (int t)) (r c : N) : Z :=
  nth (N.to_nat (r * dm_cols m + c)) (map ival (dm_data m)) 0.

Definition zdmat {t} (m : dmatrix (int t)) : dmatrix Z := MkDM (map ival (dm_data m)) (dm_rows m) (dm_cols m).

Lemma zdmat_wf {md t} (m : dmatrix (int t)) : dm_wf md m -> dm_wf md (zdmat m).
Proof. unfold dm_wf, zdmat, ulen. cbn [dm_data dm_rows dm_cols]. rewrite map_length. tauto. Qed.

(** The six integer types and when an operator reports an overflow, with the limits as literals. *)
Definition int_limits (t : int_type) : Z * Z :=
  match t with
  | I8 => (-128, 127)
  | I16 => (-32768, 32767)
  | I32 => (-2147483648, 2147483647)
  | I64 => (-9223372036854775808, 9223372036854775807)
  | I128 => (-170141183460469231731687303715884105728, 170141183460469231731687303715884105727)
  | Isize => (-9223372036854775808, 9223372036854775807)
  end%Z.

Theorem C47_overflow_exactly_out_of_range :
  forall (t : int_type) (x y : int t),
  let O := int_ops Debug t in
  let decides (m : outcome (int t)) (z : Z) :=
    (fst (int_limits t) <= z <= snd (int_limits t) -> exists r, m = Ok r /\ ival r = z)
    /\ (~ (fst (int_limits t) <= z <= snd (int_limits t)) -> m = Panic ArithOverflow) in
  fst (int_limits t) <= ival x <= snd (int_limits t)
  /\ decides (r_add O x y) (ival x + ival y)
  /\ decides (r_sub O x y) (ival x - ival y)
  /\ decides (r_mul O x y) (ival x * ival y)
  /\ decides (r_neg O x) (- ival x).
Proof.
  intros t x y O decides.
  assert (L : forall z, in_range t z = true <-> fst (int_limits t) <= z <= snd (int_limits t))
    by (intros z; rewrite in_range_iff; destruct t; reflexivity).
  assert (D : forall z, decides (int_result Debug t z) z).
  { intros z. unfold decides, int_result. rewrite <- L. destruct (bool_dec (in_range t z) true) as [E|E].
    - split; [intros _; eexists; split; reflexivity|contradiction].
    - split; [contradiction|reflexivity]. }
  split; [apply L, ival_ok|]. repeat split; apply D.
Qed.

Section Checked.
Context (t : int_type).
Notation O := (int_ops Debug t).
Notation ex := exact_or_overflow.


(** ** C47 *)
Theorem C47_polynomials_exact :
  forall (p q : poly (int t)) (x : int t),
  ex (poly_eval O p x) (fun y => ival y = zsum (length p) (fun i => zcoeff p i * ival x ^ Z.of_nat i))
  /\ ex (poly_add O p q) (fun r => length r = max (length p) (length q) /\ forall k, zcoeff r k = zcoeff p k + zcoeff q k)
  /\ ex (poly_add_assign O p q) (fun r => length r = max (length p) (length q) /\ forall k, zcoeff r k = zcoeff p k + zcoeff q k)
  /\ ex (poly_add_assign_ref O p q) (fun r => length r = max (length p) (length q) /\ forall k, zcoeff r k = zcoeff p k + zcoeff q k)
  /\ ex (poly_sub O p q) (fun r => length r = max (length p) (length q) /\ forall k, zcoeff r k = zcoeff p k - zcoeff q k)
  /\ ex (poly_sub_assign O p q) (fun r => length r = max (length p) (length q) /\ forall k, zcoeff r k = zcoeff p k - zcoeff q k)
  /\ ex (poly_sub_assign_ref O p q) (fun r => length r = max (length p) (length q) /\ forall k, zcoeff r k = zcoeff p k - zcoeff q k)
  /\ ex (poly_neg O p) (fun r => length r = length p /\ forall k, zcoeff r k = - zcoeff p k)
  /\ ex (poly_mul O p q) (fun r => forall k, zcoeff r k = zsum (S k) (fun i => zcoeff p i * zcoeff q (k - i))).
Proof.
  intros p q x.
  pose proof (Forall2_self_exact t p) as Hp. pose proof (Forall2_self_exact t q) as Hq.
  assert (Hx : ival x = ival x) by reflexivity.
  pose proof z_implements as HI. pose proof z_laws as HR. pose proof (checked_sim t) as HS.
  assert (Hlen : forall (r : poly (int t)) rz,
            Forall2 (fun a b => b = ival a) r rz -> length r = length rz /\ rz = map ival r).
  { intros r rz H. split; [apply (Forall2_length _ _ _ H)|]. apply Forall2_map_eq, H. }
  assert (Hbin : forall (f : Z -> Z -> Z) (m : outcome (poly (int t))) mz rz,
            mz = Ok rz -> length rz = max (length (map (@ival t) p)) (length (map (@ival t) q)) ->
            (forall k, same z_sig (coeff z_sig rz k) (f (coeff z_sig (map ival p) k) (coeff z_sig (map ival q) k))) ->
            sim overflow (Forall2 (fun a b => b = ival a)) m mz ->
            ex m (fun r => length r = max (length p) (length q) /\ forall k, zcoeff r k = f (zcoeff p k) (zcoeff q k))).
  { intros f m mz rz -> Hl Hk Hsim. apply (sim_exact _ _ _ _ Hsim). intros r Hr.
    destruct (Hlen r rz Hr) as [Hl' E]. rewrite !map_length in Hl. split; [lia|].
    intros k. specialize (Hk k). subst rz. exact Hk. }
  split; [|split; [|split; [|split; [|split; [|split; [|split; [|split]]]]]]].
  - destruct (poly_eval_ref_spec z_ops z_sig HI HR (map ival p) (ival x)) as (y & E & Hy).
    pose proof (sim_poly_eval overflow _ _ _ HS p (map ival p) x (ival x) Hp Hx) as Hsim.
    rewrite E in Hsim. apply (sim_exact _ _ _ _ Hsim). intros a ->. etransitivity; [exact Hy|].
    unfold poly_value. rewrite map_length, <- zsum_sum_n. apply zsum_ext.
    intros i _. rewrite pow_zpow. reflexivity.
  - destruct (poly_add_spec z_ops z_sig HI HR (map ival p) (map ival q)) as (r & E & Hl & Hk).
    apply (Hbin Z.add _ _ _ E Hl Hk), (sim_poly_add overflow _ _ _ HS _ _ _ _ Hp Hq).
  - destruct (poly_add_assign_spec z_ops z_sig HI HR (map ival p) (map ival q)) as (r & E & Hl & Hk).
    apply (Hbin Z.add _ _ _ E Hl Hk), (sim_poly_add_assign overflow _ _ _ HS _ _ _ _ Hp Hq).
  - destruct (poly_add_assign_ref_spec z_ops z_sig HI HR (map ival p) (map ival q)) as (r & E & Hl & Hk).
    apply (Hbin Z.add _ _ _ E Hl Hk), (sim_poly_add_assign_ref overflow _ _ _ HS _ _ _ _ Hp Hq).
  - destruct (poly_sub_spec z_ops z_sig HI HR (map ival p) (map ival q)) as (r & E & Hl & Hk).
    apply (Hbin Z.sub _ _ _ E Hl Hk), (sim_poly_sub overflow _ _ _ HS _ _ _ _ Hp Hq).
  - destruct (poly_sub_assign_spec z_ops z_sig HI HR (map ival p) (map ival q)) as (r & E & Hl & Hk).
    apply (Hbin Z.sub _ _ _ E Hl Hk), (sim_poly_sub_assign overflow _ _ _ HS _ _ _ _ Hp Hq).
  - destruct (poly_sub_assign_ref_spec z_ops z_sig HI HR (map ival p) (map ival q)) as (r & E & Hl & Hk).
    apply (Hbin Z.sub _ _ _ E Hl Hk), (sim_poly_sub_assign_ref overflow _ _ _ HS _ _ _ _ Hp Hq).
  - destruct (poly_neg_spec z_ops z_sig HI HR (map ival p)) as (r & E & Hl & Hk).
    pose proof (sim_poly_neg overflow _ _ _ HS _ _ Hp) as Hsim. rewrite E in Hsim.
    apply (sim_exact _ _ _ _ Hsim). intros r' Hr. destruct (Hlen _ _ Hr) as [Hl' E']. rewrite map_length in Hl.
    split; [lia|]. intros k. specialize (Hk k). subst r. exact Hk.
  - destruct (poly_mul_ref_spec z_ops z_sig HI HR (map ival p) (map ival q)) as (r & E & _ & Hk).
    pose proof (sim_poly_mul overflow _ _ _ HS _ _ _ _ Hp Hq) as Hsim. rewrite E in Hsim.
    apply (sim_exact _ _ _ _ Hsim). intros r' Hr. destruct (Hlen _ _ Hr) as [_ E'].
    intros k. specialize (Hk k). subst r. rewrite zsum_sum_n. exact Hk.
Qed.

Theorem C47_complex_exact :
  forall (z w : complex (int t)),
  ex (complex_add_assign_ref O z w) (fun r => ival (re r) = ival (re z) + ival (re w) /\ ival (im r) = ival (im z) + ival (im w))
  /\ ex (complex_sub_assign_ref O z w) (fun r => ival (re r) = ival (re z) - ival (re w) /\ ival (im r) = ival (im z) - ival (im w))
  /\ ex (complex_mul_ref O z w) (fun r =>
       ival (re r) = ival (re z) * ival (re w) - ival (im z) * ival (im w)
       /\ ival (im r) = ival (re z) * ival (im w) + ival (im z) * ival (re w))
  /\ ex (complex_neg (r_neg O) z) (fun r => ival (re r) = - ival (re z) /\ ival (im r) = - ival (im z))
  /\ ex (complex_conj (r_neg O) z) (fun r => ival (re r) = ival (re z) /\ ival (im r) = - ival (im z))
  /\ ex (complex_sqr_norm O z) (fun n => ival n = ival (re z) ^ 2 + ival (im z) ^ 2).
Proof.
  intros z w. pose proof (checked_sim t) as HS.
  set (zz := Cx (ival (re z)) (ival (im z))). set (wz := Cx (ival (re w)) (ival (im w))).
  assert (Hz : crel (fun a b => b = ival a) z zz) by (split; reflexivity).
  assert (Hw : crel (fun a b => b = ival a) w wz) by (split; reflexivity).
  split; [|split; [|split; [|split; [|split]]]].
  - eapply sim_exact; [exact (sim_complex_add overflow _ _ _ HS _ _ _ _ Hz Hw)|]. intros a [<- <-]; split; reflexivity.
  - eapply sim_exact; [exact (sim_complex_sub overflow _ _ _ HS _ _ _ _ Hz Hw)|]. intros a [<- <-]; split; reflexivity.
  - eapply sim_exact; [exact (sim_complex_mul overflow _ _ _ HS _ _ _ _ Hz Hw)|]. intros a [<- <-]; split; reflexivity.
  - eapply sim_exact; [exact (sim_complex_neg overflow _ _ _ HS _ _ Hz)|]. intros a [<- <-]; split; reflexivity.
  - eapply sim_exact; [exact (sim_complex_conj overflow _ _ _ HS _ _ Hz)|]. intros a [H <-]; split; [symmetry; exact H|reflexivity].
  - eapply sim_exact; [exact (sim_complex_sqr_norm overflow _ _ _ HS _ _ Hz)|]. intros a <-. cbn [zz re im]. rewrite !Z.pow_2_r. reflexivity.
Qed.

Theorem C47_vectors_exact :
  forall (n : nat) (u v : svector (int t) n) (s : int t) (du dv : dvector (int t)),
  ex (svector_add O u v) (fun r => forall i, zvec r i = zvec u i + zvec v i)
  /\ ex (svector_sub O u v) (fun r => forall i, zvec r i = zvec u i - zvec v i)
  /\ ex (svector_scale O u s) (fun r => forall i, zvec r i = zvec u i * ival s)
  /\ ex (svector_dot O u v) (fun d => ival d = zsum n (fun i => zvec u i * zvec v i))
  /\ (length du = length dv ->
      ex (dvector_dot (r_zero O) (r_add O) (r_mul O) int_conj du dv)
         (fun d => ival d = zsum (length du) (fun i => zcoeff du i * zcoeff dv i))).
Proof.
  intros n u v s du dv. pose proof (checked_sim t) as HS. pose proof z_implements as HI.
  set (R := fun (a : int t) (b : Z) => b = ival a) in *.
  assert (Hu : arel R u (amap ival u)) by (apply arel_amap; reflexivity).
  assert (Hv : arel R v (amap ival v)) by (apply arel_amap; reflexivity).
  assert (HsR : R s (ival s)) by reflexivity.
  assert (out : forall (w : svector (int t) n) i, (n <= i)%nat -> zvec w i = 0).
  { intros w i Hi. unfold zvec. apply nth_overflow. rewrite map_length, entries_length. exact Hi. }
  split; [|split; [|split; [|split]]].
  - pose proof (sim_svector_add overflow _ _ _ HS n _ _ _ _ Hu Hv) as Hsim.
    rewrite (svector_add_total z_ops z_sig HI) in Hsim. apply (sim_exact _ _ _ _ Hsim). intros r Hr i.
    destruct (Nat.lt_ge_cases i n) as [Hi|Hi]; [|rewrite !out by exact Hi; reflexivity].
    rewrite (zvec_exact _ _ _ _ _ Hr), (vec_at_tab z_sig) by exact Hi. rewrite !vec_at_amap. reflexivity.
  - pose proof (sim_svector_sub overflow _ _ _ HS n _ _ _ _ Hu Hv) as Hsim.
    rewrite (svector_sub_total z_ops z_sig HI) in Hsim. apply (sim_exact _ _ _ _ Hsim). intros r Hr i.
    destruct (Nat.lt_ge_cases i n) as [Hi|Hi]; [|rewrite !out by exact Hi; reflexivity].
    rewrite (zvec_exact _ _ _ _ _ Hr), (vec_at_tab z_sig) by exact Hi. rewrite !vec_at_amap. reflexivity.
  - pose proof (sim_svector_scale overflow _ _ _ HS n _ _ _ _ Hu HsR) as Hsim.
    rewrite (svector_scale_total z_ops z_sig HI) in Hsim. apply (sim_exact _ _ _ _ Hsim). intros r Hr i.
    destruct (Nat.lt_ge_cases i n) as [Hi|Hi]; [|rewrite !out by exact Hi; reflexivity].
    rewrite (zvec_exact _ _ _ _ _ Hr), (vec_at_tab z_sig) by exact Hi. rewrite !vec_at_amap. reflexivity.
  - pose proof (sim_svector_dot overflow _ _ _ HS n _ _ _ _ Hu Hv) as Hsim.
    rewrite (svector_dot_total z_ops z_sig HI) in Hsim. apply (sim_exact _ _ _ _ Hsim). intros d <-.
    rewrite <- zsum_sum_n. apply zsum_ext. intros i _. rewrite !vec_at_amap. reflexivity.
  - intros Hl.
    assert (Hcj : forall (x1 : int t) x2, R x1 x2 -> sim overflow R (int_conj x1) (Ok x2))
      by (intros; apply sim_ok; assumption).
    pose proof (sim_dvector_dot overflow _ _ _ HS int_conj (fun x => Ok x) _ _ _ _ Hcj
      (Forall2_self_exact t du) (Forall2_self_exact t dv)) as Hsim.
    cbn [z_ops r_zero r_add r_mul] in Hsim.
    rewrite (dvector_dot_value z_sig _ _ _ (fun x => x)) in Hsim by (intros; rewrite ?map_length; auto).
    apply (sim_exact _ _ _ _ Hsim). intros d <-. rewrite map_length, <- zsum_sum_n. reflexivity.
Qed.

Theorem C47_matrices_exact :
  forall (m n k : nat) (a a' : smatrix (int t) m n) (b : smatrix (int t) n k) (v : svector (int t) n),
  ex (smatrix_add O a a') (fun r => forall i j, (i < m)%nat -> (j < n)%nat -> zmat r i j = zmat a i j + zmat a' i j)
  /\ ex (smatrix_sub O a a') (fun r => forall i j, (i < m)%nat -> (j < n)%nat -> zmat r i j = zmat a i j - zmat a' i j)
  /\ ex (smatrix_neg O a) (fun r => forall i j, (i < m)%nat -> (j < n)%nat -> zmat r i j = - zmat a i j)
  /\ ex (smatrix_mul O a b) (fun r => forall i j, (i < m)%nat -> (j < k)%nat ->
        zmat r i j = zsum n (fun l => zmat a i l * zmat b l j))
  /\ ex (smatrix_mul_vec O a v) (fun r => forall i, (i < m)%nat -> zvec r i = zsum n (fun l => zmat a i l * zvec v l)).
Proof.
  intros m n k a a' b v. pose proof (checked_sim t) as HS. pose proof z_implements as HI.
  set (R := fun (a : int t) (b : Z) => b = ival a) in *.
  assert (Ha : arel (arel R) a (amap (amap ival) a)) by (apply mrel_amap; reflexivity).
  assert (Ha' : arel (arel R) a' (amap (amap ival) a')) by (apply mrel_amap; reflexivity).
  assert (Hb : arel (arel R) b (amap (amap ival) b)) by (apply mrel_amap; reflexivity).
  assert (Hv : arel R v (amap ival v)) by (apply arel_amap; reflexivity).
  split; [|split; [|split; [|split]]].
  - pose proof (sim_smatrix_add overflow _ _ _ HS _ _ _ _ _ _ Ha Ha') as Hsim.
    rewrite (smatrix_add_total z_ops z_sig HI) in Hsim. apply (sim_exact _ _ _ _ Hsim). intros r Hr i j Hi Hj.
    rewrite (zmat_exact _ _ _ _ _ _ _ Hr), (mat_at_tab z_sig) by assumption. rewrite !mat_at_amap. reflexivity.
  - pose proof (sim_smatrix_sub overflow _ _ _ HS _ _ _ _ _ _ Ha Ha') as Hsim.
    rewrite (smatrix_sub_total z_ops z_sig HI) in Hsim. apply (sim_exact _ _ _ _ Hsim). intros r Hr i j Hi Hj.
    rewrite (zmat_exact _ _ _ _ _ _ _ Hr), (mat_at_tab z_sig) by assumption. rewrite !mat_at_amap. reflexivity.
  - pose proof (sim_smatrix_neg overflow _ _ _ HS _ _ _ _ Ha) as Hsim.
    rewrite (smatrix_neg_total z_ops z_sig HI) in Hsim. apply (sim_exact _ _ _ _ Hsim). intros r Hr i j Hi Hj.
    rewrite (zmat_exact _ _ _ _ _ _ _ Hr), (mat_at_tab z_sig) by assumption. rewrite !mat_at_amap. reflexivity.
  - pose proof (sim_smatrix_mul overflow _ _ _ HS _ _ _ _ _ _ _ Ha Hb) as Hsim.
    rewrite (smatrix_mul_total z_ops z_sig HI) in Hsim. apply (sim_exact _ _ _ _ Hsim). intros r Hr i j Hi Hj.
    rewrite (zmat_exact _ _ _ _ _ _ _ Hr), (mat_at_tab z_sig) by assumption.
    rewrite <- zsum_sum_n. apply zsum_ext. intros l _. rewrite !mat_at_amap. reflexivity.
  - pose proof (sim_smatrix_mul_vec overflow _ _ _ HS _ _ _ _ _ _ Ha Hv) as Hsim.
    rewrite (smatrix_mul_vec_total z_ops z_sig HI) in Hsim. apply (sim_exact _ _ _ _ Hsim). intros r Hr i Hi.
    rewrite (zvec_exact _ _ _ _ _ Hr), (vec_at_tab z_sig) by assumption.
    rewrite <- zsum_sum_n. apply zsum_ext. intros l _. rewrite mat_at_amap, vec_at_amap. reflexivity.
Qed.

Theorem C47_dynamic_matrix_product_exact :
  forall (md : target) (a b : dmatrix (int t)), dm_wf md a -> dm_wf md b -> dm_cols a = dm_rows b -> (1 <= dm_cols a)%N ->
  ex (e <- dmatrix_mul md (r_mul O) (r_add O) a b ;; m_eval e)
     (fun r => dm_rows r = dm_rows a /\ dm_cols r = dm_cols b /\
        forall i j, (i < dm_rows a)%N -> (j < dm_cols b)%N ->
        zdm r i j = zsum (N.to_nat (dm_cols a)) (fun l => zdm a i (N.of_nat l) * zdm b (N.of_nat l) j)).
Proof.
  intros md a b Wa Wb E H1. pose proof (checked_sim t) as HS.
  pose proof (zdmat_wf a Wa) as Wa'. pose proof (zdmat_wf b Wb) as Wb'.
  assert (Ha : dmrel (fun x y => y = ival x) a (zdmat a)) by (split; [apply Forall2_self_exact|split; reflexivity]).
  assert (Hb : dmrel (fun x y => y = ival x) b (zdmat b)) by (split; [apply Forall2_self_exact|split; reflexivity]).
  pose proof (sim_dmatrix_product overflow _ _ _ HS md _ _ _ _ Ha Hb) as Hsim.
  rewrite (dm_mul_total z_sig (r_add z_ops) (r_mul z_ops) (fun x y => eq_refl) (fun x y => eq_refl) md _ _ Wa' Wb' E H1) in Hsim.
  apply (sim_exact _ _ _ _ Hsim). intros r (Hd & Hr & Hc). split; [exact Hr|]. split; [exact Hc|].
  intros i j Hi Hj. apply Forall2_map_eq in Hd.
  replace (zdm r i j) with (dm_at z_sig (dm_tab (dm_rows a) (dm_cols b) (fun r c => sum1 z_sig (Nat.pred (N.to_nat (dm_cols a)))
        (fun m => dm_at z_sig (zdmat a) r (N.of_nat m) * dm_at z_sig (zdmat b) (N.of_nat m) c))) i j)
    by (unfold zdm, dm_at; rewrite <- Hd; cbn [dm_tab dm_cols]; rewrite Hc; reflexivity).
  rewrite dm_at_tab by assumption. etransitivity; [apply (sum1_sum z_sig z_laws)|].
  replace (S (Nat.pred (N.to_nat (dm_cols a)))) with (N.to_nat (dm_cols a)) by lia.
  rewrite <- zsum_sum_n. reflexivity.
Qed.
End Checked.

(** ** C48 *)
Section Wrapping.
Context (t : int_type).
Notation O := (int_ops Release t).
Notation W := (wrap t).
Notation R := (fun (a : int t) (b : Z) => ival a = wrap t b).

Theorem C48_polynomials_wrap :
  forall (p q : poly (int t)) (x : int t),
  returns (poly_eval O p x) (fun y => ival y = W (zsum (length p) (fun i => zcoeff p i * ival x ^ Z.of_nat i)))
  /\ returns (poly_add O p q) (fun r => length r = max (length p) (length q) /\ forall k, zcoeff r k = W (zcoeff p k + zcoeff q k))
  /\ returns (poly_add_assign O p q) (fun r => length r = max (length p) (length q) /\ forall k, zcoeff r k = W (zcoeff p k + zcoeff q k))
  /\ returns (poly_add_assign_ref O p q) (fun r => length r = max (length p) (length q) /\ forall k, zcoeff r k = W (zcoeff p k + zcoeff q k))
  /\ returns (poly_sub O p q) (fun r => length r = max (length p) (length q) /\ forall k, zcoeff r k = W (zcoeff p k - zcoeff q k))
  /\ returns (poly_sub_assign O p q) (fun r => length r = max (length p) (length q) /\ forall k, zcoeff r k = W (zcoeff p k - zcoeff q k))
  /\ returns (poly_sub_assign_ref O p q) (fun r => length r = max (length p) (length q) /\ forall k, zcoeff r k = W (zcoeff p k - zcoeff q k))
  /\ returns (poly_neg O p) (fun r => length r = length p /\ forall k, zcoeff r k = W (- zcoeff p k))
  /\ returns (poly_mul O p q) (fun r => forall k, zcoeff r k = W (zsum (S k) (fun i => zcoeff p i * zcoeff q (k - i)))).
Proof.
  intros p q x.
  pose proof (Forall2_self_wrap t p) as Hp. pose proof (Forall2_self_wrap t q) as Hq.
  assert (Hx : R x (ival x)) by (apply ival_wrap).
  pose proof z_implements as HI. pose proof z_laws as HR. pose proof (wrapping_sim t) as HS.
  assert (Hbin : forall (f : Z -> Z -> Z) (m : outcome (poly (int t))) mz rz,
            mz = Ok rz -> length rz = max (length (map (@ival t) p)) (length (map (@ival t) q)) ->
            (forall k, same z_sig (coeff z_sig rz k) (f (coeff z_sig (map ival p) k) (coeff z_sig (map ival q) k))) ->
            sim never (Forall2 R) m mz ->
            returns m (fun r => length r = max (length p) (length q) /\ forall k, zcoeff r k = W (f (zcoeff p k) (zcoeff q k)))).
  { intros f m mz rz -> Hl Hk Hsim. apply (sim_returns _ _ _ _ Hsim). intros r Hr.
    pose proof (Forall2_length _ _ _ Hr) as Hl'. rewrite !map_length in Hl. split; [lia|].
    intros k. rewrite (rel_wrap_nth t _ _ k Hr). f_equal. exact (Hk k). }
  split; [|split; [|split; [|split; [|split; [|split; [|split; [|split]]]]]]].
  - destruct (poly_eval_ref_spec z_ops z_sig HI HR (map ival p) (ival x)) as (y & E & Hy).
    pose proof (sim_poly_eval never _ _ _ HS p (map ival p) x (ival x) Hp Hx) as Hsim.
    rewrite E in Hsim. apply (sim_returns _ _ _ _ Hsim). intros a ->. f_equal. etransitivity; [exact Hy|].
    unfold poly_value. rewrite map_length, <- zsum_sum_n. apply zsum_ext.
    intros i _. rewrite pow_zpow. reflexivity.
  - destruct (poly_add_spec z_ops z_sig HI HR (map ival p) (map ival q)) as (r & E & Hl & Hk).
    apply (Hbin Z.add _ _ _ E Hl Hk), (sim_poly_add never _ _ _ HS _ _ _ _ Hp Hq).
  - destruct (poly_add_assign_spec z_ops z_sig HI HR (map ival p) (map ival q)) as (r & E & Hl & Hk).
    apply (Hbin Z.add _ _ _ E Hl Hk), (sim_poly_add_assign never _ _ _ HS _ _ _ _ Hp Hq).
  - destruct (poly_add_assign_ref_spec z_ops z_sig HI HR (map ival p) (map ival q)) as (r & E & Hl & Hk).
    apply (Hbin Z.add _ _ _ E Hl Hk), (sim_poly_add_assign_ref never _ _ _ HS _ _ _ _ Hp Hq).
  - destruct (poly_sub_spec z_ops z_sig HI HR (map ival p) (map ival q)) as (r & E & Hl & Hk).
    apply (Hbin Z.sub _ _ _ E Hl Hk), (sim_poly_sub never _ _ _ HS _ _ _ _ Hp Hq).
  - destruct (poly_sub_assign_spec z_ops z_sig HI HR (map ival p) (map ival q)) as (r & E & Hl & Hk).
    apply (Hbin Z.sub _ _ _ E Hl Hk), (sim_poly_sub_assign never _ _ _ HS _ _ _ _ Hp Hq).
  - destruct (poly_sub_assign_ref_spec z_ops z_sig HI HR (map ival p) (map ival q)) as (r & E & Hl & Hk).
    apply (Hbin Z.sub _ _ _ E Hl Hk), (sim_poly_sub_assign_ref never _ _ _ HS _ _ _ _ Hp Hq).
  - destruct (poly_neg_spec z_ops z_sig HI HR (map ival p)) as (r & E & Hl & Hk).
    pose proof (sim_poly_neg never _ _ _ HS _ _ Hp) as Hsim. rewrite E in Hsim.
    apply (sim_returns _ _ _ _ Hsim). intros r' Hr.
    pose proof (Forall2_length _ _ _ Hr) as Hl'. rewrite map_length in Hl.
    split; [lia|]. intros k. rewrite (rel_wrap_nth t _ _ k Hr). f_equal. exact (Hk k).
  - destruct (poly_mul_ref_spec z_ops z_sig HI HR (map ival p) (map ival q)) as (r & E & _ & Hk).
    pose proof (sim_poly_mul never _ _ _ HS _ _ _ _ Hp Hq) as Hsim. rewrite E in Hsim.
    apply (sim_returns _ _ _ _ Hsim). intros r' Hr k.
    rewrite (rel_wrap_nth t _ _ k Hr), zsum_sum_n. f_equal. exact (Hk k).
Qed.

Theorem C48_complex_wrap :
  forall (z w : complex (int t)),
  returns (complex_add_assign_ref O z w) (fun r => ival (re r) = W (ival (re z) + ival (re w)) /\ ival (im r) = W (ival (im z) + ival (im w)))
  /\ returns (complex_sub_assign_ref O z w) (fun r => ival (re r) = W (ival (re z) - ival (re w)) /\ ival (im r) = W (ival (im z) - ival (im w)))
  /\ returns (complex_mul_ref O z w) (fun r =>
       ival (re r) = W (ival (re z) * ival (re w) - ival (im z) * ival (im w))
       /\ ival (im r) = W (ival (re z) * ival (im w) + ival (im z) * ival (re w)))
  /\ returns (complex_neg (r_neg O) z) (fun r => ival (re r) = W (- ival (re z)) /\ ival (im r) = W (- ival (im z)))
  /\ returns (complex_conj (r_neg O) z) (fun r => ival (re r) = ival (re z) /\ ival (im r) = W (- ival (im z)))
  /\ returns (complex_sqr_norm O z) (fun n => ival n = W (ival (re z) ^ 2 + ival (im z) ^ 2)).
Proof.
  intros z w. pose proof (wrapping_sim t) as HS.
  set (zz := Cx (ival (re z)) (ival (im z))). set (wz := Cx (ival (re w)) (ival (im w))).
  assert (Hz : crel R z zz) by (split; apply ival_wrap).
  assert (Hw : crel R w wz) by (split; apply ival_wrap).
  split; [|split; [|split; [|split; [|split]]]].
  - eapply sim_returns; [exact (sim_complex_add never _ _ _ HS _ _ _ _ Hz Hw)|]. intros a [-> ->]; split; reflexivity.
  - eapply sim_returns; [exact (sim_complex_sub never _ _ _ HS _ _ _ _ Hz Hw)|]. intros a [-> ->]; split; reflexivity.
  - eapply sim_returns; [exact (sim_complex_mul never _ _ _ HS _ _ _ _ Hz Hw)|]. intros a [-> ->]; split; reflexivity.
  - eapply sim_returns; [exact (sim_complex_neg never _ _ _ HS _ _ Hz)|]. intros a [-> ->]; split; reflexivity.
  - eapply sim_returns; [exact (sim_complex_conj never _ _ _ HS _ _ Hz)|]. intros a [-> ->].
    split; [symmetry; apply ival_wrap|reflexivity].
  - eapply sim_returns; [exact (sim_complex_sqr_norm never _ _ _ HS _ _ Hz)|]. intros a ->.
    cbn [zz re im]. rewrite !Z.pow_2_r. reflexivity.
Qed.

Theorem C48_vectors_wrap :
  forall (n : nat) (u v : svector (int t) n) (s : int t) (du dv : dvector (int t)),
  returns (svector_add O u v) (fun r => forall i, zvec r i = W (zvec u i + zvec v i))
  /\ returns (svector_sub O u v) (fun r => forall i, zvec r i = W (zvec u i - zvec v i))
  /\ returns (svector_scale O u s) (fun r => forall i, zvec r i = W (zvec u i * ival s))
  /\ returns (svector_dot O u v) (fun d => ival d = W (zsum n (fun i => zvec u i * zvec v i)))
  /\ (length du = length dv ->
      returns (dvector_dot (r_zero O) (r_add O) (r_mul O) int_conj du dv)
         (fun d => ival d = W (zsum (length du) (fun i => zcoeff du i * zcoeff dv i)))).
Proof.
  intros n u v s du dv. pose proof (wrapping_sim t) as HS. pose proof z_implements as HI.
  assert (Hu : arel R u (amap ival u)) by (apply arel_amap; apply ival_wrap).
  assert (Hv : arel R v (amap ival v)) by (apply arel_amap; apply ival_wrap).
  assert (HsR : R s (ival s)) by apply ival_wrap.
  assert (W0 : W 0 = 0) by (apply wrap_id, small_in_range; lia).
  assert (out : forall (w : svector (int t) n) i, (n <= i)%nat -> zvec w i = 0).
  { intros w i Hi. unfold zvec. apply nth_overflow. rewrite map_length, entries_length. exact Hi. }
  split; [|split; [|split; [|split]]].
  - pose proof (sim_svector_add never _ _ _ HS n _ _ _ _ Hu Hv) as Hsim.
    rewrite (svector_add_total z_ops z_sig HI) in Hsim. apply (sim_returns _ _ _ _ Hsim). intros r Hr i.
    destruct (Nat.lt_ge_cases i n) as [Hi|Hi]; [|rewrite !out by exact Hi; symmetry; exact W0].
    rewrite (zvec_wrap _ _ _ _ _ Hr), (vec_at_tab z_sig) by exact Hi. rewrite !vec_at_amap. reflexivity.
  - pose proof (sim_svector_sub never _ _ _ HS n _ _ _ _ Hu Hv) as Hsim.
    rewrite (svector_sub_total z_ops z_sig HI) in Hsim. apply (sim_returns _ _ _ _ Hsim). intros r Hr i.
    destruct (Nat.lt_ge_cases i n) as [Hi|Hi]; [|rewrite !out by exact Hi; symmetry; exact W0].
    rewrite (zvec_wrap _ _ _ _ _ Hr), (vec_at_tab z_sig) by exact Hi. rewrite !vec_at_amap. reflexivity.
  - pose proof (sim_svector_scale never _ _ _ HS n _ _ _ _ Hu HsR) as Hsim.
    rewrite (svector_scale_total z_ops z_sig HI) in Hsim. apply (sim_returns _ _ _ _ Hsim). intros r Hr i.
    destruct (Nat.lt_ge_cases i n) as [Hi|Hi]; [|rewrite !out by exact Hi; symmetry; exact W0].
    rewrite (zvec_wrap _ _ _ _ _ Hr), (vec_at_tab z_sig) by exact Hi. rewrite !vec_at_amap. reflexivity.
  - pose proof (sim_svector_dot never _ _ _ HS n _ _ _ _ Hu Hv) as Hsim.
    rewrite (svector_dot_total z_ops z_sig HI) in Hsim. apply (sim_returns _ _ _ _ Hsim). intros d ->.
    rewrite <- zsum_sum_n. f_equal. apply zsum_ext. intros i _. rewrite !vec_at_amap. reflexivity.
  - intros Hl.
    assert (Hcj : forall (x1 : int t) x2, R x1 x2 -> sim never R (int_conj x1) (Ok x2))
      by (intros; apply sim_ok; assumption).
    pose proof (sim_dvector_dot never _ _ _ HS int_conj (fun x => Ok x) _ _ _ _ Hcj
      (Forall2_self_wrap t du) (Forall2_self_wrap t dv)) as Hsim.
    cbn [z_ops r_zero r_add r_mul] in Hsim.
    rewrite (dvector_dot_value z_sig _ _ _ (fun x => x)) in Hsim by (intros; rewrite ?map_length; auto).
    apply (sim_returns _ _ _ _ Hsim). intros d ->. rewrite map_length, <- zsum_sum_n. reflexivity.
Qed.

Theorem C48_matrices_wrap :
  forall (m n k : nat) (a a' : smatrix (int t) m n) (b : smatrix (int t) n k) (v : svector (int t) n),
  returns (smatrix_add O a a') (fun r => forall i j, (i < m)%nat -> (j < n)%nat -> zmat r i j = W (zmat a i j + zmat a' i j))
  /\ returns (smatrix_sub O a a') (fun r => forall i j, (i < m)%nat -> (j < n)%nat -> zmat r i j = W (zmat a i j - zmat a' i j))
  /\ returns (smatrix_neg O a) (fun r => forall i j, (i < m)%nat -> (j < n)%nat -> zmat r i j = W (- zmat a i j))
  /\ returns (smatrix_mul O a b) (fun r => forall i j, (i < m)%nat -> (j < k)%nat ->
        zmat r i j = W (zsum n (fun l => zmat a i l * zmat b l j)))
  /\ returns (smatrix_mul_vec O a v) (fun r => forall i, (i < m)%nat -> zvec r i = W (zsum n (fun l => zmat a i l * zvec v l))).
Proof.
  intros m n k a a' b v. pose proof (wrapping_sim t) as HS. pose proof z_implements as HI.
  assert (Ha : arel (arel R) a (amap (amap ival) a)) by (apply mrel_amap; apply ival_wrap).
  assert (Ha' : arel (arel R) a' (amap (amap ival) a')) by (apply mrel_amap; apply ival_wrap).
  assert (Hb : arel (arel R) b (amap (amap ival) b)) by (apply mrel_amap; apply ival_wrap).
  assert (Hv : arel R v (amap ival v)) by (apply arel_amap; apply ival_wrap).
  split; [|split; [|split; [|split]]].
  - pose proof (sim_smatrix_add never _ _ _ HS _ _ _ _ _ _ Ha Ha') as Hsim.
    rewrite (smatrix_add_total z_ops z_sig HI) in Hsim. apply (sim_returns _ _ _ _ Hsim). intros r Hr i j Hi Hj.
    rewrite (zmat_wrap _ _ _ _ _ _ _ Hr), (mat_at_tab z_sig) by assumption. rewrite !mat_at_amap. reflexivity.
  - pose proof (sim_smatrix_sub never _ _ _ HS _ _ _ _ _ _ Ha Ha') as Hsim.
    rewrite (smatrix_sub_total z_ops z_sig HI) in Hsim. apply (sim_returns _ _ _ _ Hsim). intros r Hr i j Hi Hj.
    rewrite (zmat_wrap _ _ _ _ _ _ _ Hr), (mat_at_tab z_sig) by assumption. rewrite !mat_at_amap. reflexivity.
  - pose proof (sim_smatrix_neg never _ _ _ HS _ _ _ _ Ha) as Hsim.
    rewrite (smatrix_neg_total z_ops z_sig HI) in Hsim. apply (sim_returns _ _ _ _ Hsim). intros r Hr i j Hi Hj.
    rewrite (zmat_wrap _ _ _ _ _ _ _ Hr), (mat_at_tab z_sig) by assumption. rewrite !mat_at_amap. reflexivity.
  - pose proof (sim_smatrix_mul never _ _ _ HS _ _ _ _ _ _ _ Ha Hb) as Hsim.
    rewrite (smatrix_mul_total z_ops z_sig HI) in Hsim. apply (sim_returns _ _ _ _ Hsim). intros r Hr i j Hi Hj.
    rewrite (zmat_wrap _ _ _ _ _ _ _ Hr), (mat_at_tab z_sig) by assumption.
    rewrite <- zsum_sum_n. f_equal. apply zsum_ext. intros l _. rewrite !mat_at_amap. reflexivity.
  - pose proof (sim_smatrix_mul_vec never _ _ _ HS _ _ _ _ _ _ Ha Hv) as Hsim.
    rewrite (smatrix_mul_vec_total z_ops z_sig HI) in Hsim. apply (sim_returns _ _ _ _ Hsim). intros r Hr i Hi.
    rewrite (zvec_wrap _ _ _ _ _ Hr), (vec_at_tab z_sig) by assumption.
    rewrite <- zsum_sum_n. f_equal. apply zsum_ext. intros l _. rewrite mat_at_amap, vec_at_amap. reflexivity.
Qed.

Theorem C48_dynamic_matrix_product_wrap :
  forall (md : target) (a b : dmatrix (int t)), dm_wf md a -> dm_wf md b -> dm_cols a = dm_rows b -> (1 <= dm_cols a)%N ->
  returns (e <- dmatrix_mul md (r_mul O) (r_add O) a b ;; m_eval e)
     (fun r => dm_rows r = dm_rows a /\ dm_cols r = dm_cols b /\
        forall i j, (i < dm_rows a)%N -> (j < dm_cols b)%N ->
        zdm r i j = W (zsum (N.to_nat (dm_cols a)) (fun l => zdm a i (N.of_nat l) * zdm b (N.of_nat l) j))).
Proof.
  intros md a b Wa Wb E H1. pose proof (wrapping_sim t) as HS.
  pose proof (zdmat_wf a Wa) as Wa'. pose proof (zdmat_wf b Wb) as Wb'.
  assert (Ha : dmrel R a (zdmat a)) by (split; [apply Forall2_self_wrap|split; reflexivity]).
  assert (Hb : dmrel R b (zdmat b)) by (split; [apply Forall2_self_wrap|split; reflexivity]).
  pose proof (sim_dmatrix_product never _ _ _ HS md _ _ _ _ Ha Hb) as Hsim.
  rewrite (dm_mul_total z_sig (r_add z_ops) (r_mul z_ops) (fun x y => eq_refl) (fun x y => eq_refl) md _ _ Wa' Wb' E H1) in Hsim.
  apply (sim_returns _ _ _ _ Hsim). intros r (Hd & Hr & Hc). split; [exact Hr|]. split; [exact Hc|].
  intros i j Hi Hj.
  unfold zdm at 1. change (nth (N.to_nat (i * dm_cols r + j)) (map ival (dm_data r)) 0)
    with (zcoeff (dm_data r) (N.to_nat (i * dm_cols r + j))).
  rewrite (rel_wrap_nth t _ _ _ Hd). f_equal. rewrite Hc.
  etransitivity; [apply (dm_at_tab z_sig (dm_rows a) (dm_cols b) _ i j Hi Hj)|].
  etransitivity; [apply (sum1_sum z_sig z_laws)|]. cbn [zdmat dm_cols].
  replace (S (Nat.pred (N.to_nat (dm_cols a)))) with (N.to_nat (dm_cols a)) by lia.
  rewrite <- zsum_sum_n. reflexivity.
Qed.

(** The wrapping integers are a commutative ring, so C01-C07, C08, C09, C19, C20, C22-C25
    apply to them. *)
Theorem C48_wrapping_integers_are_a_ring : is_comm_ring O eq.
Proof.
  exists (int_sig t). split; [apply int_implements|]. split; [apply int_laws|].
  split; [apply int_commutative|]. intros; reflexivity.
Qed.

(** [wrap t z] is the number in [MIN, MAX] congruent to z modulo 2^width. *)
Theorem C48_wrap_is_reduction : forall z,
  int_min t <= W z <= int_max t /\ (W z - z) mod 2 ^ width t = 0
  /\ (int_min t <= z <= int_max t -> W z = z).
Proof.
  intros z. split; [apply in_range_iff, wrap_in_range|]. split.
  - destruct (wrap_mod t z) as [k ->]. replace (z + k * 2 ^ width t - z) with (k * 2 ^ width t) by ring.
    apply Z_mod_mult.
  - intros H. apply wrap_id, in_range_iff, H.
Qed.
End Wrapping.

(** Whatever the checked build returns, the unchecked build returns too. *)
Theorem C48_checked_results_survive :
  forall (t : int_type),
  let D := int_ops Debug t in let W := int_ops Release t in
  (forall p q x,
     (forall y, poly_eval D p x = Ok y -> poly_eval W p x = Ok y)
     /\ (forall r, poly_add D p q = Ok r -> poly_add W p q = Ok r)
     /\ (forall r, poly_add_assign D p q = Ok r -> poly_add_assign W p q = Ok r)
     /\ (forall r, poly_add_assign_ref D p q = Ok r -> poly_add_assign_ref W p q = Ok r)
     /\ (forall r, poly_sub D p q = Ok r -> poly_sub W p q = Ok r)
     /\ (forall r, poly_sub_assign D p q = Ok r -> poly_sub_assign W p q = Ok r)
     /\ (forall r, poly_sub_assign_ref D p q = Ok r -> poly_sub_assign_ref W p q = Ok r)
     /\ (forall r, poly_neg D p = Ok r -> poly_neg W p = Ok r)
     /\ (forall r, poly_mul D p q = Ok r -> poly_mul W p q = Ok r))
  /\ (forall z w,
     (forall r, complex_mul D z w = Ok r -> complex_mul W z w = Ok r)
     /\ (forall r, complex_sqr_norm D z = Ok r -> complex_sqr_norm W z = Ok r))
  /\ (forall n (u v : svector (int t) n) r, svector_dot D u v = Ok r -> svector_dot W u v = Ok r)
  /\ (forall l m n (a : smatrix (int t) l m) (b : smatrix (int t) m n) r,
        smatrix_mul D a b = Ok r -> smatrix_mul W a b = Ok r)
  /\ (forall m n (a : smatrix (int t) m n) v r, smatrix_mul_vec D a v = Ok r -> smatrix_mul_vec W a v = Ok r).
Proof.
  intros t D W. pose proof (modes_sim t) as HS. fold D W in HS.
  assert (Hl : forall l : list (int t), Forall2 eq l l) by (intros; apply Forall2_refl).
  assert (Hc : forall z : complex (int t), crel eq z z) by (split; reflexivity).
  assert (Hv : forall n (v : svector (int t) n), arel eq v v) by (intros; apply Forall2_refl).
  assert (Hm : forall m n (a : smatrix (int t) m n), arel (arel eq) a a).
  { intros m n a. unfold arel at 1. induction (entries a); constructor; auto. }
  assert (El : forall a b : list (int t), Forall2 eq a b -> a = b) by (intros a b; apply Forall2_eq_iff).
  split; [|split; [|split; [|split]]].
  - intros p q x. repeat split; intros r; apply sim_eq_ok.
    + apply (sim_poly_eval _ _ _ _ HS); auto.
    + eapply (sim_eq_mono _ _ _ El), (sim_poly_add _ _ _ _ HS); auto.
    + eapply (sim_eq_mono _ _ _ El), (sim_poly_add_assign _ _ _ _ HS); auto.
    + eapply (sim_eq_mono _ _ _ El), (sim_poly_add_assign_ref _ _ _ _ HS); auto.
    + eapply (sim_eq_mono _ _ _ El), (sim_poly_sub _ _ _ _ HS); auto.
    + eapply (sim_eq_mono _ _ _ El), (sim_poly_sub_assign _ _ _ _ HS); auto.
    + eapply (sim_eq_mono _ _ _ El), (sim_poly_sub_assign_ref _ _ _ _ HS); auto.
    + eapply (sim_eq_mono _ _ _ El), (sim_poly_neg _ _ _ _ HS); auto.
    + eapply (sim_eq_mono _ _ _ El), (sim_poly_mul _ _ _ _ HS); auto.
  - intros z w. split; intros r; apply sim_eq_ok.
    + eapply sim_eq_mono; [|apply (sim_complex_mul _ _ _ _ HS); auto].
      intros [a1 a2] [b1 b2] [E1 E2]. simpl in E1, E2. subst. reflexivity.
    + apply (sim_complex_sqr_norm _ _ _ _ HS); auto.
  - intros n u v r. apply sim_eq_ok, (sim_svector_dot _ _ _ _ HS); auto.
  - intros l m n a b r. apply sim_eq_ok. eapply sim_eq_mono; [apply arel_eq2|apply (sim_smatrix_mul _ _ _ _ HS); auto].
  - intros m n a v r. apply sim_eq_ok. eapply sim_eq_mono; [apply arel_eq|apply (sim_smatrix_mul_vec _ _ _ _ HS); auto].
Qed.

(** The remaining operations of C47 and C48. *)
Theorem C48_checked_results_survive_everywhere :
  forall (t : int_type),
  let D := int_ops Debug t in let W := int_ops Release t in
  (forall z w s,
     (forall r, complex_add_assign_ref D z w = Ok r -> complex_add_assign_ref W z w = Ok r)
     /\ (forall r, complex_sub_assign_ref D z w = Ok r -> complex_sub_assign_ref W z w = Ok r)
     /\ (forall r, complex_neg (r_neg D) z = Ok r -> complex_neg (r_neg W) z = Ok r)
     /\ (forall r, complex_conj (r_neg D) z = Ok r -> complex_conj (r_neg W) z = Ok r)
     /\ (forall r, complex_mul_scalar D z s = Ok r -> complex_mul_scalar W z s = Ok r))
  /\ (forall n (u v : svector (int t) n) s,
     (forall r, svector_add D u v = Ok r -> svector_add W u v = Ok r)
     /\ (forall r, svector_sub D u v = Ok r -> svector_sub W u v = Ok r)
     /\ (forall r, svector_scale D u s = Ok r -> svector_scale W u s = Ok r))
  /\ (forall u v r, dvector_dot (r_zero D) (r_add D) (r_mul D) int_conj u v = Ok r ->
        dvector_dot (r_zero W) (r_add W) (r_mul W) int_conj u v = Ok r)
  /\ (forall m n (a b : smatrix (int t) m n),
     (forall r, smatrix_add D a b = Ok r -> smatrix_add W a b = Ok r)
     /\ (forall r, smatrix_sub D a b = Ok r -> smatrix_sub W a b = Ok r)
     /\ (forall r, smatrix_neg D a = Ok r -> smatrix_neg W a = Ok r))
  /\ (forall (bits : N) (a b : dmatrix (int t)) r, let debug := MkTarget bits Debug in let release := MkTarget bits Release in
        dm_wf debug a -> dm_wf debug b -> dm_cols a = dm_rows b -> (1 <= dm_cols a)%N ->
        (e <- dmatrix_mul debug (r_mul D) (r_add D) a b ;; m_eval e) = Ok r ->
        (e <- dmatrix_mul release (r_mul W) (r_add W) a b ;; m_eval e) = Ok r).
Proof.
  intros t D W. pose proof (modes_sim t) as HS. fold D W in HS.
  assert (Hl : forall l : list (int t), Forall2 eq l l) by (intros; apply Forall2_refl).
  assert (Hc : forall z : complex (int t), crel eq z z) by (split; reflexivity).
  assert (Hv : forall n (v : svector (int t) n), arel eq v v) by (intros; apply Forall2_refl).
  assert (Hm : forall m n (a : smatrix (int t) m n), arel (arel eq) a a).
  { intros m n a. unfold arel at 1. induction (entries a); constructor; auto. }
  assert (Ec : forall a b : complex (int t), crel eq a b -> a = b).
  { intros [a1 a2] [b1 b2] [E1 E2]. simpl in E1, E2. subst. reflexivity. }
  split; [|split; [|split; [|split]]].
  - intros z w s. repeat split; intros r; apply sim_eq_ok; eapply (sim_eq_mono _ _ _ Ec).
    + apply (sim_complex_add _ _ _ _ HS); auto.
    + apply (sim_complex_sub _ _ _ _ HS); auto.
    + apply (sim_complex_neg _ _ _ _ HS); auto.
    + apply (sim_complex_conj _ _ _ _ HS); auto.
    + apply (sim_complex_scale _ _ _ _ HS); auto.
  - intros n u v s. repeat split; intros r; apply sim_eq_ok; eapply sim_eq_mono; try apply arel_eq.
    + apply (sim_svector_add _ _ _ _ HS); auto.
    + apply (sim_svector_sub _ _ _ _ HS); auto.
    + apply (sim_svector_scale _ _ _ _ HS); auto.
  - intros u v r. apply sim_eq_ok, (sim_dvector_dot _ _ _ _ HS); auto. intros x1 x2 <-. apply sim_refl.
  - intros m n a b. repeat split; intros r; apply sim_eq_ok; eapply sim_eq_mono; try apply arel_eq2.
    + apply (sim_smatrix_add _ _ _ _ HS); auto.
    + apply (sim_smatrix_sub _ _ _ _ HS); auto.
    + apply (sim_smatrix_neg _ _ _ _ HS); auto.
  - intros bits a b r debug release Wa Wb E H1 H.
    assert (Em : (e <- dmatrix_mul release (r_mul W) (r_add W) a b ;; m_eval e)
                          = (e <- dmatrix_mul debug (r_mul W) (r_add W) a b ;; m_eval e)).
    { unfold dmatrix_mul. rewrite assert_eq_true by (apply N.eqb_eq; exact E). cbn [bind m_eval].
      unfold mexpr_default_eval. f_equal. apply mapM_ext. intros [i j] Hi. apply in_index_pairs in Hi as [Hr Hc'].
      rewrite (mul_entry_mean release) by assumption. rewrite (mul_entry_mean debug) by assumption. reflexivity. }
    rewrite Em. revert H. apply sim_eq_ok.
    eapply sim_eq_mono; [|apply (sim_dmatrix_product _ _ _ _ HS); (split; [apply Forall2_refl|split; reflexivity])].
    intros [d1 r1 c1] [d2 r2 c2] (E1 & E2 & E3). simpl in *. apply Forall2_eq_iff in E1. subst. reflexivity.
Qed.
Print Assumptions C48_checked_results_survive_everywhere.

(** Machine integers for the examples: [lit t z] is z, which must be in range. *)
Definition lit (t : int_type) (z : Z) : int t := int_wrapped t z.
(** The integers in a result. *)
Definition shown {t} (m : outcome (list (int t))) : outcome (list Z) :=
  match m with Ok l => Ok (map ival l) | Panic p => Panic p | Diverge => Diverge end.
Definition shown1 {t} (m : outcome (int t)) : outcome Z :=
  match m with Ok a => Ok (ival a) | Panic p => Panic p | Diverge => Diverge end.

Example C47_case :
  shown1 (poly_eval (int_ops Debug I8) (map (lit I8) [1; 2; 3]) (lit I8 6)) = Ok 121
  /\ shown1 (poly_eval (int_ops Debug I8) (map (lit I8) [1; 2; 3]) (lit I8 7)) = Panic ArithOverflow
  /\ shown (poly_mul (int_ops Debug I32) (map (lit I32) [1; 2]) (map (lit I32) [3; 4])) = Ok [3; 10; 8].
Proof. vm_compute. repeat split. Qed.

Example C48_case :
  shown1 (poly_eval (int_ops Release I8) (map (lit I8) [1; 2; 3]) (lit I8 7)) = Ok (162 - 256)
  /\ shown (poly_mul (int_ops Release I8) (map (lit I8) [100; 2]) (map (lit I8) [3; 4])) = Ok [44; -106; 8]
  /\ wrap I8 (300) = 44 /\ wrap I8 (406) = -106.
Proof. vm_compute. repeat split. Qed.

(** ** C49 *)
Lemma zcoeff_eq t (r s : poly (int t)) :
  length r = length s -> (forall k, zcoeff r k = zcoeff s k) -> r = s.
Proof.
  revert s; induction r as [|x r IH]; intros [|y s] Hl Hk; simpl in Hl; try discriminate; [reflexivity|].
  f_equal; [apply int_eq, (Hk 0%nat)|]. apply IH; [lia|]. intros k. apply (Hk (S k)).
Qed.

Lemma checked_returns t z : (exists a, int_result Debug t z = Ok a) <-> int_min t <= z <= int_max t.
Proof.
  rewrite <- in_range_iff. unfold int_result.
  destruct (bool_dec (in_range t z) true) as [H|H]; split; eauto; [|tauto].
  intros (a & Ha). discriminate.
Qed.

Lemma bind_ok_iff {A B} (m : outcome A) (f : A -> B) :
  (exists r, (x <- m ;; Ok (f x)) = Ok r) <-> (exists x, m = Ok x).
Proof.
  split.
  - intros (r & H). apply bind_Ok_inv in H as (x & Hx & _). eauto.
  - intros (x & ->). simpl. eauto.
Qed.

(** Which coefficients a loop over [combine a q] touches. *)
Lemma zipM_returns t (g : Z -> Z -> Z) (a q : list (int t)) :
  (exists r, zipM (fun x y => int_result Debug t (g (ival x) (ival y))) a q = Ok r) <->
  (forall k, (k < length a)%nat -> (k < length q)%nat -> int_min t <= g (zcoeff a k) (zcoeff q k) <= int_max t).
Proof.
  unfold zipM. rewrite mapM_ok_iff. split.
  - intros H k Ha Hq.
    specialize (H (nth k a (lit t 0), nth k q (lit t 0))).
    assert (Hin : In (nth k a (lit t 0), nth k q (lit t 0)) (combine a q)).
    { clear H. revert q k Ha Hq. induction a as [|x a IH]; intros [|y q] [|k] Ha Hq; simpl in *; try lia; auto.
      right. apply IH; auto; lia. }
    apply H in Hin. apply checked_returns in Hin. unfold zcoeff.
    rewrite (nth_indep (map ival a) 0 (ival (lit t 0))) by (rewrite map_length; exact Ha).
    rewrite (nth_indep (map ival q) 0 (ival (lit t 0))) by (rewrite map_length; exact Hq).
    rewrite !map_nth. exact Hin.
  - intros H [x y] Hin. apply checked_returns. apply (In_nth _ _ (lit t 0, lit t 0)) in Hin as (k & Hk & E).
    rewrite combine_length in Hk.
    assert (E' : nth k a (lit t 0) = x /\ nth k q (lit t 0) = y).
    { clear H. revert q k Hk E. induction a as [|x' a IH]; intros [|y' q] [|k] Hk E; simpl in *; try lia.
      - injection E as -> ->. auto.
      - apply IH; [lia|exact E]. }
    destruct E' as [<- <-]. specialize (H k ltac:(lia) ltac:(lia)). unfold zcoeff in H.
    rewrite (nth_indep (map ival a) 0 (ival (lit t 0))) in H by (rewrite map_length; lia).
    rewrite (nth_indep (map ival q) 0 (ival (lit t 0))) in H by (rewrite map_length; lia).
    rewrite !map_nth in H. exact H.
Qed.

Lemma zcoeff_pad t (p : list (int t)) n k : zcoeff (p ++ repeat (r_zero (int_ops Debug t)) n) k = zcoeff p k.
Proof.
  unfold zcoeff. rewrite map_app. destruct (Nat.lt_ge_cases k (length p)) as [H|H].
  - rewrite app_nth1 by (rewrite map_length; exact H). reflexivity.
  - rewrite app_nth2, map_length by (rewrite map_length; exact H).
    rewrite (nth_overflow (map ival p)) by (rewrite map_length; exact H).
    generalize (k - length p)%nat. clear. induction n; intros [|k]; simpl; auto.
Qed.

Lemma zcoeff_over t (p : list (int t)) k : (length p <= k)%nat -> zcoeff p k = 0.
Proof. intros H. unfold zcoeff. apply nth_overflow. rewrite map_length. exact H. Qed.

Lemma neg_returns t (q : list (int t)) :
  (exists r, poly_neg (int_ops Debug t) q = Ok r) <->
  (forall k, (k < length q)%nat -> zcoeff q k <> int_min t).
Proof.
  unfold poly_neg. rewrite mapM_ok_iff. cbn [int_ops r_neg].
  assert (E : forall a : int t, (exists b, int_result Debug t (- ival a) = Ok b) <-> ival a <> int_min t).
  { intros a. rewrite checked_returns. pose proof (proj1 (in_range_iff _ _) (ival_ok t a)).
    unfold int_min, int_max in *. pose proof (pow_width_pos t). lia. }
  split.
  - intros H k Hk. unfold zcoeff. rewrite (nth_indep _ 0 (ival (lit t 0))) by (rewrite map_length; exact Hk).
    rewrite map_nth. apply E, H, nth_In, Hk.
  - intros H a Ha. apply E. apply (In_nth _ _ (lit t 0)) in Ha as (k & Hk & <-).
    specialize (H k Hk). unfold zcoeff in H.
    rewrite (nth_indep _ 0 (ival (lit t 0))) in H by (rewrite map_length; exact Hk).
    rewrite map_nth in H. exact H.
Qed.

(** Exactly when the checked operations return; in all other cases they panic with an
    overflow (C47). *)
Theorem C49_when_operations_return :
  forall (t : int_type) (p q : poly (int t)),
  let D := int_ops Debug t in
  let fits_type z := int_min t <= z <= int_max t in
  ((exists r, poly_sub_assign_ref D p q = Ok r) <->
     (forall k, (k < length q)%nat -> fits_type (zcoeff p k - zcoeff q k)))
  /\ ((exists r, poly_sub D p q = Ok r) <->
     (forall k, (k < length q)%nat -> zcoeff q k <> int_min t /\ fits_type (zcoeff p k - zcoeff q k)))
  /\ ((exists r, poly_sub_assign D p q = Ok r) <->
     (forall k, (k < length q)%nat -> zcoeff q k <> int_min t /\ fits_type (zcoeff p k - zcoeff q k)))
  /\ ((exists r, poly_add D p q = Ok r) <-> (forall k, fits_type (zcoeff p k + zcoeff q k)))
  /\ ((exists r, poly_add_assign D p q = Ok r) <-> (forall k, fits_type (zcoeff p k + zcoeff q k)))
  /\ ((exists r, poly_add_assign_ref D p q = Ok r) <-> (forall k, fits_type (zcoeff p k + zcoeff q k))).
Proof.
  intros t p q D ft.
  assert (Hr : forall (l : list (int t)) k, ft (zcoeff l k)).
  { intros l k. unfold zcoeff. destruct (Nat.lt_ge_cases k (length l)) as [H|H].
    - rewrite (nth_indep _ 0 (ival (lit t 0))) by (rewrite map_length; exact H).
      rewrite map_nth. apply in_range_iff, ival_ok.
    - rewrite nth_overflow by (rewrite map_length; exact H). apply in_range_iff, small_in_range. lia. }
  assert (add_iff : forall a b : list (int t),
            (forall k, (k < length a)%nat -> (k < length b)%nat -> ft (zcoeff a k + zcoeff b k)) <->
            (forall k, ft (zcoeff a k + zcoeff b k))).
  { intros a b. split; [|auto]. intros H k.
    destruct (Nat.lt_ge_cases k (length a)) as [Ha|Ha].
    - destruct (Nat.lt_ge_cases k (length b)) as [Hb|Hb]; [auto|].
      rewrite (zcoeff_over t b k Hb), Z.add_0_r. apply Hr.
    - rewrite (zcoeff_over t a k Ha), Z.add_0_l. apply Hr. }
  assert (Hadd : forall a b : list (int t), (exists r, poly_add D a b = Ok r) <-> (forall k, ft (zcoeff a k + zcoeff b k))).
  { intros a b. rewrite add_zipM. destruct (length a <? length b)%nat; rewrite bind_ok_iff.
    - etransitivity; [apply (zipM_returns t Z.add)|]. etransitivity; [apply add_iff|]. split; intros H k; rewrite Z.add_comm; apply H.
    - etransitivity; [apply (zipM_returns t Z.add)|]. etransitivity; [apply add_iff|]. reflexivity. }
  assert (Hadda : forall a b : list (int t), (exists r, poly_add_assign D a b = Ok r) <-> (forall k, ft (zcoeff a k + zcoeff b k))).
  { intros a b. rewrite add_assign_zipM, bind_ok_iff. etransitivity; [apply (zipM_returns t Z.add)|]. etransitivity; [apply add_iff|]. reflexivity. }
  assert (Hneg : forall n, poly_neg D q = Ok n -> forall k, zcoeff n k = - zcoeff q k).
  { intros n Hn. destruct (C47_polynomials_exact t q q (lit t 0)) as (_ & _ & _ & _ & _ & _ & _ & H & _).
    fold D in H. rewrite Hn in H. exact (proj2 H). }
  assert (Hsub : forall add : poly (int t) -> poly (int t) -> outcome (poly (int t)),
            (forall a b, (exists r, add a b = Ok r) <-> (forall k, ft (zcoeff a k + zcoeff b k))) ->
            ((exists r, (n <- poly_neg D q ;; add p n) = Ok r) <->
             (forall k, (k < length q)%nat -> zcoeff q k <> int_min t /\ ft (zcoeff p k - zcoeff q k)))).
  { intros add Hadd'. split.
    - intros (r & H). apply bind_Ok_inv in H as (n & Hn & Ha).
      assert (H1 : exists r, poly_neg D q = Ok r) by eauto. pose proof (proj1 (neg_returns t q) H1) as H1'.
      assert (H2 : exists r, add p n = Ok r) by eauto. pose proof (proj1 (Hadd' p n) H2) as H2'. clear H1 H2.
      intros k Hk. split; [apply H1', Hk|]. specialize (H2' k). rewrite (Hneg n Hn) in H2'. exact H2'.
    - intros H. assert (H1 : exists r, poly_neg D q = Ok r) by (apply (proj2 (neg_returns t q)); intros k Hk; apply H, Hk).
      destruct H1 as (n & Hn). rewrite Hn. cbn [bind]. apply Hadd'. intros k. rewrite (Hneg n Hn).
      destruct (Nat.lt_ge_cases k (length q)) as [Hk|Hk]; [apply H, Hk|].
      rewrite (zcoeff_over t q k Hk), Z.add_0_r. apply Hr. }
  split; [|split; [|split; [|split; [|split]]]].
  - rewrite sub_assign_ref_zipM. cbv zeta. rewrite bind_ok_iff. etransitivity; [apply (zipM_returns t Z.sub)|].
    rewrite app_length, repeat_length. fold D. split; intros H k.
    + intros Hk. specialize (H k ltac:(lia) Hk). unfold D in H. rewrite zcoeff_pad in H. exact H.
    + intros _ Hk. unfold D. rewrite zcoeff_pad. apply H, Hk.
  - apply Hsub, Hadd.
  - apply Hsub, Hadda.
  - apply Hadd.
  - apply Hadda.
  - rewrite add_assign_ref_zipM. cbv zeta. rewrite bind_ok_iff. etransitivity; [apply (zipM_returns t Z.add)|]. rewrite <- add_iff.
    rewrite app_length, repeat_length. fold D. split; intros H k.
    + intros Hk1 Hk. specialize (H k ltac:(lia) Hk). unfold D in H. rewrite zcoeff_pad in H. exact H.
    + intros _ Hk. unfold D. rewrite zcoeff_pad. destruct (Nat.lt_ge_cases k (length p)) as [H1|H1]; [apply H; assumption|].
      rewrite (zcoeff_over t p k H1), Z.add_0_l. apply Hr.
Qed.

(** If [p - q] returns, so do [p -= q] and [p -= &q], with the same polynomial. *)
Theorem C49_sub_returns_implies_sub_assign :
  forall (t : int_type) (p q r : poly (int t)),
  let D := int_ops Debug t in
  poly_sub D p q = Ok r -> poly_sub_assign D p q = Ok r /\ poly_sub_assign_ref D p q = Ok r.
Proof.
  intros t p q r D H.
  destruct (C49_when_operations_return t p q) as (H1 & H2 & H3 & _). fold D in H1, H2, H3.
  destruct (C47_polynomials_exact t p q (lit t 0)) as (_ & _ & _ & _ & X1 & X2 & X3 & _). fold D in X1, X2, X3.
  assert (H' : exists r, poly_sub D p q = Ok r) by eauto. rewrite H2 in H'.
  pose proof (proj2 H3 H') as (s & Hs).
  assert (H'' : exists r, poly_sub_assign_ref D p q = Ok r) by (apply H1; intros k Hk; apply H', Hk).
  destruct H'' as (s' & Hs').
  rewrite H in X1. rewrite Hs in *. rewrite Hs' in *. cbn [exact_or_overflow] in X1, X2, X3.
  split; f_equal; apply zcoeff_eq; try lia; intros k.
  - rewrite (proj2 X1), (proj2 X2). reflexivity.
  - rewrite (proj2 X1), (proj2 X3). reflexivity.
Qed.

(** The converse fails on every width: [-1] - [MIN] is representable, [p -= &q] returns it, but
    [p - q] and [p -= q] panic. *)
Theorem C49_sub_forms_agree_refuted :
  ~ (forall (t : int_type) (p q r : poly (int t)),
       poly_sub_assign_ref (int_ops Debug t) p q = Ok r -> poly_sub (int_ops Debug t) p q = Ok r)
  /\ forall t : int_type,
     let p := [lit t (-1)] in let q := [lit t (int_min t)] in
     shown (poly_sub_assign_ref (int_ops Debug t) p q) = Ok [int_max t]
     /\ shown (poly_sub (int_ops Debug t) p q) = Panic ArithOverflow
     /\ shown (poly_sub_assign (int_ops Debug t) p q) = Panic ArithOverflow.
Proof.
  assert (H : forall t : int_type,
     let p := [lit t (-1)] in let q := [lit t (int_min t)] in
     shown (poly_sub_assign_ref (int_ops Debug t) p q) = Ok [int_max t]
     /\ shown (poly_sub (int_ops Debug t) p q) = Panic ArithOverflow
     /\ shown (poly_sub_assign (int_ops Debug t) p q) = Panic ArithOverflow)
    by (intros []; vm_compute; repeat split; reflexivity).
  split; [|exact H]. intros F. destruct (H I8) as (H1 & H2 & _).
  destruct (poly_sub_assign_ref (int_ops Debug I8) [lit I8 (-1)] [lit I8 (int_min I8)]) as [r| |] eqn:E; try discriminate H1.
  apply F in E. rewrite E in H2. discriminate H2.
Qed.

Print Assumptions C47_polynomials_exact.
Print Assumptions C47_complex_exact.
Print Assumptions C47_vectors_exact.
Print Assumptions C47_matrices_exact.
Print Assumptions C47_dynamic_matrix_product_exact.
Print Assumptions C48_polynomials_wrap.
Print Assumptions C48_complex_wrap.
Print Assumptions C48_vectors_wrap.
Print Assumptions C48_matrices_wrap.
Print Assumptions C48_dynamic_matrix_product_wrap.
Print Assumptions C48_wrapping_integers_are_a_ring.
Print Assumptions C48_checked_results_survive.
Print Assumptions C49_when_operations_return.
Print Assumptions C49_sub_returns_implies_sub_assign.
Print Assumptions C49_sub_forms_agree_refuted.
Print Assumptions C48_wrap_is_reduction.
Print Assumptions C47_overflow_exactly_out_of_range.
