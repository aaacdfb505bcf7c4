(** Properties C21 (DVector part) and C35 (inner product).

    A [DVector] is a list here; [ulen v] is its length as a machine integer, [dvector_index v i]
    is [v[i]] and [dvector_index_set v i x] is [v[i] = x]. *)
From Coq Require Import List Arith NArith ZArith Lia Bool Setoid Morphisms Reals Lra.
From Verif Require Import Base.Outcome Base.Usize Model.Traits Model.Complex Model.RealInstance Model.DVector
  Spec.Ring Spec.Sums Spec.Agree Spec.Complex Spec.WritesN
  Proofs.RingTheory Proofs.IntegerRing Proofs.RealRing Proofs.ComplexProofs Proofs.SMatrixProofs
  Proofs.DExprProofs Proofs.DVectorProofs Proofs.Paths.
Import ListNotations.
Open Scope nat_scope.

(** ** C21 *)
Theorem C21_dvector_index :
  forall (T : Type) (v : dvector T) (i : N),
  ((i < ulen v)%N -> exists x, dvector_index v i = Ok x /\ nth_error v (N.to_nat i) = Some x)
  /\ ((ulen v <= i)%N -> dvector_index v i = Panic IndexOOB).
Proof.
  intros T v i. split.
  - intros H. destruct (nth_error v (N.to_nat i)) as [x|] eqn:E.
    + exists x. split; [apply sget_nth; exact E|reflexivity].
    + apply nth_error_None in E. apply ulen_lt in H. lia.
  - apply sget_oob.
Qed.

Theorem C21_dvector_index_set :
  forall (T : Type) (v : dvector T) (i : N) (x : T),
  ((ulen v <= i)%N -> dvector_index_set v i x = Panic IndexOOB)
  /\ ((i < ulen v)%N -> returns (dvector_index_set v i x) (fun v' =>
        ulen v' = ulen v /\ dvector_index v' i = Ok x
        /\ forall j, j <> i -> dvector_index v' j = dvector_index v j)).
Proof.
  intros T v i x. split.
  - intros H. unfold dvector_index_set, sset. apply N.ltb_ge in H. rewrite H. reflexivity.
  - intros H. destruct (sset_get v i x H) as (v' & E & ? & ? & ?). exists v'. repeat split; auto.
Qed.

Theorem C21_dvector_write_history :
  forall (T : Type) (ws : list (N * T)) (v : dvector T),
  Forall (fun w => (fst w < ulen v)%N) ws ->
  returns (for_each (fun '(i, x) v => dvector_index_set v i x) ws v) (fun v' =>
    ulen v' = ulen v
    /\ forall j x0, dvector_index v j = Ok x0 -> dvector_index v' j = Ok (after_writes_N ws x0 j)).
Proof.
  intros T ws. induction ws as [|[i x] ws IH]; intros v H; simpl.
  - exists v. auto.
  - inversion H as [|? ? Hi Hws]; subst. simpl in Hi.
    destruct (proj2 (C21_dvector_index_set T v i x) Hi) as (v1 & E & Hl & Hr & Ho).
    rewrite E. simpl. rewrite <- Hl in Hws. destruct (IH v1 Hws) as (v' & E' & Hl' & H').
    exists v'. split; [exact E'|]. split; [congruence|].
    intros j x0 Hj. apply H'. destruct (N.eqb_spec j i) as [->|Hn]; [exact Hr|].
    rewrite Ho by exact Hn. exact Hj.
Qed.

Example C21_dvector_case :
  for_each (fun '(i, x) v => dvector_index_set v i x) [(0%N, 9%Z); (2%N, 8%Z); (0%N, 7%Z)] [1; 2; 3]%Z
  = Ok [7; 2; 8]%Z.
Proof. reflexivity. Qed.

(** ** C35 *)

(** Entry [i] of a vector over the ring [R]. *)
Definition dv_at {T} (R : ring_sig T) (v : dvector T) (i : nat) : T := nth i v (sz R).

(** [(&u + &v).eval()] and [v.map(|x| x * s).eval()]. *)
Definition dv_add {T} (add : T -> T -> outcome T) (u v : dvector T) : outcome (dvector T) :=
  e <- dvector_binop add u (vexpr_wrap (dvector_expr v)) ;; v_eval e.
Definition dv_scale {T} (mul : T -> T -> outcome T) (v : dvector T) (s : T) : outcome (dvector T) :=
  v_eval (vexpr_map (vexpr_wrap (dvector_expr v)) (fun x => mul x s)).

Section C35.
Context (T : Type) (R : ring_sig T) (add mul : T -> T -> outcome T) (conj : T -> outcome T) (c : T -> T).
Context (Ha : forall x y, add x y = Ok (sadd R x y)) (Hm : forall x y, mul x y = Ok (smul R x y))
        (Hc : forall x, conj x = Ok (c x)).
Notation dot := (dvector_dot (sz R) add mul conj).

Theorem C35_dot_is_sum_of_products :
  forall u v : dvector T, length u = length v ->
  dot u v = Ok (sum_n R (length u) (fun i => smul R (c (dv_at R u i)) (dv_at R v i)))
  /\ dvector_dot_ref (sz R) add mul conj u v
     = Ok (sum_n R (length u) (fun i => smul R (c (dv_at R u i)) (dv_at R v i))).
Proof. intros u v H. split; apply (dvector_dot_value R add mul conj c Ha Hm Hc u v H). Qed.

(** Unequal lengths: no panic, the surplus entries of the longer vector are ignored. *)
Theorem C35_dot_ignores_surplus_entries :
  forall u v : dvector T,
  dot u v = dot (firstn (length v) u) (firstn (length u) v)
  /\ dot u v = Ok (sum_n R (min (length u) (length v)) (fun i => smul R (c (dv_at R u i)) (dv_at R v i))).
Proof.
  intros u v. split; [apply dot_firstn|].
  unfold dvector_dot. rewrite dot_firstn.
  assert (E : length (firstn (length v) u) = length (firstn (length u) v)) by (rewrite !firstn_length; lia).
  rewrite (dvector_dot_value R add mul conj c Ha Hm Hc _ _ E).
  rewrite firstn_length, Nat.min_comm. f_equal.
  assert (G : forall n f g, (forall i, i < n -> f i = g i) -> sum_n R n f = sum_n R n g).
  { induction n as [|n IH]; intros f g H; simpl; [reflexivity|].
    rewrite (IH f g) by (intros; apply H; lia). rewrite H by lia. reflexivity. }
  apply G. intros i Hi.
  assert (F : forall (l : list T) k, i < k -> nth i (firstn k l) (sz R) = nth i l (sz R)).
  { clear. intros l k; revert l i; induction k as [|k IH]; intros [|x l] [|i] H; simpl; try lia; try reflexivity.
    apply IH; lia. }
  unfold dv_at. rewrite !F by lia. reflexivity.
Qed.

Context (HR : ring_laws R).

Lemma dv_add_val (u v : dvector T) : length u = length v ->
  exists w, dv_add add u v = Ok w /\ length w = length u
    /\ forall i, i < length u -> dv_at R w i = sadd R (dv_at R u i) (dv_at R v i).
Proof.
  intros H. unfold dv_add, dvector_binop. rewrite !vexpr_eta.
  assert (Hl : ulen u = ulen v) by (unfold ulen; congruence).
  pose proof (vspec_list v) as Sv. rewrite <- Hl in Sv.
  destruct (vspec_binop add _ _ _ _ _ (vspec_list u) Sv) as (b & -> & [_ _ He]). cbn [bind]. rewrite He.
  rewrite (mapM_total _ (fun i => sadd R (nth (N.to_nat i) u (sz R)) (nth (N.to_nat i) v (sz R)))).
  - eexists. split; [reflexivity|]. rewrite map_length, urange_length. unfold ulen. rewrite Nat2N.id.
    split; [reflexivity|]. intros i Hi. unfold dv_at. rewrite urange_eq, map_map, Nat2N.id.
    rewrite (nth_indep _ (sz R) (sadd R (nth (N.to_nat (N.of_nat 0)) u (sz R)) (nth (N.to_nat (N.of_nat 0)) v (sz R))))
      by (rewrite map_length, seq_length; exact Hi).
    rewrite (map_nth (fun x => sadd R (nth (N.to_nat (N.of_nat x)) u (sz R)) (nth (N.to_nat (N.of_nat x)) v (sz R)))).
    rewrite seq_nth by exact Hi. simpl. rewrite Nat2N.id. reflexivity.
  - intros i Hi. apply in_urange in Hi. pose proof Hi as Hi'. rewrite Hl in Hi'. apply ulen_lt in Hi, Hi'.
    rewrite (nth_error_nth' u (sz R)), (nth_error_nth' v (sz R)) by lia. simpl. apply Ha.
Qed.

Lemma dv_scale_val (v : dvector T) s :
  exists w, dv_scale mul v s = Ok w /\ length w = length v
    /\ forall i, i < length v -> dv_at R w i = smul R (dv_at R v i) s.
Proof.
  unfold dv_scale. rewrite !vexpr_eta.
  destruct (vspec_map _ _ _ (fun x => mul x s) (vspec_list v)) as [_ _ He]. rewrite He.
  rewrite (mapM_total _ (fun i => smul R (nth (N.to_nat i) v (sz R)) s)).
  - eexists. split; [reflexivity|]. rewrite map_length, urange_length. unfold ulen. rewrite Nat2N.id.
    split; [reflexivity|]. intros i Hi. unfold dv_at. rewrite urange_eq, map_map, Nat2N.id.
    rewrite (nth_indep _ (sz R) (smul R (nth (N.to_nat (N.of_nat 0)) v (sz R)) s))
      by (rewrite map_length, seq_length; exact Hi).
    rewrite (map_nth (fun x => smul R (nth (N.to_nat (N.of_nat x)) v (sz R)) s)).
    rewrite seq_nth by exact Hi. simpl. rewrite Nat2N.id. reflexivity.
  - intros i Hi. apply in_urange in Hi. apply ulen_lt in Hi.
    rewrite (nth_error_nth' v (sz R)) by lia. simpl. apply Hm.
Qed.

(** [c] is a conjugation: additive, multiplicative and compatible with equality. *)
Context (Hp : forall x y, same R x y -> same R (c x) (c y))
        (Hca : forall x y, same R (c (sadd R x y)) (sadd R (c x) (c y))).

Theorem C35_dot_additive :
  forall u v w : dvector T, length u = length v -> length v = length w ->
  agree (same R) (x <- dv_add add u v ;; dot x w) (a <- dot u w ;; b <- dot v w ;; add a b)
  /\ agree (same R) (x <- dv_add add v w ;; dot u x) (a <- dot u v ;; b <- dot u w ;; add a b).
Proof.
  intros u v w E1 E2. pose proof (same_equiv R HR) as HE. unfold dvector_dot.
  destruct (dv_add_val u v E1) as (s & -> & Hs & Vs).
  destruct (dv_add_val v w E2) as (t & -> & Ht & Vt). cbn [bind].
  pose proof (dvector_dot_value R add mul conj c Ha Hm Hc) as D.
  rewrite !D by congruence. cbn [bind]. rewrite Hs. rewrite <- !E1, !Ha.
  split; do 2 eexists; (split; [reflexivity|]); (split; [reflexivity|]).
  - etransitivity; [|apply (sum_distr_r R HR)]. apply (sum_ext R HR). intros i Hi.
    unfold dv_at in Vs. rewrite Vs by exact Hi.
    etransitivity; [apply (law_mul_cong R HR); [apply Hca|reflexivity]|]. reflexivity.
  - etransitivity; [|apply (sum_distr_l R HR)]. apply (sum_ext R HR). intros i Hi.
    unfold dv_at in Vt. rewrite Vt by congruence. reflexivity.
Qed.

Context (Hcm : forall x y, same R (c (smul R x y)) (smul R (c x) (c y))).

Lemma conj_zero : same R (c (sz R)) (sz R).
Proof.
  pose proof (same_equiv R HR) as HE.
  assert (E : same R (sadd R (c (sz R)) (c (sz R))) (c (sz R))).
  { etransitivity; [symmetry; apply Hca|]. apply Hp. apply (law_add_0 R HR). }
  pose proof (sadd_proper R HR) as P1. pose proof (sneg_proper R HR) as P2.
  transitivity (sadd R (sadd R (c (sz R)) (c (sz R))) (sneg R (c (sz R)))).
  - nc_ring HR.
  - rewrite E. nc_ring HR.
Qed.

Lemma conj_sum n f : same R (c (sum_n R n f)) (sum_n R n (fun k => c (f k))).
Proof.
  pose proof (same_equiv R HR) as HE. revert f; induction n as [|n IH]; intros f; simpl; [exact conj_zero|].
  etransitivity; [apply Hca|]. apply (law_add_cong R HR); [apply IH|reflexivity].
Qed.

(** Linear in the second, conjugate-linear in the first argument; conjugate-symmetric. *)
Theorem C35_dot_sesquilinear :
  forall (u v : dvector T) (s : T), length u = length v ->
  agree (same R) (x <- dv_scale mul v s ;; dot u x) (a <- dot u v ;; mul a s)
  /\ (commutative R ->
      agree (same R) (x <- dv_scale mul u s ;; dot x v) (a <- dot u v ;; k <- conj s ;; mul k a))
  /\ (commutative R -> (forall x, same R (c (c x)) x) ->
      agree (same R) (a <- dot u v ;; conj a) (dot v u)).
Proof.
  intros u v s E. pose proof (same_equiv R HR) as HE. unfold dvector_dot.
  destruct (dv_scale_val v s) as (x & -> & Hx & Vx).
  destruct (dv_scale_val u s) as (y & -> & Hy & Vy). cbn [bind].
  pose proof (dvector_dot_value R add mul conj c Ha Hm Hc) as D.
  rewrite !D by congruence. cbn [bind]. rewrite Hc. cbn [bind]. rewrite Hy, !Hm. rewrite <- E, Hc.
  split; [|split].
  - do 2 eexists. do 2 (split; [reflexivity|]).
    etransitivity; [|apply (sum_mul_r R HR)]. apply (sum_ext R HR). intros i Hi.
    unfold dv_at in Vx. rewrite Vx by congruence. nc_ring HR.
  - intros HC. do 2 eexists. do 2 (split; [reflexivity|]).
    etransitivity; [|apply HC]. etransitivity; [|apply (sum_mul_r R HR)].
    apply (sum_ext R HR). intros i Hi. unfold dv_at in Vy. rewrite Vy by exact Hi.
    etransitivity; [apply (law_mul_cong R HR); [apply Hcm|reflexivity]|]. c_ring HR HC.
  - intros HC Hi. do 2 eexists. do 2 (split; [reflexivity|]).
    etransitivity; [apply conj_sum|]. apply (sum_ext R HR). intros i _.
    etransitivity; [apply Hcm|]. etransitivity; [apply HC|].
    apply (law_mul_cong R HR); [reflexivity|apply Hi].
Qed.
End C35.

(** Over the complex numbers [u * u] is real, non-negative, and zero only for the zero vector. *)
Theorem C35_dot_positive_definite :
  forall u : dvector (complex R),
  exists q, dvector_dot (complex_zero real_ring)
              (r_add (complex_ops real_ring)) (r_mul (complex_ops real_ring)) (complex_conj (r_neg real_ring)) u u = Ok q
    /\ im q = 0%R /\ (0 <= re q)%R
    /\ (q = Cx 0%R 0%R <-> Forall (fun z => z = Cx 0%R 0%R) u).
Proof.
  intros u.
  set (c := fun z : complex R => Cx (re z) (- im z)%R).
  pose proof (complex_implements real_ring real_sig real_implements) as CI.
  exists (sum_n (complex_sig real_sig) (length u) (fun i => smul (complex_sig real_sig)
     (c (nth i u (Cx 0 0)%R)) (nth i u (Cx 0 0)%R))).
  split.
  - apply (dvector_dot_value (complex_sig real_sig) _ _ _ c).
    + apply (impl_add _ _ CI).
    + apply (impl_mul _ _ CI).
    + reflexivity.
    + reflexivity.
  - set (f := fun i => nth i u (Cx 0 0)%R).
    assert (E : forall n, sum_n (complex_sig real_sig) n (fun i => smul (complex_sig real_sig) (c (f i)) (f i))
      = Cx (sum_n real_sig n (fun i => (re (f i) * re (f i) + im (f i) * im (f i))%R)) 0%R).
    { induction n as [|n IH]; [reflexivity|].
      cbn [sum_n]. rewrite IH. simpl. f_equal; ring. }
    rewrite E. simpl re. simpl im. split; [reflexivity|].
    assert (H : forall n, (0 <= sum_n real_sig n (fun i => (re (f i) * re (f i) + im (f i) * im (f i))))%R
       /\ (sum_n real_sig n (fun i => (re (f i) * re (f i) + im (f i) * im (f i)))%R = 0%R
           <-> forall i, i < n -> f i = Cx 0%R 0%R)).
    { induction n as [|n [IH1 IH2]]; simpl.
      - split; [lra|]. split; [intros _ i Hi; lia|reflexivity].
      - pose proof (Rle_0_sqr (re (f n))) as H1. pose proof (Rle_0_sqr (im (f n))) as H2. unfold Rsqr in *.
        split; [lra|]. split.
        + intros Hs i Hi. destruct (Nat.eq_dec i n) as [->|Hn].
          * assert (A : (re (f n) * re (f n) = 0)%R) by lra. assert (B : (im (f n) * im (f n) = 0)%R) by lra.
            apply Rmult_integral in A. apply Rmult_integral in B.
            destruct (f n) as [a b]. simpl in *. f_equal; tauto.
          * apply IH2; [lra|lia].
        + intros Hz. rewrite (proj2 IH2) by (intros i Hi; apply Hz; lia). rewrite Hz by lia. simpl. lra. }
    destruct (H (length u)) as [H1 H2]. split; [exact H1|]. split.
    + intros HQ. injection HQ as HQ. apply Forall_forall. intros z Hz.
      destruct (In_nth u z (Cx 0 0)%R Hz) as (i & Hi & <-). apply (proj1 H2 HQ i Hi).
    + intros HF. f_equal. apply H2. intros i Hi. rewrite Forall_forall in HF. apply HF, nth_In, Hi.
Qed.

(** Complex conjugation over the integers meets every hypothesis of the C35 section. *)
Example C35_hypotheses_case :
  let R := complex_sig z_sig in let O := complex_ops z_ops in
  let c := fun z : complex Z => Cx (re z) (- im z)%Z in
  (forall x y, r_add O x y = Ok (sadd R x y)) /\ (forall x y, r_mul O x y = Ok (smul R x y))
  /\ (forall x, complex_conj (r_neg z_ops) x = Ok (c x)) /\ ring_laws R /\ commutative R
  /\ (forall x y, same R x y -> same R (c x) (c y))
  /\ (forall x y, same R (c (sadd R x y)) (sadd R (c x) (c y)))
  /\ (forall x y, same R (c (smul R x y)) (smul R (c x) (c y)))
  /\ (forall x, same R (c (c x)) x).
Proof.
  pose proof (complex_implements z_ops z_sig z_implements) as CI.
  split; [apply (impl_add _ _ CI)|]. split; [apply (impl_mul _ _ CI)|]. split; [reflexivity|].
  split; [apply (complex_laws z_sig z_laws)|]. split; [apply (complex_comm z_sig z_laws z_commutative)|].
  repeat split; simpl in *; try ring; destruct H; congruence.
Qed.

Example C35_case :
  dvector_dot (complex_zero z_ops) (r_add (complex_ops z_ops)) (r_mul (complex_ops z_ops))
    (complex_conj (r_neg z_ops)) [Cx 1 2; Cx 3 (-1)]%Z [Cx 0 1; Cx 2 2]%Z = Ok (Cx 6 9)%Z.
Proof. reflexivity. Qed.

(** [v.conj()] is lazy and conjugates each entry once, the conjugation being allowed to panic:
    [len] is the length of [v], entry [i] is [conj(v[i])] (out of range it panics), and [eval]
    returns [w] exactly when [w] consists of the conjugates of the entries of [v] in order. *)
Theorem C35_conjugate :
  forall (T : Type) (conj : T -> outcome T) (v : dvector T),
  v_len (dvector_conj conj v) = ulen v
  /\ (forall i, v_entry (dvector_conj conj v) i = (x <- dvector_index v i ;; conj x))
  /\ v_eval (dvector_conj conj v) = mapM conj v
  /\ (forall w, v_eval (dvector_conj conj v) = Ok w <-> Forall2 (fun x y => conj x = Ok y) v w).
Proof.
  intros T conj v. unfold dvector_conj, vexpr_conj. rewrite vexpr_eta.
  destruct (vspec_map _ _ _ conj (vspec_list v)) as [Hl _ He].
  split; [exact Hl|]. split; [reflexivity|].
  assert (E : v_eval (vexpr_map (dvector_expr v) conj) = mapM conj v).
  { rewrite He. rewrite urange_eq. rewrite mapM_map. apply mapM_pointwise.
    - rewrite seq_length. unfold ulen. apply Nat2N.id.
    - intros k x y Hx Hy. rewrite (nth_error_nth' _ 0) in Hx by (apply nth_error_Some; congruence).
      injection Hx as <-. rewrite seq_nth.
      + rewrite Nat.add_0_l, Nat2N.id, Hy. reflexivity.
      + unfold ulen. rewrite Nat2N.id. apply nth_error_Some. congruence. }
  split; [exact E|]. rewrite E. clear. induction v as [|x v IH]; intros w.
  - split; [intros H; injection H as <-; constructor|intros H; inversion H; reflexivity].
  - cbn [mapM]. split.
    + destruct (conj x) as [y| |] eqn:Ex; try discriminate. cbn [bind].
      destruct (mapM conj v) as [ys| |]; try discriminate. cbn [bind]. intros H. injection H as <-.
      constructor; [exact Ex|]. apply IH. reflexivity.
    + intros H. inversion H as [|? y ? ys Hx Hv]; subst. rewrite Hx. cbn [bind].
      rewrite (proj2 (IH ys) Hv). reflexivity.
Qed.

Example C35_conjugate_case :
  v_eval (dvector_conj (complex_conj (r_neg z_ops)) [Cx 1 2; Cx 3 (-1)]%Z) = Ok [Cx 1 (-2); Cx 3 1]%Z.
Proof. reflexivity. Qed.

(** A user who passes vectors of different lengths is not told:
    [1, 2, 3] * [1, 1] = 3. *)
Theorem C35_unequal_lengths_rejected_refuted :
  exists u v : dvector Z, length u <> length v
    /\ dvector_dot 0%Z (r_add z_ops) (r_mul z_ops) (fun x => Ok x) u v = Ok 3%Z.
Proof. exists [1; 2; 3]%Z, [1; 1]%Z. split; [discriminate|reflexivity]. Qed.

Print Assumptions C21_dvector_write_history.
Print Assumptions C35_dot_is_sum_of_products.
Print Assumptions C35_dot_ignores_surplus_entries.
Print Assumptions C35_dot_additive.
Print Assumptions C35_dot_sesquilinear.
Print Assumptions C35_dot_positive_definite.
Print Assumptions C21_dvector_index.
Print Assumptions C21_dvector_index_set.
Print Assumptions C35_unequal_lengths_rejected_refuted.
Print Assumptions C35_conjugate.
