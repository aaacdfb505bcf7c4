(** C77: which operations on the elements produce each entry of a result, and in which order.
    Nothing is assumed of the element type and its operations may panic, so the claims hold bit for bit for
    floats and including the overflow panics for integers.  [mapM f l] is f applied to the members of l from
    left to right, up to the first panic. *)
From Coq Require Import List Arith NArith ZArith Lia Bool.
From Coq Require Vector.
From Flocq Require Import Core.Core IEEE754.BinarySingleNaN.
From Verif Require Import Base.Outcome Base.Usize Base.Array Base.Wp Model.Traits Model.Float Model.Int Model.Polynomial Model.SVector Model.SMatrix
  Model.DVector Model.DMatrix Spec.DExpr Spec.DMatrix Spec.Unwind Spec.Formula Proofs.DExprProofs Proofs.DMatrixProofs
  Proofs.Paths Proofs.Formula Props.DMatrixProps.
Import ListNotations.
Open Scope nat_scope.

Lemma pairs_of_lists {T} (l r : list T) : length l = length r ->
  pairs_of (fun m => nth_error l m) (fun m => nth_error r m) (length l) = combine l r.
Proof.
  unfold pairs_of. revert r; induction l as [|x l IH]; intros [|y r] H; try discriminate H; [reflexivity|].
  cbn [length seq flat_map nth_error combine app]. f_equal. rewrite <- seq_shift, flat_map_concat_map, map_map, <- flat_map_concat_map.
  apply IH. simpl in H. lia.
Qed.
Lemma pairs_of_ext {T} (f f' g g' : nat -> option T) n : (forall m, m < n -> f m = f' m) -> (forall m, m < n -> g m = g' m) ->
  pairs_of f g n = pairs_of f' g' n.
Proof.
  intros Hf Hg. unfold pairs_of. apply flat_map_ext_in. intros m Hm. apply in_seq in Hm. rewrite Hf, Hg by lia. reflexivity.
Qed.
Lemma mapM_nth {A B} (f : A -> outcome B) l r k x : mapM f l = Ok r -> nth_error l k = Some x ->
  exists y, nth_error r k = Some y /\ f x = Ok y.
Proof.
  revert r k; induction l as [|a l IH]; intros r k H Hk; [destruct k; discriminate|]. cbn [mapM] in H.
  apply bind_Ok_inv in H as (y & E & H). apply bind_Ok_inv in H as (ys & E2 & H). injection H as <-.
  destruct k as [|k]; [injection Hk as <-; exists y; auto|]. apply (IH ys k E2 Hk).
Qed.
Lemma nth_error_seq k n : k < n -> nth_error (seq 0 n) k = Some k.
Proof. intros H. rewrite (nth_error_nth' _ 0) by (rewrite seq_length; exact H). rewrite seq_nth by exact H. reflexivity. Qed.

Section Any.
Context (T : Type) (O : RingOps T).

Lemma plus_products_acc s l r : plus_products O s (combine l r) = acc_products O l r s.
Proof.
  unfold acc_products. generalize (combine l r). intros ps. revert s; induction ps as [|[x y] ps IH]; intros s; [reflexivity|].
  cbn [plus_products for_each]. rewrite bind_assoc. apply bind_ext. intros p. apply bind_ext. intros s'. apply IH.
Qed.

(** ** Polynomials *)

(** The coefficient of x^k in p*q is 0 + p_0*q_k + p_1*q_(k-1) + ... + p_k*q_0, in this order. *)
Theorem C77_polynomial_product : forall (p q r : poly T), poly_mul O p q = Ok r ->
  length r = (if (length p =? 0) || (length q =? 0) then 0 else length p + length q - 1) /\
  forall k, k < length r -> exists v, nth_error r k = Some v /\ plus_products O (r_zero O) (coefficient_pairs p q k) = Ok v.
Proof.
  intros p q r. unfold poly_mul, poly_mul_ref. destruct (_ || _) eqn:E.
  - intros H. injection H as <-. split; [reflexivity|]. intros k Hk. simpl in Hk. lia.
  - apply orb_false_elim in E as [Ep Eq]. apply Nat.eqb_neq in Ep, Eq.
    assert (Hp : p <> []) by (intros ->; apply Ep; reflexivity). assert (Hq : q <> []) by (intros ->; apply Eq; reflexivity).
    intros H. apply bind_Ok_inv in H as (a & H & Ha). unfold poly_from_coefficients in Ha. injection Ha as <-.
    rewrite (poly_mul_slots O p q Hp Hq) in H by apply repeat_length. apply slots_ok in H as [L H]. rewrite repeat_length in L.
    split; [exact L|]. intros k Hk. rewrite L in Hk.
    destruct (H k (r_zero O)) as (v & N & R); [apply nth_error_repeat; exact Hk|].
    exists v. split; [exact N|]. rewrite <- R. symmetry. apply mul_ups_slot. exact Hk.
Qed.

(** It panics only if one of these formulas does. *)
Theorem C77_polynomial_product_succeeds : forall (p q : poly T),
  (forall k, k < length p + length q - 1 -> exists v, plus_products O (r_zero O) (coefficient_pairs p q k) = Ok v) ->
  exists r, poly_mul O p q = Ok r.
Proof.
  intros p q H. unfold poly_mul, poly_mul_ref. destruct (_ || _) eqn:E; [eexists; reflexivity|].
  apply orb_false_elim in E as [Ep Eq]. apply Nat.eqb_neq in Ep, Eq.
  assert (Hp : p <> []) by (intros ->; apply Ep; reflexivity). assert (Hq : q <> []) by (intros ->; apply Eq; reflexivity).
  rewrite (poly_mul_slots O p q Hp Hq) by apply repeat_length.
  destruct (slots_succeed (mul_ups O p q) (repeat (r_zero O) (length p + length q - 1))) as (r & ->); [| |eexists; reflexivity].
  - intros u Hu. rewrite repeat_length. apply (mul_ups_bound O p q u Hu).
  - intros k x Hk. assert (Lk : k < length p + length q - 1) by (rewrite <- (repeat_length (r_zero O)); apply nth_error_Some; congruence).
    rewrite (nth_error_repeat (r_zero O) Lk) in Hk. injection Hk as <-. rewrite mul_ups_slot by exact Lk. apply H, Lk.
Qed.

(** Sums and differences, coefficient by coefficient.  [p + q] swaps the operands when [p] is the shorter one;
    the forms with a reference on the right add to (subtract from) a zero where [p] has no coefficient. *)
Theorem C77_polynomial_sums : forall p q : poly T,
  let longer := seq 0 (max (length p) (length q)) in
  poly_add O p q = mapM (meet (fun x y => if length p <? length q then r_add O y x else r_add O x y) Ok Ok p q) longer
  /\ poly_add_assign O p q = mapM (meet (r_add O) Ok Ok p q) longer
  /\ poly_add_assign_ref O p q = mapM (meet (r_add O) Ok (fun y => r_add O (r_zero O) y) p q) longer
  /\ poly_sub_assign_ref O p q = mapM (meet (r_sub O) Ok (fun y => r_sub O (r_zero O) y) p q) longer
  /\ poly_sub O p q = (n <- mapM (r_neg O) q ;; poly_add O p n)
  /\ poly_sub_assign O p q = (n <- mapM (r_neg O) q ;; poly_add_assign O p n).
Proof.
  intros p q longer. unfold longer. rewrite !meet_zipM.
  split; [rewrite poly_add_zip; destruct (_ <? _); reflexivity|]. split; [apply poly_add_assign_zip|].
  split; [apply assign_ref_zip|]. split; [apply assign_ref_zip|]. split; reflexivity.
Qed.

(** Evaluation is Horner's rule, starting from 0. *)
Theorem C77_evaluation : forall (p : poly T) (x : T), poly_eval O p x = horner_steps O p x.
Proof. exact (poly_eval_steps O). Qed.

(** The low coefficients of a product depend on the low coefficients of the factors only. *)
Theorem C77_polynomial_product_local : forall (p p' q q' r r' : poly T) (n : nat),
  firstn n p = firstn n p' -> firstn n q = firstn n q' -> poly_mul O p q = Ok r -> poly_mul O p' q' = Ok r' ->
  firstn n r = firstn n r'.
Proof.
  intros p p' q q' r r' n Ep Eq Hr Hr'.
  assert (FN : forall (l l' : list T), (forall k, k < n -> nth_error l k = nth_error l' k) <-> firstn n l = firstn n l').
  { clear. induction n as [|n IH]; intros l l'; [split; [reflexivity|intros _ k Hk; lia]|]. split.
    - intros H. pose proof (H 0 ltac:(lia)) as H0. destruct l as [|x l], l' as [|y l']; try discriminate H0; [reflexivity|].
      injection H0 as ->. cbn [firstn]. f_equal. apply IH. intros k Hk. apply (H (S k)). lia.
    - intros H k Hk. destruct l as [|x l], l' as [|y l']; try discriminate H; [reflexivity|]. injection H as -> H.
      destruct k as [|k]; [reflexivity|]. apply (proj2 (IH l l') H k). lia. }
  apply FN. intros k Hk. apply C77_polynomial_product in Hr as [L H], Hr' as [L' H'].
  assert (N : forall (l l' : list T) m, firstn n l = firstn n l' -> m <= k -> (m < length l <-> m < length l')).
  { intros l l' m E Hm. rewrite <- !nth_error_Some. rewrite (proj2 (FN l l') E m) by lia. reflexivity. }
  assert (CP : coefficient_pairs p q k = coefficient_pairs p' q' k).
  { apply pairs_of_ext; intros m Hm; [apply (proj2 (FN p p') Ep); lia|]. destruct (Nat.leb_spec m k); [|reflexivity]. apply (proj2 (FN q q') Eq). lia. }
  assert (LL : k < length r <-> k < length r').
  { rewrite L, L'. pose proof (N p p' 0 Ep ltac:(lia)) as P0. pose proof (N q q' 0 Eq ltac:(lia)) as Q0.
    assert (P1 : length p = length p' \/ (n <= length p /\ n <= length p')).
    { pose proof (f_equal (@length T) Ep) as F. rewrite !firstn_length in F. lia. }
    assert (Q1 : length q = length q' \/ (n <= length q /\ n <= length q')).
    { pose proof (f_equal (@length T) Eq) as F. rewrite !firstn_length in F. lia. }
    destruct (Nat.eqb_spec (length p) 0), (Nat.eqb_spec (length q) 0), (Nat.eqb_spec (length p') 0), (Nat.eqb_spec (length q') 0); simpl; lia. }
  destruct (Nat.ltb_spec k (length r)) as [Hl|Hl].
  - destruct (H k Hl) as (v & -> & E1). destruct (H' k (proj1 LL Hl)) as (v' & -> & E2). rewrite CP, E2 in E1. congruence.
  - rewrite !(proj2 (nth_error_None _ _)); [reflexivity| |exact Hl]. destruct (Nat.le_gt_cases (length r') k); [assumption|]. apply LL in H0. lia.
Qed.

(** ** Statically sized vectors and matrices *)
Theorem C77_dot_product : forall n (u v : svector T n),
  svector_dot O u v = plus_products O (r_zero O) (pairs_of (nth_error (entries u)) (nth_error (entries v)) n).
Proof.
  intros n u v. pose proof (pairs_of_lists (entries u) (entries v)) as P. rewrite !entries_length in P.
  etransitivity; [|apply (f_equal (plus_products O (r_zero O))); symmetry; exact (P eq_refl)].
  rewrite plus_products_acc. reflexivity.
Qed.

Lemma col_entries_pairs {L M N} (a : smatrix T L M) (b : smatrix T M N) i j row : nth_error (entries a) i = Some row -> j < N ->
  (c <- col_entries b j ;; acc_products O (entries row) c (r_zero O))
  = plus_products O (r_zero O) (pairs_of (cell a i) (fun m => cell b m j) M).
Proof.
  intros Hr Hj.
  assert (C : exists c, col_entries b j = Ok c /\ length c = M /\ forall m, nth_error c m = cell b m j).
  { clear a row Hr. unfold col_entries, cell. induction b as [|r M b IH].
    - exists []. split; [reflexivity|]. split; [reflexivity|]. intros [|m]; reflexivity.
    - destruct IH as (c & E & Lc & H). cbn [entries mapM].
      destruct (nth_error (entries r) j) as [x|] eqn:Q; [|apply nth_error_None in Q; rewrite entries_length in Q; lia].
      unfold vget at 1. rewrite Q. cbn [bind]. rewrite E. exists (x :: c). split; [reflexivity|]. split; [simpl; lia|].
      intros [|m]; cbn [nth_error]; [symmetry; exact Q|apply H]. }
  destruct C as (c & -> & Lc & H). cbn [bind]. rewrite <- plus_products_acc. f_equal.
  rewrite <- (pairs_of_lists (entries row) c) by (rewrite entries_length; lia). rewrite entries_length.
  apply pairs_of_ext; intros m Hm; [unfold cell; rewrite Hr; reflexivity|apply H].
Qed.

Theorem C77_matrix_product : forall L M N (a : smatrix T L M) (b : smatrix T M N),
  (p <- smatrix_mul O a b ;; Ok (map entries (entries p)))
  = mapM (fun i => mapM (fun j => plus_products O (r_zero O) (pairs_of (cell a i) (fun m => cell b m j) M)) (seq 0 N)) (seq 0 L).
Proof.
  intros L M N a b. change (fun p => Ok (map entries (entries p))) with (fun p : smatrix T L N => Ok (rows_of p)).
  rewrite smatrix_mul_rows. apply mapM_pointwise; [rewrite entries_length, seq_length; reflexivity|].
  intros k row l Hr Hl. assert (Hk : k < L) by (rewrite <- (seq_length L 0); apply nth_error_Some; congruence).
  rewrite nth_error_seq in Hl by exact Hk. injection Hl as <-. apply mapM_ext. intros j Hj. apply in_seq in Hj.
  apply col_entries_pairs; [exact Hr|lia].
Qed.

Theorem C77_matrix_vector_product : forall M N (a : smatrix T M N) (v : svector T N),
  (w <- smatrix_mul_vec O a v ;; Ok (entries w))
  = mapM (fun i => plus_products O (r_zero O) (pairs_of (cell a i) (nth_error (entries v)) N)) (seq 0 M).
Proof.
  intros M N a v. unfold smatrix_mul_vec.
  rewrite (array_gen_mapM M _ (fun i => plus_products O (r_zero O) (pairs_of (cell a i) (nth_error (entries v)) N)) 0); [reflexivity|].
  intros i Hi. unfold array_get, vget. destruct (nth_error (entries a) i) as [row|] eqn:Hr; [|apply nth_error_None in Hr; rewrite entries_length in Hr; lia].
  cbn [bind]. apply (f_equal (fun m => bind m (fun s : T => Ok (s, i + 1)))).
  change (acc_products O (entries row) (entries v) (r_zero O) = plus_products O (r_zero O) (pairs_of (cell a i) (nth_error (entries v)) N)).
  rewrite <- plus_products_acc. f_equal. rewrite <- (pairs_of_lists (entries row) (entries v)) by (rewrite !entries_length; reflexivity).
  rewrite entries_length. apply pairs_of_ext; intros m Hm; [unfold cell; rewrite Hr; reflexivity|reflexivity].
Qed.

(** An entry of a product depends on its row and its column only, whatever the rest of the factors is. *)
Theorem C77_matrix_product_local : forall L L' M N N' (a : smatrix T L M) (b : smatrix T M N) (a' : smatrix T L' M) (b' : smatrix T M N') p p' i j i' j',
  smatrix_mul O a b = Ok p -> smatrix_mul O a' b' = Ok p' -> i < L -> j < N -> i' < L' -> j' < N' ->
  (forall m, m < M -> cell a i m = cell a' i' m) -> (forall m, m < M -> cell b m j = cell b' m j') ->
  cell p i j = cell p' i' j'.
Proof.
  intros L L' M N N' a b a' b' p p' i j i' j' E E' Hi Hj Hi' Hj' Ha Hb.
  assert (G : forall L N (a : smatrix T L M) (b : smatrix T M N) p i j, smatrix_mul O a b = Ok p -> i < L -> j < N ->
     exists v, cell p i j = Some v /\ plus_products O (r_zero O) (pairs_of (cell a i) (fun m => cell b m j) M) = Ok v).
  { clear. intros L N a b p i j E Hi Hj. pose proof (C77_matrix_product L M N a b) as F. rewrite E in F. cbn [bind] in F. symmetry in F.
    destruct (mapM_nth _ _ _ i i F (nth_error_seq i L Hi)) as (row & Hr & Hm).
    destruct (mapM_nth _ _ _ j j Hm (nth_error_seq j N Hj)) as (v & Hv & Hf).
    exists v. split; [|exact Hf]. unfold cell. destruct (nth_error (entries p) i) as [r0|] eqn:X; [|apply nth_error_None in X; rewrite entries_length in X; lia].
    pose proof (map_nth_error entries i (entries p) X) as Y. assert (E0 : entries r0 = row) by congruence. rewrite E0. exact Hv. }
  destruct (G _ _ a b p i j E Hi Hj) as (v & -> & F). destruct (G _ _ a' b' p' i' j' E' Hi' Hj') as (v' & -> & F').
  rewrite (pairs_of_ext _ (cell a' i') _ (fun m => cell b' m j')) in F by assumption. congruence.
Qed.

(** ** Dynamically sized vectors and matrices *)
Theorem C77_dynamic_dot_product : forall (conj : T -> outcome T) (cj : T -> T) (u v : dvector T), (forall x, conj x = Ok (cj x)) ->
  dvector_dot (r_zero O) (r_add O) (r_mul O) conj u v
  = plus_products O (r_zero O) (pairs_of (fun m => option_map cj (nth_error u m)) (nth_error v) (min (length u) (length v))).
Proof.
  intros conj cj u v H. unfold dvector_dot, dvector_dot_ref. rewrite plus_products_run. unfold run_ups.
  rewrite for_each_map'.
  assert (E : pairs_of (fun m => option_map cj (nth_error u m)) (nth_error v) (min (length u) (length v)) = map (fun '(x, y) => (cj x, y)) (combine u v)).
  { unfold pairs_of. clear. revert v; induction u as [|x u IH]; intros [|y v]; try reflexivity.
    cbn [length Nat.min seq flat_map nth_error option_map combine map app]. f_equal.
    rewrite <- seq_shift, flat_map_concat_map, map_map, <- flat_map_concat_map. apply IH. }
  rewrite E, for_each_map'. apply for_each_ext. intros [x y] s _. rewrite H. reflexivity.
Qed.

(** The entries in row-major order; the sum starts with the first product. *)
Theorem C77_dynamic_product : forall (md : target) (a b : dmatrix T), dm_wf md a -> dm_wf md b -> dm_cols a = dm_rows b -> (1 <= dm_cols a)%N ->
  (d <- dm_mul md (r_add O) (r_mul O) a b ;; Ok (dm_data d))
  = mapM (fun '(i, j) => sum_products O (pairs_of (fun m => row_major_at a i (N.of_nat m)) (fun m => row_major_at b (N.of_nat m) j) (N.to_nat (dm_cols a))))
      (flat_map (fun i => map (fun j => (N.of_nat i, N.of_nat j)) (seq 0 (N.to_nat (dm_cols b)))) (seq 0 (N.to_nat (dm_rows a)))).
Proof.
  intros md a b Wa Wb E H1. unfold dm_mul, dmatrix_mul. rewrite assert_eq_true by (apply N.eqb_eq; exact E). cbn [bind m_eval].
  unfold mexpr_default_eval. rewrite bind_assoc. cbn [bind dm_data]. rewrite bind_ret.
  assert (IP : flat_map (fun i => map (fun j => (N.of_nat i, N.of_nat j)) (seq 0 (N.to_nat (dm_cols b)))) (seq 0 (N.to_nat (dm_rows a)))
    = index_pairs (dm_rows a) (dm_cols b)).
  { unfold index_pairs, urange, urange_from. change (N.to_nat 0) with 0. rewrite !Nat.sub_0_r, flat_map_concat_map, flat_map_concat_map, map_map.
    f_equal. apply map_ext. intros i. rewrite map_map. reflexivity. }
  rewrite IP. apply mapM_ext. intros [i j] Hij. apply in_index_pairs in Hij as [Hi Hj].
  rewrite mul_entry_mean by assumption. unfold fold_products, sum_products.
  assert (DA : forall m, m < N.to_nat (dm_cols a) -> exists x y, row_major_at a i (N.of_nat m) = Some x /\ row_major_at b (N.of_nat m) j = Some y).
  { intros m Hm.
    assert (G : forall (d : dmatrix T) r c, dm_wf md d -> (r < dm_rows d)%N -> (c < dm_cols d)%N -> exists x, row_major_at d r c = Some x).
    { intros d r c [W _] Hr Hc. unfold row_major_at. destruct (nth_error (dm_data d) (N.to_nat (r * dm_cols d + c))) as [x|] eqn:X; [eauto|].
      apply nth_error_None in X. unfold ulen in W. nia. }
    destruct (G a i (N.of_nat m) Wa Hi ltac:(lia)) as (x & Hx). destruct (G b (N.of_nat m) j Wb ltac:(lia) Hj) as (y & Hy). eauto. }
  destruct (N.to_nat (dm_cols a)) as [|c] eqn:EC; [lia|]. unfold pairs_of. cbn [seq flat_map].
  destruct (DA 0 ltac:(lia)) as (x0 & y0 & X0 & Y0). change (N.of_nat 0) with 0%N in *. rewrite X0, Y0. cbn [some_ok bind app].
  apply bind_ext. intros s0. unfold urange_from. rewrite EC. change (N.to_nat 1) with 1. cbn [Nat.sub]. rewrite Nat.sub_0_r, for_each_map'.
  rewrite plus_products_run. unfold run_ups. rewrite for_each_map', for_each_flat_map. apply for_each_ext. intros m s Hm. apply in_seq in Hm.
  destruct (DA m ltac:(lia)) as (x & y & X & Y). rewrite X, Y. cbn [some_ok bind for_each]. rewrite bind_ret. reflexivity.
Qed.
End Any.

(** The swap in [p + q] is visible: for a ring whose addition remembers its operands, [p + q] and
    [{ p += q; p }] differ. *)
Definition term_ops : RingOps (list nat) := {|
  r_zero := []; r_one := [1]; r_add := fun x y => Ok (x ++ y); r_sub := fun x y => Ok (x ++ y);
  r_mul := fun x y => Ok (x ++ y); r_neg := fun x => Ok x; r_eqb := fun _ _ => true |}.

(** A row with an infinity does not touch the other rows, in f64; and Horner's rule with a panic. *)
Example C77_case :
  (exists p q r s, poly_add term_ops p q = Ok r /\ poly_add_assign term_ops p q = Ok s /\ r <> s)
  /\ poly_mul term_ops [[1]; [2]] [[3]; [4]; [5]] = Ok [[1; 3]; [1; 4; 2; 3]; [1; 5; 2; 4]; [2; 5]]
  /\ plus_products term_ops [] (coefficient_pairs [[1]; [2]] [[3]; [4]; [5]] 1) = Ok [1; 4; 2; 3]
  /\ poly_eval (int_ops Debug I8) [@MkInt I8 1%Z eq_refl; @MkInt I8 2%Z eq_refl] (@MkInt I8 3%Z eq_refl) = Ok (@MkInt I8 7%Z eq_refl).
Proof.
  split; [exists [[1]], [[2]; [3]], [[2; 1]; [3]], [[1; 2]; [3]]; split; [reflexivity|]; split; [reflexivity|discriminate]|].
  split; [reflexivity|]. split; [reflexivity|]. reflexivity.
Qed.
Print Assumptions C77_polynomial_product.
Print Assumptions C77_polynomial_product_succeeds.
Print Assumptions C77_polynomial_sums.
Print Assumptions C77_evaluation.
Print Assumptions C77_polynomial_product_local.
Print Assumptions C77_dot_product.
Print Assumptions C77_matrix_product.
Print Assumptions C77_matrix_vector_product.
Print Assumptions C77_matrix_product_local.
Print Assumptions C77_dynamic_dot_product.
Print Assumptions C77_dynamic_product.
