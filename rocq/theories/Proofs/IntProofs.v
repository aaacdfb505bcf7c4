(** Machine integers simulate / are simulated by exact integers. *)
From Coq Require Import List ZArith Lia Bool Eqdep_dec Arith.
From Verif Require Import Base.Outcome Base.Usize Base.Array Base.Sim Model.Traits Model.Int
  Model.Complex Model.SVector Model.SMatrix Spec.Ring Spec.Sums Spec.Agree Spec.Int Spec.Matrix Spec.Polynomial
  Proofs.IntegerRing Proofs.RingSim.
Import ListNotations.
Local Open Scope Z_scope.

Lemma int_eq t (a b : int t) : ival a = ival b -> a = b.
Proof.
  destruct a as [a Ha], b as [b Hb]. simpl. intros <-. f_equal. apply UIP_dec, bool_dec.
Qed.

Lemma wrap_id t z : in_range t z = true -> wrap t z = z.
Proof.
  intros H. apply in_range_iff in H. unfold wrap. rewrite Z.mod_small; [lia|].
  rewrite pow_width. unfold int_min, int_max in *. lia.
Qed.

Lemma int_result_val t z : exists a, int_result Release t z = Ok a /\ ival a = wrap t z.
Proof.
  unfold int_result. destruct (bool_dec (in_range t z) true) as [H|H].
  - eexists. split; [reflexivity|]. simpl. symmetry. apply wrap_id, H.
  - eexists. split; reflexivity.
Qed.

Lemma int_result_release t z : int_result Release t z = Ok (int_wrapped t z).
Proof.
  destruct (int_result_val t z) as (a & -> & Ha). f_equal. apply int_eq. exact Ha.
Qed.

(** wrap is reduction modulo 2^width. *)
Lemma wrap_cong t x y : (x - y) mod 2 ^ width t = 0 -> wrap t x = wrap t y.
Proof.
  intros H. assert (Hm : 2 ^ width t <> 0) by (rewrite pow_width; pose proof (pow_width_pos t); lia).
  unfold wrap. f_equal. apply Z.mod_divide in H; [|exact Hm]. destruct H as [k Hk].
  replace (x - int_min t) with ((y - int_min t) + k * 2 ^ width t) by lia.
  apply Z.mod_add, Hm.
Qed.

Lemma wrap_mod t x : exists k, wrap t x = x + k * 2 ^ width t.
Proof.
  exists (- ((x - int_min t) / 2 ^ width t)). unfold wrap.
  assert (Hm : 2 ^ width t <> 0) by (rewrite pow_width; pose proof (pow_width_pos t); lia).
  rewrite Z.mod_eq by exact Hm. lia.
Qed.

Lemma wrap_by t x y k : x = y + k * 2 ^ width t -> wrap t x = wrap t y.
Proof.
  intros ->. apply wrap_cong. replace (y + k * 2 ^ width t - y) with (k * 2 ^ width t) by lia.
  apply Z_mod_mult.
Qed.

Lemma wrap_add t x y : wrap t (wrap t x + wrap t y) = wrap t (x + y).
Proof.
  destruct (wrap_mod t x) as [k ->], (wrap_mod t y) as [l ->].
  apply (wrap_by t _ _ (k + l)). ring.
Qed.
Lemma wrap_sub t x y : wrap t (wrap t x - wrap t y) = wrap t (x - y).
Proof.
  destruct (wrap_mod t x) as [k ->], (wrap_mod t y) as [l ->].
  apply (wrap_by t _ _ (k - l)). ring.
Qed.
Lemma wrap_mul t x y : wrap t (wrap t x * wrap t y) = wrap t (x * y).
Proof.
  destruct (wrap_mod t x) as [k ->], (wrap_mod t y) as [l ->].
  apply (wrap_by t _ _ (k * y + l * x + k * l * 2 ^ width t)). ring.
Qed.
Lemma wrap_neg t x : wrap t (- wrap t x) = wrap t (- x).
Proof. destruct (wrap_mod t x) as [k ->]. apply (wrap_by t _ _ (- k)). ring. Qed.

(** ** Simulations *)
Definition overflow (p : panic) : Prop := p = ArithOverflow.
Definition never (p : panic) : Prop := False.

Lemma sim_checked t z z' : z = z' ->
  sim overflow (fun a b => b = ival a) (int_result Debug t z) (Ok z').
Proof.
  intros <-. unfold int_result. destruct (bool_dec (in_range t z) true) as [H|H].
  - exists z. split; reflexivity.
  - left. reflexivity.
Qed.

Lemma checked_sim t : ring_sim overflow (fun a b => b = ival a) (int_ops Debug t) z_ops.
Proof.
  constructor; cbn [int_ops z_ops r_zero r_one r_add r_sub r_mul r_neg int_lit ival]; intros; subst;
    try reflexivity; apply sim_checked; reflexivity.
Qed.

Lemma sim_wrapping t z z' : wrap t z = wrap t z' ->
  sim never (fun a b => ival a = wrap t b) (int_result Release t z) (Ok z').
Proof. intros H. rewrite int_result_release. exists z'. split; [reflexivity|exact H]. Qed.

Lemma wrapping_sim t : ring_sim never (fun a b => ival a = wrap t b) (int_ops Release t) z_ops.
Proof.
  constructor; cbn [int_ops z_ops r_zero r_one r_add r_sub r_mul r_neg int_lit ival].
  - symmetry. apply wrap_id, small_in_range. lia.
  - symmetry. apply wrap_id, small_in_range. lia.
  - intros x1 x2 y1 y2 -> ->. apply sim_wrapping, wrap_add.
  - intros x1 x2 y1 y2 -> ->. apply sim_wrapping, wrap_sub.
  - intros x1 x2 y1 y2 -> ->. apply sim_wrapping, wrap_mul.
  - intros x1 x2 ->. apply sim_wrapping, wrap_neg.
Qed.

Lemma sim_modes t z : sim overflow eq (int_result Debug t z) (int_result Release t z).
Proof.
  unfold int_result. destruct (bool_dec (in_range t z) true) as [H|H].
  - eexists. split; reflexivity.
  - left. reflexivity.
Qed.

Lemma modes_sim t : ring_sim overflow eq (int_ops Debug t) (int_ops Release t).
Proof.
  constructor; cbn [int_ops r_zero r_one r_add r_sub r_mul r_neg]; intros; subst;
    try reflexivity; apply sim_modes.
Qed.

Lemma sim_exact {A B} (R : A -> B -> Prop) m b (Q : A -> Prop) :
  sim overflow R m (Ok b) -> (forall a, R a b -> Q a) -> exact_or_overflow m Q.
Proof.
  destruct m as [a|p|]; simpl.
  - intros (b' & E & H) HQ. injection E as <-. auto.
  - intros [->|E] _; [exact I|discriminate].
  - discriminate.
Qed.

Lemma sim_returns {A B} (R : A -> B -> Prop) m b (Q : A -> Prop) :
  sim never R m (Ok b) -> (forall a, R a b -> Q a) -> returns m Q.
Proof.
  destruct m as [a|p|]; simpl.
  - intros (b' & E & H) HQ. injection E as <-. exists a. auto.
  - intros [[]|E] _. discriminate.
  - discriminate.
Qed.

Lemma sim_eq_ok {A} (m1 m2 : outcome A) a : sim overflow eq m1 m2 -> m1 = Ok a -> m2 = Ok a.
Proof. intros H ->. destruct H as (b & -> & <-). reflexivity. Qed.

Lemma sim_eq_mono {A} (R : A -> A -> Prop) m1 m2 :
  (forall a b, R a b -> a = b) -> sim overflow R m1 m2 -> sim overflow eq m1 m2.
Proof. intros HR H. eapply sim_mono; eauto. Qed.

(** ** The wrapping integers form a commutative ring *)
Definition int_sig (t : int_type) : ring_sig (int t) := {|
  sz := int_lit t 0 lit0; so := int_lit t 1 lit1;
  sadd := fun x y => int_wrapped t (ival x + ival y);
  ssub := fun x y => int_wrapped t (ival x - ival y);
  smul := fun x y => int_wrapped t (ival x * ival y);
  sneg := fun x => int_wrapped t (- ival x);
  same := eq
|}.

Lemma int_implements t : implements (int_ops Release t) (int_sig t).
Proof.
  constructor; cbn [int_ops int_sig r_zero r_one r_add r_sub r_mul r_neg r_eqb sz so sadd ssub smul sneg same];
    intros; try reflexivity; try apply int_result_release.
  apply int_eq, Z.eqb_eq. assumption.
Qed.

Lemma ival_wrap t (a : int t) : ival a = wrap t (ival a).
Proof. symmetry. apply wrap_id, ival_ok. Qed.

Lemma int_laws t : ring_laws (int_sig t).
Proof.
  constructor; cbn [int_sig sz so sadd ssub smul sneg same]; intros; subst; try reflexivity; try congruence;
    apply int_eq; cbn [ival int_wrapped int_lit].
  - rewrite (ival_wrap t z), (ival_wrap t x), !wrap_add, <- (ival_wrap t x), <- (ival_wrap t z). f_equal. ring.
  - f_equal. ring.
  - rewrite Z.add_0_r. symmetry. apply ival_wrap.
  - rewrite (ival_wrap t x) at 1. rewrite wrap_add, Z.add_opp_diag_r. apply wrap_id, small_in_range. lia.
  - rewrite (ival_wrap t x) at 2. rewrite wrap_add. f_equal.
  - rewrite (ival_wrap t z), (ival_wrap t x), !wrap_mul, <- (ival_wrap t x), <- (ival_wrap t z). f_equal. ring.
  - rewrite Z.mul_1_l. symmetry. apply ival_wrap.
  - rewrite Z.mul_1_r. symmetry. apply ival_wrap.
  - rewrite (ival_wrap t x) at 1. rewrite wrap_mul, wrap_add. f_equal. ring.
  - rewrite (ival_wrap t z) at 1. rewrite wrap_mul, wrap_add. f_equal. ring.
Qed.

Lemma int_commutative t : commutative (int_sig t).
Proof. intros x y. apply int_eq. simpl. f_equal. ring. Qed.

(** ** From related structures to integer meanings *)
Lemma zsum_sum_n n f : zsum n f = sum_n z_sig n f.
Proof. induction n; simpl; [reflexivity|]. rewrite IHn. reflexivity. Qed.

Lemma pow_zpow x n : pow z_sig x n = x ^ Z.of_nat n.
Proof.
  induction n; [reflexivity|]. cbn [pow smul z_sig]. rewrite IHn, Nat2Z.inj_succ, Z.pow_succ_r by lia. ring.
Qed.

Lemma zsum_ext n f g : (forall i, (i < n)%nat -> f i = g i) -> zsum n f = zsum n g.
Proof.
  induction n; intros H; simpl; [reflexivity|]. rewrite IHn by (intros; apply H; lia).
  rewrite H by lia. reflexivity.
Qed.

Lemma rel_exact_list t (l : list (int t)) (z : list Z) :
  Forall2 (fun a b => b = ival a) l z <-> z = map ival l.
Proof. apply Forall2_map_eq. Qed.

Lemma Forall2_self_exact t (l : list (int t)) : Forall2 (fun a b => b = ival a) l (map ival l).
Proof. apply Forall2_map_eq. reflexivity. Qed.

Lemma Forall2_self_wrap t (l : list (int t)) : Forall2 (fun a b => ival a = wrap t b) l (map ival l).
Proof. induction l; simpl; constructor; auto. apply ival_wrap. Qed.

Lemma rel_wrap_nth t (l : list (int t)) (z : list Z) i :
  Forall2 (fun a b => ival a = wrap t b) l z -> zcoeff l i = wrap t (nth i z 0).
Proof.
  unfold zcoeff. intros H. revert i. induction H; intros [|i]; simpl; auto;
    symmetry; apply wrap_id, small_in_range; lia.
Qed.

(** The exact image of an array. *)
Fixpoint amap {A B} (f : A -> B) {n} (v : Vector.t A n) : array B n :=
  match v in Vector.t _ n return array B n with
  | Vector.nil _ => anil
  | Vector.cons _ x _ v' => acons (f x) (amap f v')
  end.

Lemma entries_amap {A B} (f : A -> B) n (v : array A n) : entries (amap f v) = map f (entries v).
Proof. induction v; simpl; [reflexivity|]. f_equal. exact IHv. Qed.

Lemma arel_amap {A B} (R : A -> B -> Prop) (f : A -> B) n (v : array A n) :
  (forall a, R a (f a)) -> arel R v (amap f v).
Proof.
  intros H. unfold arel. rewrite entries_amap. induction (entries v); simpl; constructor; auto.
Qed.

Lemma arel_eq {A} n (u v : array A n) : arel eq u v -> u = v.
Proof.
  intros H. induction u as [|x n u IH].
  - symmetry. apply array_0.
  - rewrite (array_S v) in *. inversion H; subst. unfold acons. simpl. f_equal. apply IH. assumption.
Qed.

Lemma arel_eq2 {A} m n (u v : smatrix A m n) : arel (arel eq) u v -> u = v.
Proof.
  intros H. apply arel_eq. unfold arel in *.
  induction H; constructor; auto. apply arel_eq. assumption.
Qed.

Lemma zvec_exact t n (v : svector (int t) n) w i :
  arel (fun a b => b = ival a) v w -> zvec v i = vec_at z_sig w i.
Proof. intros H. apply Forall2_map_eq in H. unfold zvec, vec_at. rewrite H. reflexivity. Qed.

Lemma zvec_wrap t n (v : svector (int t) n) w i :
  arel (fun a b => ival a = wrap t b) v w -> zvec v i = wrap t (vec_at z_sig w i).
Proof. intros H. apply (rel_wrap_nth t _ _ i H). Qed.

Lemma zmat_exact t m n (a : smatrix (int t) m n) b i j :
  arel (arel (fun a b => b = ival a)) a b -> zmat a i j = mat_at z_sig b i j.
Proof.
  unfold arel at 1, zmat, mat_at. intros H. revert i.
  induction H; intros [|i]; cbn [map nth]; auto; try (destruct j; reflexivity).
  apply Forall2_map_eq in H. rewrite H. reflexivity.
Qed.

Lemma zmat_wrap t m n (a : smatrix (int t) m n) b i j :
  arel (arel (fun a b => ival a = wrap t b)) a b -> zmat a i j = wrap t (mat_at z_sig b i j).
Proof.
  unfold arel at 1, zmat, mat_at. intros H. revert i.
  assert (H0 : 0 = wrap t 0) by (symmetry; apply wrap_id, small_in_range; lia).
  induction H; intros [|i]; cbn [map nth]; auto; try (destruct j; exact H0).
  apply (rel_wrap_nth t _ _ j H).
Qed.

Lemma mrel_amap {A B} (R : A -> B -> Prop) (f : A -> B) m n (a : smatrix A m n) :
  (forall x, R x (f x)) -> arel (arel R) a (amap (amap f) a).
Proof. intros H. apply arel_amap. intros r. apply arel_amap, H. Qed.

Lemma vec_at_amap t n (v : svector (int t) n) i : vec_at z_sig (amap ival v) i = zvec v i.
Proof. unfold vec_at, zvec. rewrite entries_amap. reflexivity. Qed.

Lemma mat_at_amap t m n (a : smatrix (int t) m n) i j : mat_at z_sig (amap (amap ival) a) i j = zmat a i j.
Proof.
  unfold mat_at, zmat. rewrite entries_amap, map_map. f_equal.
  rewrite (map_ext _ (fun r => map ival (entries r))); [reflexivity|]. intros r. apply entries_amap.
Qed.
