(** Sufficient conditions for bounded integer arithmetic to return: the same computation on
    absolute values stays within the bound.  (Proof device for C56 and C57.) *)
From Coq Require Import List Arith ZArith NArith Lia Bool.
From Verif Require Import Base.Outcome Base.Usize Base.Array Base.Sim Model.Traits Model.Polynomial
  Model.Complex Model.SVector Model.SMatrix Model.DVector Model.DMatrix
  Spec.Ring Spec.Sums Spec.Int Spec.Matrix Spec.Polynomial Spec.DExpr Spec.DMatrix Spec.Bounded
  Proofs.IntegerRing Proofs.PolynomialProofs Proofs.SMatrixProofs Proofs.DExprProofs Proofs.DVectorProofs Proofs.DMatrixProofs
  Proofs.RingSim Proofs.IntProofs.
Import ListNotations.
Local Open Scope Z_scope.

Lemma zsum_nonneg n f : (forall i, (i < n)%nat -> 0 <= f i) -> 0 <= zsum n f.
Proof. induction n; simpl; intros H; [lia|]. specialize (IHn ltac:(intros; apply H; lia)). specialize (H n ltac:(lia)). lia. Qed.

Lemma zsum_le n f g : (forall i, (i < n)%nat -> f i <= g i) -> zsum n f <= zsum n g.
Proof. induction n; simpl; intros H; [lia|]. specialize (IHn ltac:(intros; apply H; lia)). specialize (H n ltac:(lia)). lia. Qed.

Lemma zsum_shift n f : zsum (S n) f = f 0%nat + zsum n (fun i => f (S i)).
Proof. induction n as [|n IH]; [simpl; ring|]. change (zsum (S (S n)) f) with (zsum (S n) f + f (S n)). rewrite IH. simpl. ring. Qed.

Lemma zsum_mul_r n f c : zsum n (fun i => f i * c) = zsum n f * c.
Proof. induction n; simpl; [reflexivity|]. rewrite IHn. ring. Qed.

Lemma zsum_abs n f : Z.abs (zsum n f) <= zsum n (fun i => Z.abs (f i)).
Proof. induction n; simpl; lia. Qed.

Lemma zsum_prefix n k f : (forall i, (i < n)%nat -> 0 <= f i) -> (k <= n)%nat -> zsum k f <= zsum n f.
Proof.
  intros H. induction n as [|n IH]; intros Hk; [replace k with 0%nat by lia; lia|].
  destruct (Nat.eq_dec k (S n)) as [->|]; [lia|]. simpl. specialize (IH ltac:(intros; apply H; lia) ltac:(lia)).
  specialize (H n ltac:(lia)). lia.
Qed.

Lemma zsum_term n f i : (forall i, (i < n)%nat -> 0 <= f i) -> (i < n)%nat -> f i <= zsum n f.
Proof.
  intros H Hi. pose proof (zsum_prefix n (S i) f H Hi) as P. simpl in P.
  pose proof (zsum_nonneg i f ltac:(intros; apply H; lia)). lia.
Qed.

Section B.
Context (B : Z).
Notation O := (bounded_ops B).

Lemma bounded_ok z : Z.abs z <= B -> bounded B z = Ok z.
Proof. intros H. unfold bounded. apply Z.leb_le in H. rewrite H. reflexivity. Qed.

(** ** Evaluation *)
Lemma b_eval_cons a p x : poly_eval_ref O (a :: p) x
  = (y <- poly_eval_ref O p x ;; y <- r_mul O y x ;; r_add O y a).
Proof. unfold poly_eval_ref. simpl rev. rewrite for_each_app. apply bind_ext. intros y. simpl. destruct (bounded B (y * x)) as [z| |]; simpl; [|reflexivity..]. apply bind_ret. Qed.

Definition zval (p : list Z) (x : Z) : Z := zsum (length p) (fun i => nth i p 0 * x ^ Z.of_nat i).
Definition zmag (p : list Z) (X : Z) : Z := zsum (length p) (fun i => Z.abs (nth i p 0) * X ^ Z.of_nat i).

Lemma zval_cons a p x : zval (a :: p) x = zval p x * x + a.
Proof.
  unfold zval. cbn [length]. rewrite zsum_shift. cbn [nth]. rewrite Z.pow_0_r.
  rewrite (zsum_ext _ (fun i => nth i p 0 * x ^ Z.of_nat (S i)) (fun i => nth i p 0 * x ^ Z.of_nat i * x)).
  - rewrite zsum_mul_r. ring.
  - intros i _. rewrite Nat2Z.inj_succ, Z.pow_succ_r by lia. ring.
Qed.
Lemma zmag_cons a p X : zmag (a :: p) X = zmag p X * X + Z.abs a.
Proof.
  unfold zmag. cbn [length]. rewrite zsum_shift. cbn [nth]. rewrite Z.pow_0_r.
  rewrite (zsum_ext _ (fun i => Z.abs (nth i p 0) * X ^ Z.of_nat (S i)) (fun i => Z.abs (nth i p 0) * X ^ Z.of_nat i * X)).
  - rewrite zsum_mul_r. ring.
  - intros i _. rewrite Nat2Z.inj_succ, Z.pow_succ_r by lia. ring.
Qed.
Lemma zmag_nonneg p X : 0 <= X -> 0 <= zmag p X.
Proof. intros H. apply zsum_nonneg. intros i _. apply Z.mul_nonneg_nonneg; [lia|apply Z.pow_nonneg, H]. Qed.

Lemma b_eval p x : zmag p (Z.max 1 (Z.abs x)) <= B ->
  poly_eval_ref O p x = Ok (zval p x) /\ Z.abs (zval p x) <= zmag p (Z.max 1 (Z.abs x)).
Proof.
  set (X := Z.max 1 (Z.abs x)). induction p as [|a p IH]; intros H.
  - split; [reflexivity|]. cbn. lia.
  - rewrite zmag_cons in *. rewrite zval_cons, b_eval_cons.
    pose proof (zmag_nonneg p X ltac:(lia)) as HN.
    assert (HX : zmag p X <= zmag p X * X) by nia.
    destruct IH as [-> HV]; [lia|]. cbn [bind bounded_ops r_mul r_add].
    assert (HM : Z.abs (zval p x * x) <= zmag p X * X) by (rewrite Z.abs_mul; nia).
    rewrite bounded_ok by lia. cbn [bind]. rewrite bounded_ok by lia. split; [reflexivity|lia].
Qed.

(** ** Sums of products *)
Lemma b_products n (x y : nat -> Z) (body : nat -> Z -> outcome Z) :
  (forall i s, (i < n)%nat -> body i s = (p <- r_mul O (x i) (y i) ;; r_add O s p)) ->
  zsum n (fun i => Z.abs (x i * y i)) <= B ->
  for_range 0 n body 0 = Ok (zsum n (fun i => x i * y i)).
Proof.
  intros H HB. unfold for_range. rewrite Nat.sub_0_r. revert H HB.
  induction n as [|n IH]; intros H HB; [reflexivity|].
  pose proof (zsum_nonneg n (fun i => Z.abs (x i * y i)) ltac:(intros; apply Z.abs_nonneg)) as HN.
  simpl in HB. rewrite seq_S, for_each_app, IH by (intros; try apply H; lia). simpl.
  rewrite H by lia. simpl. rewrite bounded_ok by lia. simpl.
  pose proof (zsum_abs n (fun i => x i * y i)).
  rewrite bounded_ok by (cbv beta in *; lia). reflexivity.
Qed.

Lemma b_dot_loop (u v : list Z) : length u = length v ->
  zsum (length u) (fun i => Z.abs (nth i u 0 * nth i v 0)) <= B ->
  for_each (fun '(l, r) sum => prod <- r_mul O l r ;; r_add O sum prod) (combine u v) 0
  = Ok (zsum (length u) (fun i => nth i u 0 * nth i v 0)).
Proof.
  intros Hl HB. rewrite (combine_as_map u v 0 0 Hl), for_each_map.
  pose proof (b_products (length u) (fun i => nth i u 0) (fun i => nth i v 0)
    (fun i s => p <- r_mul O (nth i u 0) (nth i v 0) ;; r_add O s p)) as F.
  unfold for_range in F. rewrite Nat.sub_0_r in F. apply F; [reflexivity|exact HB].
Qed.

Lemma b_svector_dot n (u v : svector Z n) :
  zsum n (fun i => Z.abs (vec_at z_sig u i * vec_at z_sig v i)) <= B ->
  svector_dot_ref O u v = Ok (zsum n (fun i => vec_at z_sig u i * vec_at z_sig v i)).
Proof.
  intros HB. unfold svector_dot_ref.
  pose proof (b_dot_loop (entries u) (entries v)) as F. rewrite !entries_length in F.
  apply F; [reflexivity|exact HB].
Qed.

Lemma b_dvector_dot (u v : list Z) : length u = length v ->
  zsum (length u) (fun i => Z.abs (nth i u 0 * nth i v 0)) <= B ->
  dvector_dot_ref 0 (r_add O) (r_mul O) (fun x => Ok x) u v = Ok (zsum (length u) (fun i => nth i u 0 * nth i v 0)).
Proof. exact (b_dot_loop u v). Qed.

Lemma b_smatrix_mul L M N (a : smatrix Z L M) (b : smatrix Z M N) :
  (forall l n, (l < L)%nat -> (n < N)%nat -> zsum M (fun m => Z.abs (mat_at z_sig a l m * mat_at z_sig b m n)) <= B) ->
  smatrix_mul_refs O a b
  = Ok (mtab L N (fun l n => zsum M (fun m => mat_at z_sig a l m * mat_at z_sig b m n))).
Proof.
  intros HB. unfold smatrix_mul_refs, mtab. apply array_gen_tab0. intros l Hl.
  rewrite (array_gen_tab0 N _ (fun n => zsum M (fun m => mat_at z_sig a l m * mat_at z_sig b m n))).
  - simpl. do 2 f_equal. lia.
  - intros n Hn. change (r_zero O) with 0.
    rewrite (b_products M (fun m => mat_at z_sig a l m) (fun m => mat_at z_sig b m n)).
    + simpl. do 2 f_equal. lia.
    + intros m s Hm.
      rewrite (array_get_ok (tab M (fun _ => 0))) by exact Hl. cbn [bind].
      rewrite (array_get_ok 0) by exact Hm. cbn [bind].
      rewrite (array_get_ok (tab N (fun _ => 0))) by exact Hm. cbn [bind].
      rewrite (array_get_ok 0) by exact Hn. cbn [bind].
      rewrite !(mat_at_ent z_sig a l m (tab M (fun _ => 0))) by exact Hl.
      rewrite !(mat_at_ent z_sig b m n (tab N (fun _ => 0))) by exact Hm. reflexivity.
    + apply HB; assumption.
Qed.

Lemma b_smatrix_mul_vec M N (a : smatrix Z M N) (v : svector Z N) :
  (forall i, (i < M)%nat -> zsum N (fun j => Z.abs (mat_at z_sig a i j * vec_at z_sig v j)) <= B) ->
  smatrix_mul_vec O a v = Ok (tab M (fun i => zsum N (fun j => mat_at z_sig a i j * vec_at z_sig v j))).
Proof.
  intros HB. unfold smatrix_mul_vec. apply array_gen_tab0. intros i Hi.
  rewrite (array_get_ok (tab N (fun _ => 0))) by exact Hi. cbn [bind].
  unfold svector_into_iter.
  assert (E : forall j, nth j (entries (ent (tab N (fun _ => 0)) a i)) 0 = mat_at z_sig a i j)
    by (intros j; symmetry; apply (mat_at_ent z_sig a i j (tab N (fun _ => 0)) Hi)).
  change (r_zero O) with 0.
  rewrite b_dot_loop.
  - cbn [bind]. rewrite entries_length. do 2 f_equal; [|lia]. apply zsum_ext. intros j _. rewrite E. reflexivity.
  - rewrite !entries_length. reflexivity.
  - rewrite entries_length. erewrite zsum_ext; [exact (HB i Hi)|]. intros j _. cbv beta. rewrite E. reflexivity.
Qed.

Lemma b_fold_products n (x y : nat -> Z) (p : N -> outcome Z) :
  (forall i, (i <= N.of_nat n)%N -> p i = r_mul O (x (N.to_nat i)) (y (N.to_nat i))) ->
  zsum (S n) (fun i => Z.abs (x i * y i)) <= B ->
  fold_products (r_add O) p (N.of_nat (S n))
  = Ok (zsum (S n) (fun i => x i * y i)).
Proof.
  intros Hp HB. unfold fold_products.
  pose proof (zsum_term (S n) (fun i => Z.abs (x i * y i)) 0 ltac:(intros; apply Z.abs_nonneg) ltac:(lia)) as H0.
  rewrite Hp by lia.
  cbn [bounded_ops r_mul r_add]. change (N.to_nat 0) with 0%nat.
  rewrite bounded_ok by (cbv beta in H0; lia). cbn [bind].
  unfold urange_from. rewrite Nat2N.id. change (N.to_nat 1) with 1%nat. change (S n - 1)%nat with (n - 0)%nat. rewrite Nat.sub_0_r.
  revert Hp HB; induction n as [|n IH]; intros Hp HB; [simpl; f_equal; ring|].
  change (zsum (S (S n)) (fun i => Z.abs (x i * y i))) with (zsum (S n) (fun i => Z.abs (x i * y i)) + Z.abs (x (S n) * y (S n))) in HB.
  rewrite seq_S, map_app, for_each_app.
  pose proof (zsum_term (S n) (fun i => Z.abs (x i * y i)) 0 ltac:(intros; apply Z.abs_nonneg) ltac:(lia)) as H1. cbv beta in H1.
  rewrite IH; [|lia|intros; apply Hp; lia|lia].
  cbn [bind map for_each]. rewrite Hp by lia. rewrite Nat2N.id. change (1 + n)%nat with (S n).
  pose proof (zsum_nonneg (S n) (fun i => Z.abs (x i * y i)) ltac:(intros; apply Z.abs_nonneg)) as HN.
  pose proof (zsum_abs (S n) (fun i => x i * y i)) as HA. cbv beta in HN, HA.
  cbn [bounded_ops r_mul r_add].
  rewrite bounded_ok by lia. cbn [bind].
  rewrite bounded_ok by lia. reflexivity.
Qed.

Lemma b_dmatrix_mul md (a b : dmatrix Z) : dm_wf md a -> dm_wf md b -> dm_cols a = dm_rows b -> (1 <= dm_cols a)%N ->
  (forall r c, (r < dm_rows a)%N -> (c < dm_cols b)%N ->
    zsum (N.to_nat (dm_cols a)) (fun m => Z.abs (dm_at z_sig a r (N.of_nat m) * dm_at z_sig b (N.of_nat m) c)) <= B) ->
  (e <- dmatrix_mul md (r_mul O) (r_add O) a b ;; m_eval e)
  = Ok (dm_tab (dm_rows a) (dm_cols b) (fun r c =>
      zsum (N.to_nat (dm_cols a)) (fun m => dm_at z_sig a r (N.of_nat m) * dm_at z_sig b (N.of_nat m) c))).
Proof.
  intros Wa Wb E H1 HB. unfold dmatrix_mul. rewrite assert_eq_true by (apply N.eqb_eq; exact E). cbn [bind m_eval].
  unfold mexpr_default_eval. rewrite (mapM_total _ (fun '(r, c) => zsum (N.to_nat (dm_cols a))
        (fun m => dm_at z_sig a r (N.of_nat m) * dm_at z_sig b (N.of_nat m) c))); [reflexivity|].
  intros [r c] Hi. apply in_index_pairs in Hi as [Hr Hc]. rewrite mul_entry_mean by assumption.
  specialize (HB r c Hr Hc).
  destruct (N.to_nat (dm_cols a)) as [|n] eqn:En; [lia|].
  assert (Ek : dm_cols a = N.of_nat (S n)) by lia. rewrite Ek at 1.
  apply (b_fold_products n (fun m => dm_at z_sig a r (N.of_nat m)) (fun m => dm_at z_sig b (N.of_nat m) c)); [|exact HB].
  intros i Hi. rewrite (row_major_dm_at (md:=md) z_sig) by (assumption || lia). rewrite (row_major_dm_at (md:=md) z_sig) by (assumption || lia).
  cbn [some_ok bind]. rewrite N2Nat.id. reflexivity.
Qed.

(** ** Products of polynomials: the run on the absolute values dominates. *)
Lemma mono_loop {A S} (Le : S -> S -> Prop) (Inv Good : S -> Prop) (f g : A -> S -> outcome S) l s s' :
  (forall x, Le x x) -> (forall x y z, Le x y -> Le y z -> Le x z) ->
  (forall x y, Le x y -> Good y -> Good x) ->
  (forall a x x', Inv x -> g a x = Ok x' -> Le x x' /\ Inv x' /\ (Good x' -> f a x = Ok x')) ->
  Inv s -> for_each g l s = Ok s' -> Le s s' /\ Inv s' /\ (Good s' -> for_each f l s = Ok s').
Proof.
  intros Rf Tr Dn H. revert s. induction l as [|a l IH]; intros s Hs Hg; simpl in *.
  - injection Hg as <-. auto.
  - destruct (g a s) as [s1| |] eqn:E; simpl in Hg; try discriminate.
    destruct (H a s s1 Hs E) as (L1 & I1 & F1). destruct (IH s1 I1 Hg) as (L2 & I2 & F2).
    split; [eapply Tr; eassumption|]. split; [exact I2|]. intros G.
    rewrite F1 by (eapply Dn; eassumption). simpl. apply F2, G.
Qed.

Lemma bounded_sim : ring_sim overflow eq O z_ops.
Proof.
  assert (H : forall z, sim overflow eq (bounded B z) (Ok z)).
  { intros z. unfold bounded. destruct (Z.abs z <=? B); [apply sim_ok; reflexivity|left; reflexivity]. }
  constructor; cbn [bounded_ops z_ops r_zero r_one r_add r_sub r_mul r_neg]; intros; subst; try reflexivity; apply H.
Qed.

Definition maj_ops : RingOps Z := {|
  r_zero := 0; r_one := 1;
  r_add := fun x y => bounded B (x + y);
  r_sub := fun x y => bounded B (x + y);
  r_mul := fun x y => bounded B (x * y);
  r_neg := fun x => bounded B x;
  r_eqb := Z.eqb
|}.

Lemma maj_sim_aux z z' : Z.abs z' <= z -> sim overflow (fun a b => Z.abs b <= a) (bounded B z) (bounded B z').
Proof.
  intros H. unfold bounded. destruct (Z.leb_spec (Z.abs z) B) as [L|L]; [|left; reflexivity].
  rewrite (proj2 (Z.leb_le _ _)) by lia. apply sim_ok, H.
Qed.

Lemma maj_sim : ring_sim overflow (fun a b => Z.abs b <= a) maj_ops O.
Proof.
  constructor; cbn [maj_ops bounded_ops r_zero r_one r_add r_sub r_mul r_neg]; try (cbn; lia).
  - intros; apply maj_sim_aux; lia.
  - intros; apply maj_sim_aux; lia.
  - intros; apply maj_sim_aux. rewrite Z.abs_mul. apply Z.mul_le_mono_nonneg; lia.
  - intros; apply maj_sim_aux; lia.
Qed.

Definition zle := Forall2 Z.le.
Definition nonneg := Forall (fun z => 0 <= z).
Definition small := Forall (fun z => z <= B).

Lemma zle_refl l : zle l l.
Proof. induction l; constructor; [lia|assumption]. Qed.
Lemma zle_trans a b c : zle a b -> zle b c -> zle a c.
Proof.
  intros H. revert c. induction H; intros c H'; inversion H'; subst; constructor; [lia|]. apply IHForall2. assumption.
Qed.
Lemma zle_small a b : zle a b -> small b -> small a.
Proof. induction 1; intros H'; inversion H'; subst; constructor; [lia|]. apply IHForall2. assumption. Qed.

Lemma maj_step (p q : list Z) i j t t' : nonneg p -> nonneg q -> nonneg t ->
  (x <- vget p i ;; y <- vget q j ;; prod <- r_mul z_ops x y ;; vupd t (i + j) (fun s => r_add z_ops s prod)) = Ok t' ->
  zle t t' /\ nonneg t' /\
  (small t' ->
   (x <- vget p i ;; y <- vget q j ;; prod <- r_mul maj_ops x y ;; vupd t (i + j) (fun s => r_add maj_ops s prod)) = Ok t').
Proof.
  intros Np Nq Nt. unfold vupd.
  destruct (vget p i) as [x| |] eqn:Ex; simpl; try discriminate.
  destruct (vget q j) as [y| |] eqn:Ey; simpl; try discriminate.
  destruct (vget t (i + j)) as [s| |] eqn:Es; simpl; try discriminate.
  assert (G : forall (l : list Z) n z, vget l n = Ok z -> nth_error l n = Some z).
  { intros l n z. unfold vget. destruct (nth_error l n); congruence. }
  apply G in Ex, Ey. pose proof (G _ _ _ Es) as Es'.
  assert (Hx : 0 <= x) by (eapply (proj1 (Forall_forall _ _) Np), nth_error_In; eassumption).
  assert (Hy : 0 <= y) by (eapply (proj1 (Forall_forall _ _) Nq), nth_error_In; eassumption).
  assert (Hs : 0 <= s) by (eapply (proj1 (Forall_forall _ _) Nt), nth_error_In; eassumption).
  assert (Hxy : 0 <= x * y) by (apply Z.mul_nonneg_nonneg; assumption).
  assert (Hi : (i + j < length t)%nat) by (apply nth_error_Some; congruence).
  intros Ht. assert (E : t' = list_upd t (i + j) (s + x * y)).
  { rewrite vset_ok in Ht by exact Hi. congruence. }
  subst t'. set (v := s + x * y) in *.
  assert (L : forall (l : list Z) n z w, nth_error l n = Some z -> z <= w -> zle l (list_upd l n w)).
  { clear. induction l as [|a l IH]; intros [|n] z w H Hw; simpl in *; try discriminate.
    - injection H as ->. constructor; [exact Hw|apply zle_refl].
    - constructor; [lia|]. eapply IH; eassumption. }
  assert (N : forall (l : list Z) n w (Q : Z -> Prop), Forall Q l -> Q w -> Forall Q (list_upd l n w)).
  { clear. induction l as [|a l IH]; intros [|n] w Q H Hw; inversion H; subst; simpl; constructor; auto. }
  split; [|split].
  - eapply L; [exact Es'|unfold v; lia].
  - apply N; [exact Nt|unfold v; lia].
  - intros Sm. assert (Hv : v <= B).
    { assert (nth_error (list_upd t (i + j) v) (i + j) = Some v).
      { clear - Hi. revert Hi. generalize (i + j)%nat as n. induction t as [|a t IH]; intros [|n] Hi; simpl in *; try lia; [reflexivity|]. apply IH. lia. }
      eapply (proj1 (Forall_forall _ _) Sm), nth_error_In; eassumption. }
    unfold v in Hv. cbn [maj_ops r_mul r_add]. rewrite bounded_ok by lia. cbn [bind].
    rewrite bounded_ok by lia. cbn [bind]. fold v. apply vset_ok. exact Hi.
Qed.

Lemma maj_poly_mul p q r : nonneg p -> nonneg q -> poly_mul_ref z_ops p q = Ok r -> small r ->
  poly_mul_ref maj_ops p q = Ok r.
Proof.
  intros Np Nq. unfold poly_mul_ref.
  destruct ((length p =? 0)%nat || (length q =? 0)%nat); [intros H _; exact H|].
  change (r_zero maj_ops) with (r_zero z_ops).
  match goal with |- (bind ?m _) = _ -> _ => destruct m as [a| |] eqn:E end; cbn [bind]; try discriminate.
  intros H Sm. unfold poly_from_coefficients in *. injection H as <-.
  unfold for_range in *.
  match type of E with for_each ?g0 ?l0 ?s0 = _ =>
    destruct (mono_loop zle nonneg small (fun i a => for_each (fun j a =>
       x <- vget p i ;; y <- vget q j ;; prod <- r_mul maj_ops x y ;;
       vupd a (i + j) (fun s => r_add maj_ops s prod)) (seq 0 (length q - 0)) a) g0 l0 s0 a
       zle_refl zle_trans zle_small) as (_ & _ & F)
  end.
  - intros i t t' Nt Ht. eapply (mono_loop zle nonneg small); [apply zle_refl|apply zle_trans|apply zle_small| |exact Nt|exact Ht].
    intros j u u' Nu Hu. apply maj_step; assumption.
  - apply Forall_forall. intros z Hz. apply repeat_spec in Hz. subst z. simpl. lia.
  - exact E.
  - rewrite (F Sm). reflexivity.
Qed.

Lemma b_poly_mul p q :
  (forall k, zsum (S k) (fun i => Z.abs (nth i p 0) * Z.abs (nth (k - i) q 0)) <= B) ->
  poly_mul_ref O p q = poly_mul_ref z_ops p q.
Proof.
  intros HB.
  destruct (poly_mul_ref_spec z_ops z_sig z_implements z_laws (map Z.abs p) (map Z.abs q)) as (r & E & _ & Hk).
  assert (Na : forall l, nonneg (map Z.abs l)).
  { intros l. apply Forall_forall. intros z Hz. apply in_map_iff in Hz as (x & <- & _). lia. }
  assert (Sm : small r).
  { apply Forall_forall. intros z Hz. apply In_nth with (d := 0) in Hz as (k & _ & Ek).
    specialize (Hk k). specialize (HB k). unfold coeff in Hk. cbn [same z_sig sz] in Hk.
    rewrite Ek in Hk. rewrite Hk. unfold convolution. rewrite <- zsum_sum_n.
    erewrite zsum_ext; [exact HB|]. intros i _. cbv beta. cbn [z_sig smul].
    unfold coeff. cbn [z_sig sz]. rewrite <- (map_nth Z.abs p 0 i), <- (map_nth Z.abs q 0 (k - i)). reflexivity. }
  pose proof (maj_poly_mul _ _ _ (Na p) (Na q) E Sm) as EM.
  assert (RA : forall l, Forall2 (fun a b => Z.abs b <= a) (map Z.abs l) l) by (induction l; constructor; [lia|assumption]).
  pose proof (sim_poly_mul overflow _ _ _ maj_sim _ _ _ _ (RA p) (RA q)) as S1.
  rewrite EM in S1. destruct S1 as (rb & Eb & _).
  pose proof (sim_poly_mul overflow _ _ _ bounded_sim _ _ _ _ (Forall2_refl p) (Forall2_refl q)) as S2.
  rewrite Eb in S2. destruct S2 as (rz & Ez & Hz). rewrite Eb, Ez. f_equal. apply Forall2_eq_iff, Hz.
Qed.
End B.
