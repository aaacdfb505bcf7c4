(** Whatever implements the bounded integers computes exactly on small integer data.
    (Proof device for C56 and C57.) *)
From Coq Require Import List Arith ZArith NArith Lia Bool.
From Verif Require Import Base.Outcome Base.Usize Base.Array Base.Sim Model.Traits Model.Polynomial
  Model.Complex Model.SVector Model.SMatrix Model.DVector Model.DMatrix
  Spec.Ring Spec.Sums Spec.Int Spec.Matrix Spec.Polynomial Spec.DExpr Spec.DMatrix Spec.Bounded
  Proofs.IntegerRing Proofs.PolynomialProofs Proofs.SMatrixProofs Proofs.DExprProofs Proofs.DVectorProofs Proofs.DMatrixProofs
  Proofs.RingSim Proofs.PolyPartial Proofs.IntProofs Proofs.Bounded.
Import ListNotations.
Local Open Scope Z_scope.

Lemma Forall2_flip' {A B} (R : A -> B -> Prop) l1 l2 : Forall2 R l1 l2 -> Forall2 (fun b a => R a b) l2 l1.
Proof. induction 1; constructor; assumption. Qed.

Section E.
Context {T : Type} (O : RingOps T) (rep : T -> Z -> Prop) (B : Z) (HB0 : 0 <= B).
Notation R := (fun z x => rep x z).
Context (HS : ring_sim overflow R (bounded_ops B) O).

Lemma rep_zero : rep (r_zero O) 0.
Proof. exact (rs_zero _ _ _ _ HS). Qed.

Lemma rep_nth r rz k : Forall2 R rz r -> rep (nth k r (r_zero O)) (nth k rz 0).
Proof.
  intros H. revert k. induction H as [|a b rz r Hab H IH]; intros [|k]; simpl; try apply rep_zero; [exact Hab|apply IH].
Qed.

Lemma bound_zip (f : Z -> Z -> Z) a b : (forall k, Z.abs (f (nth k a 0) (nth k b 0)) <= B) ->
  exists r, zipM (fun x y => bounded B (f x y)) a b = Ok r.
Proof.
  intros H. apply mapM_ok_iff. intros [x y] Hin.
  apply In_nth with (d := (0, 0)) in Hin as (k & Hk & E).
  assert (E1 : x = nth k a 0 /\ y = nth k b 0).
  { clear - Hk E. revert b k Hk E. induction a as [|a0 a IH]; intros [|b0 b] [|k] Hk E; simpl in *; try lia.
    - injection E as <- <-. auto.
    - apply IH; [lia|exact E]. }
  destruct E1 as [-> ->]. exists (f (nth k a 0) (nth k b 0)). apply bounded_ok, H.
Qed.

Lemma b_poly_add p q : (forall k, Z.abs (nth k p 0 + nth k q 0) <= B) ->
  exists r, poly_add (bounded_ops B) p q = Ok r /\ forall k, nth k r 0 = nth k p 0 + nth k q 0.
Proof.
  intros H.
  assert (E : exists r, poly_add (bounded_ops B) p q = Ok r).
  { rewrite add_zipM. cbn [bounded_ops r_add]. destruct (length p <? length q)%nat.
    - destruct (bound_zip Z.add q p) as (r & ->); [intros; rewrite Z.add_comm; apply H|]. eexists; reflexivity.
    - destruct (bound_zip Z.add p q) as (r & ->); [exact H|]. eexists; reflexivity. }
  destruct E as (r & E). exists r. split; [exact E|].
  pose proof (sim_poly_add overflow _ _ _ (bounded_sim B) _ _ _ _ (Forall2_refl p) (Forall2_refl q)) as S.
  rewrite E in S. destruct S as (rz & Ez & Hz). apply Forall2_eq_iff in Hz. subst rz.
  destruct (poly_add_spec z_ops z_sig z_implements z_laws p q) as (r' & E' & _ & Hk).
  rewrite Ez in E'. injection E' as <-. exact Hk.
Qed.

Lemma b_poly_neg q : (forall k, Z.abs (nth k q 0) <= B) ->
  poly_neg (bounded_ops B) q = Ok (map Z.opp q).
Proof.
  intros H. unfold poly_neg. cbn [bounded_ops r_neg]. induction q as [|x q IH]; [reflexivity|].
  cbn [mapM map]. rewrite bounded_ok by (specialize (H 0%nat); simpl in H; lia). cbn [bind].
  rewrite IH by (intros k; exact (H (S k))). reflexivity.
Qed.

Lemma entries_tab_nth {A} n (l : list A) d : length l = n -> entries (tab n (fun i => nth i l d)) = l.
Proof.
  revert l. induction n as [|n IH]; intros [|x l] H; simpl in *; try lia; [reflexivity|]. f_equal. apply IH. lia.
Qed.

Lemma svec_int n (u : svector T n) uz : Forall2 rep (entries u) uz ->
  arel R (tab n (fun i => nth i uz 0)) u.
Proof.
  intros H. unfold arel. pose proof (Forall2_length _ _ _ H) as L. rewrite entries_length in L.
  rewrite entries_tab_nth by congruence. apply Forall2_flip', H.
Qed.

Lemma smat_int m n (a : smatrix T m n) az :
  Forall2 (fun row rz => Forall2 rep (entries row) rz) (entries a) az ->
  arel (arel R) (mtab m n (fun i j => nth j (nth i az []) 0)) a.
Proof.
  intros H. unfold arel, mtab. pose proof (Forall2_length _ _ _ H) as L. rewrite entries_length in L.
  replace (entries (tab m (fun i => tab n (fun j => nth j (nth i az []) 0))))
    with (map (fun rz => tab n (fun j => nth j rz 0)) az).
  - clear L. induction H; simpl; constructor; [apply svec_int; assumption|assumption].
  - clear H. revert m L a. induction az as [|rz az IH]; intros [|m] L a; simpl in *; try lia; [reflexivity|].
    f_equal. apply IH; [lia|]. exact (atl a).
Qed.

Lemma mtab_ext {A} m n (f g : nat -> nat -> A) : (forall i j, (i < m)%nat -> (j < n)%nat -> f i j = g i j) ->
  mtab m n f = mtab m n g.
Proof. intros H. apply tab_ext. intros i Hi. apply tab_ext. intros j Hj. apply H; assumption. Qed.

Lemma mat_rows m n (r : smatrix T m n) f : arel (arel R) (mtab m n f) r ->
  Forall2 (fun row rz => Forall2 rep (entries row) rz) (entries r) (map (fun i => map (f i) (seq 0 n)) (seq 0 m)).
Proof.
  unfold arel, mtab. rewrite entries_tab. generalize (seq 0 m) as s. generalize (entries r) as rows.
  induction rows as [|row rows IH]; intros [|i s] H; inversion H as [|? ? ? ? Hr Hs]; subst; simpl; constructor.
  - rewrite entries_tab in Hr. apply Forall2_flip', Hr.
  - apply IH, Hs.
Qed.

Lemma exact_small : exact_while_small O rep B.
Proof.
  constructor.
  - intros p x pz xz Hp Hx HM.
    destruct (b_eval B pz xz HM) as [E _].
    pose proof (sim_poly_eval overflow _ _ _ HS _ _ _ _ (Forall2_flip' _ _ _ Hp) Hx) as S.
    rewrite E in S. destruct S as (y & Ey & Hy). exists y. split; [exact Ey|exact Hy].
  - intros p q pz qz Hp Hq HM. destruct (b_poly_add pz qz HM) as (rz & E & Hk).
    pose proof (sim_poly_add overflow _ _ _ HS _ _ _ _ (Forall2_flip' _ _ _ Hp) (Forall2_flip' _ _ _ Hq)) as S.
    rewrite E in S. destruct S as (y & Ey & Hy). exists y. split; [exact Ey|].
    intros k. rewrite <- Hk. apply rep_nth, Hy.
  - intros p q pz qz Hp Hq HM.
    destruct (b_poly_add pz (map Z.opp qz)) as (rz & E & Hk).
    { intros k. specialize (HM k). change 0 with (- 0) at 2. rewrite map_nth. lia. }
    pose proof (sim_poly_sub overflow _ _ _ HS _ _ _ _ (Forall2_flip' _ _ _ Hp) (Forall2_flip' _ _ _ Hq)) as S.
    unfold poly_sub at 1 in S. rewrite b_poly_neg in S by apply HM. cbn [bind] in S.
    rewrite E in S. destruct S as (y & Ey & Hy). exists y. split; [exact Ey|].
    intros k. replace (nth k pz 0 - nth k qz 0) with (nth k rz 0); [apply rep_nth, Hy|].
    rewrite Hk. change 0 with (- 0) at 2. rewrite map_nth. lia.
  - intros p q pz qz Hp Hq HM.
    destruct (poly_mul_ref_spec z_ops z_sig z_implements z_laws pz qz) as (rz & E & _ & Hk).
    pose proof (sim_poly_mul overflow _ _ _ HS _ _ _ _ (Forall2_flip' _ _ _ Hp) (Forall2_flip' _ _ _ Hq)) as S.
    rewrite (b_poly_mul B) in S by exact HM. rewrite E in S. destruct S as (y & Ey & Hy). exists y. split; [exact Ey|].
    intros k. rewrite zsum_sum_n. specialize (Hk k). unfold convolution in Hk. cbn [z_sig smul same] in Hk.
    unfold coeff in Hk. cbn [z_sig sz] in Hk. rewrite <- Hk. apply rep_nth, Hy.
  - intros z w a b c d Ha Hb Hc Hd H1 H2.
    pose proof (sim_complex_mul overflow _ _ _ HS (Cx a b) z (Cx c d) w (conj Ha Hb) (conj Hc Hd)) as S.
    unfold complex_mul_ref at 1 in S. cbn [re im bounded_ops r_mul r_add r_sub] in S.
    repeat (rewrite bounded_ok in S by lia; cbn [bind] in S).
    destruct S as (r & Er & Hr1 & Hr2). exists r. split; [exact Er|]. split; assumption.
  - intros z a b Ha Hb H. rewrite !Z.pow_2_r in *.
    pose proof (sim_complex_sqr_norm overflow _ _ _ HS (Cx a b) z (conj Ha Hb)) as S.
    unfold complex_sqr_norm at 1 in S. cbn [re im bounded_ops r_mul r_add r_sub] in S.
    pose proof (Z.square_nonneg a). pose proof (Z.square_nonneg b).
    repeat (rewrite bounded_ok in S by lia; cbn [bind] in S).
    destruct S as (r & Er & Hr). exists r. split; [exact Er|exact Hr].
  - intros n u v uz vz Hu Hv HM.
    pose proof (sim_svector_dot overflow _ _ _ HS n _ _ _ _ (svec_int n u uz Hu) (svec_int n v vz Hv)) as S.
    assert (En : forall l i, (i < n)%nat -> vec_at z_sig (tab n (fun i => nth i l 0)) i = nth i l 0)
      by (intros; apply (vec_at_tab z_sig); assumption).
    rewrite (b_svector_dot B) in S.
    + destruct S as (r & Er & Hr). exists r. split; [exact Er|].
      erewrite zsum_ext; [exact Hr|]. intros i Hi. cbv beta. rewrite !En by exact Hi. reflexivity.
    + erewrite zsum_ext; [exact HM|]. intros i Hi. cbv beta. rewrite !En by exact Hi. reflexivity.
  - intros u v uz vz Hu Hv L HM.
    pose proof (Forall2_length _ _ _ Hu). pose proof (Forall2_length _ _ _ Hv).
    pose proof (sim_dvector_dot overflow _ _ _ HS (fun x => Ok x) (fun x => Ok x) _ _ _ _
      (fun x1 x2 H => sim_ok _ R x1 x2 H) (Forall2_flip' _ _ _ Hu) (Forall2_flip' _ _ _ Hv)) as S.
    change (r_zero (bounded_ops B)) with 0 in S.
    rewrite (b_dvector_dot B) in S by (try congruence; exact HM).
    destruct S as (r & Er & Hr). exists r. split; [exact Er|exact Hr].
  - intros l m n a b az bz Ha Hb HM.
    pose proof (sim_smatrix_mul overflow _ _ _ HS l m n _ _ _ _ (smat_int _ _ a az Ha) (smat_int _ _ b bz Hb)) as S.
    assert (EE : forall i j, (i < l)%nat -> (j < n)%nat -> forall k, (k < m)%nat ->
       mat_at z_sig (mtab l m (fun i j => nth j (nth i az []) 0)) i k = nth k (nth i az []) 0
       /\ mat_at z_sig (mtab m n (fun i j => nth j (nth i bz []) 0)) k j = nth j (nth k bz []) 0)
      by (intros; split; apply (mat_at_tab z_sig); assumption).
    rewrite (b_smatrix_mul B) in S.
    + destruct S as (r & Er & Hr). exists r.
      exists (map (fun i => map (fun j => zsum m (fun k => nth k (nth i az []) 0 * nth j (nth k bz []) 0)) (seq 0 n)) (seq 0 l)).
      split; [exact Er|]. split.
      * apply (mat_rows _ _ _ (fun i j => zsum m (fun k => nth k (nth i az []) 0 * nth j (nth k bz []) 0))). erewrite mtab_ext; [exact Hr|]. intros i j Hi Hj. cbv beta. apply zsum_ext. intros k Hk.
        destruct (EE i j Hi Hj k Hk) as [-> ->]. reflexivity.
      * intros i j Hi Hj. rewrite nth_map_seq by exact Hi. apply (nth_map_seq (fun j => zsum m (fun k => nth k (nth i az []) 0 * nth j (nth k bz []) 0))). exact Hj.
    + intros i j Hi Hj. erewrite zsum_ext; [exact (HM i j Hi Hj)|]. intros k Hk. cbv beta.
      destruct (EE i j Hi Hj k Hk) as [-> ->]. reflexivity.
  - intros m n a v az vz Ha Hv HM.
    pose proof (sim_smatrix_mul_vec overflow _ _ _ HS m n _ _ _ _ (smat_int _ _ a az Ha) (svec_int _ v vz Hv)) as S.
    assert (EE : forall i j, (i < m)%nat -> (j < n)%nat ->
       mat_at z_sig (mtab m n (fun i j => nth j (nth i az []) 0)) i j = nth j (nth i az []) 0
       /\ vec_at z_sig (tab n (fun j => nth j vz 0)) j = nth j vz 0)
      by (intros; split; [apply (mat_at_tab z_sig)|apply (vec_at_tab z_sig)]; assumption).
    rewrite (b_smatrix_mul_vec B) in S.
    + destruct S as (r & Er & Hr). exists r.
      exists (map (fun i => zsum n (fun j => nth j (nth i az []) 0 * nth j vz 0)) (seq 0 m)).
      split; [exact Er|]. split.
      * apply Forall2_flip'. rewrite <- entries_tab. erewrite tab_ext; [exact Hr|].
        intros i Hi. cbv beta. apply zsum_ext. intros j Hj. destruct (EE i j Hi Hj) as [-> ->]. reflexivity.
      * intros i Hi. apply (nth_map_seq (fun i => zsum n (fun j => nth j (nth i az []) 0 * nth j vz 0))). exact Hi.
    + intros i Hi. erewrite zsum_ext; [exact (HM i Hi)|]. intros j Hj. cbv beta.
      destruct (EE i j Hi Hj) as [-> ->]. reflexivity.
  - intros md a b az bz Wa Wb E H1 Ha Hb HM.
    set (ia := MkDM az (dm_rows a) (dm_cols a)). set (ib := MkDM bz (dm_rows b) (dm_cols b)).
    assert (Ra : dmrel R ia a) by (split; [apply Forall2_flip', Ha|split; reflexivity]).
    assert (Rb : dmrel R ib b) by (split; [apply Forall2_flip', Hb|split; reflexivity]).
    assert (Wia : dm_wf md ia) by (unfold dm_wf, ulen in *; cbn [ia dm_data dm_rows dm_cols]; rewrite <- (Forall2_length _ _ _ Ha); exact Wa).
    assert (Wib : dm_wf md ib) by (unfold dm_wf, ulen in *; cbn [ib dm_data dm_rows dm_cols]; rewrite <- (Forall2_length _ _ _ Hb); exact Wb).
    pose proof (sim_dmatrix_product overflow _ _ _ HS md _ _ _ _ Ra Rb) as S.
    rewrite (b_dmatrix_mul B md ia ib Wia Wib E H1 HM) in S.
    destruct S as (r & Er & Hd & Hr & Hc). exists r.
    eexists. split; [exact Er|]. split; [symmetry; exact Hr|]. split; [symmetry; exact Hc|].
    split; [apply Forall2_flip', Hd|]. intros i j Hi Hj.
    match goal with |- nth _ (dm_data (dm_tab _ _ ?g)) _ = _ =>
      pose proof (dm_at_tab z_sig (dm_rows a) (dm_cols b) g i j Hi Hj) as D end.
    exact D.
Qed.
End E.
