(** Early evaluation changes nothing. *)
From Coq Require Import List Arith NArith Lia Bool.
From Verif Require Import Base.Outcome Base.Usize Model.DVector Model.DMatrix Model.DExpr
  Spec.DExpr Spec.Early Proofs.DExprProofs.
Import ListNotations.

(** An evaluated matrix has the entries of the expression. *)
Lemma mapM_pairs_wf {T} rows cols (f : N -> N -> outcome T) data :
  mapM (fun '(r, c) => f r c) (index_pairs rows cols) = Ok data ->
  ulen data = (rows * cols)%N /\
  (forall r c, (r < rows)%N -> (c < cols)%N ->
     f r c = some_ok (nth_error data (N.to_nat (r * cols + c)))).
Proof.
  intros H. split.
  - apply mapM_length in H. rewrite index_pairs_length in H. unfold ulen. lia.
  - intros r c Hr Hc.
    destruct (mapM_nth _ _ _ _ _ H (index_pairs_nth rows cols r c Hr Hc)) as (y & E & Hy).
    rewrite Hy. exact E.
Qed.

Lemma mapM_range {T} len (f : N -> outcome T) data :
  mapM f (urange len) = Ok data ->
  ulen data = len /\ (forall i, (i < len)%N -> f i = some_ok (nth_error data (N.to_nat i))).
Proof.
  intros H. split.
  - apply mapM_length in H. rewrite urange_length in H. unfold ulen. lia.
  - intros i Hi.
    assert (Hn : nth_error (urange len) (N.to_nat i) = Some i).
    { rewrite nth_urange by lia. f_equal. lia. }
    destruct (mapM_nth _ _ _ _ _ H Hn) as (y & E & Hy). rewrite Hy. exact E.
Qed.

Lemma veval_spec md {T} (e : vx T) : vproper md e -> vmatch e = true ->
  veval md e = mapM (vmean e) (urange (vshape e)).
Proof.
  intros Hp Hm. destruct (proj1 (proj1 (build_correct md) T e Hp) Hm) as (b & E & S).
  unfold veval. rewrite E. apply (vs_eval _ _ _ S).
Qed.
Lemma veval_bad md {T} (e : vx T) : vproper md e -> vmatch e = false -> veval md e = Panic AssertFailed.
Proof.
  intros Hp Hm. unfold veval. rewrite (proj2 (proj1 (build_correct md) T e Hp) Hm). reflexivity.
Qed.
Lemma meval_spec md {T} (e : mx T) : mproper md e -> mmatch e = true ->
  meval md e = (data <- mapM (fun '(r, c) => mmean e r c) (index_pairs (fst (mshape e)) (snd (mshape e))) ;;
                Ok (MkDM data (fst (mshape e)) (snd (mshape e)))).
Proof.
  intros Hp Hm. destruct (proj1 (proj2 (build_correct md) T e Hp) Hm) as (b & E & S).
  unfold meval. rewrite E. apply (ms_eval _ _ _ S).
Qed.
Lemma meval_bad md {T} (e : mx T) : mproper md e -> mmatch e = false -> meval md e = Panic AssertFailed.
Proof.
  intros Hp Hm. unfold meval. rewrite (proj2 (proj2 (build_correct md) T e Hp) Hm). reflexivity.
Qed.

Scheme ve_mind := Induction for vearly Sort Prop
  with me_mind := Induction for mearly Sort Prop.
Combined Scheme ve_me_ind from ve_mind, me_mind.

Definition vsame md {T} (e e' : vx T) : Prop :=
  vproper md e -> vproper md e' /\ vmatch e' = vmatch e /\ vshape e' = vshape e
  /\ (vmatch e = true -> forall i, (i < vshape e)%N -> vmean e' i = vmean e i).
Definition msame md {T} (e e' : mx T) : Prop :=
  mproper md e -> mproper md e' /\ mmatch e' = mmatch e /\ mshape e' = mshape e
  /\ (mmatch e = true -> forall r c, (r < fst (mshape e))%N -> (c < snd (mshape e))%N ->
        mmean e' r c = mmean e r c).

Lemma vsame_now md {T} (e : vx T) v : veval md e = Ok v ->
  vproper md e -> vmatch e = true /\ ulen v = vshape e
  /\ (forall i, (i < vshape e)%N -> some_ok (nth_error v (N.to_nat i)) = vmean e i).
Proof.
  intros E Hp. destruct (vmatch e) eqn:Hm; [|rewrite veval_bad in E by assumption; discriminate].
  rewrite veval_spec in E by assumption. apply mapM_range in E as [Hl H]. repeat split; auto.
  intros i Hi. symmetry. apply H. exact Hi.
Qed.
Lemma msame_now md {T} (e : mx T) m : meval md e = Ok m -> (dm_rows m * dm_cols m < usize_bound md)%N ->
  mproper md e -> mmatch e = true /\ (dm_rows m, dm_cols m) = mshape e /\ dm_wf md m
  /\ (forall r c, (r < fst (mshape e))%N -> (c < snd (mshape e))%N ->
       some_ok (row_major_at m r c) = mmean e r c).
Proof.
  intros E Hb Hp. destruct (mmatch e) eqn:Hm; [|rewrite meval_bad in E by assumption; discriminate].
  rewrite meval_spec in E by assumption. apply bind_Ok_inv in E as (data & E & Hd). injection Hd as <-.
  apply mapM_pairs_wf in E as [Hl H]. simpl in *. repeat split; auto.
  - destruct (mshape e); reflexivity.
  - intros r c Hr Hc. symmetry. apply H; assumption.
Qed.

Lemma early_same md :
  (forall T (e e' : vx T), vearly md e e' -> vsame md e e')
  /\ (forall T (e e' : mx T), mearly md e e' -> msame md e e').
Proof.
  apply ve_me_ind; unfold vsame, msame; intros;
    cbn [vmatch mmatch vproper mproper vshape mshape vmean mmean] in *.
  - repeat split; auto.
  - destruct (vsame_now md _ _ e0 H) as (Hm & Hl & Hv). repeat split; auto.
  - destruct (vsame_now md _ _ e0 H) as (Hm & Hl & Hv). repeat split; auto.
  - destruct (H H1) as (P2 & M2 & S2 & V2). destruct (H0 P2) as (P3 & M3 & S3 & V3).
    repeat split; auto; try congruence. intros Hm i Hi. rewrite V3, V2; auto; try congruence.
  - destruct (H H0) as (P & M & S & V). repeat split; auto. intros Hm i Hi. rewrite V by assumption. reflexivity.
  - destruct H1 as [Q1 Q2]. destruct (H Q1) as (P1 & M1 & S1 & V1). destruct (H0 Q2) as (P2 & M2 & S2 & V2).
    repeat split; auto; try congruence. intros Hm i Hi.
    apply andb_true_iff in Hm as [Hm Hs]. apply andb_true_iff in Hm as [Hm1 Hm2]. apply N.eqb_eq in Hs.
    rewrite V1, V2 by (auto; lia). reflexivity.
  - destruct H1 as [Q1 Q2]. destruct (H Q1) as (P1 & M1 & S1 & V1). destruct (H0 Q2) as (P2 & M2 & S2 & V2).
    repeat split; auto; try congruence. intros Hm i Hi.
    apply andb_true_iff in Hm as [Hm Hs]. apply andb_true_iff in Hm as [Hm1 Hm2]. apply N.eqb_eq in Hs.
    rewrite V1, V2 by (auto; lia). reflexivity.
  - destruct H1 as [Q1 Q2]. destruct (H Q1) as (P1 & M1 & S1 & V1). destruct (H0 Q2) as (P2 & M2 & S2 & V2).
    repeat split; auto; try congruence. intros Hm i Hi.
    apply andb_true_iff in Hm as [Hm Hs]. apply andb_true_iff in Hm as [Hm1 Hm2]. apply N.eqb_eq in Hs.
    rewrite V1, V2 by (auto; lia). reflexivity.
  - destruct (H H0) as (P & M & S & V). repeat split; auto. intros Hm i Hi. rewrite V by assumption. reflexivity.
  - destruct (H H0) as (P & M & S & V). rewrite S. repeat split; auto. intros Hm i Hi.
    destruct (mshape e) as [rr cc]. simpl in *. apply V; auto; lia.
  - repeat split; auto.
  - destruct (msame_now md _ _ e0 l H) as (Hm & Hl & Hw & Hv). repeat split; auto; apply Hw.
  - destruct (msame_now md _ _ e0 l H) as (Hm & Hl & Hw & Hv). repeat split; auto; apply Hw.
  - destruct (H H1) as (P2 & M2 & S2 & V2). destruct (H0 P2) as (P3 & M3 & S3 & V3).
    repeat split; auto; try congruence. intros Hm r c Hr Hc. rewrite V3, V2; auto; try congruence.
  - destruct (H H0) as (P & M & S & V). repeat split; auto. intros Hm r c Hr Hc. rewrite V by assumption. reflexivity.
  - destruct H1 as [Q1 Q2]. destruct (H Q1) as (P1 & M1 & S1 & V1). destruct (H0 Q2) as (P2 & M2 & S2 & V2).
    repeat split; auto; try congruence. intros Hm r c Hr Hc.
    apply andb_true_iff in Hm as [Hm Hs]. apply andb_true_iff in Hm as [Hm1 Hm2].
    apply andb_true_iff in Hs as [Hs1 Hs2]. apply N.eqb_eq in Hs1, Hs2.
    rewrite V1, V2 by (auto; lia). reflexivity.
  - destruct H1 as [Q1 Q2]. destruct (H Q1) as (P1 & M1 & S1 & V1). destruct (H0 Q2) as (P2 & M2 & S2 & V2).
    repeat split; auto; try congruence. intros Hm r c Hr Hc.
    apply andb_true_iff in Hm as [Hm Hs]. apply andb_true_iff in Hm as [Hm1 Hm2].
    apply andb_true_iff in Hs as [Hs1 Hs2]. apply N.eqb_eq in Hs1, Hs2.
    rewrite V1, V2 by (auto; lia). reflexivity.
  - destruct H1 as [Q1 Q2]. destruct (H Q1) as (P1 & M1 & S1 & V1). destruct (H0 Q2) as (P2 & M2 & S2 & V2).
    repeat split; auto; try congruence. intros Hm r c Hr Hc.
    apply andb_true_iff in Hm as [Hm Hs]. apply andb_true_iff in Hm as [Hm1 Hm2].
    apply andb_true_iff in Hs as [Hs1 Hs2]. apply N.eqb_eq in Hs1, Hs2.
    rewrite V1, V2 by (auto; lia). reflexivity.
  - destruct (H H0) as (P & M & S & V). rewrite S. repeat split; auto. intros Hm r c Hr Hc.
    destruct (mshape e) as [rr cc]. simpl in *. apply V; auto.
  - destruct (H H0) as (P & M & S & V). rewrite S. repeat split; auto. intros Hm r c Hr Hc.
    destruct (mshape e) as [rr cc]. simpl in *. rewrite V; auto.
  - destruct (H H0) as (P & M & S & V). rewrite S. repeat split; auto. intros Hm r c Hr Hc.
    simpl in *. destruct (r =? c)%N; [|reflexivity]. apply V; auto.
Qed.

Lemma veval_same md {T} (e e' : vx T) : vproper md e -> vsame md e e' -> veval md e' = veval md e.
Proof.
  intros Hp H. destruct (H Hp) as (P & M & S & V). destruct (vmatch e) eqn:Hm.
  - rewrite !veval_spec by (auto; congruence). rewrite S. apply mapM_ext.
    intros i Hi. apply V; auto. apply in_urange. exact Hi.
  - rewrite !veval_bad by (auto; congruence). reflexivity.
Qed.
Lemma meval_same md {T} (e e' : mx T) : mproper md e -> msame md e e' -> meval md e' = meval md e.
Proof.
  intros Hp H. destruct (H Hp) as (P & M & S & V). destruct (mmatch e) eqn:Hm.
  - rewrite !meval_spec by (auto; congruence). rewrite S. f_equal. apply mapM_ext.
    intros [r c] Hi. apply in_index_pairs in Hi. apply V; tauto.
  - rewrite !meval_bad by (auto; congruence). reflexivity.
Qed.
