(** Property C63: [==] and [is_empty].

    [equal_at eqb x y]: both elements exist and are ==, or neither exists;
    [eq_laws_inherited elem whole]: if [elem] is reflexive (symmetric, transitive, true for
    identical values only) so is [whole] (Spec/Equality.v). *)
From Coq Require Import List Arith NArith ZArith Lia Bool.
From Verif Require Import Base.Outcome Base.Usize Base.Array Model.Traits Model.Int Model.Complex Model.SVector
  Model.SMatrix Model.DVector Model.DMatrix Model.DExpr Spec.DExpr Spec.Equality Spec.Unwind Proofs.Equality Props.DExprProps.
Import ListNotations.

Theorem C63_equality_is_pointwise :
  forall (T : Type) (O : RingOps T),
  (forall z w : complex T, complex_eqb O z w = true <-> r_eqb O (re z) (re w) = true /\ r_eqb O (im z) (im w) = true)
  /\ (forall n (u v : svector T n), svector_eqb O u v = true <->
        forall i, i < n -> equal_at (r_eqb O) (nth_error (entries u) i) (nth_error (entries v) i))
  /\ (forall m n (a b : smatrix T m n), smatrix_eqb O a b = true <->
        forall i j, i < m -> j < n -> equal_at (r_eqb O) (cell a i j) (cell b i j))
  /\ (forall u v : dvector T, dvector_eqb (r_eqb O) u v = true <->
        length u = length v /\ forall i, i < length u -> equal_at (r_eqb O) (nth_error u i) (nth_error v i))
  /\ (forall md (a b : dmatrix T), dm_wf md a -> dm_wf md b -> (dmatrix_eqb (r_eqb O) a b = true <->
        dm_rows a = dm_rows b /\ dm_cols a = dm_cols b /\
        forall r c, (r < dm_rows a)%N -> (c < dm_cols a)%N ->
          equal_at (r_eqb O) (row_major_at a r c) (row_major_at b r c))).
Proof.
  intros T O.
  assert (L : forall A (eqb : A -> A -> bool) (u v : list A), list_eqb eqb u v = true <->
    length u = length v /\ forall i, i < length u -> equal_at eqb (nth_error u i) (nth_error v i)).
  { intros A eqb u v. rewrite list_eqb_iff. split.
    - intros H. split; [|intros i _; apply H].
      destruct (lt_eq_lt_dec (length u) (length v)) as [[Hl|Hl]|Hl]; [exfalso|exact Hl|exfalso].
      + specialize (H (length u)). rewrite (proj2 (nth_error_None u _)) in H by lia.
        destruct (nth_error v (length u)) eqn:E; [exact H|]. apply nth_error_None in E. lia.
      + specialize (H (length v)). rewrite (proj2 (nth_error_None v _)) in H by lia.
        destruct (nth_error u (length v)) eqn:E; [exact H|]. apply nth_error_None in E. lia.
    - intros [Hl H] i. destruct (lt_dec i (length u)) as [Hi|Hi]; [apply H; exact Hi|].
      rewrite !(proj2 (nth_error_None _ _)) by lia. exact I. }
  assert (A0 : forall A (eqb : A -> A -> bool) n (u v : array A n), array_eqb eqb u v = true <->
    forall i, i < n -> equal_at eqb (nth_error (entries u) i) (nth_error (entries v) i)).
  { intros A eqb n u v. rewrite array_eqb_list, L, !entries_length. tauto. }
  split; [|split; [|split; [|split]]].
  - intros z w. apply andb_true_iff.
  - intros n u v. apply A0.
  - intros m n a b. unfold smatrix_eqb. etransitivity; [apply (A0 (array T n))|]. split.
    + intros H i j Hi Hj. specialize (H i Hi). unfold cell. unfold equal_at in H.
      destruct (nth_error (entries a) i) as [ra|] eqn:Ea, (nth_error (entries b) i) as [rb|] eqn:Eb; try contradiction; [|exact I].
      exact (proj1 (A0 T (r_eqb O) n ra rb) H j Hj).
    + intros H i Hi.
      assert (Na : nth_error (entries a) i <> None) by (apply nth_error_Some; rewrite entries_length; exact Hi).
      assert (Nb : nth_error (entries b) i <> None) by (apply nth_error_Some; rewrite entries_length; exact Hi).
      unfold equal_at. unfold cell in H. specialize (fun j => H i j Hi).
      destruct (nth_error (entries a) i) as [ra|], (nth_error (entries b) i) as [rb|]; try congruence.
      apply (proj2 (A0 T (r_eqb O) n ra rb)). exact H.
  - intros u v. apply L.
  - intros md a b Ha Hb. apply (dmatrix_eqb_iff (md:=md)); assumption.
Qed.

Theorem C63_equality_laws :
  forall (T : Type) (O : RingOps T),
  eq_laws_inherited (r_eqb O) (complex_eqb O)
  /\ (forall n, eq_laws_inherited (r_eqb O) (@svector_eqb T O n))
  /\ (forall m n, eq_laws_inherited (r_eqb O) (@smatrix_eqb T O m n))
  /\ eq_laws_inherited (r_eqb O) (dvector_eqb (r_eqb O))
  /\ eq_laws_inherited (r_eqb O) (dmatrix_eqb (r_eqb O)).
Proof.
  intros T O. split; [apply complex_laws|]. split; [intros n; exact (array_laws (r_eqb O))|].
  split; [|split; [apply list_laws|apply dmatrix_laws]].
  intros m n. eapply laws_trans; [|apply (array_laws (n := m) (fun r s : array T n => array_eqb (r_eqb O) r s))].
  exact (array_laws (r_eqb O)).
Qed.

(** [is_empty()] of an expression: it has length 0, and [eval()] returns an empty vector
    exactly then. *)
Theorem C63_is_empty :
  forall (md : target) (T : Type) (e : vx T) b, vproper md e -> vbuild md e = Ok b ->
  (vexpr_is_empty b = true <-> vshape e = 0%N)
  /\ (forall v, v_eval b = Ok v -> (vexpr_is_empty b = true <-> v = [])).
Proof.
  intros md T e b Hp Hb.
  pose proof (proj1 (C37_eval_overrides_agree_with_default md T) e Hp b Hb) as He.
  destruct (C26_vector_expression_meaning md T e Hp) as [Hf Ht].
  destruct (vmatch e); [|rewrite (Hf eq_refl) in Hb; discriminate Hb].
  destruct (Ht eq_refl) as (b' & Hb' & Hl & _). assert (b' = b) by congruence. subst b'.
  unfold vexpr_is_empty. rewrite N.eqb_eq, Hl. split; [tauto|].
  intros v Hv. rewrite N.eqb_eq. rewrite He in Hv. apply mapM_length in Hv. unfold urange, urange_from in Hv.
  rewrite Hl in *. rewrite map_length, seq_length in Hv. split.
  - intros E. rewrite E in Hv. destruct v; [reflexivity|discriminate Hv].
  - intros ->. simpl in Hv. lia.
Qed.

(** Matrices of different shapes are different even if neither has an entry, and a vector is
    never == a longer one. *)
Example C63_case :
  dmatrix_eqb Z.eqb (MkDM [] 0 3) (MkDM [] 0 2) = false /\ dvector_eqb Z.eqb [1; 2]%Z [1; 2; 0]%Z = false
  /\ dmatrix_eqb Z.eqb (MkDM [1; 2; 3; 4; 5; 6]%Z 2 3) (MkDM [1; 2; 3; 4; 5; 6]%Z 3 2) = false
  /\ dmatrix_eqb Z.eqb (MkDM [1; 2]%Z 1 2) (MkDM [1; 2]%Z 1 2) = true
  /\ eq_decides Z.eqb /\ dm_wf Debug (MkDM [1; 2]%Z 1 2).
Proof. repeat split; intros; vm_compute; try reflexivity; apply Z.eqb_eq; assumption. Qed.

Print Assumptions C63_equality_is_pointwise.
Print Assumptions C63_equality_laws.
Print Assumptions C63_is_empty.
