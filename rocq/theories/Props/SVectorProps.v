(** Properties C19-C21: SVector<T, DIM> over an arbitrary ring, every DIM.

    [vec_at], [same_vec] : Spec/Matrix.v;  [agree] : Spec/Agree.v (both computations
    return and their results are related). *)
From Coq Require Import List Arith ZArith Lia Bool Setoid Morphisms Reals Lra.
From Verif Require Import Base.Outcome Base.Array Model.Traits Model.SVector Model.SMatrix
  Model.RealInstance
  Spec.Ring Spec.Sums Spec.Agree Spec.Matrix Spec.Writes
  Proofs.RingTheory Proofs.IntegerRing Proofs.RealRing Proofs.SMatrixProofs.
Import ListNotations.
Open Scope nat_scope.

(** ** C19 *)
Theorem C19_entrywise :
  forall (T : Type) (O : RingOps T) (R : ring_sig T),
  implements O R ->
  forall (n : nat) (u v : svector T n) (s : T),
  (forall f, In f [@svector_add T O n; @svector_add_ref T O n;
                   @svector_add_assign T O n; @svector_add_assign_ref T O n] ->
     returns (f u v) (fun w => forall i, i < n -> vec_at R w i = sadd R (vec_at R u i) (vec_at R v i)))
  /\ (forall f, In f [@svector_sub T O n; @svector_sub_ref T O n;
                      @svector_sub_assign T O n; @svector_sub_assign_ref T O n] ->
     returns (f u v) (fun w => forall i, i < n -> vec_at R w i = ssub R (vec_at R u i) (vec_at R v i)))
  /\ (forall f, In f [@svector_scale T O n; @svector_scale_ref T O n;
                      @svector_scale_assign T O n; @svector_scale_assign_ref T O n] ->
     returns (f u s) (fun w => forall i, i < n -> vec_at R w i = smul R (vec_at R u i) s))
  /\ returns (@svector_zero T O n) (fun w => forall i, i < n -> vec_at R w i = sz R).
Proof.
  intros T O R HI n u v s.
  assert (Ha : returns (svector_add_assign_ref O u v)
     (fun w => forall i, i < n -> vec_at R w i = sadd R (vec_at R u i) (vec_at R v i))).
  { eexists. split; [apply (svector_add_total O R HI)|]. intros i Hi. rewrite (vec_at_tab R _ i Hi). reflexivity. }
  assert (Hs : returns (svector_sub_assign_ref O u v)
     (fun w => forall i, i < n -> vec_at R w i = ssub R (vec_at R u i) (vec_at R v i))).
  { eexists. split; [apply (svector_sub_total O R HI)|]. intros i Hi. rewrite (vec_at_tab R _ i Hi). reflexivity. }
  assert (Hm : returns (svector_scale_assign_ref O u s)
     (fun w => forall i, i < n -> vec_at R w i = smul R (vec_at R u i) s)).
  { eexists. split; [apply (svector_scale_total O R HI)|]. intros i Hi. rewrite (vec_at_tab R _ i Hi). reflexivity. }
  split; [|split; [|split]].
  - intros f [<-|[<-|[<-|[<-|[]]]]]; exact Ha.
  - intros f [<-|[<-|[<-|[<-|[]]]]]; exact Hs.
  - intros f [<-|[<-|[<-|[<-|[]]]]]; exact Hm.
  - eexists. split; [apply (svector_zero_total O R HI)|]. intros i Hi. rewrite (vec_at_tab R _ i Hi). reflexivity.
Qed.

Section C19.
Context (T : Type) (O : RingOps T) (R : ring_sig T) (HI : implements O R) (HR : ring_laws R).
Notation vsame n := (@same_vec T R n).

Ltac vlaw :=
  unfold svector_add, svector_sub, svector_scale, svector_scale_ref, agree;
  repeat first [rewrite (svector_zero_total O R HI)|rewrite (svector_add_total O R HI)
               |rewrite (svector_sub_total O R HI)|rewrite (svector_scale_total O R HI)
               |rewrite (impl_add O R HI)|rewrite (impl_mul O R HI)
               |rewrite bind_ok];
  eexists; eexists; split; [reflexivity|]; split; [reflexivity|];
  let i := fresh "i" in let H := fresh "H" in
  intros i H; rewrite ?(vec_at_tab R _ i H); nc_ring HR.

Theorem C19_module_laws : forall (n : nat) (u v w : svector T n) (s t : T),
  (* abelian group *)
  agree (vsame n) (svector_add O u v) (svector_add O v u)
  /\ agree (vsame n) (x <- svector_add O u v ;; svector_add O x w)
                     (y <- svector_add O v w ;; svector_add O u y)
  /\ agree (vsame n) (z <- svector_zero O ;; svector_add O u z) (Ok u)
  /\ agree (vsame n) (svector_sub O u u) (svector_zero O)
  /\ agree (vsame n) (d <- svector_sub O u v ;; svector_add O d v) (Ok u)
  (* scalars act from the right *)
  /\ agree (vsame n) (x <- svector_add O u v ;; svector_scale O x s)
                     (us <- svector_scale O u s ;; vs <- svector_scale O v s ;; svector_add O us vs)
  /\ agree (vsame n) (st <- r_add O s t ;; svector_scale O u st)
                     (us <- svector_scale O u s ;; ut <- svector_scale O u t ;; svector_add O us ut)
  /\ agree (vsame n) (us <- svector_scale O u s ;; svector_scale O us t)
                     (st <- r_mul O s t ;; svector_scale O u st)
  /\ agree (vsame n) (svector_scale O u (so R)) (Ok u)
  /\ agree (vsame n) (svector_scale O u (sz R)) (svector_zero O).
Proof.
  intros n u v w s t.
  repeat match goal with |- _ /\ _ => split end; vlaw.
Qed.
End C19.

Definition v3 (a b c : Z) : svector Z 3 := acons a (acons b (acons c anil)).
Example C19_case :
  svector_add z_ops (v3 1 2 3) (v3 4 5 6) = Ok (v3 5 7 9)
  /\ svector_scale z_ops (v3 1 2 3) 2%Z = Ok (v3 2 4 6).
Proof. split; reflexivity. Qed.

(** ** C20 *)
Theorem C20_dot_is_sum_of_products :
  forall (T : Type) (O : RingOps T) (R : ring_sig T),
  implements O R ->
  forall (n : nat) (u v : svector T n),
  svector_dot_ref O u v = Ok (sum_n R n (fun i => smul R (vec_at R u i) (vec_at R v i)))
  /\ svector_dot O u v = Ok (sum_n R n (fun i => smul R (vec_at R u i) (vec_at R v i))).
Proof. intros T O R H n u v. split; apply (svector_dot_total O R H). Qed.

Theorem C20_dot_biadditive_and_symmetric :
  forall (T : Type) (O : RingOps T) (R : ring_sig T),
  implements O R -> ring_laws R ->
  forall (n : nat) (u v w : svector T n) (s : T),
  agree (same R) (x <- svector_add O u v ;; svector_dot O x w)
                 (a <- svector_dot O u w ;; b <- svector_dot O v w ;; r_add O a b)
  /\ agree (same R) (x <- svector_add O v w ;; svector_dot O u x)
                    (a <- svector_dot O u v ;; b <- svector_dot O u w ;; r_add O a b)
  /\ agree (same R) (vs <- svector_scale O v s ;; svector_dot O u vs)
                    (a <- svector_dot O u v ;; r_mul O a s)
  /\ (n = 0 -> svector_dot O u v = Ok (sz R))
  /\ (commutative R -> agree (same R) (svector_dot O u v) (svector_dot O v u)).
Proof.
  intros T O R HI HR n u v w s.
  pose proof (same_equiv R HR) as HE.
  unfold svector_add, svector_scale, svector_scale_ref, svector_dot, agree.
  repeat first [rewrite (svector_add_total O R HI)|rewrite (svector_scale_total O R HI)
               |rewrite (svector_dot_total O R HI)
               |rewrite (impl_add O R HI)|rewrite (impl_mul O R HI)|rewrite bind_ok].
  split; [|split; [|split; [|split]]].
  - do 2 eexists. do 2 (split; [reflexivity|]).
    etransitivity; [|apply (sum_distr_r R HR)].
    apply (sum_ext R HR). intros i Hi. rewrite (vec_at_tab R _ i Hi). reflexivity.
  - do 2 eexists. do 2 (split; [reflexivity|]).
    etransitivity; [|apply (sum_distr_l R HR)].
    apply (sum_ext R HR). intros i Hi. rewrite (vec_at_tab R _ i Hi). reflexivity.
  - do 2 eexists. do 2 (split; [reflexivity|]).
    etransitivity; [|apply (sum_mul_r R HR)].
    apply (sum_ext R HR). intros i Hi. rewrite (vec_at_tab R _ i Hi). nc_ring HR.
  - intros ->. reflexivity.
  - intros HC. do 2 eexists. split; [reflexivity|]. split.
    { reflexivity. }
    apply (sum_ext R HR). intros i Hi. apply HC.
Qed.

(** Over the reals the dot product is positive definite. *)
Theorem C20_dot_positive_definite :
  forall (n : nat) (u : svector R n),
  exists q, svector_dot real_ring u u = Ok q /\ (0 <= q)%R
    /\ (q = 0%R <-> forall i, i < n -> vec_at real_sig u i = 0%R).
Proof.
  intros n u. exists (sum_n real_sig n (fun i => smul real_sig (vec_at real_sig u i) (vec_at real_sig u i))).
  split; [apply (svector_dot_total _ _ real_implements)|].
  set (f := vec_at real_sig u). clearbody f. clear u.
  assert (H : (0 <= sum_n real_sig n (fun i => smul real_sig (f i) (f i)))%R /\
    (sum_n real_sig n (fun i => smul real_sig (f i) (f i)) = 0%R <-> forall i, i < n -> f i = 0%R)).
  { induction n as [|n [IH1 IH2]]; simpl.
    - split; [lra|]. split; [intros _ i Hi; lia|reflexivity].
    - change (smul real_sig) with Rmult in *. pose proof (Rle_0_sqr (f n)) as Hs. unfold Rsqr in Hs.
      split; [lra|]. split.
      + intros H i Hi. assert (Hz : (f n * f n = 0)%R) by lra.
        apply Rmult_integral in Hz. destruct (Nat.eq_dec i n) as [->|Hn]; [tauto|].
        apply IH2; [lra|lia].
      + intros H. rewrite (proj2 IH2) by (intros i Hi; apply H; lia). rewrite H by lia. lra. }
  exact H.
Qed.

Example C20_case : svector_dot z_ops (v3 1 2 3) (v3 4 5 6) = Ok 32%Z.
Proof. reflexivity. Qed.

(** ** C21, SVector part (DVector: Props/DVectorProps.v) *)
Theorem C21_svector_index :
  forall (T : Type) (n : nat) (v : svector T n) (i : nat),
  (i < n -> svector_index v i = match nth_error (svector_into_iter v) i with Some x => Ok x | None => Panic IndexOOB end
            /\ exists x, svector_index v i = Ok x)
  /\ (n <= i -> svector_index v i = Panic IndexOOB)
  /\ length (svector_into_iter v) = n.
Proof.
  intros T n v i. split; [|split].
  - intros H. split; [reflexivity|]. unfold svector_index, array_get, vget.
    destruct (nth_error (entries v) i) eqn:E; [eauto|].
    apply nth_error_None in E. rewrite entries_length in E. lia.
  - apply array_get_oob.
  - apply entries_length.
Qed.

Theorem C21_svector_index_set :
  forall (T : Type) (n : nat) (v : svector T n) (i : nat) (x : T),
  (n <= i -> svector_index_set v i x = Panic IndexOOB)
  /\ (i < n -> returns (svector_index_set v i x) (fun v' =>
        svector_index v' i = Ok x
        /\ forall j, j <> i -> svector_index v' j = svector_index v j)).
Proof.
  intros T n v i x. unfold svector_index_set, array_set. split; intros H.
  - apply Nat.ltb_ge in H. rewrite H. reflexivity.
  - pose proof H as H'. apply Nat.ltb_lt in H'. rewrite H'.
    eexists. split; [reflexivity|]. split.
    + unfold svector_index. rewrite (array_get_ok x) by exact H.
      rewrite ent_upd by exact H. rewrite Nat.eqb_refl. reflexivity.
    + intros j Hj. unfold svector_index. destruct (le_lt_dec n j) as [Hn|Hn].
      * rewrite !array_get_oob by exact Hn. reflexivity.
      * rewrite !(array_get_ok x) by exact Hn. rewrite ent_upd by exact H.
        apply Nat.eqb_neq in Hj. rewrite Hj. reflexivity.
Qed.

(** Any history of in-range writes. *)
Theorem C21_svector_write_history :
  forall (T : Type) (n : nat) (ws : list (nat * T)) (v : svector T n),
  Forall (fun w => fst w < n) ws ->
  returns (for_each (fun '(i, x) v => svector_index_set v i x) ws v) (fun v' =>
    forall j x0, svector_index v j = Ok x0 -> svector_index v' j = Ok (after_writes ws x0 j)).
Proof.
  intros T n ws. induction ws as [|[i x] ws IH]; intros v H; simpl.
  - exists v. auto.
  - inversion H as [|? ? Hi Hws]; subst. simpl in Hi.
    destruct (proj2 (C21_svector_index_set T n v i x) Hi) as (v1 & E & Hr & Ho).
    rewrite E. simpl. destruct (IH v1 Hws) as (v' & E' & H'). exists v'. split; [exact E'|].
    intros j x0 Hj. apply H'. destruct (Nat.eqb_spec j i) as [->|Hn]; [exact Hr|].
    rewrite Ho by exact Hn. exact Hj.
Qed.

Example C21_case :
  for_each (fun '(i, x) v => svector_index_set v i x) [(0, 9%Z); (2, 8%Z); (0, 7%Z)] (v3 1 2 3)
  = Ok (v3 7 2 8).
Proof. reflexivity. Qed.

Print Assumptions C19_entrywise.
Print Assumptions C19_module_laws.
Print Assumptions C20_dot_biadditive_and_symmetric.
Print Assumptions C20_dot_positive_definite.
Print Assumptions C21_svector_write_history.
Print Assumptions C20_dot_is_sum_of_products.
Print Assumptions C21_svector_index.
Print Assumptions C21_svector_index_set.
