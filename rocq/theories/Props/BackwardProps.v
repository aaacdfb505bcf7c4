(** Property C82: backward stability.  A finite computed value is the exact value of the same
    expression with slightly changed data.

    [u] = 2^-prec is the unit roundoff, [eta] half the smallest positive number. *)
From Coq Require Import List ZArith NArith Reals Bool Lia Lra.
From Flocq Require Import Core.Core IEEE754.BinarySingleNaN.
From Verif Require Import Base.Outcome Base.Usize Base.Array Model.Traits Model.Float Model.Polynomial
  Model.SVector Model.SMatrix Model.DVector Model.DMatrix
  Spec.Ring Spec.Sums Spec.Matrix Proofs.DExprProofs Spec.DExpr Spec.DMatrix Spec.FloatErr
  Proofs.FloatErr Proofs.FloatInt Proofs.Backward Proofs.SMatrixProofs Proofs.DVectorProofs Proofs.DMatrixProofs
  Props.FloatProps.
Import ListNotations.
Local Open Scope R_scope.

Section Fmt.
Context (prec emax : Z) {Hp : Prec_gt_0 prec} {He : Prec_lt_emax prec emax}.
Notation fl := (binary_float prec emax).
Notation FO := (float_ring prec emax).
Notation u := (unit_roundoff prec).
Notation eta := (underflow_unit prec emax).
Notation FS := (float_sig prec emax).

(** [b] is [a] up to a relative change of at most (1 + u)^k - 1 and an absolute one of at most [t]. *)
Definition perturbed (k : nat) (t a b : R) : Prop :=
  exists d h, b = a * (1 + d) + h /\ Rabs d <= (1 + u) ^ k - 1 /\ Rabs h <= t.

(** ** Horner's rule: the value is an exact value, at the same argument, of a polynomial whose
    coefficient number [j] was changed relatively by at most (1 + u)^(2j+1) - 1 (the leading one,
    number [n], by at most (1 + u)^(2n) - 1), and, because of underflow, absolutely by at most
    (1 + u)^(2j+1) eta (the leading one not at all). *)
Theorem C82_horner_backward :
  forall (p : poly fl) (x r : fl), poly_eval FO p x = Ok r -> is_finite r = true ->
  let n := (length p - 1)%nat in
  exists c : nat -> R,
    B2R r = rsum (length p) (fun j => c j * B2R x ^ j)
    /\ (forall j, (j < n)%nat -> perturbed (2 * j + 1) ((1 + u) ^ (2 * j + 1) * eta) (entry_R p j) (c j))
    /\ perturbed (2 * n) 0 (entry_R p n) (c n).
Proof.
  intros p x r E F n. rewrite poly_eval_horner in E. injection E as <-.
  destruct (horner_backward prec emax p x F) as (d & h & E & D & B & Z). fold n in D, B, Z.
  exists (fun j => entry_R p j * (1 + d j) + h j). split; [exact E|]. split.
  - intros j Hj. exists (d j), (h j). split; [reflexivity|]. split; [|apply B, Hj].
    specialize (D j (Nat.lt_le_incl _ _ Hj)). unfold hexp in D. rewrite Nat.min_l in D by lia. exact D.
  - exists (d n), (h n). split; [reflexivity|]. split.
    + specialize (D n (Nat.le_refl _)). unfold hexp in D. rewrite Nat.min_r in D by lia. exact D.
    + rewrite Z by lia. rewrite Rabs_R0. lra.
Qed.

(** In particular: where [eval] returns zero there is an exact root of a nearby polynomial. *)
Corollary C82_computed_root :
  forall (p : poly fl) (x r : fl), poly_eval FO p x = Ok r -> is_finite r = true -> B2R r = 0 ->
  exists c : nat -> R,
    rsum (length p) (fun j => c j * B2R x ^ j) = 0
    /\ forall j, (j < length p)%nat -> perturbed (2 * j + 1) ((1 + u) ^ (2 * j + 1) * eta) (entry_R p j) (c j).
Proof.
  intros p x r E F E0. destruct (C82_horner_backward p x r E F) as (c & Ec & D & L).
  exists c. split; [rewrite <- Ec; exact E0|]. intros j Hj.
  destruct (Nat.eq_dec j (length p - 1)) as [->|Hn]; [|apply D; lia].
  destruct L as (d & h & E1 & E2 & E3). exists d, h. split; [exact E1|].
  pose proof (u_pos prec) as UP. split.
  - eapply Rle_trans; [exact E2|]. apply Rplus_le_compat_r, pow_mono; [lra|lia].
  - eapply Rle_trans; [exact E3|]. apply Rmult_le_pos; [apply pow_le; lra|]. apply Rlt_le, eta_pos.
Qed.

(** ** Sums of products: exact for a changed first factor, up to underflow. *)
Definition tiny (n : nat) : R := INR n * (1 + u) ^ (n - 1) * eta.

Definition backward_dot (n : nat) (a b : nat -> R) (r : R) : Prop :=
  exists (a' : nat -> R) (m : R),
    r = rsum n (fun i => a' i * b i) + m
    /\ (forall i, (i < n)%nat -> perturbed n 0 (a i) (a' i))
    /\ Rabs m <= tiny n.

Lemma to_backward n (a b : nat -> fl) f g r :
  (forall i, (i < n)%nat -> B2R (a i) = f i) -> (forall i, (i < n)%nat -> B2R (b i) = g i) ->
  backward prec emax a b n r -> backward_dot n f g r.
Proof.
  intros Ha Hb (d & m & E & D & M). exists (fun i => f i * (1 + d i)), m. split; [|split; [|exact M]].
  - rewrite E. f_equal. apply rsum_ext. intros i Hi. rewrite Ha, Hb by exact Hi. reflexivity.
  - intros i Hi. exists (d i), 0. split; [ring|]. split; [apply D, Hi|]. rewrite Rabs_R0. lra.
Qed.

Theorem C82_svector_dot_backward :
  forall (n : nat) (a b : svector fl n) (r : fl), svector_dot FO a b = Ok r -> is_finite r = true ->
  backward_dot n (entry_R (entries a)) (entry_R (entries b)) (B2R r).
Proof.
  intros n a b r E F. unfold svector_dot in E. rewrite (svector_dot_total FO _ (float_implements prec emax)) in E.
  injection E as <-.
  apply (to_backward n (fun i => vec_at FS a i) (fun i => vec_at FS b i));
    [intros; apply entry_nth; reflexivity..|]. apply dot_backward, F.
Qed.

Theorem C82_dvector_dot_backward :
  forall (a b : dvector fl) (r : fl), length a = length b ->
  dvector_dot (r_zero FO) (r_add FO) (r_mul FO) prim_conj a b = Ok r -> is_finite r = true ->
  backward_dot (length a) (entry_R a) (entry_R b) (B2R r).
Proof.
  intros a b r L E F. unfold dvector_dot in E.
  pose proof (dvector_dot_value FS (r_add FO) (r_mul FO) prim_conj (fun x => x)
    (fun _ _ => eq_refl) (fun _ _ => eq_refl) (fun _ => eq_refl) a b L) as D.
  assert (Er : r = fdot prec emax (fun i => nth i a (fl_int prec emax 0)) (fun i => nth i b (fl_int prec emax 0)) (length a)).
  { assert (X : Ok r = Ok (fdot prec emax (fun i => nth i a (fl_int prec emax 0)) (fun i => nth i b (fl_int prec emax 0)) (length a)))
      by (rewrite <- E; exact D). injection X as ->. reflexivity. }
  subst r.
  apply (to_backward (length a) (fun i => nth i a (fl_int prec emax 0)) (fun i => nth i b (fl_int prec emax 0)));
    [intros; apply entry_nth; reflexivity..|]. apply dot_backward, F.
Qed.


(** ** Matrix times vector: one changed matrix explains the whole result. *)
Theorem C82_smatrix_vector_backward :
  forall (M N : nat) (a : smatrix fl M N) (v : svector fl N) (r : svector fl M),
  smatrix_mul_vec FO a v = Ok r -> Forall (fun x => is_finite x = true) (entries r) ->
  exists (a' : nat -> nat -> R) (m : nat -> R),
    (forall i, (i < M)%nat -> entry_R (entries r) i = rsum N (fun j => a' i j * entry_R (entries v) j) + m i)
    /\ (forall i j, (i < M)%nat -> (j < N)%nat -> perturbed N 0 (smat_R a i j) (a' i j))
    /\ (forall i, (i < M)%nat -> Rabs (m i) <= tiny N).
Proof.
  intros M N a v r E F. rewrite (smatrix_mul_vec_total FO _ (float_implements prec emax)) in E. injection E as <-.
  set (g := fun i => sum_n FS N (fun j => smul FS (mat_at FS a i j) (vec_at FS v j))) in *.
  assert (H : forall i, (i < M)%nat ->
             exists q : (nat -> R) * R,
               (entry_R (entries (tab M g)) i = rsum N (fun j => fst q j * entry_R (entries v) j) + snd q)
               /\ (forall j, (j < N)%nat -> perturbed N 0 (smat_R a i j) (fst q j)) /\ Rabs (snd q) <= tiny N).
  { intros i Hi. pose proof (@vec_at_tab _ FS M g i Hi) as Ev.
    assert (Fi : is_finite (g i) = true).
    { rewrite <- Ev. unfold vec_at. rewrite Forall_forall in F. apply F, nth_In. rewrite entries_length. exact Hi. }
    destruct (to_backward N (fun j => mat_at FS a i j) (fun j => vec_at FS v j) (smat_R a i) (entry_R (entries v)) (B2R (g i)))
      as (a' & m & E & D & B); [intros; apply entry_nth; reflexivity..|apply dot_backward, Fi|].
    exists (a', m). cbn [fst snd]. split; [|split; [exact D|exact B]].
    rewrite <- E, <- Ev. unfold vec_at. symmetry. apply entry_nth. reflexivity. }
  destruct (finite_choice (fun _ : nat => 0, 0) M _ H) as [q Hq].
  exists (fun i => fst (q i)), (fun i => snd (q i)). split; [|split].
  - intros i Hi. apply (Hq i Hi).
  - intros i j Hi Hj. apply (Hq i Hi), Hj.
  - intros i Hi. apply (Hq i Hi).
Qed.

(** ** Matrix products: for every column [c] of the result one changed left factor. *)
Theorem C82_smatrix_product_backward :
  forall (L M N : nat) (a : smatrix fl L M) (b : smatrix fl M N) (r : smatrix fl L N),
  smatrix_mul FO a b = Ok r -> forall c, (c < N)%nat ->
  (forall i x, (i < L)%nat -> nth_error (nth i (map entries (entries r)) []) c = Some x -> is_finite x = true) ->
  exists (a' : nat -> nat -> R) (m : nat -> R),
    (forall i, (i < L)%nat -> smat_R r i c = rsum M (fun j => a' i j * smat_R b j c) + m i)
    /\ (forall i j, (i < L)%nat -> (j < M)%nat -> perturbed M 0 (smat_R a i j) (a' i j))
    /\ (forall i, (i < L)%nat -> Rabs (m i) <= tiny M).
Proof.
  intros L M N a b r E c Hc F. unfold smatrix_mul in E. rewrite (smatrix_mul_total FO _ (float_implements prec emax)) in E.
  injection E as <-.
  set (g := fun l n => sum_n FS M (fun m => smul FS (mat_at FS a l m) (mat_at FS b m n))) in *.
  match type of F with context [entries ?t] => set (r := t) in * end.
  assert (H : forall i, (i < L)%nat ->
             exists q : (nat -> R) * R,
               (smat_R r i c = rsum M (fun j => fst q j * smat_R b j c) + snd q)
               /\ (forall j, (j < M)%nat -> perturbed M 0 (smat_R a i j) (fst q j)) /\ Rabs (snd q) <= tiny M).
  { intros i Hi. pose proof (mat_at_tab FS L N g i c Hi Hc) as Ev. change (mat_at FS r i c = g i c) in Ev.
    assert (Fi : is_finite (g i c) = true).
    { rewrite <- Ev. apply (F i _ Hi). unfold mat_at. apply nth_error_nth'.
      rewrite (nth_indep _ [] (entries (tab N (fun _ => fl_int prec emax 0)))) by (rewrite map_length, entries_length; exact Hi).
      rewrite map_nth, entries_length. exact Hc. }
    destruct (to_backward M (fun j => mat_at FS a i j) (fun j => mat_at FS b j c) (smat_R a i) (fun j => smat_R b j c) (B2R (g i c)))
      as (a' & m & E & D & B); [intros; apply entry_nth; reflexivity..|apply dot_backward, Fi|].
    exists (a', m). cbn [fst snd]. split; [|split; [exact D|exact B]].
    rewrite <- E, <- Ev. unfold mat_at, smat_R. symmetry. apply entry_nth. reflexivity. }
  destruct (finite_choice (fun _ : nat => 0, 0) L _ H) as [q Hq].
  exists (fun i => fst (q i)), (fun i => snd (q i)). split; [|split].
  - intros i Hi. apply (Hq i Hi).
  - intros i j Hi Hj. apply (Hq i Hi), Hj.
  - intros i Hi. apply (Hq i Hi).
Qed.

Theorem C82_dmatrix_product_backward :
  forall (md : target) (a b r : dmatrix fl), dm_wf md a -> dm_wf md b -> dm_cols a = dm_rows b -> (1 <= dm_cols a)%N ->
  (e <- dmatrix_mul md (r_mul FO) (r_add FO) a b ;; m_eval e) = Ok r ->
  let k := N.to_nat (dm_cols a) in
  forall c, (c < dm_cols b)%N ->
  (forall i x, (i < dm_rows a)%N -> nth_error (dm_data r) (N.to_nat (i * dm_cols b + c)) = Some x -> is_finite x = true) ->
  exists (a' : nat -> nat -> R) (m : nat -> R),
    (forall i, (i < N.to_nat (dm_rows a))%nat ->
       dmat_R r (N.of_nat i) c = rsum k (fun j => a' i j * dmat_R b (N.of_nat j) c) + m i)
    /\ (forall i j, (i < N.to_nat (dm_rows a))%nat -> (j < k)%nat -> perturbed k 0 (dmat_R a (N.of_nat i) (N.of_nat j)) (a' i j))
    /\ (forall i, (i < N.to_nat (dm_rows a))%nat -> Rabs (m i) <= tiny k).
Proof.
  intros md a b r Wa Wb E H1 Er k c Hc F.
  rewrite (dm_mul_total FS (r_add FO) (r_mul FO) (fun _ _ => eq_refl) (fun _ _ => eq_refl) md a b Wa Wb E H1) in Er.
  injection Er as <-.
  match type of F with forall i x, _ -> nth_error (dm_data (dm_tab _ _ ?t)) _ = _ -> _ => set (g := t) in * end.
  set (r := dm_tab (dm_rows a) (dm_cols b) g) in *.
  assert (H : forall i, (i < N.to_nat (dm_rows a))%nat ->
             exists q : (nat -> R) * R,
               (dmat_R r (N.of_nat i) c = rsum k (fun j => fst q j * dmat_R b (N.of_nat j) c) + snd q)
               /\ (forall j, (j < k)%nat -> perturbed k 0 (dmat_R a (N.of_nat i) (N.of_nat j)) (fst q j)) /\ Rabs (snd q) <= tiny k).
  { intros i Hi. assert (Hi' : (N.of_nat i < dm_rows a)%N) by lia.
    pose proof (dm_at_tab FS (dm_rows a) (dm_cols b) g (N.of_nat i) c Hi' Hc) as D. fold r in D.
    assert (Er : dmat_R r (N.of_nat i) c = B2R (g (N.of_nat i) c)).
    { rewrite <- D. unfold dm_at, dmat_R. symmetry. apply entry_nth. reflexivity. }
    assert (Fi : is_finite (g (N.of_nat i) c) = true).
    { rewrite <- D. apply (F (N.of_nat i) _ Hi'). unfold dm_at. apply nth_error_nth'.
      change (dm_cols r) with (dm_cols b). unfold r, dm_tab. cbn [dm_data].
      rewrite map_length, index_pairs_length. nia. }
    rewrite Er. unfold g in Fi |- *. change (smul FS) with (fl_mul prec emax) in *.
    rewrite (sum1_fdot1 prec emax (fun m => dm_at FS a (N.of_nat i) (N.of_nat m)) (fun m => dm_at FS b (N.of_nat m) c)) in *.
    assert (Ek : k = S (Nat.pred (N.to_nat (dm_cols a)))) by (unfold k; lia).
    set (n := Nat.pred (N.to_nat (dm_cols a))) in *.
    destruct (to_backward k (fun m => dm_at FS a (N.of_nat i) (N.of_nat m)) (fun m => dm_at FS b (N.of_nat m) c)
               (fun m => dmat_R a (N.of_nat i) (N.of_nat m)) (fun m => dmat_R b (N.of_nat m) c)
               (B2R (fdot1 prec emax (fun m => dm_at FS a (N.of_nat i) (N.of_nat m)) (fun m => dm_at FS b (N.of_nat m) c) n)))
      as (a' & m & E' & D' & B'); [intros; apply entry_nth; reflexivity..|rewrite Ek; apply dot1_backward, Fi|].
    exists (a', m). cbn [fst snd]. split; [exact E'|split; [exact D'|exact B']]. }
  destruct (finite_choice (fun _ : nat => 0, 0) _ _ H) as [q Hq].
  exists (fun i => fst (q i)), (fun i => snd (q i)). split; [|split].
  - intros i Hi. apply (Hq i Hi).
  - intros i j Hi Hj. apply (Hq i Hi), Hj.
  - intros i Hi. apply (Hq i Hi).
Qed.

End Fmt.

(** ** Cases in binary64 *)
Example C82_case_horner :
  on_ok (poly_eval f64_ring [f64_of_Z 1; f64_of_Z 2; f64_of_Z 3] third) (fun r => is_finite r && Bltb (f64_of_Z 1) r) = true.
Proof. vm_compute. reflexivity. Qed.
(** x^2 - fl(t^2) at t = fl(1/3): [eval] returns zero although t^2 is not a float. *)
Example C82_case_root :
  on_ok (poly_eval f64_ring [Bopp (fl_mul 53 1024 third third); f64_of_Z 0; f64_of_Z 1] third)
        (fun r => is_finite r && Beqb r (f64_of_Z 0)) = true.
Proof. vm_compute. reflexivity. Qed.
Example C82_case_dot :
  on_ok (svector_dot f64_ring (acons third (acons (f64_of_Z 3) anil)) (acons third (acons third anil)))
        (fun r => is_finite r && Bltb (f64_of_Z 1) r) = true.
Proof. vm_compute. reflexivity. Qed.
Example C82_case_matrix :
  on_ok (smatrix_mul_vec f64_ring
           (acons (acons third (acons (f64_of_Z 3) anil)) (acons (acons (f64_of_Z 2) (acons third anil)) anil))
           (acons third (acons (f64_of_Z 7) anil)))
        (fun r => forallb (fun x => is_finite x && Bltb (f64_of_Z 1) x) (entries r)) = true.
Proof. vm_compute. reflexivity. Qed.
Example C82_case_product :
  on_ok (smatrix_mul f64_ring
           (acons (acons third (acons (f64_of_Z 3) anil)) (acons (acons (f64_of_Z 2) (acons third anil)) anil))
           (acons (acons third anil) (acons (acons (f64_of_Z 7) anil) anil)))
        (fun r => forallb (fun row => forallb (fun x => is_finite x && Bltb (f64_of_Z 1) x) (entries row)) (entries r)) = true.
Proof. vm_compute. reflexivity. Qed.
Example C82_case_dmatrix :
  on_ok (e <- dmatrix_mul Release (r_mul f64_ring) (r_add f64_ring)
                (MkDM [third; f64_of_Z 3; f64_of_Z 2; third] 2 2) (MkDM [third; f64_of_Z 7] 2 1) ;; m_eval e)
        (fun r => forallb (fun x => is_finite x && Bltb (f64_of_Z 1) x) (dm_data r)) = true.
Proof. vm_compute. reflexivity. Qed.
Print Assumptions C82_horner_backward.
Print Assumptions C82_computed_root.
Print Assumptions C82_svector_dot_backward.
Print Assumptions C82_dvector_dot_backward.
Print Assumptions C82_smatrix_vector_backward.
Print Assumptions C82_smatrix_product_backward.
Print Assumptions C82_dmatrix_product_backward.
