(** Properties C22-C25: SMatrix<T, M, N> over an arbitrary ring, every dimension,
    and the part of C05 that needs a non-commutative ring.

    [mat_at], [same_mat], [delta] : Spec/Matrix.v;  [agree], [returns] : Spec/Agree.v. *)
From Coq Require Import List Arith ZArith Lia Bool Setoid Morphisms.
From Verif Require Import Base.Outcome Base.Array Model.Traits Model.Polynomial
  Model.SVector Model.SMatrix Model.Complex
  Spec.Ring Spec.Sums Spec.Agree Spec.Matrix Spec.Complex
  Proofs.RingTheory Proofs.IntegerRing Proofs.SMatrixProofs Proofs.ComplexProofs.
Import ListNotations.

(** ** C22 *)
Theorem C22_square_smatrix_is_ring :
  forall (T : Type) (O : RingOps T) (E : T -> T -> Prop),
  is_ring O E ->
  forall n : nat,
  is_ring (smatrix_ops O n)
          (fun a b => forall i j x y, i < n -> j < n ->
             nth_error (nth i (map entries (entries a)) []) j = Some x ->
             nth_error (nth i (map entries (entries b)) []) j = Some y -> E x y)
  /\ smatrix_zero O n n = Ok (r_zero (smatrix_ops O n))
  /\ smatrix_one O n n = Ok (r_one (smatrix_ops O n)).
Proof.
  intros T O E (R & HI & HR & HE) n. split; [|split].
  - exists (mat_sig R n). split; [apply smatrix_implements; exact HI|].
    split; [apply mat_laws; exact HR|]. intros a b. cbn [mat_sig same].
    assert (Hrow : forall (m : smatrix T n n) i, i < n -> length (nth i (map entries (entries m)) []) = n).
    { intros m i Hi. rewrite (nth_indep _ [] (entries (tab n (fun _ => sz R)))) by
        (rewrite map_length, entries_length; exact Hi).
      rewrite map_nth. apply entries_length. }
    split.
    + intros H i j x y Hi Hj Hx Hy. apply HE. specialize (H i j Hi Hj). unfold mat_at in H.
      rewrite (nth_error_nth _ _ _ Hx), (nth_error_nth _ _ _ Hy) in H. exact H.
    + intros H i j Hi Hj. apply HE. unfold mat_at.
      apply (H i j); auto; apply nth_error_nth'; rewrite Hrow; assumption.
  - unfold smatrix_ops; cbn [r_zero]. rewrite (smatrix_zero_total O R HI). reflexivity.
  - unfold smatrix_ops; cbn [r_one]. rewrite (smatrix_one_total O R HI). reflexivity.
Qed.

(** The value and reference forms of every operation agree. *)
Theorem C22_forms_agree :
  forall (T : Type) (O : RingOps T) (m n : nat) (a b : smatrix T m n) (c : smatrix T n n),
  smatrix_add O a b = smatrix_add_assign_ref O a b
  /\ smatrix_add_ref O a b = smatrix_add_assign_ref O a b
  /\ smatrix_add_assign O a b = smatrix_add_assign_ref O a b
  /\ smatrix_sub O a b = smatrix_sub_assign_ref O a b
  /\ smatrix_sub_ref O a b = smatrix_sub_assign_ref O a b
  /\ smatrix_sub_assign O a b = smatrix_sub_assign_ref O a b
  /\ smatrix_mul O a c = smatrix_mul_refs O a c
  /\ smatrix_mul_assign O a c = smatrix_mul_refs O a c
  /\ smatrix_mul_assign_ref O a c = smatrix_mul_refs O a c.
Proof. intros. repeat split. Qed.

Definition m22 (a b c d : Z) : smatrix Z 2 2 :=
  acons (acons a (acons b anil)) (acons (acons c (acons d anil)) anil).

Example C22_case : is_ring z_ops eq /\
  smatrix_mul z_ops (m22 1 2 3 4) (m22 5 6 7 8) = Ok (m22 19 22 43 50)
  /\ smatrix_mul z_ops (m22 5 6 7 8) (m22 1 2 3 4) = Ok (m22 23 34 31 46)
  /\ smatrix_one z_ops 2 2 = Ok (m22 1 0 0 1).
Proof.
  split; [exists z_sig; split; [apply z_implements|split; [apply z_laws|intros; reflexivity]]|].
  repeat split; reflexivity.
Qed.

(** ** C23 *)
Theorem C23_product_entries :
  forall (T : Type) (O : RingOps T) (R : ring_sig T),
  implements O R ->
  forall (L M N : nat) (a : smatrix T L M) (b : smatrix T M N),
  returns (smatrix_mul_refs O a b) (fun c => forall l n, l < L -> n < N ->
     mat_at R c l n = sum_n R M (fun m => smul R (mat_at R a l m) (mat_at R b m n)))
  /\ smatrix_mul O a b = smatrix_mul_refs O a b.
Proof.
  intros T O R HI L M N a b. split; [|reflexivity].
  eexists. split; [apply (smatrix_mul_total O R HI)|].
  intros l n Hl Hn. rewrite mat_at_tab by assumption. reflexivity.
Qed.

(** [a *= s] and [a *= &s], for a rectangular [a] and a square [s]. *)
Theorem C23_mul_assign_entries :
  forall (T : Type) (O : RingOps T) (R : ring_sig T),
  implements O R ->
  forall (M N : nat) (a : smatrix T M N) (s : smatrix T N N),
  let product c := forall i j, i < M -> j < N ->
     mat_at R c i j = sum_n R N (fun m => smul R (mat_at R a i m) (mat_at R s m j)) in
  returns (smatrix_mul_assign O a s) product /\ returns (smatrix_mul_assign_ref O a s) product.
Proof.
  intros T O R HI M N a s product. split; (eexists; split; [apply (smatrix_mul_total O R HI)|]);
    intros l n Hl Hn; rewrite mat_at_tab by assumption; reflexivity.
Qed.

Section Laws.
Context (T : Type) (O : RingOps T) (R : ring_sig T) (HI : implements O R) (HR : ring_laws R).
#[local] Instance J1 : Equivalence (same R) := same_equiv R HR.

Ltac totals :=
  unfold smatrix_add, smatrix_sub, smatrix_mul, smatrix_mul_assign, smatrix_mul_assign_ref,
         svector_add, agree;
  repeat first [rewrite (smatrix_one_total O R HI)|rewrite (smatrix_add_total O R HI)
               |rewrite (smatrix_sub_total O R HI)|rewrite (smatrix_mul_total O R HI)
               |rewrite (smatrix_mul_vec_total O R HI)|rewrite (svector_add_total O R HI)
               |rewrite bind_ok];
  do 2 eexists; split; [reflexivity|]; split; [reflexivity|].
Ltac sums := apply (sum_ext R HR); intros ? ?;
  rewrite ?mat_at_tab by assumption; rewrite ?(vec_at_tab R) by assumption; reflexivity.

Theorem C23_product_laws :
  forall (K L M N : nat)
         (a a' : smatrix T K L) (b b' : smatrix T L M) (c : smatrix T M N),
  agree (same_mat R) (ab <- smatrix_mul O a b ;; smatrix_mul O ab c)
                     (bc <- smatrix_mul O b c ;; smatrix_mul O a bc)
  /\ agree (same_mat R) (s <- smatrix_add O b b' ;; smatrix_mul O a s)
                        (x <- smatrix_mul O a b ;; y <- smatrix_mul O a b' ;; smatrix_add O x y)
  /\ agree (same_mat R) (s <- smatrix_add O a a' ;; smatrix_mul O s b)
                        (x <- smatrix_mul O a b ;; y <- smatrix_mul O a' b ;; smatrix_add O x y)
  /\ agree (same_mat R) (s <- smatrix_sub O b b' ;; smatrix_mul O a s)
                        (x <- smatrix_mul O a b ;; y <- smatrix_mul O a b' ;; smatrix_sub O x y)
  /\ agree (same_mat R) (s <- smatrix_sub O a a' ;; smatrix_mul O s b)
                        (x <- smatrix_mul O a b ;; y <- smatrix_mul O a' b ;; smatrix_sub O x y)
  /\ agree (same_mat R) (e <- smatrix_one O K K ;; smatrix_mul O e a) (Ok a)
  /\ agree (same_mat R) (e <- smatrix_one O L L ;; smatrix_mul O a e) (Ok a)
  /\ agree (same_mat R) (e <- smatrix_one O L L ;; smatrix_mul_assign O a e) (Ok a).
Proof.
  intros K L M N a a' b b' c.
  assert (One_r : agree (same_mat R) (e <- smatrix_one O L L ;; smatrix_mul O a e) (Ok a)).
  { totals. intros i j Hi Hj. rewrite mat_at_tab by assumption.
    etransitivity; [|apply (sum_delta_r R HR L j (fun m => mat_at R a i m) Hj)]. sums. }
  repeat match goal with |- _ /\ _ => split end; try exact One_r.
  - totals. apply same_mtab. intros i j Hi Hj.
    etransitivity; [|etransitivity;
      [apply (sum_mul_assoc R HR L M (fun l => mat_at R a i l) (fun l m => mat_at R b l m) (fun m => mat_at R c m j))|]];
      sums.
  - totals. apply same_mtab. intros i j Hi Hj. rewrite !mat_at_tab by assumption.
    etransitivity; [|apply (sum_distr_l R HR)]. sums.
  - totals. apply same_mtab. intros i j Hi Hj. rewrite !mat_at_tab by assumption.
    etransitivity; [|apply (sum_distr_r R HR)]. sums.
  - totals. apply same_mtab. intros i j Hi Hj. rewrite !mat_at_tab by assumption.
    etransitivity; [|apply (sum_distr_sub_l R HR)]. sums.
  - totals. apply same_mtab. intros i j Hi Hj. rewrite !mat_at_tab by assumption.
    etransitivity; [|apply (sum_distr_sub_r R HR)]. sums.
  - totals. intros i j Hi Hj. rewrite mat_at_tab by assumption.
    etransitivity; [|apply (sum_delta_l R HR K i (fun m => mat_at R a m j) Hi)]. sums.
Qed.

(** ** C24 *)
Theorem C24_matrix_vector_entries :
  forall (M N : nat) (a : smatrix T M N) (v : svector T N),
  returns (smatrix_mul_vec O a v) (fun w => forall i, i < M ->
    vec_at R w i = sum_n R N (fun j => smul R (mat_at R a i j) (vec_at R v j))).
Proof.
  intros M N a v. eexists. split; [apply (smatrix_mul_vec_total O R HI)|].
  intros i Hi. exact (ent_tab (sz R) M _ i Hi).
Qed.

Theorem C24_matrix_vector_laws :
  forall (L M N : nat) (a : smatrix T L M) (b b' : smatrix T M N) (v w : svector T N),
  agree (same_vec R) (s <- smatrix_add O b b' ;; smatrix_mul_vec O s v)
                     (x <- smatrix_mul_vec O b v ;; y <- smatrix_mul_vec O b' v ;; svector_add O x y)
  /\ agree (same_vec R) (s <- svector_add O v w ;; smatrix_mul_vec O b s)
                     (x <- smatrix_mul_vec O b v ;; y <- smatrix_mul_vec O b w ;; svector_add O x y)
  /\ agree (same_vec R) (ab <- smatrix_mul O a b ;; smatrix_mul_vec O ab v)
                        (bv <- smatrix_mul_vec O b v ;; smatrix_mul_vec O a bv)
  /\ agree (same_vec R) (e <- smatrix_one O N N ;; smatrix_mul_vec O e v) (Ok v).
Proof.
  assert (VT : forall n f i, i < n -> vec_at R (tab n f) i = f i) by (intros; apply ent_tab; assumption).
  intros L M N a b b' v w.
  split; [|split; [|split]]; totals; intros i Hi; unfold vtab; rewrite ?VT by assumption.
  - etransitivity; [|apply (sum_distr_r R HR)]. sums.
  - etransitivity; [|apply (sum_distr_l R HR)].
    apply (sum_ext R HR). intros j Hj. rewrite VT by assumption. reflexivity.
  - etransitivity; [|etransitivity;
      [apply (sum_mul_assoc R HR M N (fun l => mat_at R a i l) (fun l m => mat_at R b l m) (fun m => vec_at R v m))|]].
    + sums.
    + apply (sum_ext R HR). intros j Hj. rewrite VT by assumption. reflexivity.
  - etransitivity; [|apply (sum_delta_l R HR N i (fun m => vec_at R v m) Hi)]. sums.
Qed.

(** ** C25.  [conj] is the conjugation of the element type. *)
Theorem C25_entrywise :
  forall (conj : T -> outcome T) (c : T -> T), (forall x, conj x = Ok (c x)) ->
  forall (M N : nat) (a b : smatrix T M N),
  returns (smatrix_add O a b) (fun r => forall i j, i < M -> j < N ->
             mat_at R r i j = sadd R (mat_at R a i j) (mat_at R b i j))
  /\ returns (smatrix_sub O a b) (fun r => forall i j, i < M -> j < N ->
             mat_at R r i j = ssub R (mat_at R a i j) (mat_at R b i j))
  /\ returns (smatrix_neg O a) (fun r => forall i j, i < M -> j < N ->
             mat_at R r i j = sneg R (mat_at R a i j))
  /\ returns (smatrix_conj conj a) (fun r => forall i j, i < M -> j < N ->
             mat_at R r i j = c (mat_at R a i j))
  /\ returns (smatrix_zero O M N) (fun r => forall i j, i < M -> j < N -> mat_at R r i j = sz R)
  /\ returns (smatrix_one O M N) (fun r => forall i j, i < M -> j < N ->
             mat_at R r i j = if i =? j then so R else sz R).
Proof.
  intros conj c Hc M N a b. split; [|split; [|split; [|split; [|split]]]]; eexists.
  - split; [apply (smatrix_add_total O R HI)|]. intros i j Hi Hj; rewrite mat_at_tab by assumption; reflexivity.
  - split; [apply (smatrix_sub_total O R HI)|]. intros i j Hi Hj; rewrite mat_at_tab by assumption; reflexivity.
  - split; [apply (smatrix_neg_total O R HI)|]. intros i j Hi Hj; rewrite mat_at_tab by assumption; reflexivity.
  - split; [apply (smatrix_conj_total R _ conj c Hc)|]. intros i j Hi Hj; rewrite mat_at_tab by assumption; reflexivity.
  - split; [apply (smatrix_zero_total O R HI)|]. intros i j Hi Hj; rewrite mat_at_tab by assumption; reflexivity.
  - split; [apply (smatrix_one_total O R HI)|]. intros i j Hi Hj; rewrite mat_at_tab by assumption; reflexivity.
Qed.

Theorem C25_conj_laws :
  forall (conj : T -> outcome T) (c : T -> T), (forall x, conj x = Ok (c x)) ->
  (forall x y, same R x y -> same R (c x) (c y)) ->
  (forall x, same R (c (c x)) x) ->
  (forall x y, same R (c (sadd R x y)) (sadd R (c x) (c y))) ->
  (forall x y, same R (c (smul R x y)) (smul R (c x) (c y))) ->
  forall (L M N : nat) (a a' : smatrix T L M) (b : smatrix T M N),
  agree (same_mat R) (x <- smatrix_conj conj a ;; smatrix_conj conj x) (Ok a)
  /\ agree (same_mat R) (x <- smatrix_add O a a' ;; smatrix_conj conj x)
       (y <- smatrix_conj conj a ;; y' <- smatrix_conj conj a' ;; smatrix_add O y y')
  /\ agree (same_mat R) (x <- smatrix_mul O a b ;; smatrix_conj conj x)
       (y <- smatrix_conj conj a ;; y' <- smatrix_conj conj b ;; smatrix_mul O y y').
Proof.
  intros conj c Hc Hp Hi Ha Hm L M N a a' b.
  assert (C0 : same R (c (sz R)) (sz R)).
  { assert (E : same R (sadd R (c (sz R)) (c (sz R))) (c (sz R))).
    { etransitivity; [symmetry; apply Ha|]. apply Hp. apply (law_add_0 R HR). }
    pose proof (sadd_proper R HR) as P1. pose proof (sneg_proper R HR) as P2.
    transitivity (sadd R (sadd R (c (sz R)) (c (sz R))) (sneg R (c (sz R)))).
    - nc_ring HR.
    - rewrite E. nc_ring HR. }
  assert (Cs : forall n f, same R (c (sum_n R n f)) (sum_n R n (fun k => c (f k)))).
  { induction n as [|n IH]; intros f; simpl; [exact C0|].
    etransitivity; [apply Ha|]. apply (law_add_cong R HR); [apply IH|reflexivity]. }
  unfold smatrix_add, smatrix_mul, agree.
  repeat first [rewrite (smatrix_add_total O R HI)|rewrite (smatrix_mul_total O R HI)
               |rewrite (smatrix_conj_total R _ conj c Hc)|rewrite bind_ok].
  split; [|split]; do 2 eexists; (split; [reflexivity|]); (split; [reflexivity|]).
  - intros i j H1 H2. rewrite !mat_at_tab by assumption. apply Hi.
  - intros i j H1 H2. rewrite !mat_at_tab by assumption. apply Ha.
  - intros i j H1 H2. rewrite !mat_at_tab by assumption. etransitivity; [apply Cs|].
    apply (sum_ext R HR). intros m Hmm. rewrite !mat_at_tab by assumption. apply Hm.
Qed.
End Laws.

Definition m23 (a b c d e f : Z) : smatrix Z 2 3 :=
  acons (acons a (acons b (acons c anil))) (acons (acons d (acons e (acons f anil))) anil).
Example C23_case :
  smatrix_mul z_ops (m22 1 2 3 4) (m23 1 2 3 4 5 6) = Ok (m23 9 12 15 19 26 33).
Proof. reflexivity. Qed.
Example C24_case :
  smatrix_mul_vec z_ops (m23 1 2 3 4 5 6) (acons 1 (acons 0 (acons 2 anil)))%Z
  = Ok (acons 7 (acons 16 anil))%Z.
Proof. reflexivity. Qed.

(** Complex conjugation over any ring meets the hypotheses of [C25_conj_laws]
    whenever the components commute; over the integers: *)
Example C25_case :
  let c := fun z : complex Z => Cx (re z) (- im z)%Z in
  (forall z, complex_conj (r_neg z_ops) z = Ok (c z))
  /\ (forall z, same (complex_sig z_sig) (c (c z)) z)
  /\ (forall z w, same (complex_sig z_sig) (c (smul (complex_sig z_sig) z w))
                       (smul (complex_sig z_sig) (c z) (c w))).
Proof.
  repeat split; simpl; intros; try ring; reflexivity.
Qed.

(** ** C05: without commutation evaluation is not multiplicative.
    Over 2x2 integer matrices with p = x and q = a constant not commuting with the argument. *)
Theorem C05_product_law_needs_commutation_refuted :
  exists (p q : poly (smatrix Z 2 2)) (x : smatrix Z 2 2),
    is_ring (smatrix_ops z_ops 2) (same_mat z_sig)
    /\ ~ agree (same_mat z_sig)
         (r <- poly_mul_ref (smatrix_ops z_ops 2) p q ;; poly_eval (smatrix_ops z_ops 2) r x)
         (y <- poly_eval (smatrix_ops z_ops 2) p x ;; z <- poly_eval (smatrix_ops z_ops 2) q x ;;
          r_mul (smatrix_ops z_ops 2) y z).
Proof.
  exists [m22 0 0 0 0; m22 1 0 0 1], [m22 1 1 0 1], (m22 1 0 1 1).
  split.
  - exists (mat_sig z_sig 2). split; [apply smatrix_implements, z_implements|].
    split; [apply mat_laws, z_laws|]. reflexivity.
  - intros (a & b & Ha & Hb & H). vm_compute in Ha, Hb.
    injection Ha as <-. injection Hb as <-. specialize (H 0 0 ltac:(lia) ltac:(lia)).
    vm_compute in H. discriminate.
Qed.

Print Assumptions C22_square_smatrix_is_ring.
Print Assumptions C23_product_laws.
Print Assumptions C24_matrix_vector_laws.
Print Assumptions C25_conj_laws.
Print Assumptions C05_product_law_needs_commutation_refuted.
Print Assumptions C22_forms_agree.
Print Assumptions C23_product_entries.
Print Assumptions C23_mul_assign_entries.
Print Assumptions C24_matrix_vector_entries.
Print Assumptions C25_entrywise.
