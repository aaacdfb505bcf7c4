(** Property C86: substitution.  Evaluating a polynomial at a polynomial is composition;
    polynomials of a matrix act on its eigenvectors through the eigenvalue; complex numbers
    multiply like real 2x2 matrices.
    [compose], [constants], [eigen], [mat22], [complex_matrix], [complex_vector] : Spec/Substitution.v;
    [commutes_with], [same_poly] : Spec/Polynomial.v; [agree], [returns] : Spec/Agree.v. *)
From Coq Require Import List Arith ZArith Lia Bool Setoid Morphisms.
From Verif Require Import Base.Outcome Base.Array Base.Sim Model.Traits Model.Polynomial Model.Complex
  Model.SVector Model.SMatrix Spec.Ring Spec.Sums Spec.Agree Spec.Matrix Spec.Polynomial Spec.Complex Spec.Nest Spec.Substitution
  Proofs.RingTheory Proofs.PolynomialProofs Proofs.PolynomialRing Proofs.SMatrixProofs Proofs.ComplexProofs
  Proofs.RingSim Proofs.IntProofs Proofs.IntegerRing Proofs.Substitution.
Import ListNotations.

Lemma coeff_const {T} (R : ring_sig T) (a : T) i : coeff R [a] i = if i =? 0 then a else sz R.
Proof. unfold coeff. destruct i as [|[|i]]; reflexivity. Qed.

Lemma commutes_coeff_all {T} (R : ring_sig T) (HR : ring_laws R) x p :
  commutes_with R x p -> forall i, same R (smul R x (coeff R p i)) (smul R (coeff R p i) x).
Proof. intros H i. apply commutes_coeff; assumption. Qed.

Lemma Forall2_map_l {A B C} (S : C -> B -> Prop) (g : A -> C) l l' : Forall2 (fun a b => S (g a) b) l l' -> Forall2 S (map g l) l'.
Proof. induction 1; constructor; auto. Qed.

Lemma Forall2_diag {A} (S : A -> A -> Prop) l : (forall a, In a l -> S a a) -> Forall2 S l l.
Proof. induction l; constructor; [apply H; left; reflexivity|apply IHl; intros; apply H; right; assumption]. Qed.

(** ** Composition of polynomials *)

(** p(q) evaluated at x is p evaluated at q(x), if x commutes with the coefficients. *)
Theorem C86_composition :
  forall (T : Type) (O : RingOps T) (R : ring_sig T),
  implements O R -> ring_laws R ->
  forall (p q : poly T) (x : T),
  commutes_with R x p -> commutes_with R x q ->
  agree (same R) (r <- compose O p q ;; poly_eval O r x)
                 (y <- poly_eval O q x ;; poly_eval O p y).
Proof.
  intros T O R HI HR p q x Hp Hq.
  pose proof (evaluates_sim O R HI HR O R HI HR (fun a => a) x (fun a b H => H)
    (law_refl R HR _) (law_refl R HR _) (fun a b => law_refl R HR _) (fun a b => law_refl R HR _)
    (fun a b => law_refl R HR _) (fun a => law_refl R HR _)) as HS.
  destruct (poly_eval_ref_spec O R HI HR q x) as (y & Ey & Hy).
  assert (Vq : evaluates R R (fun a => a) x q y).
  { split; [apply commutes_coeff_all; assumption|]. rewrite map_id. apply (law_sym R HR), Hy. }
  assert (Vp : Forall2 (evaluates R R (fun a => a) x) (constants p) p).
  { unfold constants. apply Forall2_map_l, Forall2_diag. intros a Ha.
    exact (evaluates_const R R HR (fun a => a) x (law_refl R HR _) a (Hp a Ha)). }
  pose proof (sim_poly_eval never _ _ _ HS _ _ _ _ Vp Vq) as Hs.
  destruct (poly_eval_ref_spec (poly_ops O) (PR O R) (PR_implements O R HI HR) (PR_laws O R HI HR) (constants p) q)
    as (r & Er & _).
  destruct (sim_never_ok _ _ _ _ Hs Er) as (z & Ez & _ & Vz).
  unfold compose, poly_eval. rewrite Er, Ey. cbn [bind].
  destruct (poly_eval_ref_spec O R HI HR r x) as (w & Ew & Hw).
  exists w, z. split; [exact Ew|]. split; [exact Ez|]. rewrite map_id in Vz.
  eapply law_trans; eauto.
Qed.

Section Poly.
Context {T : Type} (O : RingOps T) (R : ring_sig T) (HI : implements O R) (HR : ring_laws R).
Let HPI := PR_implements O R HI HR.
Let HPR := PR_laws O R HI HR.
#[local] Instance E1 : Equivalence (same R) := same_equiv R HR.
#[local] Instance E2 : Proper (same R ==> same R ==> same R) (sadd R) := sadd_proper R HR.
#[local] Instance E4 : Proper (same R ==> same R ==> same R) (smul R) := smul_proper R HR.

Lemma compose_value p q : returns (compose O p q) (fun r => same_poly R r (poly_value (PR O R) (constants p) q)).
Proof. destruct (poly_eval_ref_spec (poly_ops O) (PR O R) HPI HPR (constants p) q) as (r & E & H). exists r. split; [exact E|exact H]. Qed.

Lemma mul_x q i : same R (coeff R (smul (PR O R) q [sz R; so R]) i) (match i with 0 => sz R | S j => coeff R q j end).
Proof.
  rewrite (PR_mul O R HI HR). unfold convolution. destruct i as [|j].
  - simpl. unfold coeff at 2. simpl. nc_ring HR.
  - rewrite (sum_single R HR (S (S j)) j); [|clear; lia|].
    + replace (S j - j) with 1 by lia. unfold coeff at 2. simpl. nc_ring HR.
    + intros k Hk Hn. destruct (Nat.eq_dec k (S j)) as [->|H].
      * rewrite Nat.sub_diag. unfold coeff at 2. simpl. nc_ring HR.
      * unfold coeff at 2. rewrite nth_overflow by (cbn [length]; lia). nc_ring HR.
Qed.

Lemma value_at_x p : same_poly R (poly_value (PR O R) (constants p) [sz R; so R]) p.
Proof.
  induction p as [|a p IH]; [intros i; unfold poly_value; simpl; reflexivity|].
  cbn [constants map]. intros i.
  pose proof (poly_value_cons (PR O R) HPR [a] (constants p) [sz R; so R] i) as H. etransitivity; [exact H|].
  rewrite (PR_add O R HI HR), mul_x, coeff_const. destruct i as [|j]; simpl.
  - unfold coeff. simpl. nc_ring HR.
  - rewrite (IH j). unfold coeff. simpl. nc_ring HR.
Qed.

Lemma x_value q : same_poly R (poly_value (PR O R) (constants [sz R; so R]) q) q.
Proof.
  intros i. cbn [constants map]. unfold poly_value. cbn [length sum_n].
  rewrite !(PR_add O R HI HR), (PR_zero O R HR), !(PR_mul O R HI HR).
  change (coeff (PR O R) [[sz R]; [so R]] 0) with [sz R]. change (coeff (PR O R) [[sz R]; [so R]] 1) with [so R].
  assert (H0 : same R (convolution R [sz R] (pow (PR O R) q 0) i) (sz R)).
  { unfold convolution. apply (sum_zero R HR). intros k _. rewrite coeff_const. destruct (k =? 0); nc_ring HR. }
  assert (H1 : same R (convolution R [so R] (pow (PR O R) q 1) i) (coeff R (pow (PR O R) q 1) i)).
  { unfold convolution. rewrite (sum_single R HR (S i) 0); [|lia|].
    - rewrite Nat.sub_0_r. unfold coeff at 1. simpl. nc_ring HR.
    - intros k Hk Hn. rewrite coeff_const. destruct (Nat.eqb_spec k 0); [lia|]. nc_ring HR. }
  rewrite H0, H1. pose proof (law_mul_1_l _ HPR q i) as H2. cbn [pow]. rewrite H2. nc_ring HR.
Qed.
End Poly.

(** The polynomial x is the neutral element of composition, over every ring. *)
Theorem C86_composition_with_x :
  forall (T : Type) (O : RingOps T) (R : ring_sig T),
  implements O R -> ring_laws R ->
  forall p : poly T,
  returns (compose O p [r_zero O; r_one O]) (fun r => same_poly R r p)
  /\ returns (compose O [r_zero O; r_one O] p) (fun r => same_poly R r p).
Proof.
  intros T O R HI HR p. rewrite (impl_zero _ _ HI), (impl_one _ _ HI).
  split.
  - destruct (compose_value O R HI HR p [sz R; so R]) as (r & E & H). exists r. split; [exact E|].
    intros i. eapply law_trans; [exact HR|apply H|apply (value_at_x O R HI HR)].
  - destruct (compose_value O R HI HR [sz R; so R] p) as (r & E & H). exists r. split; [exact E|].
    intros i. eapply law_trans; [exact HR|apply H|apply (x_value O R HI HR)].
Qed.

(** Composition is associative, over commutative rings. *)
Theorem C86_composition_associative :
  forall (T : Type) (O : RingOps T) (R : ring_sig T),
  implements O R -> ring_laws R -> commutative R ->
  forall p q r : poly T,
  agree (same_poly R) (pq <- compose O p q ;; compose O pq r)
                      (qr <- compose O q r ;; compose O p qr).
Proof.
  intros T O R HI HR HC p q r.
  pose proof (PR_implements O R HI HR) as HPI. pose proof (PR_laws O R HI HR) as HPR.
  pose proof (PR_commutative O R HI HR HC) as HPC.
  assert (cst : forall a b, same R a b -> same_poly R [a] [b]).
  { intros a b H i. rewrite !coeff_const. destruct (i =? 0); [exact H|apply law_refl, HR]. }
  pose proof (evaluates_sim O R HI HR (poly_ops O) (PR O R) HPI HPR (fun a => [a]) r) as HS.
  assert (f_zero : same (PR O R) [sz R] (sz (PR O R))).
  { intros i. eapply law_trans; [exact HR| |apply (law_sym R HR), (PR_zero O R HR)].
    rewrite coeff_const. destruct (i =? 0); apply law_refl, HR. }
  specialize (HS cst f_zero).
  assert (Hs : ring_sim never (evaluates R (PR O R) (fun a => [a]) r) (poly_ops O) (poly_ops O)).
  { apply HS.
    - intros i. eapply law_trans; [exact HR| |apply (law_sym R HR), (PR_one O R HI HR)].
      rewrite coeff_const. apply law_refl, HR.
    - intros a b i. eapply law_trans; [exact HR| |apply (law_sym R HR), (PR_add O R HI HR)].
      rewrite !coeff_const. destruct (i =? 0); [apply law_refl, HR|nc_ring HR].
    - intros a b i. eapply law_trans; [exact HR| |apply (law_sym R HR), (PR_sub O R HI HR)].
      rewrite !coeff_const. destruct (i =? 0); [apply law_refl, HR|nc_ring HR].
    - intros a b i. eapply law_trans; [exact HR| |apply (law_sym R HR), (PR_mul O R HI HR)].
      rewrite coeff_const. unfold convolution. apply (law_sym R HR).
      pose proof (same_equiv R HR).
      pose proof (smul_proper R HR). pose proof (sadd_proper R HR).
      destruct i as [|i].
      + simpl. unfold coeff. simpl. nc_ring HR.
      + apply (sum_zero R HR). intros k _. rewrite !coeff_const.
        destruct (Nat.eqb_spec k 0) as [->|]; [rewrite Nat.sub_0_r; simpl; nc_ring HR|nc_ring HR].
    - intros a i. eapply law_trans; [exact HR| |apply (law_sym R HR), (PR_neg O R HI HR)].
      rewrite !coeff_const. destruct (i =? 0); [apply law_refl, HR|nc_ring HR]. }
  clear HS.
  destruct (poly_eval_ref_spec (poly_ops O) (PR O R) HPI HPR (constants q) r) as (qr & Eqr & Vqr).
  assert (Vq : evaluates R (PR O R) (fun a => [a]) r q qr).
  { split; [intros i; apply HPC|]. apply (law_sym _ HPR), Vqr. }
  assert (Vp : Forall2 (evaluates R (PR O R) (fun a => [a]) r) (constants p) (constants p)).
  { unfold constants. apply Forall2_map_l. clear - HI HR HPR HPC f_zero. induction p as [|a p IH]; constructor; [|exact IH].
    exact (evaluates_const R (PR O R) HPR (fun a => [a]) r f_zero a (HPC _ _)). }
  pose proof (sim_poly_eval never _ _ _ Hs _ _ _ _ Vp Vq) as H.
  destruct (poly_eval_ref_spec (poly_ops O) (PR O R) HPI HPR (constants p) q) as (pq & Epq & _).
  destruct (sim_never_ok _ _ _ _ H Epq) as (z & Ez & _ & Vz).
  unfold compose, poly_eval. rewrite Epq, Eqr. cbn [bind].
  destruct (poly_eval_ref_spec (poly_ops O) (PR O R) HPI HPR (constants pq) r) as (w & Ew & Hw).
  exists w, z. split; [exact Ew|]. split; [exact Ez|]. exact (law_trans _ HPR _ _ _ Hw Vz).
Qed.

(** ** Eigenvectors *)
Section Eigen.
Context {T : Type} (O : RingOps T) (R : ring_sig T) (HI : implements O R) (HR : ring_laws R).
Context {n : nat} (v : svector T n).
#[local] Instance F1 : Equivalence (same R) := same_equiv R HR.
#[local] Instance F2 : Proper (same R ==> same R ==> same R) (sadd R) := sadd_proper R HR.
#[local] Instance F3 : Proper (same R ==> same R ==> same R) (ssub R) := ssub_proper R HR.
#[local] Instance F4 : Proper (same R ==> same R ==> same R) (smul R) := smul_proper R HR.
#[local] Instance F5 : Proper (same R ==> same R) (sneg R) := sneg_proper R HR.
Notation "a ≡ b" := (same R a b) (at level 70).

Definition eig (a : smatrix T n n) (c : T) : Prop :=
  forall i, i < n -> sum_n R n (fun j => smul R (mat_at R a i j) (vec_at R v j)) ≡ smul R (vec_at R v i) c.

Lemma eigen_eig a c : eigen O R v a c <-> eig a c.
Proof.
  unfold eigen, svector_scale, svector_scale_ref. split.
  - intros (x & y & Ex & Ey & H) i Hi.
    rewrite (smatrix_mul_vec_total O R HI) in Ex. rewrite (svector_scale_total O R HI) in Ey.
    injection Ex as <-. injection Ey as <-. specialize (H i Hi).
    change (tab n) with (@vtab T n) in H. rewrite !(vec_at_tab R) in H by exact Hi. exact H.
  - intros H. eexists _, _. split; [apply (smatrix_mul_vec_total O R HI)|].
    split; [apply (svector_scale_total O R HI)|]. intros i Hi.
    change (tab n) with (@vtab T n). rewrite !(vec_at_tab R) by exact Hi. apply H, Hi.
Qed.

Lemma eig_sim : ring_sim never eig (smatrix_ops O n) O.
Proof.
  pose proof (smatrix_implements O R HI n) as HM.
  constructor.
  - rewrite (impl_zero _ _ HM), (impl_zero _ _ HI). intros i Hi. cbn [mat_sig sz].
    rewrite (sum_zero R HR); [nc_ring HR|]. intros j Hj. rewrite (mat_at_tab R) by assumption. nc_ring HR.
  - rewrite (impl_one _ _ HM), (impl_one _ _ HI). intros i Hi. cbn [mat_sig so].
    rewrite (sum_ext R HR n _ (fun j => smul R (delta R i j) (vec_at R v j))).
    + rewrite (sum_delta_l R HR) by exact Hi. nc_ring HR.
    + intros j Hj. rewrite (mat_at_tab R) by assumption. reflexivity.
  - intros a c b d Ha Hb. rewrite (impl_add _ _ HM), (impl_add _ _ HI). apply sim_ok. intros i Hi. cbn [mat_sig sadd].
    rewrite (sum_ext R HR n _ (fun j => smul R (sadd R (mat_at R a i j) (mat_at R b i j)) (vec_at R v j))).
    + rewrite (sum_distr_r R HR), Ha, Hb by exact Hi. nc_ring HR.
    + intros j Hj. rewrite (mat_at_tab R) by assumption. reflexivity.
  - intros a c b d Ha Hb. rewrite (impl_sub _ _ HM), (impl_sub _ _ HI). apply sim_ok. intros i Hi. cbn [mat_sig ssub].
    rewrite (sum_ext R HR n _ (fun j => smul R (ssub R (mat_at R a i j) (mat_at R b i j)) (vec_at R v j))).
    + rewrite (sum_distr_sub_r R HR), Ha, Hb by exact Hi. nc_ring HR.
    + intros j Hj. rewrite (mat_at_tab R) by assumption. reflexivity.
  - intros a c b d Ha Hb. rewrite (impl_mul _ _ HM), (impl_mul _ _ HI). apply sim_ok. intros i Hi. cbn [mat_sig smul].
    rewrite (sum_ext R HR n _ (fun k => smul R (sum_n R n (fun m => smul R (mat_at R a i m) (mat_at R b m k))) (vec_at R v k))).
    + rewrite (sum_mul_assoc R HR).
      rewrite (sum_ext R HR n _ (fun m => smul R (smul R (mat_at R a i m) (vec_at R v m)) d)).
      * rewrite (sum_mul_r R HR), Ha by exact Hi. nc_ring HR.
      * intros m Hm. rewrite Hb by exact Hm. nc_ring HR.
    + intros j Hj. rewrite (mat_at_tab R) by assumption. reflexivity.
  - intros a c Ha. rewrite (impl_neg _ _ HM), (impl_neg _ _ HI). apply sim_ok. intros i Hi. cbn [mat_sig sneg].
    rewrite (sum_ext R HR n _ (fun j => sneg R (smul R (mat_at R a i j) (vec_at R v j)))).
    + rewrite (sum_neg R HR), Ha by exact Hi. nc_ring HR.
    + intros j Hj. rewrite (mat_at_tab R) by assumption. nc_ring HR.
Qed.
End Eigen.

(** The matrices that have [v] as an eigenvector are closed under the operations, which act on
    the eigenvalues; and so are polynomials in such a matrix with such coefficients: if
    A v = λ v then p(A) v = p(λ) v.  Any ring, any size; [v] may be zero. *)
Theorem C86_eigenvalues :
  forall (T : Type) (O : RingOps T) (R : ring_sig T),
  implements O R -> ring_laws R ->
  forall (n : nat) (v : svector T n) (a b : smatrix T n n) (c d : T),
  eigen O R v a c -> eigen O R v b d ->
  (forall p p', Forall2 (eigen O R v) p p' ->
     exists m l, poly_eval (smatrix_ops O n) p a = Ok m /\ poly_eval O p' c = Ok l /\ eigen O R v m l)
  /\ (exists m l, smatrix_add O a b = Ok m /\ r_add O c d = Ok l /\ eigen O R v m l)
  /\ (exists m l, smatrix_sub O a b = Ok m /\ r_sub O c d = Ok l /\ eigen O R v m l)
  /\ (exists m l, smatrix_mul O a b = Ok m /\ r_mul O c d = Ok l /\ eigen O R v m l)
  /\ (exists m l, smatrix_neg O a = Ok m /\ r_neg O c = Ok l /\ eigen O R v m l)
  /\ (exists m, smatrix_one O n n = Ok m /\ eigen O R v m (r_one O))
  /\ (exists m, smatrix_zero O n n = Ok m /\ eigen O R v m (r_zero O)).
Proof.
  intros T O R HI HR n v a b c d Ha Hb.
  pose proof (eig_sim O R HI HR v) as HS.
  pose proof (smatrix_implements O R HI n) as HM.
  pose proof (proj1 (eigen_eig O R HI v a c) Ha) as Ha'. pose proof (proj1 (eigen_eig O R HI v b d) Hb) as Hb'.
  split; [|split; [|split; [|split; [|split; [|split]]]]].
  - intros p p' Hp.
    assert (Hp' : Forall2 (eig R v) p p').
    { clear - Hp HI. induction Hp; constructor; auto. apply (eigen_eig O R HI); assumption. }
    pose proof (sim_poly_eval never _ _ _ HS _ _ _ _ Hp' Ha') as H.
    destruct (poly_eval_ref_spec _ _ HM (mat_laws R HR n) p a) as (m & Em & _).
    destruct (sim_never_ok _ _ _ _ H Em) as (l & El & Hl).
    exists m, l. split; [exact Em|]. split; [exact El|]. apply (eigen_eig O R HI), Hl.
  - pose proof (rs_add _ _ _ _ HS _ _ _ _ Ha' Hb') as H. rewrite (impl_add _ _ HM), (impl_add _ _ HI) in H.
    destruct (sim_never_ok _ _ _ _ H eq_refl) as (l & El & Hl).
    eexists _, _. split; [apply (impl_add _ _ HM)|]. split; [apply (impl_add _ _ HI)|].
    injection El as El. subst l. apply (eigen_eig O R HI), Hl.
  - pose proof (rs_sub _ _ _ _ HS _ _ _ _ Ha' Hb') as H. rewrite (impl_sub _ _ HM), (impl_sub _ _ HI) in H.
    destruct (sim_never_ok _ _ _ _ H eq_refl) as (l & El & Hl).
    eexists _, _. split; [apply (impl_sub _ _ HM)|]. split; [apply (impl_sub _ _ HI)|].
    injection El as El. subst l. apply (eigen_eig O R HI), Hl.
  - pose proof (rs_mul _ _ _ _ HS _ _ _ _ Ha' Hb') as H. rewrite (impl_mul _ _ HM), (impl_mul _ _ HI) in H.
    destruct (sim_never_ok _ _ _ _ H eq_refl) as (l & El & Hl).
    eexists _, _. split; [apply (impl_mul _ _ HM)|]. split; [apply (impl_mul _ _ HI)|].
    injection El as El. subst l. apply (eigen_eig O R HI), Hl.
  - pose proof (rs_neg _ _ _ _ HS _ _ Ha') as H. rewrite (impl_neg _ _ HM), (impl_neg _ _ HI) in H.
    destruct (sim_never_ok _ _ _ _ H eq_refl) as (l & El & Hl).
    eexists _, _. split; [apply (impl_neg _ _ HM)|]. split; [apply (impl_neg _ _ HI)|].
    injection El as El. subst l. apply (eigen_eig O R HI), Hl.
  - eexists. split; [apply (smatrix_one_total O R HI)|]. apply (eigen_eig O R HI).
    pose proof (rs_one _ _ _ _ HS) as H. rewrite (impl_one _ _ HM) in H. exact H.
  - eexists. split; [apply (smatrix_zero_total O R HI)|]. apply (eigen_eig O R HI).
    pose proof (rs_zero _ _ _ _ HS) as H. rewrite (impl_zero _ _ HM) in H. exact H.
Qed.

(** ** Complex numbers as 2x2 matrices *)
Section CM.
Context {T : Type} (O : RingOps T) (R : ring_sig T) (HI : implements O R) (HR : ring_laws R).
#[local] Instance G1 : Equivalence (same R) := same_equiv R HR.
#[local] Instance G2 : Proper (same R ==> same R ==> same R) (sadd R) := sadd_proper R HR.
#[local] Instance G3 : Proper (same R ==> same R ==> same R) (ssub R) := ssub_proper R HR.
#[local] Instance G4 : Proper (same R ==> same R ==> same R) (smul R) := smul_proper R HR.
#[local] Instance G5 : Proper (same R ==> same R) (sneg R) := sneg_proper R HR.

Definition cm (z : complex T) (m : smatrix T 2 2) : Prop := same_mat R m (complex_matrix R z).

Lemma cm_entries z m : cm z m <->
  same R (mat_at R m 0 0) (re z) /\ same R (mat_at R m 0 1) (sneg R (im z))
  /\ same R (mat_at R m 1 0) (im z) /\ same R (mat_at R m 1 1) (re z).
Proof.
  split.
  - intros H. split; [|split; [|split]]; (etransitivity; [apply H; lia|reflexivity]).
  - intros (H1 & H2 & H3 & H4) i j Hi Hj.
    destruct i as [|[|i]]; [| |lia]; (destruct j as [|[|j]]; [| |lia]); assumption.
Qed.

Lemma cm_sim : ring_sim never cm (complex_ops O) (smatrix_ops O 2).
Proof.
  pose proof (smatrix_implements O R HI 2) as HM. pose proof (complex_implements O R HI) as HC.
  constructor.
  - rewrite (impl_zero _ _ HM), (impl_zero _ _ HC). apply cm_entries. cbn [mat_sig sz complex_sig re im].
    rewrite !(mat_at_tab R) by lia. repeat split; try reflexivity. nc_ring HR.
  - rewrite (impl_one _ _ HM), (impl_one _ _ HC). apply cm_entries. cbn [mat_sig so complex_sig re im].
    rewrite !(mat_at_tab R) by lia. unfold delta. simpl. repeat split; try reflexivity. nc_ring HR.
  - intros z m w m' Hz Hw. apply cm_entries in Hz, Hw. destruct Hz as (A & B & C & D), Hw as (A' & B' & C' & D').
    rewrite (impl_add _ _ HM), (impl_add _ _ HC). apply sim_ok, cm_entries. cbn [mat_sig sadd complex_sig re im].
    rewrite !(mat_at_tab R) by lia. rewrite A, B, C, D, A', B', C', D'. repeat split; try reflexivity. nc_ring HR.
  - intros z m w m' Hz Hw. apply cm_entries in Hz, Hw. destruct Hz as (A & B & C & D), Hw as (A' & B' & C' & D').
    rewrite (impl_sub _ _ HM), (impl_sub _ _ HC). apply sim_ok, cm_entries. cbn [mat_sig ssub complex_sig re im].
    rewrite !(mat_at_tab R) by lia. rewrite A, B, C, D, A', B', C', D'. repeat split; try reflexivity. nc_ring HR.
  - intros z m w m' Hz Hw. apply cm_entries in Hz, Hw. destruct Hz as (A & B & C & D), Hw as (A' & B' & C' & D').
    rewrite (impl_mul _ _ HM), (impl_mul _ _ HC). apply sim_ok, cm_entries. cbn [mat_sig smul complex_sig re im].
    rewrite !(mat_at_tab R) by lia. cbn [sum_n]. rewrite A, B, C, D, A', B', C', D'. repeat split; nc_ring HR.
  - intros z m Hz. apply cm_entries in Hz. destruct Hz as (A & B & C & D).
    rewrite (impl_neg _ _ HM), (impl_neg _ _ HC). apply sim_ok, cm_entries. cbn [mat_sig sneg complex_sig re im].
    rewrite !(mat_at_tab R) by lia. rewrite A, B, C, D. repeat split; reflexivity.
Qed.

Lemma cm_refl z : cm z (complex_matrix R z).
Proof. intros i j _ _. reflexivity. Qed.
End CM.

(** x + iy |-> ((x, -y), (y, x)) turns the operations of [Complex] into those of [SMatrix], over
    every ring (the entries need not commute); polynomial evaluation follows; the matrix times
    the vector of w is the vector of z w; different numbers have different matrices. *)
Theorem C86_complex_as_matrices :
  forall (T : Type) (O : RingOps T) (R : ring_sig T),
  implements O R -> ring_laws R ->
  let M := complex_matrix R in
  (forall z w, agree (same_mat R) (omap M (complex_add (r_add O) z w)) (smatrix_add O (M z) (M w)))
  /\ (forall z w, agree (same_mat R) (omap M (complex_sub (r_sub O) z w)) (smatrix_sub O (M z) (M w)))
  /\ (forall z w, agree (same_mat R) (omap M (complex_mul O z w)) (smatrix_mul O (M z) (M w)))
  /\ (forall z, agree (same_mat R) (omap M (complex_neg (r_neg O) z)) (smatrix_neg O (M z)))
  /\ (forall p z, agree (same_mat R) (omap M (poly_eval (complex_ops O) p z))
                                     (poly_eval (smatrix_ops O 2) (map M p) (M z)))
  /\ (forall z w, agree (same_vec R) (omap complex_vector (complex_mul O z w))
                                     (smatrix_mul_vec O (M z) (complex_vector w)))
  /\ (forall z w, same_mat R (M z) (M w) <-> same_complex R z w).
Proof.
  intros T O R HI HR M.
  pose proof (cm_sim O R HI HR) as HS. pose proof (same_equiv R HR) as EQ.
  pose proof (complex_implements O R HI) as HC.
  assert (fin : forall m1 m2 z, sim never (cm R) m1 m2 -> m1 = Ok z -> agree (same_mat R) (omap M m1) m2).
  { intros m1 m2 z H E. destruct (sim_never_ok _ _ _ _ H E) as (m & Em & Hm). rewrite E, Em.
    exists (M z), m. split; [reflexivity|]. split; [reflexivity|]. intros i j Hi Hj. symmetry. apply Hm; assumption. }
  split; [|split; [|split; [|split; [|split; [|split]]]]].
  - intros z w. eapply fin; [apply (rs_add _ _ _ _ HS); apply cm_refl, HR|apply (impl_add _ _ HC)].
  - intros z w. eapply fin; [apply (rs_sub _ _ _ _ HS); apply cm_refl, HR|apply (impl_sub _ _ HC)].
  - intros z w. eapply fin; [apply (rs_mul _ _ _ _ HS); apply cm_refl, HR|apply (impl_mul _ _ HC)].
  - intros z. eapply fin; [apply (rs_neg _ _ _ _ HS); apply cm_refl, HR|apply (impl_neg _ _ HC)].
  - intros p z. destruct (poly_eval_ref_spec _ _ HC (complex_laws R HR) p z) as (y & Ey & _).
    eapply fin; [|exact Ey]. apply (sim_poly_eval never _ _ _ HS); [|apply cm_refl, HR].
    clear - HR. induction p; constructor; [apply cm_refl, HR|assumption].
  - intros z w. eexists _, _. split; [unfold complex_mul; rewrite (impl_mul _ _ HC z w : complex_mul_ref O z w = _); reflexivity|].
    split; [apply (smatrix_mul_vec_total O R HI)|]. intros i Hi.
    change (tab 2) with (@vtab T 2). rewrite (vec_at_tab R) by exact Hi.
    destruct i as [|[|i]]; [| |lia]; cbn; nc_ring HR.
  - intros z w. split.
    + intros H. split; [apply (H 0 0); lia|apply (H 1 0); lia].
    + intros [H1 H2] i j Hi Hj. pose proof (sneg_proper R HR) as P.
      destruct i as [|[|i]]; [| |lia]; (destruct j as [|[|j]]; [| |lia]); cbn; try assumption. apply (law_neg_cong R HR), H2.
Qed.

(** ** Cases *)
(** (1 + x^2) of (2 + x) is 5 + 4 x + x^2; at 3 both sides are 26; eigenvector (1, 1) of
    ((1, 2), (3, 0)); (1 + 2i)(3 + 4i) = -5 + 10i as matrices. *)
Example C86_case :
  compose z_ops [1; 0; 1]%Z [2; 1]%Z = Ok [5; 4; 1]%Z
  /\ (r <- compose z_ops [1; 0; 1]%Z [2; 1]%Z ;; poly_eval z_ops r 3%Z) = Ok 26%Z
  /\ eigen z_ops z_sig (acons 1 (acons 1 anil))%Z (mat22 1 2 3 0)%Z 3%Z
  /\ smatrix_mul z_ops (complex_matrix z_sig (Cx 1 2)%Z) (complex_matrix z_sig (Cx 3 4)%Z)
     = Ok (complex_matrix z_sig (Cx (-5) 10)%Z).
Proof.
  split; [reflexivity|]. split; [reflexivity|]. split; [|reflexivity].
  eexists _, _. split; [reflexivity|]. split; [reflexivity|]. intros i Hi. reflexivity.
Qed.

(** Without commutation the composition law fails: over 2x2 integer matrices, p = x^2 and q = B x
    give B^2 x^2 on the left and (B x)^2 on the right. *)
Theorem C86_composition_everywhere_refuted :
  ~ (forall (p q : poly (smatrix Z 2 2)) (x : smatrix Z 2 2),
       let O := smatrix_ops z_ops 2 in
       agree (same_mat z_sig) (r <- compose O p q ;; poly_eval O r x)
                              (y <- poly_eval O q x ;; poly_eval O p y)).
Proof.
  intros H.
  specialize (H [mat22 0 0 0 0; mat22 0 0 0 0; mat22 1 0 0 1]%Z [mat22 0 0 0 0; mat22 0 1 0 0]%Z (mat22 0 0 1 0)%Z).
  destruct H as (a & b & Ea & Eb & H).
  vm_compute in Ea. vm_compute in Eb. injection Ea as <-. injection Eb as <-.
  specialize (H 0 0 ltac:(lia) ltac:(lia)). vm_compute in H. discriminate H.
Qed.

Print Assumptions C86_composition.
Print Assumptions C86_composition_with_x.
Print Assumptions C86_composition_associative.
Print Assumptions C86_eigenvalues.
Print Assumptions C86_complex_as_matrices.
Print Assumptions C86_composition_everywhere_refuted.
