(** Properties C08-C11: Complex<T> over rings and fields. *)
From Coq Require Import List ZArith Reals Lra Setoid Morphisms.
From Verif Require Import Base.Outcome Model.Traits Model.Complex Model.RealInstance
  Spec.Ring Spec.Complex
  Proofs.RingTheory Proofs.ComplexProofs Proofs.IntegerRing Proofs.RealRing.

(** ** C08 *)
Theorem C08_complex_is_a_ring :
  forall (T : Type) (O : RingOps T) (R : ring_sig T),
  implements O R -> ring_laws R ->
  implements (complex_ops O) (complex_sig R) /\ ring_laws (complex_sig R)
  /\ (commutative R -> commutative (complex_sig R)).
Proof.
  intros T O R HI HR. split; [apply complex_implements; exact HI|].
  split; [apply complex_laws; exact HR|]. apply complex_comm; exact HR.
Qed.

(** i * i = -1 *)
Theorem C08_i_squared :
  forall (T : Type) (O : RingOps T) (R : ring_sig T),
  implements O R -> ring_laws R ->
  let i := complex_new (r_zero O) (r_one O) in
  exists s m, complex_mul_ref O i i = Ok s /\ complex_neg (r_neg O) (complex_one O) = Ok m
    /\ same_complex R s m.
Proof.
  intros T O R HI HR i.
  pose proof (impl_mul _ _ (complex_implements O R HI) i i) as Hm.
  pose proof (impl_neg _ _ (complex_implements O R HI) (complex_one O)) as Hn.
  eexists. eexists. split; [exact Hm|]. split; [exact Hn|].
  unfold i, complex_new, complex_one, same_complex. simpl.
  rewrite (impl_zero O R HI), (impl_one O R HI). split; nc_ring HR.
Qed.

(** All forms of one operator give the same result.  [add], [sub] stand for the component
    type's own by-value [+], [-], [+=], [-=]. *)
Theorem C08_operator_forms_agree :
  forall (T : Type) (O : RingOps T) (add sub : T -> T -> outcome T),
  (forall x y, add x y = r_add O x y) -> (forall x y, sub x y = r_sub O x y) ->
  forall z w : complex T,
  complex_add add z w = complex_add_assign_ref O z w
  /\ complex_add_assign add z w = complex_add_assign_ref O z w
  /\ complex_sub sub z w = complex_sub_assign_ref O z w
  /\ complex_sub_assign sub z w = complex_sub_assign_ref O z w
  /\ complex_mul O z w = complex_mul_ref O z w
  /\ complex_mul_assign O z w = complex_mul_ref O z w.
Proof.
  intros T O add sub Ha Hs z w.
  unfold complex_add, complex_add_assign, complex_sub, complex_sub_assign,
    complex_add_assign_ref, complex_sub_assign_ref.
  rewrite !Ha, !Hs. repeat split; reflexivity.
Qed.

Example C08_case :
  complex_mul_ref z_ops (Cx 1 2)%Z (Cx 3 4)%Z = Ok (Cx (-5) 10)%Z.
Proof. reflexivity. Qed.

(** ** C09 *)
Theorem C09_conj_is_an_involutive_automorphism :
  forall (T : Type) (O : RingOps T) (R : ring_sig T),
  implements O R -> ring_laws R ->
  exists cj : complex T -> complex T,
    (forall z, complex_conj (r_neg O) z = Ok (cj z))
    /\ (forall z, same R (re (cj z)) (re z) /\ same R (im (cj z)) (sneg R (im z)))
    /\ (forall z, same_complex R (cj (cj z)) z)
    /\ (forall z w, same_complex R (cj (sadd (complex_sig R) z w)) (sadd (complex_sig R) (cj z) (cj w)))
    /\ (forall z w, same_complex R (cj (ssub (complex_sig R) z w)) (ssub (complex_sig R) (cj z) (cj w)))
    /\ (forall z w, same_complex R (cj (smul (complex_sig R) z w)) (smul (complex_sig R) (cj z) (cj w)))
    /\ same_complex R (cj (so (complex_sig R))) (so (complex_sig R))
    /\ (forall z, same R (im (sadd (complex_sig R) z (cj z))) (sz R)
               /\ same R (re (sadd (complex_sig R) z (cj z))) (sadd R (re z) (re z))
               /\ same R (re (ssub (complex_sig R) z (cj z))) (sz R)
               /\ same R (im (ssub (complex_sig R) z (cj z))) (sadd R (im z) (im z))).
Proof.
  intros T O R HI HR. exists (fun z => Cx (re z) (sneg R (im z))).
  split; [apply (conj_val O R HI)|].
  unfold same_complex. simpl.
  repeat split; intros; try nc_ring HR.
Qed.

Theorem C09_norm_laws :
  forall (T : Type) (O : RingOps T) (R : ring_sig T),
  implements O R -> ring_laws R -> commutative R ->
  forall z w : complex T, exists cz zz zw nz nw nzw,
    complex_conj (r_neg O) z = Ok cz /\ complex_mul_ref O z cz = Ok zz
    /\ complex_sqr_norm O z = Ok nz /\ complex_sqr_norm O w = Ok nw
    /\ complex_mul_ref O z w = Ok zw /\ complex_sqr_norm O zw = Ok nzw
    /\ same_complex R zz (complex_new nz (sz R))
    /\ same R nzw (smul R nz nw).
Proof.
  intros T O R HI HR HC z w.
  pose proof (impl_mul _ _ (complex_implements O R HI)) as Hm. simpl r_mul in Hm.
  do 6 eexists.
  split; [apply (conj_val O R HI)|].
  split; [apply Hm|].
  split; [apply (sqr_norm_val O R HI)|].
  split; [apply (sqr_norm_val O R HI)|].
  split; [apply Hm|].
  split; [apply (sqr_norm_val O R HI)|].
  unfold same_complex. simpl. repeat split; c_ring HR HC.
Qed.

Theorem C09_scalar_multiplication :
  forall (T : Type) (O : RingOps T) (R : ring_sig T),
  implements O R -> ring_laws R ->
  forall (z : complex T) (t : T), exists r,
    complex_mul_scalar O z t = Ok r
    /\ same_complex R r (complex_new (smul R (re z) t) (smul R (im z) t))
    /\ same_complex R r (smul (complex_sig R) z (complex_new t (sz R))).
Proof.
  intros T O R HI HR z t. eexists. split.
  - unfold complex_mul_scalar. rewrite !(impl_mul O R HI). reflexivity.
  - unfold same_complex. simpl. repeat split; nc_ring HR.
Qed.

Example C09_case : complex_sqr_norm z_ops (Cx 3 4)%Z = Ok 25%Z
  /\ complex_conj (r_neg z_ops) (Cx 3 4)%Z = Ok (Cx 3 (-4))%Z.
Proof. split; reflexivity. Qed.

(** ** C10 *)
Theorem C10_division_inverts_multiplication :
  forall (T : Type) (F : FieldOps T) (R : ring_sig T), is_field F R ->
  forall (z w : complex T) (n : T),
  complex_sqr_norm (f_ring F) w = Ok n -> ~ same R n (sz R) ->
  (exists q p, complex_div_ref F z w = Ok q /\ complex_div F z w = Ok q
     /\ complex_mul_ref (f_ring F) q w = Ok p /\ same_complex R p z)
  /\ (exists p q, complex_mul_ref (f_ring F) z w = Ok p
     /\ complex_div_ref F p w = Ok q /\ same_complex R q z)
  /\ (exists q, complex_div_ref F w w = Ok q /\ same_complex R q (complex_one (f_ring F))).
Proof.
  intros T F R HF z w n Hn Hnz.
  pose proof (fld_impl F R HF) as HI.
  pose proof (impl_mul _ _ (complex_implements _ R HI)) as Hm. simpl r_mul in Hm.
  rewrite (sqr_norm_val _ R HI) in Hn. injection Hn as <-.
  split; [|split].
  - destruct (complex_div_spec F R HF z w Hnz) as (q & Hq & Hs).
    exists q. eexists. split; [exact Hq|]. split; [exact Hq|]. split; [apply Hm|]. exact Hs.
  - destruct (complex_div_mul F R HF z w Hnz) as (q & Hq & Hs).
    eexists. exists q. split; [apply Hm|]. split; [exact Hq|]. exact Hs.
  - destruct (complex_div_self F R HF w Hnz) as (q & Hq & Hs).
    exists q. split; [exact Hq|].
    replace (complex_one (f_ring F)) with (so (complex_sig R)); [exact Hs|].
    symmetry. apply (impl_one _ _ (complex_implements _ R HI)).
Qed.

Theorem C10_scalar_division :
  forall (T : Type) (F : FieldOps T) (R : ring_sig T), is_field F R ->
  forall (z : complex T) (t : T), ~ same R t (sz R) ->
  exists q q', complex_div_scalar (f_div F) z t = Ok q
    /\ complex_div_ref F z (complex_new t (sz R)) = Ok q' /\ same_complex R q q'.
Proof. intros T F R HF z t Ht. apply (complex_div_scalar_spec F R HF z t Ht). Qed.

Example C10_case : is_field real_field real_sig
  /\ complex_sqr_norm real_ring (Cx 1 1)%R = Ok (1 * 1 + 1 * 1)%R
  /\ ~ same real_sig (1 * 1 + 1 * 1)%R (sz real_sig).
Proof. split; [exact real_is_field|]. split; [reflexivity|]. simpl. lra. Qed.

(** ** C11 *)
(** Complex<T> over a field T is a field iff no element of T squares to -1
    (the condition named in the comment at complex.rs lines 438-441). *)
Theorem C11_field_iff_no_root_of_minus_one :
  forall (T : Type) (F : FieldOps T) (R : ring_sig T), is_field F R ->
  (is_field (complex_field F) (complex_sig R)
   <-> forall x, ~ same R (sadd R (smul R x x) (so R)) (sz R)).
Proof.
  intros T F R HF. split.
  - intros HCF x Hx. apply (zero_divisor_not_field F R HF (complex_div_ref F) x Hx). exact HCF.
  - apply (complex_is_field F R HF).
Qed.

Theorem C11_complex_over_reals_is_a_field : is_field (complex_field real_field) (complex_sig real_sig).
Proof. apply (complex_is_field _ _ real_is_field). exact real_no_i. Qed.

(** An element squaring to -1 makes 1 + x*j a zero divisor. *)
Section ZeroDivisor.
Context {T : Type} (R : ring_sig T) (HR : ring_laws R) (HC : commutative R) (H10 : ~ same R (so R) (sz R)).
Notation CR := (complex_sig R).
#[local] Instance zd_equiv : Equivalence (same R) := same_equiv R HR.
#[local] Instance zd_add : Proper (same R ==> same R ==> same R) (sadd R).
Proof. intros x x' Hx y y' Hy. apply (law_add_cong R HR); assumption. Qed.
Lemma ring_zero_divisor x : same R (sadd R (smul R x x) (so R)) (sz R) ->
  ~ same CR (Cx (so R) x) (sz CR) /\ ~ same CR (Cx (so R) (sneg R x)) (sz CR)
  /\ same R (sadd R (smul R (so R) (so R)) (smul R x x)) (sz R)
  /\ same CR (smul CR (Cx (so R) x) (Cx (so R) (sneg R x))) (sz CR).
Proof.
  intros Hx. split; [|split; [|split; [|split]]].
  - intros (H & _). exact (H10 H).
  - intros (H & _). exact (H10 H).
  - rewrite <- Hx. c_ring HR HC.
  - simpl. rewrite <- Hx. c_ring HR HC.
  - simpl. c_ring HR HC.
Qed.
Lemma ring_zero_divisor_not_field (G : FieldOps (complex T)) x :
  same R (sadd R (smul R x x) (so R)) (sz R) -> ~ is_field G CR.
Proof.
  intros Hx Hfld. destruct (ring_zero_divisor x Hx) as (H1 & H2 & _ & H3).
  destruct (fld_div _ _ Hfld (so CR) _ H2) as (q & _ & Hq).
  pose proof (complex_laws R HR) as L.
  apply H1.
  apply (law_trans _ L _ (smul CR (Cx (so R) x) (smul CR (Cx (so R) (sneg R x)) q))).
  - apply (law_sym _ L).
    apply (law_trans _ L _ (smul CR (Cx (so R) x) (so CR))); [|apply (law_mul_1_r _ L)].
    apply (law_mul_cong _ L); [apply (law_refl _ L)|].
    apply (law_trans _ L _ (smul CR q (Cx (so R) (sneg R x)))); [|exact Hq].
    apply complex_comm; assumption.
  - apply (law_trans _ L _ (smul CR (smul CR (Cx (so R) x) (Cx (so R) (sneg R x))) q)).
    + apply (law_sym _ L), (law_mul_assoc _ L).
    + apply (law_trans _ L _ (smul CR (sz CR) q)).
      * apply (law_mul_cong _ L); [exact H3|apply (law_refl _ L)].
      * apply mul_0_l; exact L.
Qed.
End ZeroDivisor.

(** Although the code implements [Field] for it, Complex<Complex<F>> is never a field:
    1 + i*j has squared norm 0 and is a zero divisor. *)
Theorem C11_nested_complex_refuted :
  forall (T : Type) (F : FieldOps T) (R : ring_sig T), is_field F R ->
  let CF := complex_field F in
  let one := complex_one (f_ring F) in
  let i := complex_new (r_zero (f_ring F)) (r_one (f_ring F)) in
  let a := complex_new one i in
  ~ is_field (complex_field CF) (complex_sig (complex_sig R))
  /\ ~ same_complex (complex_sig R) a (sz (complex_sig (complex_sig R)))
  /\ (exists n, complex_sqr_norm (f_ring CF) a = Ok n /\ same_complex R n (sz (complex_sig R)))
  /\ (exists b p, ~ same_complex (complex_sig R) b (sz (complex_sig (complex_sig R)))
       /\ complex_mul_ref (f_ring CF) a b = Ok p
       /\ same_complex (complex_sig R) p (sz (complex_sig (complex_sig R)))).
Proof.
  intros T F R HF CF one i a.
  pose proof (fld_impl F R HF) as HI. pose proof (fld_laws F R HF) as HR. pose proof (fld_comm F R HF) as HC.
  pose proof (complex_implements _ R HI) as HCI. pose proof (complex_laws R HR) as HCR. pose proof (complex_comm R HR HC) as HCC.
  assert (H10 : ~ same (complex_sig R) (so (complex_sig R)) (sz (complex_sig R))).
  { intros (H & _). exact (fld_1_0 F R HF H). }
  assert (Ei : i = Cx (sz R) (so R)).
  { unfold i, complex_new. rewrite (impl_zero _ R HI), (impl_one _ R HI). reflexivity. }
  assert (Eo : one = so (complex_sig R)) by apply (impl_one _ _ HCI).
  assert (Hii : same (complex_sig R) (sadd (complex_sig R) (smul (complex_sig R) i i) (so (complex_sig R)))
                  (sz (complex_sig R))).
  { rewrite Ei. split; simpl; nc_ring HR. }
  destruct (ring_zero_divisor (complex_sig R) HCR HCC H10 i Hii) as (H1 & H2 & H3 & H4).
  unfold a, complex_new. rewrite Eo. split; [|split; [|split]].
  - apply (ring_zero_divisor_not_field (complex_sig R) HCR HCC H10 _ i Hii).
  - exact H1.
  - eexists. split; [apply (sqr_norm_val _ _ HCI)|]. exact H3.
  - eexists. eexists. split; [exact H2|]. split; [|exact H4].
    apply (impl_mul _ _ (complex_implements _ _ HCI)).
Qed.

Example C11_case : is_field real_field real_sig /\ is_field (complex_field real_field) (complex_sig real_sig).
Proof. split; [exact real_is_field|exact C11_complex_over_reals_is_a_field]. Qed.

Print Assumptions C08_complex_is_a_ring.
Print Assumptions C08_i_squared.
Print Assumptions C08_operator_forms_agree.
Print Assumptions C09_conj_is_an_involutive_automorphism.
Print Assumptions C09_norm_laws.
Print Assumptions C09_scalar_multiplication.
Print Assumptions C10_division_inverts_multiplication.
Print Assumptions C10_scalar_division.
Print Assumptions C11_field_iff_no_root_of_minus_one.
Print Assumptions C11_complex_over_reals_is_a_field.
Print Assumptions C11_nested_complex_refuted.
