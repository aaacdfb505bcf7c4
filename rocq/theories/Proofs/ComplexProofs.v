(** Complex<T> over rings and fields. *)
From Coq Require Import List Setoid Morphisms.
From Verif Require Import Base.Outcome Model.Traits Model.Complex
  Spec.Ring Spec.Sums Spec.Complex Proofs.RingTheory.

Section CRing.
Context {T : Type} (O : RingOps T) (R : ring_sig T) (HI : implements O R) (HR : ring_laws R).
Local Infix "[=]" := (same R) (at level 70, no associativity).
Local Infix "[+]" := (sadd R) (at level 50, left associativity).
Local Infix "[*]" := (smul R) (at level 40, left associativity).
Local Infix "[-]" := (ssub R) (at level 50, left associativity).
#[local] Instance J1 : Equivalence (same R).
Proof. exact (same_equiv R HR). Qed.
#[local] Instance J2 : Proper (same R ==> same R ==> same R) (sadd R).
Proof. exact (sadd_proper R HR). Qed.
#[local] Instance J3 : Proper (same R ==> same R ==> same R) (ssub R).
Proof. exact (ssub_proper R HR). Qed.
#[local] Instance J4 : Proper (same R ==> same R ==> same R) (smul R).
Proof. exact (smul_proper R HR). Qed.
#[local] Instance J5 : Proper (same R ==> same R) (sneg R).
Proof. exact (sneg_proper R HR). Qed.

Notation CR := (complex_sig R).

Lemma complex_implements : implements (complex_ops O) CR.
Proof.
  constructor; simpl.
  - unfold complex_zero, complex_new. rewrite (impl_zero O R HI). reflexivity.
  - unfold complex_one, complex_new. rewrite (impl_zero O R HI), (impl_one O R HI). reflexivity.
  - intros x y. unfold complex_add_assign_ref. rewrite !(impl_add O R HI). reflexivity.
  - intros x y. unfold complex_sub_assign_ref. rewrite !(impl_sub O R HI). reflexivity.
  - intros x y. unfold complex_mul_ref. rewrite !(impl_mul O R HI). cbn [bind].
    rewrite (impl_sub O R HI), (impl_add O R HI). reflexivity.
  - intros x. unfold complex_neg. rewrite !(impl_neg O R HI). reflexivity.
  - intros x y H. unfold complex_eqb in H. apply andb_prop in H as (H1 & H2).
    split; apply (impl_eqb O R HI); assumption.
Qed.

Lemma complex_laws : ring_laws CR.
Proof.
  constructor; simpl; unfold same_complex; simpl.
  - intros x. split; reflexivity.
  - intros x y (H1 & H2). split; symmetry; assumption.
  - intros x y z (H1 & H2) (H3 & H4). split; etransitivity; eassumption.
  - intros x x' y y' (H1 & H2) (H3 & H4). rewrite H1, H2, H3, H4. split; reflexivity.
  - intros x x' y y' (H1 & H2) (H3 & H4). rewrite H1, H2, H3, H4. split; reflexivity.
  - intros x x' y y' (H1 & H2) (H3 & H4). rewrite H1, H2, H3, H4. split; reflexivity.
  - intros x x' (H1 & H2). rewrite H1, H2. split; reflexivity.
  - intros x y z. split; nc_ring HR.
  - intros x y. split; nc_ring HR.
  - intros x. split; nc_ring HR.
  - intros x. split; nc_ring HR.
  - intros x y. split; nc_ring HR.
  - intros x y z. split; nc_ring HR.
  - intros x. split; nc_ring HR.
  - intros x. split; nc_ring HR.
  - intros x y z. split; nc_ring HR.
  - intros x y z. split; nc_ring HR.
Qed.

Lemma complex_comm : commutative R -> commutative CR.
Proof.
  intros HC x y. split; simpl; c_ring HR HC.
Qed.

Lemma sqr_norm_val z : complex_sqr_norm O z = Ok (re z [*] re z [+] im z [*] im z).
Proof.
  unfold complex_sqr_norm. rewrite !(impl_mul O R HI). cbn [bind]. apply (impl_add O R HI).
Qed.

Lemma conj_val z : complex_conj (r_neg O) z = Ok (Cx (re z) (sneg R (im z))).
Proof. unfold complex_conj. rewrite (impl_neg O R HI). reflexivity. Qed.
End CRing.

Section CField.
Context {T : Type} (F : FieldOps T) (R : ring_sig T) (HF : is_field F R).
Let HI : implements (f_ring F) R := fld_impl F R HF.
Let HR : ring_laws R := fld_laws F R HF.
Let HC : commutative R := fld_comm F R HF.
Local Infix "[=]" := (same R) (at level 70, no associativity).
Local Infix "[+]" := (sadd R) (at level 50, left associativity).
Local Infix "[*]" := (smul R) (at level 40, left associativity).
Local Infix "[-]" := (ssub R) (at level 50, left associativity).
#[local] Instance K1 : Equivalence (same R).
Proof. exact (same_equiv R HR). Qed.
#[local] Instance K2 : Proper (same R ==> same R ==> same R) (sadd R).
Proof. exact (sadd_proper R HR). Qed.
#[local] Instance K3 : Proper (same R ==> same R ==> same R) (ssub R).
Proof. exact (ssub_proper R HR). Qed.
#[local] Instance K4 : Proper (same R ==> same R ==> same R) (smul R).
Proof. exact (smul_proper R HR). Qed.
#[local] Instance K5 : Proper (same R ==> same R) (sneg R).
Proof. exact (sneg_proper R HR). Qed.
Notation CR := (complex_sig R).

Definition nrm (w : complex T) : T := re w [*] re w [+] im w [*] im w.

Lemma field_cancel a b y : ~ y [=] sz R -> a [*] y [=] b [*] y -> a [=] b.
Proof.
  intros Hy H. destruct (fld_div F R HF (so R) y Hy) as (q & _ & Hq).
  assert (Ha : a [=] a [*] y [*] q).
  { transitivity (a [*] (q [*] y)); [rewrite Hq; c_ring HR HC|c_ring HR HC]. }
  assert (Hb : b [=] b [*] y [*] q).
  { transitivity (b [*] (q [*] y)); [rewrite Hq; c_ring HR HC|c_ring HR HC]. }
  rewrite Ha, Hb, H. reflexivity.
Qed.

Lemma field_mul_zero a b : a [*] b [=] sz R -> ~ b [=] sz R -> a [=] sz R.
Proof.
  intros H Hb. apply (field_cancel a (sz R) b Hb). rewrite H. c_ring HR HC.
Qed.

(** Exact value of the quotient in terms of a reciprocal of the squared norm. *)
Lemma complex_div_val z w : ~ nrm w [=] sz R ->
  exists rc, rc [*] nrm w [=] so R /\
    complex_div_ref F z w = Ok (Cx ((re z [*] re w [+] im z [*] im w) [*] rc)
                                   ((im z [*] re w [-] re z [*] im w) [*] rc)).
Proof.
  intros Hn. destruct (fld_div F R HF (so R) (nrm w) Hn) as (rc & Hd & Hrc).
  exists rc. split; [exact Hrc|]. unfold complex_div_ref.
  rewrite (sqr_norm_val _ R HI). cbn [bind]. rewrite (impl_one _ R HI).
  unfold nrm in Hd. rewrite Hd. cbn [bind].
  rewrite !(impl_mul _ R HI). cbn [bind]. rewrite (impl_add _ R HI), (impl_sub _ R HI).
  cbn [bind]. rewrite !(impl_mul _ R HI). reflexivity.
Qed.

Lemma complex_div_spec z w : ~ nrm w [=] sz R ->
  exists q, complex_div_ref F z w = Ok q /\ same CR (smul CR q w) z.
Proof.
  intros Hn. destruct (complex_div_val z w Hn) as (rc & Hrc & Hd).
  eexists. split; [exact Hd|]. split; simpl; unfold nrm in Hrc.
  - transitivity (re z [*] (rc [*] (re w [*] re w [+] im w [*] im w)));
      [c_ring HR HC|rewrite Hrc; c_ring HR HC].
  - transitivity (im z [*] (rc [*] (re w [*] re w [+] im w [*] im w)));
      [c_ring HR HC|rewrite Hrc; c_ring HR HC].
Qed.

Lemma complex_div_mul z w : ~ nrm w [=] sz R ->
  exists q, complex_div_ref F (smul CR z w) w = Ok q /\ same CR q z.
Proof.
  intros Hn. destruct (complex_div_val (smul CR z w) w Hn) as (rc & Hrc & Hd).
  eexists. split; [exact Hd|]. split; simpl; unfold nrm in Hrc.
  - transitivity (re z [*] (rc [*] (re w [*] re w [+] im w [*] im w)));
      [c_ring HR HC|rewrite Hrc; c_ring HR HC].
  - transitivity (im z [*] (rc [*] (re w [*] re w [+] im w [*] im w)));
      [c_ring HR HC|rewrite Hrc; c_ring HR HC].
Qed.

Lemma complex_div_self w : ~ nrm w [=] sz R ->
  exists q, complex_div_ref F w w = Ok q /\ same CR q (so CR).
Proof.
  intros Hn. destruct (complex_div_val w w Hn) as (rc & Hrc & Hd).
  eexists. split; [exact Hd|]. split; simpl; unfold nrm in Hrc.
  - rewrite <- Hrc. c_ring HR HC.
  - c_ring HR HC.
Qed.

Lemma complex_div_scalar_spec z t : ~ t [=] sz R ->
  exists q q', complex_div_scalar (f_div F) z t = Ok q
    /\ complex_div_ref F z (Cx t (sz R)) = Ok q' /\ same CR q q'.
Proof.
  intros Ht.
  assert (Hn : ~ nrm (Cx t (sz R)) [=] sz R).
  { unfold nrm. simpl. intros H. apply Ht. apply (field_mul_zero t t); [|exact Ht].
    rewrite <- H. c_ring HR HC. }
  destruct (complex_div_val z _ Hn) as (rc & Hrc & Hd).
  destruct (fld_div F R HF (re z) t Ht) as (qr & Hqr & Er).
  destruct (fld_div F R HF (im z) t Ht) as (qi & Hqi & Ei).
  exists (Cx qr qi). eexists. split; [|split; [exact Hd|]].
  - unfold complex_div_scalar. rewrite Hqr. cbn [bind]. rewrite Hqi. reflexivity.
  - unfold nrm in Hrc. simpl in Hrc |- *. split; simpl.
    + rewrite <- Er. transitivity (qr [*] (rc [*] (t [*] t [+] sz R [*] sz R))).
      * rewrite Hrc. c_ring HR HC.
      * c_ring HR HC.
    + rewrite <- Ei. transitivity (qi [*] (rc [*] (t [*] t [+] sz R [*] sz R))).
      * rewrite Hrc. c_ring HR HC.
      * c_ring HR HC.
Qed.

(** If no element squares to -1, only 0 has squared norm 0. *)
Lemma norm_zero : (forall x, ~ x [*] x [+] so R [=] sz R) ->
  forall w, ~ same CR w (sz CR) -> ~ nrm w [=] sz R.
Proof.
  intros Hno w Hw Hn. unfold nrm in Hn.
  assert (Him : ~ ~ im w [=] sz R).
  { intros Hi. destruct (fld_div F R HF (re w) (im w) Hi) as (x & _ & Hx).
    apply (Hno x). apply (field_mul_zero _ (im w [*] im w)).
    - rewrite <- Hn, <- Hx. c_ring HR HC.
    - intros H. apply Hi. apply (field_mul_zero _ (im w)); assumption. }
  apply Him. intros Hi.
  assert (Hre : re w [*] re w [=] sz R).
  { rewrite <- Hn, Hi. c_ring HR HC. }
  assert (Hr : ~ ~ re w [=] sz R).
  { intros Hr. apply Hr. apply (field_mul_zero _ (re w)); assumption. }
  apply Hr. intros Hr'. apply Hw. split; assumption.
Qed.

Lemma complex_is_field : (forall x, ~ x [*] x [+] so R [=] sz R) -> is_field (complex_field F) CR.
Proof.
  intros Hno. constructor.
  - apply complex_implements. exact HI.
  - apply complex_laws. exact HR.
  - apply complex_comm; [exact HR|exact HC].
  - intros (H & _). apply (fld_1_0 F R HF). exact H.
  - intros x y Hy. apply complex_div_spec. apply norm_zero; assumption.
Qed.

(** An element squaring to -1 gives zero divisors. *)
Lemma complex_zero_divisor x : x [*] x [+] so R [=] sz R ->
  ~ same CR (Cx (so R) x) (sz CR) /\ ~ same CR (Cx (so R) (sneg R x)) (sz CR)
  /\ nrm (Cx (so R) x) [=] sz R
  /\ same CR (smul CR (Cx (so R) x) (Cx (so R) (sneg R x))) (sz CR).
Proof.
  intros Hx. repeat split.
  - intros (H & _). apply (fld_1_0 F R HF). exact H.
  - intros (H & _). apply (fld_1_0 F R HF). exact H.
  - unfold nrm. simpl. rewrite <- Hx. c_ring HR HC.
  - simpl. rewrite <- Hx. c_ring HR HC.
  - simpl. c_ring HR HC.
Qed.

Lemma zero_divisor_not_field (DV : complex T -> complex T -> outcome (complex T)) x :
  x [*] x [+] so R [=] sz R ->
  ~ is_field (MkFieldOps _ (complex_ops (f_ring F)) DV) CR.
Proof.
  intros Hx Hfld. destruct (complex_zero_divisor x Hx) as (H1 & H2 & _ & H3).
  destruct (fld_div _ _ Hfld (so CR) _ H2) as (q & _ & Hq).
  pose proof (complex_laws R HR) as L.
  apply H1. 
  apply (law_trans _ L _ (smul CR (Cx (so R) x) (smul CR (Cx (so R) (sneg R x)) q))).
  - apply (law_sym _ L).
    apply (law_trans _ L _ (smul CR (Cx (so R) x) (so CR))); [|apply (law_mul_1_r _ L)].
    apply (law_mul_cong _ L); [apply (law_refl _ L)|].
    apply (law_trans _ L _ (smul CR q (Cx (so R) (sneg R x)))); [|exact Hq].
    apply complex_comm; assumption.
  - apply (law_trans _ L _ (smul CR (smul CR (Cx (so R) x) (Cx (so R) (sneg R x))) q)).
    + apply (law_sym _ L), (law_mul_assoc _ L).
    + apply (law_trans _ L _ (smul CR (sz CR) q)).
      * apply (law_mul_cong _ L); [exact H3|apply (law_refl _ L)].
      * apply mul_0_l; exact L.
Qed.
End CField.
