(** Property C87: nested number types can be written the other way round.
    [ring_iso] and the conversions : Spec/Interchange.v; [nest], [nest_ops], [nest_same] (the types
    obtained by nesting, their operations, and sameness of their values) : Spec/Nest.v. *)
From Coq Require Import List Arith ZArith Lia Bool Setoid Morphisms.
From Verif Require Import Base.Outcome Base.Array Base.Sim Model.Traits Model.Polynomial Model.Complex
  Model.SVector Model.SMatrix Spec.Ring Spec.Sums Spec.Agree Spec.Matrix Spec.Polynomial Spec.Complex Spec.Nest Spec.Interchange
  Proofs.RingTheory Proofs.PolynomialProofs Proofs.PolynomialRing Proofs.SMatrixProofs Proofs.ComplexProofs
  Proofs.RingSim Proofs.IntProofs Proofs.IntegerRing Proofs.Interchange.
From Verif Require Props.NestProps.
Import ListNotations.

Section Same.
Context {T : Type} (O : RingOps T) (R : ring_sig T) (HI : implements O R) (HR : ring_laws R)
  (E : T -> T -> Prop) (HE : forall x y, same R x y <-> E x y).

Lemma same_of_poly p q : (forall i, E (nth i p (r_zero O)) (nth i q (r_zero O))) <-> same (PR O R) p q.
Proof. rewrite (impl_zero _ _ HI). split; intros H i; apply HE, H. Qed.

Lemma same_of_complex z w : (E (re z) (re w) /\ E (im z) (im w)) <-> same (complex_sig R) z w.
Proof. cbn [complex_sig same]. unfold same_complex. rewrite !HE. reflexivity. Qed.

Lemma same_of_mat n (a b : smatrix T n n) :
  (forall i j x y, i < n -> j < n ->
     nth_error (nth i (map entries (entries a)) []) j = Some x ->
     nth_error (nth i (map entries (entries b)) []) j = Some y -> E x y) <-> same (mat_sig R n) a b.
Proof.
  assert (L : forall (c : smatrix T n n) i j, i < n -> j < n ->
    nth_error (nth i (map entries (entries c)) []) j = Some (mat_at R c i j)).
  { intros c i j Hi Hj. unfold mat_at. apply nth_error_nth'.
    rewrite nth_indep with (d' := entries (tab n (fun _ => sz R))) by (rewrite map_length, entries_length; exact Hi).
    rewrite map_nth, entries_length. exact Hj. }
  split.
  - intros H i j Hi Hj. apply HE. exact (H i j _ _ Hi Hj (L a i j Hi Hj) (L b i j Hi Hj)).
  - intros H i j x y Hi Hj Hx Hy. rewrite (L a i j Hi Hj) in Hx. rewrite (L b i j Hi Hj) in Hy.
    injection Hx as <-. injection Hy as <-. apply HE, (H i j Hi Hj).
Qed.
End Same.

(** ** Exchanging neighbouring constructors *)

(** Polynomial<Complex<T>> and Complex<Polynomial<T>>. *)
Theorem C87_polynomials_of_complex_numbers :
  forall (T : Type) (O : RingOps T) (E : T -> T -> Prop), is_ring O E ->
  let A := NPoly (NComplex NBase) in let B := NComplex (NPoly NBase) in
  ring_iso (complex_of_polys (T:=T)) (nest_ops O A) (nest_same O E A) (nest_ops O B) (nest_same O E B).
Proof.
  intros T O E (R & HI & HR & HE) A B.
  eapply sig_iso_ring_iso; [| | | |exact (poly_complex_iso O R HI HR)].
  - apply (PR_implements _ _ (complex_implements O R HI) (complex_laws R HR)).
  - apply (complex_implements _ _ (PR_implements O R HI HR)).
  - intros p q. apply same_of_poly; [apply complex_implements, HI|]. intros. symmetry. apply same_of_complex, HE.
  - intros z w. apply same_of_complex. intros. symmetry. apply same_of_poly; assumption.
Qed.

(** SMatrix<Complex<T>, n, n> and Complex<SMatrix<T, n, n>>. *)
Theorem C87_matrices_of_complex_numbers :
  forall (T : Type) (O : RingOps T) (E : T -> T -> Prop), is_ring O E -> forall n : nat,
  let A := NMat n (NComplex NBase) in let B := NComplex (NMat n NBase) in
  ring_iso (complex_of_mats (T:=T) (n:=n)) (nest_ops O A) (nest_same O E A) (nest_ops O B) (nest_same O E B).
Proof.
  intros T O E (R & HI & HR & HE) n A B.
  eapply sig_iso_ring_iso; [| | | |exact (mat_complex_iso R HR n)].
  - apply (smatrix_implements _ _ (complex_implements O R HI)).
  - apply (complex_implements _ _ (smatrix_implements O R HI n)).
  - intros a b. apply (same_of_mat (complex_sig R)). intros. symmetry. apply same_of_complex, HE.
  - intros z w. apply same_of_complex. intros. symmetry. apply same_of_mat; assumption.
Qed.

(** Polynomial<SMatrix<T, n, n>> and SMatrix<Polynomial<T>, n, n>. *)
Theorem C87_polynomials_of_matrices :
  forall (T : Type) (O : RingOps T) (E : T -> T -> Prop), is_ring O E -> forall n : nat,
  let A := NPoly (NMat n NBase) in let B := NMat n (NPoly NBase) in
  ring_iso (mat_of_polys (r_zero O) (n:=n)) (nest_ops O A) (nest_same O E A) (nest_ops O B) (nest_same O E B).
Proof.
  intros T O E (R & HI & HR & HE) n A B.
  rewrite (impl_zero _ _ HI).
  eapply sig_iso_ring_iso; [| | | |exact (poly_mat_iso O R HI HR n)].
  - apply (PR_implements _ _ (smatrix_implements O R HI n) (mat_laws R HR n)).
  - apply (smatrix_implements _ _ (PR_implements O R HI HR)).
  - intros p q. apply same_of_poly; [apply smatrix_implements, HI|]. intros. symmetry. apply same_of_mat; assumption.
  - intros a b. apply (same_of_mat (PR O R)). intros. symmetry. apply same_of_poly; assumption.
Qed.

(** Polynomial<Polynomial<T>>: the two variables. *)
Theorem C87_polynomials_of_polynomials :
  forall (T : Type) (O : RingOps T) (E : T -> T -> Prop), is_ring O E ->
  let A := NPoly (NPoly NBase) in
  ring_iso (swap_variables (r_zero O)) (nest_ops O A) (nest_same O E A) (nest_ops O A) (nest_same O E A).
Proof.
  intros T O E (R & HI & HR & HE) A. rewrite (impl_zero _ _ HI).
  assert (HA : implements (nest_ops O A) (PR (poly_ops O) (PR O R))) by apply (PR_implements _ _ (PR_implements O R HI HR) (PR_laws O R HI HR)).
  assert (EA : forall x y, nest_same O E A x y <-> same (PR (poly_ops O) (PR O R)) x y).
  { intros p q. apply same_of_poly; [apply PR_implements; assumption|]. intros. symmetry. apply same_of_poly; assumption. }
  exact (sig_iso_ring_iso _ _ _ _ _ _ _ HA HA EA EA (poly_poly_iso O R HI HR)).
Qed.

(** SMatrix<SMatrix<T, k, k>, m, m> and SMatrix<T, mk, mk>: block matrices. *)
Theorem C87_matrices_of_matrices :
  forall (T : Type) (O : RingOps T) (E : T -> T -> Prop), is_ring O E -> forall m k : nat,
  let A := NMat m (NMat k NBase) in let B := NMat (m * k) NBase in
  ring_iso (of_blocks (r_zero O) (m:=m) (k:=k)) (nest_ops O A) (nest_same O E A) (nest_ops O B) (nest_same O E B).
Proof.
  intros T O E (R & HI & HR & HE) m k A B. rewrite (impl_zero _ _ HI).
  eapply sig_iso_ring_iso; [| | | |exact (blocks_iso R HR m k)].
  - apply (smatrix_implements _ _ (smatrix_implements O R HI k)).
  - apply (smatrix_implements O R HI).
  - intros a b. apply (same_of_mat (mat_sig R k)). intros. symmetry. apply same_of_mat; assumption.
  - intros a b. apply same_of_mat; assumption.
Qed.

(** ** Exchanging deeper inside *)
Section Lift.
Context {A B : Type} (f : A -> B) (OA : RingOps A) (EA : A -> A -> Prop) (OB : RingOps B) (EB : B -> B -> Prop).
Context (RB : ring_sig B) (HIB : implements OB RB) (HRB : ring_laws RB) (HEB : forall x y, same RB x y <-> EB x y).
Context (H : ring_iso f OA EA OB EB).

Lemma eb_refl x : EB x x. Proof. apply HEB, (law_refl _ HRB). Qed.
Lemma eb_sym x y : EB x y -> EB y x. Proof. rewrite <- !HEB. apply (law_sym _ HRB). Qed.
Lemma eb_trans x y z : EB x y -> EB y z -> EB x z. Proof. rewrite <- !HEB. apply (law_trans _ HRB). Qed.

Lemma iso_sim : ring_sim never (fun a b => EB (f a) b) OA OB.
Proof.
  assert (two : forall (opA : A -> A -> outcome A) (opB : B -> B -> outcome B) (op : B -> B -> B),
    (forall x y, agree EB (omap f (opA x y)) (opB (f x) (f y))) ->
    (forall x y, opB x y = Ok (op x y)) ->
    (forall x x' y y', same RB x x' -> same RB y y' -> same RB (op x y) (op x' y')) ->
    forall x1 x2 y1 y2, EB (f x1) x2 -> EB (f y1) y2 -> sim never (fun a b => EB (f a) b) (opA x1 y1) (opB x2 y2)).
  { intros opA opB op Hag Hop Hc x1 x2 y1 y2 Hx Hy. destruct (Hag x1 y1) as (u & v & Eu & Ev & Huv).
    rewrite Hop in *. injection Ev as <-. destruct (opA x1 y1) as [a| |]; try discriminate Eu. injection Eu as <-.
    apply sim_ok. eapply eb_trans; [exact Huv|]. apply HEB, Hc; apply HEB; assumption. }
  constructor.
  - apply (iso_zero _ _ _ _ _ H).
  - apply (iso_one _ _ _ _ _ H).
  - apply (two _ _ (sadd RB)); [apply (iso_add _ _ _ _ _ H)|apply (impl_add _ _ HIB)|apply (law_add_cong _ HRB)].
  - apply (two _ _ (ssub RB)); [apply (iso_sub _ _ _ _ _ H)|apply (impl_sub _ _ HIB)|apply (law_sub_cong _ HRB)].
  - apply (two _ _ (smul RB)); [apply (iso_mul _ _ _ _ _ H)|apply (impl_mul _ _ HIB)|apply (law_mul_cong _ HRB)].
  - intros x1 x2 Hx. destruct (iso_neg _ _ _ _ _ H x1) as (u & v & Eu & Ev & Huv).
    rewrite (impl_neg _ _ HIB) in *. injection Ev as <-. destruct (r_neg OA x1) as [a| |]; try discriminate Eu. injection Eu as <-.
    apply sim_ok. eapply eb_trans; [exact Huv|]. apply HEB, (law_neg_cong _ HRB). apply HEB; assumption.
Qed.

(** From a simulation back to an isomorphism, for a lifted relation. *)
Lemma sim_iso {A' B'} (g : A' -> B') (OA' : RingOps A') (EA' : A' -> A' -> Prop) (OB' : RingOps B') (EB' : B' -> B' -> Prop)
    (S : A' -> B' -> Prop) (RB' : ring_sig B') :
  ring_sim never S OA' OB' -> implements OB' RB' ->
  (forall a, S a (g a)) -> (forall a b, S a b -> EB' (g a) b) ->
  (forall x y, (exists r, r_add OA' x y = Ok r) /\ (exists r, r_sub OA' x y = Ok r)
     /\ (exists r, r_mul OA' x y = Ok r) /\ (exists r, r_neg OA' x = Ok r)) ->
  (forall x y, EA' x y <-> EB' (g x) (g y)) -> (forall b, exists a, EB' (g a) b) ->
  ring_iso g OA' EA' OB' EB'.
Proof.
  intros HS HI' Hg HE' Htot Hsame Honto.
  assert (fin : forall m1 m2 r, sim never S m1 m2 -> m1 = Ok r -> agree EB' (omap g m1) m2).
  { intros m1 m2 r Hs ->. destruct Hs as (b & -> & Hb). exists (g r), b. split; [reflexivity|]. split; [reflexivity|]. apply HE', Hb. }
  constructor; [exact Hsame|exact Honto|apply HE', (rs_zero _ _ _ _ HS)|apply HE', (rs_one _ _ _ _ HS)| | | |].
  - intros x y. destruct (Htot x y) as ((r & Er) & _). eapply fin; [|exact Er]. apply (rs_add _ _ _ _ HS); apply Hg.
  - intros x y. destruct (Htot x y) as (_ & (r & Er) & _). eapply fin; [|exact Er]. apply (rs_sub _ _ _ _ HS); apply Hg.
  - intros x y. destruct (Htot x y) as (_ & _ & (r & Er) & _). eapply fin; [|exact Er]. apply (rs_mul _ _ _ _ HS); apply Hg.
  - intros x. destruct (Htot x x) as (_ & _ & _ & (r & Er)). eapply fin; [|exact Er]. apply (rs_neg _ _ _ _ HS); apply Hg.
Qed.

Context (RA : ring_sig A) (HIA : implements OA RA) (HRA : ring_laws RA) (HEA : forall x y, same RA x y <-> EA x y).

Lemma implements_total {U} (OU : RingOps U) (RU : ring_sig U) : implements OU RU -> forall x y,
  (exists r, r_add OU x y = Ok r) /\ (exists r, r_sub OU x y = Ok r)
  /\ (exists r, r_mul OU x y = Ok r) /\ (exists r, r_neg OU x = Ok r).
Proof.
  intros HU x y. rewrite (impl_add _ _ HU), (impl_sub _ _ HU), (impl_mul _ _ HU), (impl_neg _ _ HU). repeat split; eauto.
Qed.

Lemma nth_image p i : EB (nth i (map f p) (r_zero OB)) (f (nth i p (r_zero OA))).
Proof.
  revert i. induction p as [|a p IH]; intros [|i]; simpl; try (apply eb_sym, (iso_zero _ _ _ _ _ H)); [apply eb_refl|apply IH].
Qed.

Lemma onto_list (l : list B) : exists l', Forall2 (fun a b => EB (f a) b) l' l.
Proof.
  induction l as [|b l (l' & IH)]; [exists []; constructor|].
  destruct (iso_onto _ _ _ _ _ H b) as (a & Ha). exists (a :: l'). constructor; assumption.
Qed.

Lemma poly_lift : ring_iso (map f)
  (poly_ops OA) (fun p q => forall i, EA (nth i p (r_zero OA)) (nth i q (r_zero OA)))
  (poly_ops OB) (fun p q => forall i, EB (nth i p (r_zero OB)) (nth i q (r_zero OB))).
Proof.
  assert (rel : forall p q, Forall2 (fun a b => EB (f a) b) p q ->
    forall i, EB (nth i (map f p) (r_zero OB)) (nth i q (r_zero OB))).
  { induction 1; intros [|i]; simpl; auto using eb_refl. }
  eapply sim_iso; [apply (poly_ring_sim _ _ _ _ iso_sim)|apply (PR_implements OB RB HIB HRB)| |exact rel| | |].
  - induction a; constructor; auto using eb_refl.
  - apply (implements_total _ _ (PR_implements OA RA HIA HRA)).
  - intros p q. split; intros Hpq i.
    + eapply eb_trans; [apply nth_image|]. eapply eb_trans; [|apply eb_sym, nth_image].
      apply (iso_same _ _ _ _ _ H), Hpq.
    + apply (iso_same _ _ _ _ _ H). eapply eb_trans; [apply eb_sym, nth_image|]. eapply eb_trans; [apply Hpq|apply nth_image].
  - intros b. destruct (onto_list b) as (a & Ha). exists a. apply rel, Ha.
Qed.

Lemma complex_lift : ring_iso (fun z => Cx (f (re z)) (f (im z)))
  (complex_ops OA) (fun z w => EA (re z) (re w) /\ EA (im z) (im w))
  (complex_ops OB) (fun z w => EB (re z) (re w) /\ EB (im z) (im w)).
Proof.
  eapply sim_iso; [apply (complex_ring_sim _ _ _ _ iso_sim)|apply (complex_implements OB RB HIB)| | | | |].
  - intros z. split; apply eb_refl.
  - intros z w Hz. exact Hz.
  - apply (implements_total _ _ (complex_implements OA RA HIA)).
  - intros z w. cbn [re im]. rewrite <- !(iso_same _ _ _ _ _ H). reflexivity.
  - intros [x y]. destruct (iso_onto _ _ _ _ _ H x) as (a & Ha), (iso_onto _ _ _ _ _ H y) as (b & Hb).
    exists (Cx a b). split; assumption.
Qed.

Lemma onto_array n (v : array B n) : exists u : array A n, arel (fun a b => EB (f a) b) u v.
Proof.
  induction v as [|b n v (u & IH)]; [exists anil; constructor|].
  destruct (iso_onto _ _ _ _ _ H b) as (a & Ha). exists (acons a u). constructor; assumption.
Qed.
Lemma onto_matrix m n (v : smatrix B m n) : exists u : smatrix A m n, arel (arel (fun a b => EB (f a) b)) u v.
Proof.
  unfold smatrix in *. induction v as [|b m v (u & IH)]; [exists anil; constructor|].
  destruct (onto_array n b) as (a & Ha). exists (acons a u). constructor; assumption.
Qed.

Lemma arel_image n (v : array A n) : arel (fun a b => EB (f a) b) v (array_image f v).
Proof. unfold arel. induction v; simpl; constructor; [apply eb_refl|exact IHv]. Qed.
Lemma arel_image2 m n (v : smatrix A m n) : arel (arel (fun a b => EB (f a) b)) v (array_image (array_image f) v).
Proof. unfold smatrix in *. unfold arel at 1. induction v; simpl; constructor; [apply arel_image|exact IHv]. Qed.

Lemma nth_error_rel {U V} (S : U -> V -> Prop) l l' j y : Forall2 S l l' -> nth_error l' j = Some y ->
  exists x, nth_error l j = Some x /\ S x y.
Proof. intros Hl. revert j. induction Hl; intros [|j] E; simpl in *; try discriminate; [injection E as <-; eauto|auto]. Qed.
Lemma nth_error_rel' {U V} (S : U -> V -> Prop) l l' j x : Forall2 S l l' -> nth_error l j = Some x ->
  exists y, nth_error l' j = Some y /\ S x y.
Proof. intros Hl. revert j. induction Hl; intros [|j] E; simpl in *; try discriminate; [injection E as <-; eauto|auto]. Qed.

Lemma rows_rel m n (a : smatrix A m n) (b : smatrix B m n) i : arel (arel (fun a b => EB (f a) b)) a b ->
  Forall2 (fun a b => EB (f a) b) (nth i (map entries (entries a)) []) (nth i (map entries (entries b)) []).
Proof.
  unfold arel. generalize (entries a) (entries b). intros l l' Hl. revert i.
  induction Hl; intros [|i]; simpl; auto.
Qed.

Lemma mat_lift n :
  let same_entries U (E : U -> U -> Prop) (a b : smatrix U n n) := forall i j x y, i < n -> j < n ->
    nth_error (nth i (map entries (entries a)) []) j = Some x ->
    nth_error (nth i (map entries (entries b)) []) j = Some y -> E x y in
  ring_iso (array_image (array_image f)) (smatrix_ops OA n) (same_entries A EA) (smatrix_ops OB n) (same_entries B EB).
Proof.
  intros same_entries.
  assert (rel : forall (a : smatrix A n n) (b : smatrix B n n), arel (arel (fun a b => EB (f a) b)) a b -> same_entries B EB (array_image (array_image f) a) b).
  { intros a b Hab i j x y Hi Hj Hx Hy.
    destruct (nth_error_rel _ _ _ _ _ (rows_rel _ _ _ _ i (arel_image2 _ _ a)) Hx) as (x' & Ex & Hx').
    destruct (nth_error_rel _ _ _ _ _ (rows_rel _ _ _ _ i Hab) Hy) as (y' & Ey & Hy').
    assert (x' = y') by congruence. subst y'. eapply eb_trans; [apply eb_sym, Hx'|exact Hy']. }
  eapply sim_iso; [apply (smatrix_ring_sim _ _ _ _ iso_sim)|apply (smatrix_implements OB RB HIB)| |exact rel| | |].
  - apply arel_image2.
  - apply (implements_total _ _ (smatrix_implements OA RA HIA n)).
  - intros a b. split; intros Hab i j x y Hi Hj Hx Hy.
    + destruct (nth_error_rel _ _ _ _ _ (rows_rel _ _ _ _ i (arel_image2 _ _ a)) Hx) as (x' & Ex & Hx').
      destruct (nth_error_rel _ _ _ _ _ (rows_rel _ _ _ _ i (arel_image2 _ _ b)) Hy) as (y' & Ey & Hy').
      eapply eb_trans; [apply eb_sym, Hx'|]. eapply eb_trans; [|exact Hy'].
      apply (iso_same _ _ _ _ _ H). exact (Hab i j _ _ Hi Hj Ex Ey).
    + destruct (nth_error_rel' _ _ _ _ _ (rows_rel _ _ _ _ i (arel_image2 _ _ a)) Hx) as (x' & Ex & Hx').
      destruct (nth_error_rel' _ _ _ _ _ (rows_rel _ _ _ _ i (arel_image2 _ _ b)) Hy) as (y' & Ey & Hy').
      apply (iso_same _ _ _ _ _ H). eapply eb_trans; [exact Hx'|]. eapply eb_trans; [|apply eb_sym, Hy'].
      exact (Hab i j _ _ Hi Hj Ex Ey).
  - intros b. destruct (onto_matrix n n b) as (a & Ha). exists a. apply rel, Ha.
Qed.
End Lift.

(** An isomorphism of element types lifts through every nesting of the constructors. *)
Theorem C87_inside_every_nesting :
  forall (A B : Type) (f : A -> B) (OA : RingOps A) (EA : A -> A -> Prop) (OB : RingOps B) (EB : B -> B -> Prop),
  is_ring OA EA -> is_ring OB EB -> ring_iso f OA EA OB EB ->
  forall t : nest,
  ring_iso (nest_image f t) (nest_ops OA t) (nest_same OA EA t) (nest_ops OB t) (nest_same OB EB t).
Proof.
  intros A B f OA EA OB EB HA HB H. induction t as [|t IH|t IH|n t IH]; [exact H| | |];
    destruct (Props.NestProps.C50_every_nesting_is_a_ring A OA EA HA t) as (RA & HIA & HRA & HEA);
    destruct (Props.NestProps.C50_every_nesting_is_a_ring B OB EB HB t) as (RB & HIB & HRB & HEB).
  - exact (poly_lift _ _ _ _ _ RB HIB HRB HEB IH RA HIA HRA).
  - exact (complex_lift _ _ _ _ _ RB HIB HRB HEB IH RA HIA).
  - exact (mat_lift _ _ _ _ _ RB HIB HRB HEB IH RA HIA n).
Qed.

(** One exchange after the other. *)
Theorem C87_exchanges_compose :
  forall (A B C : Type) (f : A -> B) (g : B -> C) OA EA OB EB OC EC,
  is_ring OC EC -> ring_iso f OA EA OB EB -> ring_iso g OB EB OC EC ->
  ring_iso (fun x => g (f x)) OA EA OC EC.
Proof.
  intros A B C f g OA EA OB EB OC EC (RC & HIC & HRC & HEC) Hf Hg.
  assert (tr : forall x y z, EC x y -> EC y z -> EC x z) by (intros x y z; rewrite <- !HEC; apply (law_trans _ HRC)).
  assert (two : forall (opA : A -> A -> outcome A) (opB : B -> B -> outcome B) (opC : C -> C -> outcome C),
    (forall x y, agree EB (omap f (opA x y)) (opB (f x) (f y))) ->
    (forall x y, agree EC (omap g (opB x y)) (opC (g x) (g y))) ->
    forall x y, agree EC (omap (fun x => g (f x)) (opA x y)) (opC (g (f x)) (g (f y)))).
  { intros opA opB opC H1 H2 x y. destruct (H1 x y) as (u & v & Eu & Ev & Huv), (H2 (f x) (f y)) as (u' & v' & Eu' & Ev' & Huv').
    rewrite Ev in Eu'. cbn [omap] in Eu'. injection Eu' as <-. destruct (opA x y) as [a| |]; try discriminate Eu. injection Eu as <-.
    exists (g (f a)), v'. split; [reflexivity|]. split; [exact Ev'|]. eapply tr; [|exact Huv']. apply (iso_same _ _ _ _ _ Hg), Huv. }
  constructor.
  - intros. rewrite (iso_same _ _ _ _ _ Hf). apply (iso_same _ _ _ _ _ Hg).
  - intros c. destruct (iso_onto _ _ _ _ _ Hg c) as (b & Hb), (iso_onto _ _ _ _ _ Hf b) as (a & Ha).
    exists a. eapply tr; [|exact Hb]. apply (iso_same _ _ _ _ _ Hg), Ha.
  - eapply tr; [|apply (iso_zero _ _ _ _ _ Hg)]. apply (iso_same _ _ _ _ _ Hg), (iso_zero _ _ _ _ _ Hf).
  - eapply tr; [|apply (iso_one _ _ _ _ _ Hg)]. apply (iso_same _ _ _ _ _ Hg), (iso_one _ _ _ _ _ Hf).
  - apply (two _ (r_add OB)); [apply (iso_add _ _ _ _ _ Hf)|apply (iso_add _ _ _ _ _ Hg)].
  - apply (two _ (r_sub OB)); [apply (iso_sub _ _ _ _ _ Hf)|apply (iso_sub _ _ _ _ _ Hg)].
  - apply (two _ (r_mul OB)); [apply (iso_mul _ _ _ _ _ Hf)|apply (iso_mul _ _ _ _ _ Hg)].
  - intros x. apply (two (fun x _ => r_neg OA x) (fun x _ => r_neg OB x) (fun x _ => r_neg OC x)); [| |exact x];
      intros; [apply (iso_neg _ _ _ _ _ Hf)|apply (iso_neg _ _ _ _ _ Hg)].
Qed.

(** ** Cases *)
Definition m22 (a b c d : Z) : smatrix Z 2 2 := acons (acons a (acons b anil)) (acons (acons c (acons d anil)) anil).

Lemma z_is_ring : is_ring z_ops eq.
Proof. exists z_sig. split; [apply z_implements|]. split; [apply z_laws|]. reflexivity. Qed.

(** The integers meet the hypotheses; (1 + 2i) + (3i) x times i: both orders; a product of
    matrix polynomials and of the polynomial matrices; 3 + 2x + 5xy exchanged; four blocks. *)
Example C87_case :
  is_ring z_ops eq
  /\ r_mul (nest_ops z_ops (NPoly (NComplex NBase))) [Cx 1 2; Cx 0 3]%Z [Cx 0 1]%Z = Ok [Cx (-2) 1; Cx (-3) 0]%Z
  /\ r_mul (nest_ops z_ops (NComplex (NPoly NBase))) (complex_of_polys [Cx 1 2; Cx 0 3]%Z) (complex_of_polys [Cx 0 1]%Z)
     = Ok (complex_of_polys [Cx (-2) 1; Cx (-3) 0])%Z
  /\ mat_of_polys 0%Z [m22 1 2 3 4; m22 5 6 7 8]%Z
     = acons (acons [1; 5] (acons [2; 6] anil))%Z (acons (acons [3; 7] (acons [4; 8] anil)) anil)%Z
  /\ swap_variables 0%Z [[3; 2]; [0; 5]; [7]]%Z = [[3; 0; 7]; [2; 5; 0]]%Z
  /\ map entries (entries (of_blocks 0%Z (acons (acons (m22 1 2 3 4) (acons (m22 5 6 7 8) anil))
                             (acons (acons (m22 9 10 11 12) (acons (m22 13 14 15 16) anil)) anil))%Z))
     = [[1; 2; 5; 6]; [3; 4; 7; 8]; [9; 10; 13; 14]; [11; 12; 15; 16]]%Z.
Proof. split; [apply z_is_ring|]. repeat split. Qed.

(** Three levels: Polynomial<Polynomial<Complex<i>>> to Polynomial<Complex<Polynomial<i>>> to
    Complex<Polynomial<Polynomial<i>>>. *)
Example C87_case_deep :
  let A := NPoly (NPoly (NComplex NBase)) in let C := NComplex (NPoly (NPoly NBase)) in
  ring_iso (fun p => complex_of_polys (map (complex_of_polys (T:=Z)) p))
    (nest_ops z_ops A) (nest_same z_ops eq A) (nest_ops z_ops C) (nest_same z_ops eq C).
Proof.
  intros A C. pose proof z_is_ring as HZ.
  pose proof (Props.NestProps.C50_every_nesting_is_a_ring Z z_ops eq HZ) as N.
  eapply (C87_exchanges_compose _ _ _ (map (complex_of_polys (T:=Z))) (complex_of_polys (T:=list Z))).
  - apply (N C).
  - exact (C87_inside_every_nesting _ _ _ _ _ _ _ (N (NPoly (NComplex NBase))) (N (NComplex (NPoly NBase)))
             (C87_polynomials_of_complex_numbers Z z_ops eq HZ) (NPoly NBase)).
  - exact (C87_polynomials_of_complex_numbers _ _ _ (N (NPoly NBase))).
Qed.

Print Assumptions C87_polynomials_of_complex_numbers.
Print Assumptions C87_matrices_of_complex_numbers.
Print Assumptions C87_polynomials_of_matrices.
Print Assumptions C87_polynomials_of_polynomials.
Print Assumptions C87_matrices_of_matrices.
Print Assumptions C87_inside_every_nesting.
Print Assumptions C87_exchanges_compose.
