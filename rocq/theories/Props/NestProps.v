(** Property C50 (all nestings of the ring constructors) and C55 (generic code commutes with
    ring homomorphisms).  [nest], [nval], [nest_ops], [nest_same], [nest_image] : Spec/Nest.v. *)
From Coq Require Import List Arith ZArith Lia Bool.
From Verif Require Import Base.Outcome Base.Usize Base.Array Base.Sim Model.Traits Model.Int Model.Polynomial
  Model.Complex Model.SVector Model.SMatrix Model.DVector Model.DMatrix
  Spec.Ring Spec.Sums Spec.Agree Spec.Int Spec.Matrix Spec.Polynomial Spec.Complex Spec.Nest
  Proofs.IntegerRing Proofs.PolynomialProofs Proofs.PolynomialRing Proofs.ComplexProofs Proofs.SMatrixProofs
  Proofs.RingTheory Proofs.RingSim Proofs.IntProofs.
From Verif Require Props.PolynomialProps Props.ComplexProps Props.SMatrixProps.
Import ListNotations.

(** ** C50 *)
Theorem C50_every_nesting_is_a_ring :
  forall (B : Type) (O : RingOps B) (E : B -> B -> Prop),
  is_ring O E -> forall t : nest, is_ring (nest_ops O t) (nest_same O E t).
Proof.
  intros B O E H. induction t as [|t IH|t IH|n t IH]; cbn [nest_ops nest_same nval].
  - exact H.
  - destruct IH as (R & HI & HR & HE).
    destruct (proj1 (Props.PolynomialProps.C06_polynomials_form_a_ring _ _ R HI HR)) as (R' & HI' & HR' & HE').
    exists R'. split; [exact HI'|]. split; [exact HR'|]. intros p q. rewrite HE'.
    unfold same_poly, coeff. rewrite (impl_zero _ _ HI). split; intros Hpq i; apply HE, Hpq.
  - destruct IH as (R & HI & HR & HE).
    destruct (Props.ComplexProps.C08_complex_is_a_ring _ _ R HI HR) as (HI' & HR' & _).
    exists (complex_sig R). split; [exact HI'|]. split; [exact HR'|]. intros z w. cbn [complex_sig same].
    unfold same_complex. rewrite !HE. reflexivity.
  - apply (Props.SMatrixProps.C22_square_smatrix_is_ring _ _ _ IH n).
Qed.

Lemma trivial_or_one_commutes {T} (R : ring_sig T) (HR : ring_laws R) (HC : commutative R) n :
  n <= 1 -> commutative (mat_sig R n).
Proof.
  intros Hn a b i j Hi Hj. cbn [mat_sig smul]. rewrite !mat_at_tab by assumption.
  assert (n = 1) by lia. subst n. assert (i = 0) by lia. assert (j = 0) by lia. subst. simpl.
  apply (law_add_cong R HR); [apply (law_refl R HR)|]. apply HC.
Qed.

(** Without matrices (or with 1x1 ones) a commutative base gives a commutative ring ... *)
Theorem C50_commutative_nestings :
  forall (B : Type) (O : RingOps B) (E : B -> B -> Prop),
  is_comm_ring O E -> forall t : nest, no_big_matrix t -> is_comm_ring (nest_ops O t) (nest_same O E t).
Proof.
  intros B O E H. induction t as [|t IH|t IH|n t IH]; cbn [nest_ops nest_same nval no_big_matrix]; intros Ht.
  - exact H.
  - destruct (IH Ht) as (R & HI & HR & HC & HE).
    destruct (proj2 (Props.PolynomialProps.C06_polynomials_form_a_ring _ _ R HI HR) HC) as (R' & HI' & HR' & HC' & HE').
    exists R'. split; [exact HI'|]. split; [exact HR'|]. split; [exact HC'|]. intros p q. rewrite HE'.
    unfold same_poly, coeff. rewrite (impl_zero _ _ HI). split; intros Hpq i; apply HE, Hpq.
  - destruct (IH Ht) as (R & HI & HR & HC & HE).
    destruct (Props.ComplexProps.C08_complex_is_a_ring _ _ R HI HR) as (HI' & HR' & HC').
    exists (complex_sig R). split; [exact HI'|]. split; [exact HR'|]. split; [exact (HC' HC)|]. intros z w. cbn [complex_sig same].
    unfold same_complex. rewrite !HE. reflexivity.
  - destruct Ht as [Hn Ht]. destruct (IH Ht) as (R & HI & HR & HC & HE).
    assert (Hring : is_ring (nest_ops O t) (nest_same O E t)) by (exists R; auto).
    destruct (Props.SMatrixProps.C22_square_smatrix_is_ring _ _ _ Hring n) as ((R' & HI' & HR' & HE') & _).
    exists R'. split; [exact HI'|]. split; [exact HR'|]. split; [|exact HE'].
    intros a b. apply HE'.
    assert (Em : forall x y, smul R' x y = smul (mat_sig R n) x y).
    { intros x y. pose proof (impl_mul _ _ HI' x y) as A1.
      pose proof (impl_mul _ _ (smatrix_implements _ R HI n) x y) as A2. congruence. }
    rewrite !Em. intros i j x y Hi Hj Hx Hy. apply HE.
    pose proof (trivial_or_one_commutes R HR HC n Hn a b i j Hi Hj) as Hc. unfold mat_at in Hc.
    rewrite (nth_error_nth _ _ _ Hx), (nth_error_nth _ _ _ Hy) in Hc. exact Hc.
Qed.

(** ... while square matrices of size 2 and more over a non-trivial ring never commute. *)
Theorem C50_big_matrices_do_not_commute :
  forall (B : Type) (O : RingOps B) (E : B -> B -> Prop),
  is_ring O E -> forall (t : nest) (n : nat), 2 <= n ->
  ~ nest_same O E t (r_one (nest_ops O t)) (r_zero (nest_ops O t)) ->
  exists a b ab ba : nval B (NMat n t),
    r_mul (nest_ops O (NMat n t)) a b = Ok ab /\ r_mul (nest_ops O (NMat n t)) b a = Ok ba
    /\ ~ nest_same O E (NMat n t) ab ba.
Proof.
  intros B O E H t n Hn Hnt. destruct (C50_every_nesting_is_a_ring B O E H t) as (R & HI & HR & HE).
  pose proof (smatrix_implements (nest_ops O t) R HI n) as HM.
  set (a := mtab n n (fun i j => if (i =? 0) && (j =? 1) then so R else sz R) : smatrix (nval B t) n n).
  set (b := mtab n n (fun i j => if (i =? 1) && (j =? 0) then so R else sz R) : smatrix (nval B t) n n).
  exists a, b. do 2 eexists. split; [apply (impl_mul _ _ HM)|]. split; [apply (impl_mul _ _ HM)|].
  intros Hs. apply Hnt. rewrite (impl_one _ _ HI), (impl_zero _ _ HI).
  cbn [nest_same mat_sig smul] in Hs.
  (* entry (0,0): ab has a01*b10 = 1, ba has 0 *)
  assert (Hat : forall x y : smatrix (nval B t) n n,
            (forall i j u v, i < n -> j < n ->
               nth_error (nth i (map entries (entries x)) []) j = Some u ->
               nth_error (nth i (map entries (entries y)) []) j = Some v -> nest_same O E t u v) ->
            same R (mat_at R x 0 0) (mat_at R y 0 0)).
  { intros x y Hxy. apply HE.
    assert (Hrow : forall (m : smatrix (nval B t) n n), length (nth 0 (map entries (entries m)) []) = n).
    { intros m. rewrite (nth_indep _ [] (entries (tab n (fun _ => sz R)))) by
        (rewrite map_length, entries_length; lia).
      rewrite map_nth. apply entries_length. }
    apply (Hxy 0 0); try lia; apply nth_error_nth'; rewrite Hrow; lia. }
  specialize (Hat _ _ Hs). rewrite !mat_at_tab in Hat by lia.
  assert (Sum0 : forall m (f : nat -> nval B t), (forall i, i < m -> same R (f i) (sz R)) -> same R (sum_n R m f) (sz R)).
  { induction m as [|m IH]; intros f Hf; simpl; [apply (law_refl R HR)|].
    eapply (law_trans R HR); [apply (law_add_cong R HR); [apply IH; intros; apply Hf; lia|apply Hf; lia]|].
    apply (law_add_0 R HR). }
  assert (Z0 : forall x, same R (smul R (sz R) x) (sz R)) by (intros; apply (RingTheory.mul_0_l R HR)).
  assert (Zr : forall x, same R (smul R x (sz R)) (sz R)) by (intros; apply (RingTheory.mul_0_r R HR)).
  assert (Hl : same R (sum_n R n (fun m => smul R (mat_at R a 0 m) (mat_at R b m 0))) (so R)).
  { destruct n as [|[|n']]; try lia. clear Hat Hs.
    assert (G : forall k, k <= n' -> same R (sum_n R (S (S k)) (fun m => smul R (mat_at R a 0 m) (mat_at R b m 0))) (so R)).
    { induction k as [|k IH]; intros Hk.
      - cbn [sum_n]. unfold a, b. rewrite !mat_at_tab by lia. cbn [Nat.eqb andb].
        eapply (law_trans R HR).
        { apply (law_add_cong R HR); [|apply (law_mul_1_l R HR)].
          apply (law_add_cong R HR); [apply (law_refl R HR)|apply Z0]. }
        eapply (law_trans R HR).
        { apply (law_add_cong R HR); [apply (law_add_0 R HR)|apply (law_refl R HR)]. }
        eapply (law_trans R HR); [apply (law_add_comm R HR)|apply (law_add_0 R HR)].
      - change (sum_n R (S (S (S k))) (fun m => smul R (mat_at R a 0 m) (mat_at R b m 0)))
          with (sadd R (sum_n R (S (S k)) (fun m => smul R (mat_at R a 0 m) (mat_at R b m 0)))
                       (smul R (mat_at R a 0 (S (S k))) (mat_at R b (S (S k)) 0))).
        eapply (law_trans R HR); [apply (law_add_cong R HR); [apply IH; lia|]|apply (law_add_0 R HR)].
        unfold a, b. rewrite !mat_at_tab by lia. cbn [Nat.eqb andb]. apply Z0. }
    apply G. lia. }
  assert (Hr : same R (sum_n R n (fun m => smul R (mat_at R b 0 m) (mat_at R a m 0))) (sz R)).
  { apply Sum0. intros i Hi. unfold b at 1. rewrite mat_at_tab by lia. cbn [Nat.eqb andb]. apply Z0. }
  apply HE. eapply (law_trans R HR); [apply (law_sym R HR), Hl|]. eapply (law_trans R HR); [exact Hat|exact Hr].
Qed.

Fixpoint nest_rel {A B} (R : A -> B -> Prop) (t : nest) : nval A t -> nval B t -> Prop :=
  match t with
  | NBase => R
  | NPoly t => Forall2 (nest_rel R t)
  | NComplex t => crel (nest_rel R t)
  | NMat n t => arel (arel (nest_rel R t))
  end.

Lemma nest_ring_sim {A B} P (R : A -> B -> Prop) OA OB : ring_sim P R OA OB ->
  forall t, ring_sim P (nest_rel R t) (nest_ops OA t) (nest_ops OB t).
Proof.
  intros H. induction t as [|t IH|t IH|n t IH]; cbn [nest_rel nest_ops nval].
  - exact H.
  - apply poly_ring_sim, IH.
  - apply complex_ring_sim, IH.
  - apply smatrix_ring_sim, IH.
Qed.

Lemma entries_image {A B} (f : A -> B) n (v : array A n) : entries (array_image f v) = map f (entries v).
Proof. induction v; simpl; [reflexivity|]. f_equal. exact IHv. Qed.

Lemma entries_inj {A} n (u v : array A n) : entries u = entries v -> u = v.
Proof. intros H. apply arel_eq. unfold arel. rewrite H. apply Forall2_refl. Qed.

Lemma Forall2_images {A B C} (R : A -> B -> Prop) (g : A -> C) (h : B -> C) l1 l2 :
  (forall a b, R a b <-> g a = h b) -> Forall2 R l1 l2 <-> map g l1 = map h l2.
Proof.
  intros HR. split.
  - induction 1; simpl; [reflexivity|]. f_equal; [apply HR; assumption|assumption].
  - revert l2; induction l1 as [|x l1 IH]; intros [|y l2]; simpl; intros H; try discriminate; constructor.
    + apply HR. congruence.
    + apply IH. congruence.
Qed.

Lemma arel_images {A B C} (R : A -> B -> Prop) (g : A -> C) (h : B -> C) n (u : array A n) (v : array B n) :
  (forall a b, R a b <-> g a = h b) -> arel R u v <-> array_image g u = array_image h v.
Proof.
  intros HR. unfold arel. rewrite (Forall2_images R g h _ _ HR), <- !entries_image.
  split; [apply entries_inj|intros ->; reflexivity].
Qed.

Lemma nest_rel_images {A B C} (g : A -> C) (h : B -> C) t x y :
  nest_rel (fun a b => g a = h b) t x y <-> nest_image g t x = nest_image h t y.
Proof.
  revert x y. induction t as [|t IH|t IH|n t IH]; cbn [nest_rel nest_image nval] in *; intros x y.
  - reflexivity.
  - apply Forall2_images, IH.
  - unfold crel. rewrite !IH. split; [intros [E1 E2]; exact (f_equal2 Cx E1 E2)|]. intros H; injection H; auto.
  - apply arel_images. intros a b. apply arel_images, IH.
Qed.

Lemma nest_image_id {A} t (x : nval A t) : nest_image (fun a => a) t x = x.
Proof.
  revert x. induction t as [|t IH|t IH|n t IH]; cbn [nest_image nval] in *; intros x.
  - reflexivity.
  - rewrite (map_ext _ (fun a => a)) by exact IH. apply map_id.
  - destruct x. cbn. rewrite !IH. reflexivity.
  - apply entries_inj. rewrite entries_image, (map_ext _ (fun a => a)); [apply map_id|].
    intros r. apply entries_inj. rewrite entries_image, (map_ext _ (fun a => a)) by exact IH. apply map_id.
Qed.

Lemma z_total t : forall x y : nval Z t,
  (exists r, r_add (nest_ops z_ops t) x y = Ok r) /\ (exists r, r_sub (nest_ops z_ops t) x y = Ok r)
  /\ (exists r, r_mul (nest_ops z_ops t) x y = Ok r) /\ (exists r, r_neg (nest_ops z_ops t) x = Ok r).
Proof.
  intros x y. assert (H : is_ring z_ops eq) by (exists z_sig; split; [apply z_implements|split; [apply z_laws|reflexivity]]).
  destruct (C50_every_nesting_is_a_ring Z z_ops eq H t) as (R & HI & _).
  repeat split; eexists; apply HI.
Qed.

(** Checked machine integers inside any nesting: the exact result or an overflow panic. *)
Theorem C50_checked_integers :
  forall (w : int_type) (t : nest) (x y : nval (int w) t),
  let D := nest_ops (int_ops Debug w) t in
  let Z := nest_ops z_ops t in
  let exact := nest_image ival t in
  exact_or_overflow (r_add D x y) (fun r => r_add Z (exact x) (exact y) = Ok (exact r))
  /\ exact_or_overflow (r_sub D x y) (fun r => r_sub Z (exact x) (exact y) = Ok (exact r))
  /\ exact_or_overflow (r_mul D x y) (fun r => r_mul Z (exact x) (exact y) = Ok (exact r))
  /\ exact_or_overflow (r_neg D x) (fun r => r_neg Z (exact x) = Ok (exact r)).
Proof.
  intros w t x y D Zo exact.
  pose proof (nest_ring_sim overflow _ _ _ (checked_sim w) t) as HS. fold D Zo in HS.
  assert (E : forall a b, nest_rel (fun (a : int w) b => b = ival a) t a b <-> b = exact a).
  { intros a b. rewrite <- (nest_image_id t b) at 2. etransitivity; [|split; apply eq_sym].
    etransitivity; [|apply nest_rel_images].
    assert (M : forall (R1 R2 : int w -> Z -> Prop), (forall u v, R1 u v -> R2 u v) ->
              forall t a b, nest_rel R1 t a b -> nest_rel R2 t a b).
    { clear. intros R1 R2 H. induction t as [|t IH|t IH|n t IH]; cbn [nest_rel nval]; intros a b.
      - apply H.
      - induction 1; constructor; auto.
      - intros [H1 H2]. split; apply IH; assumption.
      - unfold arel. induction 1; constructor; auto. clear - H0 IH. induction H0; constructor; auto. }
    split; apply M; auto. }
  assert (Hx : nest_rel (fun (a : int w) b => b = ival a) t x (exact x)) by (apply E; reflexivity).
  assert (Hy : nest_rel (fun (a : int w) b => b = ival a) t y (exact y)) by (apply E; reflexivity).
  destruct (z_total t (exact x) (exact y)) as ((r1 & E1) & (r2 & E2) & (r3 & E3) & (r4 & E4)).
  fold Zo in E1, E2, E3, E4.
  split; [|split; [|split]].
  - pose proof (rs_add _ _ _ _ HS _ _ _ _ Hx Hy) as S. rewrite E1 in *. apply (sim_exact _ _ _ _ S).
    intros a Ha. apply E in Ha. congruence.
  - pose proof (rs_sub _ _ _ _ HS _ _ _ _ Hx Hy) as S. rewrite E2 in *. apply (sim_exact _ _ _ _ S).
    intros a Ha. apply E in Ha. congruence.
  - pose proof (rs_mul _ _ _ _ HS _ _ _ _ Hx Hy) as S. rewrite E3 in *. apply (sim_exact _ _ _ _ S).
    intros a Ha. apply E in Ha. congruence.
  - pose proof (rs_neg _ _ _ _ HS _ _ Hx) as S. rewrite E4 in *. apply (sim_exact _ _ _ _ S).
    intros a Ha. apply E in Ha. congruence.
Qed.

(** Wrapping machine integers inside any nesting: the exact result, every integer reduced. *)
Theorem C50_wrapping_integers :
  forall (w : int_type) (t : nest) (x y : nval (int w) t),
  let W := nest_ops (int_ops Release w) t in
  let Z := nest_ops z_ops t in
  let exact := nest_image ival t in
  let reduced := nest_image (wrap w) t in
  (exists r rz, r_add W x y = Ok r /\ r_add Z (exact x) (exact y) = Ok rz /\ exact r = reduced rz)
  /\ (exists r rz, r_sub W x y = Ok r /\ r_sub Z (exact x) (exact y) = Ok rz /\ exact r = reduced rz)
  /\ (exists r rz, r_mul W x y = Ok r /\ r_mul Z (exact x) (exact y) = Ok rz /\ exact r = reduced rz)
  /\ (exists r rz, r_neg W x = Ok r /\ r_neg Z (exact x) = Ok rz /\ exact r = reduced rz).
Proof.
  intros w t x y W Zo exact reduced.
  pose proof (nest_ring_sim never _ _ _ (wrapping_sim w) t) as HS. fold W Zo in HS.
  assert (E : forall a b, nest_rel (fun (a : int w) b => ival a = wrap w b) t a b <-> exact a = reduced b)
    by (intros; apply nest_rel_images).
  assert (Ex : forall a, nest_rel (fun (a : int w) b => ival a = wrap w b) t a (exact a)).
  { clear. induction t as [|t IH|t IH|n t IH]; cbn [nest_rel nest_image nval] in *; intros a.
    - apply ival_wrap.
    - induction a; simpl; constructor; auto.
    - split; apply IH.
    - assert (G : forall A B (R : A -> B -> Prop) f m (v : array A m), (forall a, R a (f a)) -> arel R v (array_image f v)).
      { clear. intros A B R f m v H. unfold arel. rewrite entries_image. induction (entries v); simpl; constructor; auto. }
      apply G. intros r. apply G, IH. }
  destruct (z_total t (exact x) (exact y)) as ((r1 & E1) & (r2 & E2) & (r3 & E3) & (r4 & E4)).
  fold Zo in E1, E2, E3, E4.
  split; [|split; [|split]].
  - pose proof (rs_add _ _ _ _ HS _ _ _ _ (Ex x) (Ex y)) as S. rewrite E1 in S.
    destruct (sim_returns _ _ _ (fun r => exact r = reduced r1) S) as (r & Hr & Hv); [intros a; apply E|]. eauto.
  - pose proof (rs_sub _ _ _ _ HS _ _ _ _ (Ex x) (Ex y)) as S. rewrite E2 in S.
    destruct (sim_returns _ _ _ (fun r => exact r = reduced r2) S) as (r & Hr & Hv); [intros a; apply E|]. eauto.
  - pose proof (rs_mul _ _ _ _ HS _ _ _ _ (Ex x) (Ex y)) as S. rewrite E3 in S.
    destruct (sim_returns _ _ _ (fun r => exact r = reduced r3) S) as (r & Hr & Hv); [intros a; apply E|]. eauto.
  - pose proof (rs_neg _ _ _ _ HS _ _ (Ex x)) as S. rewrite E4 in S.
    destruct (sim_returns _ _ _ (fun r => exact r = reduced r4) S) as (r & Hr & Hv); [intros a; apply E|]. eauto.
Qed.

(** Polynomial<SMatrix<Complex<_>, 2, 2>>: a product with a non-trivial result. *)
Definition cx22 (a b c d : Z * Z) : smatrix (complex Z) 2 2 :=
  let e z := Cx (fst z) (snd z) in
  acons (acons (e a) (acons (e b) anil)) (acons (acons (e c) (acons (e d) anil)) anil).

Example C50_case :
  let t := NPoly (NMat 2 (NComplex NBase)) in
  is_ring (nest_ops z_ops t) (nest_same z_ops eq t)
  /\ r_mul (nest_ops z_ops t)
       [cx22 (1, 0) (0, 1) (0, 0) (1, 0); cx22 (0, 0) (0, 0) (2, 0) (0, 0)]%Z
       [cx22 (0, 1) (0, 0) (1, 0) (0, 1)]%Z
     = Ok [cx22 (0, 2) (-1, 0) (1, 0) (0, 1); cx22 (0, 0) (0, 0) (0, 2) (0, 0)]%Z.
Proof.
  split; [|reflexivity]. apply C50_every_nesting_is_a_ring.
  exists z_sig. split; [apply z_implements|split; [apply z_laws|reflexivity]].
Qed.

Example C50_case_overflow :
  let t := NPoly (NComplex NBase) in
  let l := int_wrapped I8 in
  omap (nest_image ival t) (r_mul (nest_ops (int_ops Debug I8) t) [Cx (l 11%Z) (l 1%Z)] [Cx (l 11%Z) (l 2%Z)])
  = Ok [Cx 119 33]%Z
  /\ omap (nest_image ival t) (r_mul (nest_ops (int_ops Debug I8) t) [Cx (l 12%Z) (l 1%Z)] [Cx (l 11%Z) (l 2%Z)])
  = Panic ArithOverflow.
Proof. vm_compute. split; reflexivity. Qed.

(** ** C55 *)
Section Hom.
Context (A B : Type) (f : A -> B) (OA : RingOps A) (OB : RingOps B) (H : is_hom f OA OB).

Lemma sim_never_omap {X Y} (g : X -> Y) m1 m2 : sim never (fun a b => b = g a) m1 m2 <-> m2 = omap g m1.
Proof.
  destruct m1 as [a|p|]; simpl.
  - split; [intros (b & -> & ->); reflexivity|intros ->; eauto].
  - split; [intros [[]|E]; exact E|auto].
  - reflexivity.
Qed.

Lemma hom_sim : ring_sim never (fun a b => b = f a) OA OB.
Proof.
  constructor; intros; subst.
  - symmetry; apply (hom_zero _ _ _ H).
  - symmetry; apply (hom_one _ _ _ H).
  - apply sim_never_omap, (hom_add _ _ _ H).
  - apply sim_never_omap, (hom_sub _ _ _ H).
  - apply sim_never_omap, (hom_mul _ _ _ H).
  - apply sim_never_omap, (hom_neg _ _ _ H).
Qed.

Lemma nest_rel_fun t a b : nest_rel (fun a b => b = f a) t a b <-> b = nest_image f t a.
Proof.
  revert a b. induction t as [|t IH|t IH|n t IH]; cbn [nest_rel nest_image nval] in *; intros a b.
  - reflexivity.
  - rewrite <- Forall2_map_eq. split; intros F; induction F; constructor; auto; apply IH; assumption.
  - unfold crel. rewrite !IH. destruct a, b; cbn. split; [intros [-> ->]; reflexivity|]. intros E; injection E; auto.
  - assert (G : forall X Y (R : X -> Y -> Prop) g m (u : array X m) v,
              (forall a b, R a b <-> b = g a) -> (arel R u v <-> v = array_image g u)).
    { clear. intros X Y R g m u v HR. unfold arel. split.
      - intros F. apply entries_inj. rewrite entries_image. apply Forall2_map_eq.
        induction F; constructor; auto. apply HR; assumption.
      - intros ->. rewrite entries_image. induction (entries u); simpl; constructor; auto. apply HR; reflexivity. }
    apply G. intros u v. apply G, IH.
Qed.

(** Every nesting of the ring constructors lifts a homomorphism to a homomorphism. *)
Theorem C55_nested_homomorphisms : forall t : nest,
  is_hom (nest_image f t) (nest_ops OA t) (nest_ops OB t).
Proof.
  intros t. pose proof (nest_ring_sim never _ _ _ hom_sim t) as HS.
  assert (E : forall a, nest_rel (fun a b => b = f a) t a (nest_image f t a)) by (intros; apply nest_rel_fun; reflexivity).
  assert (M : forall m1 m2, sim never (nest_rel (fun a b => b = f a) t) m1 m2 -> m2 = omap (nest_image f t) m1).
  { intros m1 m2 Hs. apply sim_never_omap. eapply sim_mono; [exact Hs|]. intros a b. apply nest_rel_fun. }
  constructor; intros.
  - symmetry. apply nest_rel_fun, (rs_zero _ _ _ _ HS).
  - symmetry. apply nest_rel_fun, (rs_one _ _ _ _ HS).
  - apply M, (rs_add _ _ _ _ HS); apply E.
  - apply M, (rs_sub _ _ _ _ HS); apply E.
  - apply M, (rs_mul _ _ _ _ HS); apply E.
  - apply M, (rs_neg _ _ _ _ HS); apply E.
Qed.

(** The generic functions commute with it. *)
Theorem C55_functions_commute :
  (forall p x, poly_eval OB (map f p) (f x) = omap f (poly_eval OA p x))
  /\ (forall p q, poly_add OB (map f p) (map f q) = omap (map f) (poly_add OA p q))
  /\ (forall p q, poly_sub OB (map f p) (map f q) = omap (map f) (poly_sub OA p q))
  /\ (forall p q, poly_mul OB (map f p) (map f q) = omap (map f) (poly_mul OA p q))
  /\ (forall z, complex_sqr_norm OB (Cx (f (re z)) (f (im z))) = omap f (complex_sqr_norm OA z))
  /\ (forall n (u v : svector A n), svector_dot OB (array_image f u) (array_image f v) = omap f (svector_dot OA u v))
  /\ (forall l m n (a : smatrix A l m) (b : smatrix A m n),
        smatrix_mul OB (array_image (array_image f) a) (array_image (array_image f) b)
        = omap (array_image (array_image f)) (smatrix_mul OA a b))
  /\ (forall m n (a : smatrix A m n) (v : svector A n),
        smatrix_mul_vec OB (array_image (array_image f) a) (array_image f v)
        = omap (array_image f) (smatrix_mul_vec OA a v)).
Proof.
  pose proof hom_sim as HS.
  assert (El : forall l, Forall2 (fun a b => b = f a) l (map f l)) by (intros; apply Forall2_map_eq; reflexivity).
  assert (G : forall X Y (R : X -> Y -> Prop) g m (u : array X m) v,
              (forall a b, R a b <-> b = g a) -> (arel R u v <-> v = array_image g u)).
  { clear. intros X Y R g m u v HR. unfold arel. split.
    - intros F. apply entries_inj. rewrite entries_image. apply Forall2_map_eq.
      induction F; constructor; auto. apply HR; assumption.
    - intros ->. rewrite entries_image. induction (entries u); simpl; constructor; auto. apply HR; reflexivity. }
  assert (Ev : forall n (u : array A n) v, arel (fun a b => b = f a) u v <-> v = array_image f u) by (intros; apply G; reflexivity).
  assert (Em : forall m n (u : smatrix A m n) v, arel (arel (fun a b => b = f a)) u v <-> v = array_image (array_image f) u)
    by (intros; apply G; intros; apply Ev).
  assert (Ml : forall m1 m2, sim never (Forall2 (fun a b => b = f a)) m1 m2 -> m2 = omap (map f) m1).
  { intros m1 m2 Hs. apply sim_never_omap. eapply sim_mono; [exact Hs|]. intros a b. apply Forall2_map_eq. }
  split; [|split; [|split; [|split; [|split; [|split; [|split]]]]]]; intros.
  - apply sim_never_omap, (sim_poly_eval never _ _ _ HS); auto.
  - apply Ml, (sim_poly_add never _ _ _ HS); auto.
  - apply Ml, (sim_poly_sub never _ _ _ HS); auto.
  - apply Ml, (sim_poly_mul never _ _ _ HS); auto.
  - apply sim_never_omap, (sim_complex_sqr_norm never _ _ _ HS). split; reflexivity.
  - apply sim_never_omap, (sim_svector_dot never _ _ _ HS); apply Ev; reflexivity.
  - apply sim_never_omap. eapply sim_mono; [apply (sim_smatrix_mul never _ _ _ HS); apply Em; reflexivity|].
    intros. apply Em; assumption.
  - apply sim_never_omap. eapply sim_mono; [apply (sim_smatrix_mul_vec never _ _ _ HS); [apply Em|apply Ev]; reflexivity|].
    intros. apply Ev; assumption.
Qed.

(** The remaining operations; [cjA], [cjB] are the conjugations of the element types. *)
Theorem C55_more_functions_commute :
  forall (cjA : A -> outcome A) (cjB : B -> outcome B), (forall x, cjB (f x) = omap f (cjA x)) ->
  (forall z, complex_conj (r_neg OB) (Cx (f (re z)) (f (im z)))
             = omap (fun z => Cx (f (re z)) (f (im z))) (complex_conj (r_neg OA) z))
  /\ (forall z s, complex_mul_scalar OB (Cx (f (re z)) (f (im z))) (f s)
             = omap (fun z => Cx (f (re z)) (f (im z))) (complex_mul_scalar OA z s))
  /\ (forall n (u v : svector A n),
        svector_add OB (array_image f u) (array_image f v) = omap (array_image f) (svector_add OA u v)
        /\ svector_sub OB (array_image f u) (array_image f v) = omap (array_image f) (svector_sub OA u v))
  /\ (forall n (u : svector A n) s, svector_scale OB (array_image f u) (f s) = omap (array_image f) (svector_scale OA u s))
  /\ (forall m n (a b : smatrix A m n), let M := array_image (array_image f) in
        smatrix_add OB (M a) (M b) = omap M (smatrix_add OA a b)
        /\ smatrix_sub OB (M a) (M b) = omap M (smatrix_sub OA a b)
        /\ smatrix_neg OB (M a) = omap M (smatrix_neg OA a))
  /\ (forall u v, dvector_dot (r_zero OB) (r_add OB) (r_mul OB) cjB (map f u) (map f v)
                 = omap f (dvector_dot (r_zero OA) (r_add OA) (r_mul OA) cjA u v))
  /\ (forall (md : target) (a b : dmatrix A),
        let M (m : dmatrix A) := MkDM (map f (dm_data m)) (dm_rows m) (dm_cols m) in
        (e <- dmatrix_mul md (r_mul OB) (r_add OB) (M a) (M b) ;; m_eval e)
        = omap M (e <- dmatrix_mul md (r_mul OA) (r_add OA) a b ;; m_eval e)).
Proof.
  intros cjA cjB Hcj. pose proof hom_sim as HS.
  assert (El : forall l, Forall2 (fun a b => b = f a) l (map f l)) by (intros; apply Forall2_map_eq; reflexivity).
  assert (G : forall X Y (R : X -> Y -> Prop) g m (u : array X m) v,
              (forall a b, R a b <-> b = g a) -> (arel R u v <-> v = array_image g u)).
  { clear. intros X Y R g m u v HR. unfold arel. split.
    - intros F. apply entries_inj. rewrite entries_image. apply Forall2_map_eq.
      induction F; constructor; auto. apply HR; assumption.
    - intros ->. rewrite entries_image. induction (entries u); simpl; constructor; auto. apply HR; reflexivity. }
  assert (Ev : forall n (u : array A n) v, arel (fun a b => b = f a) u v <-> v = array_image f u) by (intros; apply G; reflexivity).
  assert (Em : forall m n (u : smatrix A m n) v, arel (arel (fun a b => b = f a)) u v <-> v = array_image (array_image f) u)
    by (intros; apply G; intros; apply Ev).
  assert (Ec : forall m1 m2, sim never (crel (fun a b => b = f a)) m1 m2 -> m2 = omap (fun z => Cx (f (re z)) (f (im z))) m1).
  { intros m1 m2 Hs. apply sim_never_omap. eapply sim_mono; [exact Hs|]. intros a [b1 b2] [E1 E2]. simpl in *. subst. reflexivity. }
  assert (Ev' : forall n (m1 : outcome (svector A n)) m2, sim never (arel (fun a b => b = f a)) m1 m2 -> m2 = omap (array_image f) m1).
  { intros n m1 m2 Hs. apply sim_never_omap. eapply sim_mono; [exact Hs|]. intros. apply Ev; assumption. }
  assert (Em' : forall m n (m1 : outcome (smatrix A m n)) m2, sim never (arel (arel (fun a b => b = f a))) m1 m2 ->
                m2 = omap (array_image (array_image f)) m1).
  { intros m n m1 m2 Hs. apply sim_never_omap. eapply sim_mono; [exact Hs|]. intros. apply Em; assumption. }
  assert (Hc : forall z, crel (fun a b => b = f a) z (Cx (f (re z)) (f (im z)))) by (intros z; split; reflexivity).
  split; [|split; [|split; [|split; [|split; [|split]]]]]; intros.
  - apply Ec, (sim_complex_conj never _ _ _ HS), Hc.
  - apply Ec, (sim_complex_scale never _ _ _ HS); auto.
  - split; apply Ev'; [apply (sim_svector_add never _ _ _ HS)|apply (sim_svector_sub never _ _ _ HS)]; apply Ev; reflexivity.
  - apply Ev', (sim_svector_scale never _ _ _ HS); [apply Ev|]; reflexivity.
  - repeat split; apply Em'; [apply (sim_smatrix_add never _ _ _ HS)|apply (sim_smatrix_sub never _ _ _ HS)|apply (sim_smatrix_neg never _ _ _ HS)];
      apply Em; reflexivity.
  - apply sim_never_omap, (sim_dvector_dot never _ _ _ HS); auto.
    intros x ? ->. apply sim_never_omap, Hcj.
  - apply sim_never_omap. eapply sim_mono; [apply (sim_dmatrix_product never _ _ _ HS)|].
    + split; [apply El|split; reflexivity].
    + split; [apply El|split; reflexivity].
    + intros [d1 r1 c1] [d2 r2 c2] (E1 & E2 & E3). unfold M. simpl in *. apply Forall2_map_eq in E1. subst. reflexivity.
Qed.
End Hom.
Print Assumptions C55_more_functions_commute.

(** Complex conjugation of coefficients, argument and value: p̄(z̄) is the conjugate of p(z), over
    any commutative ring; for a "real" polynomial the value at z̄ is the conjugate of the value
    at z, so non-real roots come in conjugate pairs. *)
Theorem C55_eval_commutes_with_conj :
  forall (T : Type) (O : RingOps T) (R : ring_sig T),
  implements O R -> ring_laws R -> commutative R ->
  let cj (z : complex T) := Cx (re z) (sneg R (im z)) in
  (forall z, complex_conj (r_neg O) z = Ok (cj z))
  /\ (forall (p : poly (complex T)) (z : complex T), exists v w,
        poly_eval (complex_ops O) p z = Ok v /\ poly_eval (complex_ops O) (map cj p) (cj z) = Ok w
        /\ same_complex R w (cj v))
  /\ (forall (p : poly T) (z : complex T), exists v w,
        let P := map (fun a => complex_new a (r_zero O)) p in
        poly_eval (complex_ops O) P z = Ok v /\ poly_eval (complex_ops O) P (cj z) = Ok w
        /\ same_complex R w (cj v)).
Proof.
  intros T O R HI HR HC cj.
  assert (Hcj : forall z, complex_conj (r_neg O) z = Ok (cj z)) by (intros; apply (conj_val O R HI)).
  pose proof (complex_implements O R HI) as HIc. pose proof (complex_laws R HR) as HRc.
  set (S := fun (a b : complex T) => same_complex R b (cj a)).
  assert (HS : ring_sim never S (complex_ops O) (complex_ops O)).
  { assert (B : forall a b (m1 m2 : outcome (complex T)), m1 = Ok a -> m2 = Ok b -> S a b -> sim never S m1 m2)
      by (intros a b m1 m2 -> -> Hs; apply sim_ok, Hs).
    constructor.
    - rewrite (impl_zero _ _ HIc). split; cbn; [apply (law_refl R HR)|]. nc_ring HR.
    - rewrite (impl_one _ _ HIc). split; cbn; [apply (law_refl R HR)|]. nc_ring HR.
    - intros x1 x2 y1 y2 [Hx Hx'] [Hy Hy']. eapply B; [apply (impl_add _ _ HIc)|apply (impl_add _ _ HIc)|].
      split; cbn in *.
      + apply (law_add_cong R HR); assumption.
      + eapply (law_trans R HR); [apply (law_add_cong R HR); eassumption|]. nc_ring HR.
    - intros x1 x2 y1 y2 [Hx Hx'] [Hy Hy']. eapply B; [apply (impl_sub _ _ HIc)|apply (impl_sub _ _ HIc)|].
      split; cbn in *.
      + apply (law_sub_cong R HR); assumption.
      + eapply (law_trans R HR); [apply (law_sub_cong R HR); eassumption|]. nc_ring HR.
    - intros x1 x2 y1 y2 [Hx Hx'] [Hy Hy']. eapply B; [apply (impl_mul _ _ HIc)|apply (impl_mul _ _ HIc)|].
      split; cbn in *.
      + eapply (law_trans R HR); [apply (law_sub_cong R HR); apply (law_mul_cong R HR); eassumption|]. nc_ring HR.
      + eapply (law_trans R HR); [apply (law_add_cong R HR); apply (law_mul_cong R HR); eassumption|]. nc_ring HR.
    - intros x1 x2 [Hx Hx']. eapply B; [apply (impl_neg _ _ HIc)|apply (impl_neg _ _ HIc)|].
      split; cbn in *; apply (law_neg_cong R HR); assumption. }
  assert (Main : forall p q z, Forall2 S p q -> exists v w,
        poly_eval (complex_ops O) p z = Ok v /\ poly_eval (complex_ops O) q (cj z) = Ok w
        /\ same_complex R w (cj v)).
  { intros p q z Hpq.
    destruct (poly_eval_ref_spec (complex_ops O) (complex_sig R) HIc HRc p z) as (v & Hv & _).
    assert (Hz : S z (cj z)) by (split; apply (law_refl R HR)).
    pose proof (sim_poly_eval never _ _ _ HS p q z (cj z) Hpq Hz) as Hs.
    rewrite Hv in Hs. destruct Hs as (w & Hw & Hvw). exists v, w. auto. }
  split; [exact Hcj|]. split.
  - intros p z. apply Main. induction p; simpl; constructor; auto. split; apply (law_refl R HR).
  - intros p z. apply Main. induction p; simpl; constructor; auto.
    split; cbn; [apply (law_refl R HR)|]. rewrite (impl_zero _ _ HI). nc_ring HR.
Qed.

(** Reduction of exact integers to machine integers is such a homomorphism. *)
Lemma reduction_hom w : is_hom (int_wrapped w) z_ops (int_ops Release w).
Proof.
  constructor; intros; cbn [z_ops int_ops r_zero r_one r_add r_sub r_mul r_neg omap]; rewrite ?int_result_release;
    try f_equal; apply int_eq; cbn [ival int_wrapped int_lit].
  - apply wrap_id, small_in_range. lia.
  - apply wrap_id, small_in_range. lia.
  - apply wrap_add.
  - apply wrap_sub.
  - apply wrap_mul.
  - apply wrap_neg.
Qed.

Example C55_case :
  is_hom (int_wrapped I8) z_ops (int_ops Release I8)
  /\ (exists v w, poly_eval (complex_ops z_ops) [Cx 5 0; Cx 2 0; Cx 1 0]%Z (Cx 1 3)%Z = Ok v
       /\ poly_eval (complex_ops z_ops) [Cx 5 0; Cx 2 0; Cx 1 0]%Z (Cx 1 (-3))%Z = Ok w
       /\ v = Cx (-1)%Z 12%Z /\ w = Cx (-1)%Z (-12)%Z).
Proof. split; [apply reduction_hom|]. do 2 eexists. repeat split; reflexivity. Qed.

Print Assumptions C50_every_nesting_is_a_ring.
Print Assumptions C50_commutative_nestings.
Print Assumptions C50_big_matrices_do_not_commute.
Print Assumptions C50_checked_integers.
Print Assumptions C50_wrapping_integers.
Print Assumptions C55_nested_homomorphisms.
Print Assumptions C55_functions_commute.
Print Assumptions C55_eval_commutes_with_conj.
