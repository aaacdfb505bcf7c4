(** Isomorphisms between nested number types (proof device for C87). *)
From Coq Require Import List Arith Lia Bool Setoid Morphisms.
From Verif Require Import Base.Outcome Base.Array Base.Sim Model.Traits Model.Polynomial Model.Complex
  Model.SVector Model.SMatrix Spec.Ring Spec.Sums Spec.Agree Spec.Matrix Spec.Polynomial Spec.Complex Spec.Nest Spec.Interchange
  Proofs.RingTheory Proofs.PolynomialProofs Proofs.PolynomialRing Proofs.SMatrixProofs Proofs.ComplexProofs
  Proofs.SigOf Proofs.RingSim Proofs.IntProofs.
Import ListNotations.

(** The same for total operations. *)
Record sig_iso {A B} (f : A -> B) (RA : ring_sig A) (RB : ring_sig B) : Prop := MkSigIso {
  si_same : forall x y, same RA x y <-> same RB (f x) (f y);
  si_onto : forall b, exists a, same RB (f a) b;
  si_zero : same RB (f (sz RA)) (sz RB);
  si_one : same RB (f (so RA)) (so RB);
  si_add : forall x y, same RB (f (sadd RA x y)) (sadd RB (f x) (f y));
  si_sub : forall x y, same RB (f (ssub RA x y)) (ssub RB (f x) (f y));
  si_mul : forall x y, same RB (f (smul RA x y)) (smul RB (f x) (f y));
  si_neg : forall x, same RB (f (sneg RA x)) (sneg RB (f x))
}.

Lemma sig_iso_ring_iso {A B} (f : A -> B) OA RA OB RB (EA : A -> A -> Prop) (EB : B -> B -> Prop) :
  implements OA RA -> implements OB RB ->
  (forall x y, EA x y <-> same RA x y) -> (forall x y, EB x y <-> same RB x y) ->
  sig_iso f RA RB -> ring_iso f OA EA OB EB.
Proof.
  intros HA HB eA eB H.
  constructor.
  - intros. rewrite eA, eB. apply (si_same _ _ _ H).
  - intros b. destruct (si_onto _ _ _ H b) as (a & Ha). exists a. apply eB, Ha.
  - rewrite (impl_zero _ _ HA), (impl_zero _ _ HB). apply eB, (si_zero _ _ _ H).
  - rewrite (impl_one _ _ HA), (impl_one _ _ HB). apply eB, (si_one _ _ _ H).
  - intros x y. rewrite (impl_add _ _ HA), (impl_add _ _ HB). eexists _, _. split; [reflexivity|]. split; [reflexivity|]. apply eB, (si_add _ _ _ H).
  - intros x y. rewrite (impl_sub _ _ HA), (impl_sub _ _ HB). eexists _, _. split; [reflexivity|]. split; [reflexivity|]. apply eB, (si_sub _ _ _ H).
  - intros x y. rewrite (impl_mul _ _ HA), (impl_mul _ _ HB). eexists _, _. split; [reflexivity|]. split; [reflexivity|]. apply eB, (si_mul _ _ _ H).
  - intros x. rewrite (impl_neg _ _ HA), (impl_neg _ _ HB). eexists _, _. split; [reflexivity|]. split; [reflexivity|]. apply eB, (si_neg _ _ _ H).
Qed.

Section Iso.
Context {T : Type} (O : RingOps T) (R : ring_sig T) (HI : implements O R) (HR : ring_laws R).
Notation "x [=] y" := (same R x y) (at level 70).
Notation "x [+] y" := (sadd R x y) (at level 50, left associativity).
Notation "x [*] y" := (smul R x y) (at level 40, left associativity).
Notation "x [-] y" := (ssub R x y) (at level 50, left associativity).
#[local] Instance J1 : Equivalence (same R) := same_equiv R HR.
#[local] Instance J2 : Proper (same R ==> same R ==> same R) (sadd R) := sadd_proper R HR.
#[local] Instance J3 : Proper (same R ==> same R ==> same R) (ssub R) := ssub_proper R HR.
#[local] Instance J4 : Proper (same R ==> same R ==> same R) (smul R) := smul_proper R HR.
#[local] Instance J5 : Proper (same R ==> same R) (sneg R) := sneg_proper R HR.
Notation CR := (complex_sig R).
Notation PS := (PR O R).
Let HCI := complex_implements O R HI.
Let HCR := complex_laws R HR.
Let HPI := PR_implements O R HI HR.
Let HPR := PR_laws O R HI HR.

Lemma coeff_nth {U} (Q : ring_sig U) p i : coeff Q p i = nth i p (sz Q).
Proof. reflexivity. Qed.

(** ** Componentwise sums *)
Lemma sum_re n f : re (sum_n CR n f) = sum_n R n (fun i => re (f i)).
Proof. induction n as [|n IH]; simpl; [reflexivity|]. rewrite IH. reflexivity. Qed.
Lemma sum_im n f : im (sum_n CR n f) = sum_n R n (fun i => im (f i)).
Proof. induction n as [|n IH]; simpl; [reflexivity|]. rewrite IH. reflexivity. Qed.
Lemma sum_coeff n f k : coeff R (sum_n PS n f) k [=] sum_n R n (fun i => coeff R (f i) k).
Proof.
  induction n as [|n IH]; cbn [sum_n]; [apply (PR_zero O R HR)|].
  rewrite (PR_add O R HI HR), IH. reflexivity.
Qed.
Lemma sum_mat N n f i j : i < N -> j < N ->
  mat_at R (sum_n (mat_sig R N) n f) i j = sum_n R n (fun k => mat_at R (f k) i j).
Proof.
  intros Hi Hj. induction n as [|n IH]; cbn [sum_n mat_sig sz sadd]; rewrite (mat_at_tab R) by assumption; [reflexivity|].
  cbn [mat_sig] in IH. rewrite IH. reflexivity.
Qed.

Lemma coeff_re p i : coeff R (map re p) i = re (coeff CR p i).
Proof. unfold coeff. rewrite <- (map_nth re). reflexivity. Qed.
Lemma coeff_im p i : coeff R (map im p) i = im (coeff CR p i).
Proof. unfold coeff. rewrite <- (map_nth im). reflexivity. Qed.

(** ** Polynomial<Complex> and Complex<Polynomial> *)
Lemma poly_complex_iso : sig_iso complex_of_polys (PR (complex_ops O) CR) (complex_sig PS).
Proof.
  assert (ext : forall p (z : complex (poly T)),
    (forall i, re (coeff CR p i) [=] coeff R (re z) i) -> (forall i, im (coeff CR p i) [=] coeff R (im z) i) ->
    same (complex_sig PS) (complex_of_polys p) z).
  { intros p z H1 H2. split; intros i; cbn [complex_of_polys re im]; rewrite ?coeff_re, ?coeff_im; auto. }
  constructor.
  - intros p q. split.
    + intros H. split; intros i; cbn [complex_of_polys re im]; rewrite ?coeff_re, ?coeff_im; apply (H i).
    + intros [H1 H2] i. specialize (H1 i). specialize (H2 i). cbn [complex_of_polys re im] in H1, H2.
      rewrite !coeff_re in H1. rewrite !coeff_im in H2. split; assumption.
  - intros [a b]. exists (map (fun i => Cx (coeff R a i) (coeff R b i)) (seq 0 (max (length a) (length b)))).
    assert (E : forall i, coeff CR (map (fun i => Cx (coeff R a i) (coeff R b i)) (seq 0 (max (length a) (length b)))) i
                = Cx (coeff R a i) (coeff R b i)).
    { intros i. unfold coeff at 1. destruct (Nat.lt_ge_cases i (max (length a) (length b))) as [H|H].
      - rewrite nth_map_seq by exact H. reflexivity.
      - rewrite nth_overflow by (rewrite map_length, seq_length; exact H).
        rewrite !coeff_past by lia. reflexivity. }
    apply ext; intros i; rewrite E; reflexivity.
  - apply ext; intros i; rewrite (proj1 (PR_zero (complex_ops O) CR HCR i)) || rewrite (proj2 (PR_zero (complex_ops O) CR HCR i));
      symmetry; apply (PR_zero O R HR).
  - apply ext; intros i.
    + rewrite (proj1 (PR_one (complex_ops O) CR HCI HCR i)). cbn [complex_sig so re].
      rewrite (PR_one O R HI HR). destruct (i =? 0); reflexivity.
    + rewrite (proj2 (PR_one (complex_ops O) CR HCI HCR i)). cbn [complex_sig so im].
      rewrite (PR_zero O R HR). destruct (i =? 0); reflexivity.
  - intros p q. apply ext; intros i; cbn [complex_sig sadd re im complex_of_polys]; rewrite (PR_add O R HI HR), ?coeff_re, ?coeff_im;
      apply (PR_add (complex_ops O) CR HCI HCR p q i).
  - intros p q. apply ext; intros i; cbn [complex_sig ssub re im complex_of_polys]; rewrite (PR_sub O R HI HR), ?coeff_re, ?coeff_im;
      apply (PR_sub (complex_ops O) CR HCI HCR p q i).
  - intros p q. pose proof (PR_mul (complex_ops O) CR HCI HCR p q) as H. apply ext; intros i.
    + rewrite (proj1 (H i)). unfold convolution. rewrite sum_re. cbn [complex_sig smul re im complex_of_polys].
      rewrite (PR_sub O R HI HR), !(PR_mul O R HI HR). unfold convolution. rewrite <- (sum_sub R HR).
      apply (sum_ext R HR). intros k _. rewrite !coeff_re, !coeff_im. reflexivity.
    + rewrite (proj2 (H i)). unfold convolution. rewrite sum_im. cbn [complex_sig smul re im complex_of_polys].
      rewrite (PR_add O R HI HR), !(PR_mul O R HI HR). unfold convolution. rewrite <- (sum_add R HR).
      apply (sum_ext R HR). intros k _. rewrite !coeff_re, !coeff_im. reflexivity.
  - intros p. apply ext; intros i; cbn [complex_sig sneg re im complex_of_polys]; rewrite (PR_neg O R HI HR), ?coeff_re, ?coeff_im;
      apply (PR_neg (complex_ops O) CR HCI HCR p i).
Qed.

(** ** SMatrix<Complex> and Complex<SMatrix> *)
Lemma entries_array_image {A B} (f : A -> B) n (v : array A n) : entries (array_image f v) = map f (entries v).
Proof. induction v; simpl; [reflexivity|]. f_equal. exact IHv. Qed.

Lemma mat_image {A B} (Q : ring_sig A) (Q' : ring_sig B) (f : A -> B) m n (a : smatrix A m n) i j :
  f (sz Q) = sz Q' -> mat_at Q' (array_image (array_image f) a) i j = f (mat_at Q a i j).
Proof.
  intros H0. unfold mat_at. rewrite entries_array_image, map_map.
  rewrite (map_ext _ (fun v => map f (entries v))) by (intros; apply entries_array_image).
  rewrite <- (map_map entries (map f)).
  change (@nil B) with (map f (@nil A)). rewrite map_nth, <- H0, map_nth. reflexivity.
Qed.

Lemma mat_complex_iso n : sig_iso (complex_of_mats (n:=n)) (mat_sig CR n) (complex_sig (mat_sig R n)).
Proof.
  assert (R0 : forall a i j, mat_at R (re (complex_of_mats (n:=n) a)) i j = re (mat_at CR a i j))
    by (intros; apply (mat_image CR R re); reflexivity).
  assert (I0 : forall a i j, mat_at R (im (complex_of_mats (n:=n) a)) i j = im (mat_at CR a i j))
    by (intros; apply (mat_image CR R im); reflexivity).
  assert (ext : forall a (z : complex (smatrix T n n)),
    (forall i j, i < n -> j < n -> re (mat_at CR a i j) [=] mat_at R (re z) i j) ->
    (forall i j, i < n -> j < n -> im (mat_at CR a i j) [=] mat_at R (im z) i j) ->
    same (complex_sig (mat_sig R n)) (complex_of_mats a) z).
  { intros a z H1 H2. split; intros i j Hi Hj; rewrite ?R0, ?I0; auto. }
  constructor.
  - intros a b. split.
    + intros H. split; intros i j Hi Hj; rewrite ?R0, ?I0; apply (H i j Hi Hj).
    + intros [H1 H2] i j Hi Hj. specialize (H1 i j Hi Hj). specialize (H2 i j Hi Hj).
      rewrite !R0 in H1. rewrite !I0 in H2. split; assumption.
  - intros [x y]. exists (mtab n n (fun i j => Cx (mat_at R x i j) (mat_at R y i j))).
    apply ext; intros i j Hi Hj; rewrite (mat_at_tab CR) by assumption; reflexivity.
  - apply ext; intros i j Hi Hj; cbn [mat_sig complex_sig sz re im]; rewrite (mat_at_tab CR), (mat_at_tab R) by assumption; reflexivity.
  - apply ext; intros i j Hi Hj; cbn [mat_sig complex_sig so sz re im]; rewrite (mat_at_tab CR), (mat_at_tab R) by assumption;
      unfold delta; destruct (i =? j); reflexivity.
  - intros a b. apply ext; intros i j Hi Hj; cbn [mat_sig complex_sig sadd re im]; rewrite (mat_at_tab CR), (mat_at_tab R) by assumption;
      rewrite ?R0, ?I0; reflexivity.
  - intros a b. apply ext; intros i j Hi Hj; cbn [mat_sig complex_sig ssub re im]; rewrite (mat_at_tab CR), (mat_at_tab R) by assumption;
      rewrite ?R0, ?I0; reflexivity.
  - intros a b. apply ext; intros i j Hi Hj.
    + cbn [mat_sig smul]. rewrite (mat_at_tab CR) by assumption. rewrite sum_re.
      cbn [complex_sig smul ssub mat_sig re]. rewrite !(mat_at_tab R) by assumption. rewrite <- (sum_sub R HR).
      apply (sum_ext R HR). intros k _. rewrite !R0, !I0. reflexivity.
    + cbn [mat_sig smul]. rewrite (mat_at_tab CR) by assumption. rewrite sum_im.
      cbn [complex_sig smul sadd mat_sig im]. rewrite !(mat_at_tab R) by assumption. rewrite <- (sum_add R HR).
      apply (sum_ext R HR). intros k _. rewrite !R0, !I0. reflexivity.
  - intros a. apply ext; intros i j Hi Hj; cbn [mat_sig complex_sig sneg re im]; rewrite (mat_at_tab CR), (mat_at_tab R) by assumption;
      rewrite ?R0, ?I0; reflexivity.
Qed.

(** ** Polynomial<SMatrix> and SMatrix<Polynomial> *)
Section PM.
Context (n : nat).
Notation MR := (mat_sig R n).
Let HMI := smatrix_implements O R HI n.
Let HMR := mat_laws R HR n.
Notation PM := (PR (smatrix_ops O n) MR).

Lemma mat_of_polys_at p i j k : i < n -> j < n ->
  coeff R (mat_at PS (mat_of_polys (n:=n) (sz R) p) i j) k = mat_at R (coeff MR p k) i j.
Proof.
  intros Hi Hj. unfold mat_of_polys. change (tab n (fun i => tab n (fun j => map (fun a => entry (sz R) a i j) p)))
    with (mtab n n (fun i j => map (fun a : smatrix T n n => entry (sz R) a i j) p)).
  rewrite (mat_at_tab PS) by assumption. unfold coeff.
  change (entry (sz R) (m:=n) (n:=n)) with (mat_at R (m:=n) (n:=n)).
  rewrite <- (map_nth (fun a => mat_at R a i j) p). f_equal. cbn [mat_sig sz]. rewrite (mat_at_tab R) by assumption. reflexivity.
Qed.

Lemma poly_mat_iso : sig_iso (mat_of_polys (n:=n) (sz R)) PM (mat_sig PS n).
Proof.
  assert (ext : forall p (a : smatrix (poly T) n n),
    (forall i j k, i < n -> j < n -> mat_at R (coeff MR p k) i j [=] coeff R (mat_at PS a i j) k) ->
    same (mat_sig PS n) (mat_of_polys (sz R) p) a).
  { intros p a H i j Hi Hj k. rewrite mat_of_polys_at by assumption. apply H; assumption. }
  constructor.
  - intros p q. split.
    + intros H i j Hi Hj k. rewrite !mat_of_polys_at by assumption. apply (H k i j Hi Hj).
    + intros H k i j Hi Hj. specialize (H i j Hi Hj k). rewrite !mat_of_polys_at in H by assumption. exact H.
  - intros a.
    assert (B : exists N, forall i j, i < n -> j < n -> length (mat_at PS a i j) <= N).
    { exists (fold_right max 0 (map (@length T) (concat (map entries (entries a))))).
      intros i j Hi Hj. unfold mat_at.
      assert (L : forall (l : list (poly T)) x, In x l -> length x <= fold_right max 0 (map (@length T) l)).
      { clear. induction l as [|b l IH]; intros x []; simpl; [subst; lia|]. specialize (IH x H). lia. }
      apply L. apply in_concat. exists (nth i (map entries (entries a)) []). split.
      - apply nth_In. rewrite map_length, entries_length. exact Hi.
      - apply nth_In. rewrite nth_indep with (d' := entries (tab n (fun _ => sz PS))) by (rewrite map_length, entries_length; exact Hi).
        rewrite map_nth, entries_length. exact Hj. }
    destruct B as (N & B).
    exists (map (fun k => mtab n n (fun i j => coeff R (mat_at PS a i j) k)) (seq 0 N)).
    apply ext. intros i j k Hi Hj. unfold coeff at 1. destruct (Nat.lt_ge_cases k N) as [H|H].
    + rewrite nth_map_seq by exact H. rewrite (mat_at_tab R) by assumption. reflexivity.
    + rewrite nth_overflow by (rewrite map_length, seq_length; exact H). cbn [mat_sig sz].
      rewrite (mat_at_tab R) by assumption. rewrite coeff_past; [reflexivity|]. specialize (B i j Hi Hj). lia.
  - apply ext. intros i j k Hi Hj. rewrite (PR_zero (smatrix_ops O n) MR HMR k i j Hi Hj). cbn [mat_sig sz].
    rewrite (mat_at_tab R), (mat_at_tab PS) by assumption. symmetry. apply (PR_zero O R HR).
  - apply ext. intros i j k Hi Hj. rewrite (PR_one (smatrix_ops O n) MR HMI HMR k i j Hi Hj). cbn [mat_sig sz so].
    rewrite (mat_at_tab PS) by assumption. unfold delta. 
    destruct (k =? 0) eqn:Ek; rewrite (mat_at_tab R) by assumption; destruct (i =? j).
    + rewrite (PR_one O R HI HR), Ek. reflexivity.
    + symmetry. apply (PR_zero O R HR).
    + rewrite (PR_one O R HI HR), Ek. reflexivity.
    + symmetry. apply (PR_zero O R HR).
  - intros p q. apply ext. intros i j k Hi Hj. rewrite (PR_add (smatrix_ops O n) MR HMI HMR p q k i j Hi Hj).
    cbn [mat_sig sadd]. rewrite (mat_at_tab R), (mat_at_tab PS) by assumption.
    rewrite (PR_add O R HI HR), !mat_of_polys_at by assumption. reflexivity.
  - intros p q. apply ext. intros i j k Hi Hj. rewrite (PR_sub (smatrix_ops O n) MR HMI HMR p q k i j Hi Hj).
    cbn [mat_sig ssub]. rewrite (mat_at_tab R), (mat_at_tab PS) by assumption.
    rewrite (PR_sub O R HI HR), !mat_of_polys_at by assumption. reflexivity.
  - intros p q. apply ext. intros i j k Hi Hj. rewrite (PR_mul (smatrix_ops O n) MR HMI HMR p q k i j Hi Hj).
    unfold convolution. rewrite sum_mat by assumption.
    cbn [mat_sig smul]. rewrite (mat_at_tab PS) by assumption. rewrite sum_coeff.
    rewrite (sum_ext R HR n _ (fun m => sum_n R (S k) (fun l => mat_at R (coeff MR p l) i m [*] mat_at R (coeff MR q (k - l)) m j))).
    2:{ intros m Hm. rewrite (PR_mul O R HI HR). unfold convolution. apply (sum_ext R HR). intros l _.
        rewrite !mat_of_polys_at by assumption. reflexivity. }
    rewrite (sum_swap R HR). apply (sum_ext R HR). intros l _. rewrite (mat_at_tab R) by assumption. reflexivity.
  - intros p. apply ext. intros i j k Hi Hj. rewrite (PR_neg (smatrix_ops O n) MR HMI HMR p k i j Hi Hj).
    cbn [mat_sig sneg]. rewrite (mat_at_tab R), (mat_at_tab PS) by assumption.
    rewrite (PR_neg O R HI HR), !mat_of_polys_at by assumption. reflexivity.
Qed.
End PM.

(** ** Polynomial<Polynomial>: exchanging the variables *)
Notation PP := (PR (poly_ops O) PS).

Lemma swap_at p i j : coeff R (coeff PS (swap_variables (sz R) p) j) i = coeff R (coeff PS p i) j.
Proof.
  unfold swap_variables. set (N := fold_right max 0 (map (@length T) p)).
  assert (L : forall x, In x p -> length x <= N).
  { unfold N. clear. induction p as [|b l IH]; intros x []; simpl; [subst; lia|]. specialize (IH x H). lia. }
  unfold coeff at 2. destruct (Nat.lt_ge_cases j N) as [H|H].
  - rewrite nth_map_seq by exact H. unfold coeff.
    rewrite <- (map_nth (fun q => nth j q (sz R)) p). f_equal. destruct j; reflexivity.
  - rewrite nth_overflow by (rewrite map_length, seq_length; exact H).
    rewrite (coeff_past R (coeff PS p i)).
    + unfold coeff. destruct i; reflexivity.
    + unfold coeff. destruct (Nat.lt_ge_cases i (length p)) as [Hi|Hi].
      * specialize (L _ (nth_In p (sz PS) Hi)). lia.
      * rewrite nth_overflow by exact Hi. simpl. lia.
Qed.

Lemma poly_poly_iso : sig_iso (swap_variables (sz R)) PP PP.
Proof.
  assert (ext : forall p q : poly (poly T),
    (forall i j, coeff R (coeff PS p i) j [=] coeff R (coeff PS q j) i) ->
    same PP (swap_variables (sz R) p) q).
  { intros p q H j i. rewrite swap_at. apply H. }
  constructor.
  - intros p q. split.
    + intros H j i. rewrite !swap_at. apply (H i j).
    + intros H i j. specialize (H j i). rewrite !swap_at in H. exact H.
  - intros q. exists (swap_variables (sz R) q). apply ext. intros i j. rewrite swap_at. reflexivity.
  - apply ext. intros i j. rewrite (PR_zero (poly_ops O) PS HPR i j), (PR_zero (poly_ops O) PS HPR j i), !(PR_zero O R HR). reflexivity.
  - apply ext. intros i j. rewrite (PR_one (poly_ops O) PS HPI HPR i j), (PR_one (poly_ops O) PS HPI HPR j i).
    destruct (i =? 0) eqn:Ei, (j =? 0) eqn:Ej; rewrite ?(PR_one O R HI HR), ?(PR_zero O R HR), ?Ei, ?Ej; reflexivity.
  - intros p q. apply ext. intros i j. rewrite (PR_add (poly_ops O) PS HPI HPR p q i j), (PR_add (poly_ops O) PS HPI HPR _ _ j i),
      !(PR_add O R HI HR), !swap_at. reflexivity.
  - intros p q. apply ext. intros i j. rewrite (PR_sub (poly_ops O) PS HPI HPR p q i j), (PR_sub (poly_ops O) PS HPI HPR _ _ j i),
      !(PR_sub O R HI HR), !swap_at. reflexivity.
  - intros p q. apply ext. intros i j. rewrite (PR_mul (poly_ops O) PS HPI HPR p q i j), (PR_mul (poly_ops O) PS HPI HPR _ _ j i).
    unfold convolution. rewrite !sum_coeff.
    rewrite (sum_ext R HR (S i) _ (fun a => sum_n R (S j) (fun b =>
       coeff R (coeff PS p a) b [*] coeff R (coeff PS q (i - a)) (j - b)))).
    2:{ intros a _. rewrite (PR_mul O R HI HR). reflexivity. }
    rewrite (sum_swap R HR). apply (sum_ext R HR). intros b _. rewrite (PR_mul O R HI HR). unfold convolution.
    apply (sum_ext R HR). intros a _. rewrite !swap_at. reflexivity.
  - intros p. apply ext. intros i j. rewrite (PR_neg (poly_ops O) PS HPI HPR p i j), (PR_neg (poly_ops O) PS HPI HPR _ j i),
      !(PR_neg O R HI HR), !swap_at. reflexivity.
Qed.

(** ** Blocks *)
Lemma sum_blocks m k f : sum_n R (m * k) f [=] sum_n R m (fun I => sum_n R k (fun r => f (I * k + r))).
Proof.
  induction m as [|m IH]; cbn [sum_n]; [reflexivity|].
  replace (S m * k) with (m * k + k) by (simpl; lia). rewrite (sum_split R HR), IH. reflexivity.
Qed.

Section Blocks.
Context (m k : nat).
Notation KR := (mat_sig R k).
Notation BR := (mat_sig KR m).

Lemma block_index i : i < m * k -> i / k < m /\ i mod k < k /\ i = i / k * k + i mod k.
Proof.
  intros H. assert (k <> 0) by (intros ->; lia). split; [apply Nat.div_lt_upper_bound; lia|].
  split; [apply Nat.mod_upper_bound; assumption|]. rewrite Nat.mul_comm. apply Nat.div_mod. assumption.
Qed.
Lemma index_block I r : I < m -> r < k -> I * k + r < m * k /\ (I * k + r) / k = I /\ (I * k + r) mod k = r.
Proof.
  intros HI' Hr. split; [nia|]. split.
  - rewrite Nat.add_comm, Nat.div_add by lia. rewrite Nat.div_small by exact Hr. reflexivity.
  - rewrite Nat.add_comm, Nat.mod_add by lia. apply Nat.mod_small, Hr.
Qed.

Lemma of_blocks_at a i j : i < m * k -> j < m * k ->
  mat_at R (of_blocks (sz R) (m:=m) (k:=k) a) i j = mat_at R (mat_at KR a (i / k) (j / k)) (i mod k) (j mod k).
Proof. intros Hi Hj. exact (mat_at_tab R (m * k) (m * k) _ i j Hi Hj). Qed.

Lemma blocks_iso : sig_iso (of_blocks (sz R) (m:=m) (k:=k)) BR (mat_sig R (m * k)).
Proof.
  assert (ext : forall a (b : smatrix T (m * k) (m * k)),
    (forall I J r s, I < m -> J < m -> r < k -> s < k ->
       mat_at R (mat_at KR a I J) r s [=] mat_at R b (I * k + r) (J * k + s)) ->
    same (mat_sig R (m * k)) (of_blocks (sz R) a) b).
  { intros a b H i j Hi Hj. rewrite of_blocks_at by assumption.
    destruct (block_index i Hi) as (A1 & A2 & A3), (block_index j Hj) as (B1 & B2 & B3).
    rewrite A3 at 3. rewrite B3 at 3. apply H; assumption. }
  assert (at' : forall a I J r s, I < m -> J < m -> r < k -> s < k ->
    mat_at R (of_blocks (sz R) (m:=m) (k:=k) a) (I * k + r) (J * k + s) = mat_at R (mat_at KR a I J) r s).
  { intros a I J r s H1 H2 H3 H4. destruct (index_block I r H1 H3) as (A1 & A2 & A3), (index_block J s H2 H4) as (B1 & B2 & B3).
    rewrite of_blocks_at, A2, A3, B2, B3 by assumption. reflexivity. }
  constructor.
  - intros a b. split.
    + intros H. apply ext. intros I J r s H1 H2 H3 H4. rewrite at' by assumption. apply (H I J H1 H2 r s H3 H4).
    + intros H I J H1 H2 r s H3 H4. rewrite <- !at' by assumption.
      apply H; apply index_block; assumption.
  - intros b. exists (mtab m m (fun I J => mtab k k (fun r s => mat_at R b (I * k + r) (J * k + s)))).
    apply ext. intros I J r s H1 H2 H3 H4. rewrite (mat_at_tab KR), (mat_at_tab R) by assumption. reflexivity.
  - apply ext. intros I J r s H1 H2 H3 H4. cbn [mat_sig sz]. rewrite (mat_at_tab KR) by assumption. cbn [mat_sig sz].
    rewrite !(mat_at_tab R) by (assumption || apply index_block; assumption). reflexivity.
  - apply ext. intros I J r s H1 H2 H3 H4. cbn [mat_sig so]. rewrite (mat_at_tab KR) by assumption.
    rewrite (mat_at_tab R (m * k)) by (apply index_block; assumption).
    destruct (index_block I r H1 H3) as (A1 & A2 & A3), (index_block J s H2 H4) as (B1 & B2 & B3).
    unfold delta. destruct (Nat.eqb_spec I J) as [->|N].
    + cbn [mat_sig so]. rewrite (mat_at_tab R) by assumption. unfold delta.
      destruct (Nat.eqb_spec r s) as [->|N]; [rewrite Nat.eqb_refl; reflexivity|].
      destruct (Nat.eqb_spec (J * k + r) (J * k + s)); [lia|reflexivity].
    + cbn [mat_sig sz]. rewrite (mat_at_tab R) by assumption.
      destruct (Nat.eqb_spec (I * k + r) (J * k + s)) as [E|]; [|reflexivity].
      exfalso. apply N. rewrite <- A2, <- B2, E. reflexivity.
  - intros a b. apply ext. intros I J r s H1 H2 H3 H4. cbn [mat_sig sadd]. rewrite (mat_at_tab KR) by assumption. cbn [mat_sig sadd].
    rewrite !(mat_at_tab R) by (assumption || apply index_block; assumption). rewrite !at' by assumption. reflexivity.
  - intros a b. apply ext. intros I J r s H1 H2 H3 H4. cbn [mat_sig ssub]. rewrite (mat_at_tab KR) by assumption. cbn [mat_sig ssub].
    rewrite !(mat_at_tab R) by (assumption || apply index_block; assumption). rewrite !at' by assumption. reflexivity.
  - intros a b. apply ext. intros I J r s H1 H2 H3 H4. cbn [mat_sig smul]. rewrite (mat_at_tab KR) by assumption.
    rewrite (mat_at_tab R (m * k)) by (apply index_block; assumption).
    change (mat_sig R k) with KR. rewrite sum_mat by assumption. rewrite sum_blocks.
    apply (sum_ext R HR). intros K HK. cbn [mat_sig smul]. rewrite (mat_at_tab R) by assumption.
    apply (sum_ext R HR). intros t Ht. rewrite !at' by assumption. reflexivity.
  - intros a. apply ext. intros I J r s H1 H2 H3 H4. cbn [mat_sig sneg]. rewrite (mat_at_tab KR) by assumption. cbn [mat_sig sneg].
    rewrite !(mat_at_tab R) by (assumption || apply index_block; assumption). rewrite !at' by assumption. reflexivity.
Qed.
End Blocks.
End Iso.
