(** Property C97: backward stability of computations with Complex<f32>/Complex<f64>.  A finite
    computed value is the exact value of the same expression with slightly changed data.

    Exact complex numbers are pairs of reals (Spec/ComplexErr.v), [cnorm] is the absolute value,
    [u] = 2^-prec the unit roundoff, [mul_roundoff] (about 2.31 u) and [mul_underflow] (about
    2.83 times half the smallest positive number) bound the error of one complex product. *)
From Coq Require Import List ZArith NArith Reals Bool Lia Lra.
From Flocq Require Import Core.Core IEEE754.BinarySingleNaN.
From Verif Require Import Base.Outcome Base.Usize Base.Array Model.Traits Model.Float Model.Polynomial Model.Complex
  Model.SVector Model.SMatrix Model.DVector Model.DMatrix
  Spec.Ring Spec.Sums Spec.Complex Spec.Matrix Spec.DExpr Spec.DMatrix Spec.FloatErr Spec.ComplexErr
  Proofs.FloatErr Proofs.ComplexErr Proofs.Backward Proofs.ComplexBackward
  Proofs.SMatrixProofs Proofs.DVectorProofs Proofs.DMatrixProofs Proofs.DExprProofs Proofs.ComplexProofs
  Props.FloatProps Props.ComplexErrProps.
Import ListNotations.
Local Open Scope R_scope.

Section Fmt.
Context (prec emax : Z) {Hp : Prec_gt_0 prec} {He : Prec_lt_emax prec emax}.
Notation fl := (binary_float prec emax).
Notation FO := (float_ring prec emax).
Notation CO := (complex_ops FO).
Notation FS := (float_sig prec emax).
Notation CS := (complex_sig FS).
Notation u := (unit_roundoff prec).
Notation k := (mul_roundoff prec).
Notation t := (mul_underflow prec emax).

(** [b] is [a] up to a relative change of at most [G] - 1 and an absolute one of at most [s]. *)
Definition cperturbed (G s : R) (a b : cplx) : Prop :=
  exists d h, b = cadd (cmul a (cadd c1 d)) h /\ cnorm d <= G - 1 /\ cnorm h <= s.

(** ** Horner's rule: the value is an exact value, at the same argument, of a polynomial whose
    coefficient number [j] was changed relatively by at most g^j (1 + u) - 1, where g = (1 + k)(1 + u)
    (the leading one, number [n], by at most g^n - 1), and, because of underflow, absolutely by at
    most g^j (1 + u) t (the leading one not at all). *)
Notation g := ((1 + k) * (1 + u)).
Theorem C97_horner_backward :
  forall (p : poly (complex fl)) (x r : complex fl), poly_eval CO p x = Ok r -> cfinite r ->
  let n := (length p - 1)%nat in
  exists c : nat -> cplx,
    cval r = csum (length p) (fun j => cmul (c j) (cpow (cval x) j))
    /\ (forall j, (j < n)%nat -> cperturbed (g ^ j * (1 + u)) (g ^ j * (1 + u) * t) (centry p j) (c j))
    /\ cperturbed (g ^ n) 0 (centry p n) (c n).
Proof.
  intros p x r E F n. rewrite cpoly_eval_horner in E. injection E as <-.
  destruct (chorner_backward prec emax p x F) as (d & h & E & D & B & Z). fold n in D, B, Z.
  exists (fun j => cadd (cmul (centry p j) (cadd c1 (d j))) (h j)). split; [exact E|]. split.
  - intros j Hj. exists (d j), (h j). split; [reflexivity|]. split; [|apply B, Hj].
    specialize (D j (Nat.lt_le_incl _ _ Hj)). unfold hfac in D. rewrite (proj2 (Nat.ltb_lt j n) Hj) in D. exact D.
  - exists (d n), (h n). split; [reflexivity|]. split.
    + specialize (D n (Nat.le_refl _)). unfold hfac in D. rewrite Nat.ltb_irrefl in D. exact D.
    + rewrite Z by lia. rewrite cnorm_c0. lra.
Qed.

(** In particular: where [eval] returns zero there is an exact root of a nearby polynomial. *)
Corollary C97_computed_root :
  forall (p : poly (complex fl)) (x r : complex fl), poly_eval CO p x = Ok r -> cfinite r -> cval r = c0 ->
  exists c : nat -> cplx,
    csum (length p) (fun j => cmul (c j) (cpow (cval x) j)) = c0
    /\ forall j, (j < length p)%nat -> cperturbed (g ^ j * (1 + u)) (g ^ j * (1 + u) * t) (centry p j) (c j).
Proof.
  intros p x r E F E0. destruct (C97_horner_backward p x r E F) as (c & Ec & D & L).
  exists c. split; [rewrite <- Ec; exact E0|]. intros j Hj.
  destruct (Nat.eq_dec j (length p - 1)) as [->|Hn]; [|apply D; lia].
  destruct L as (d & h & E1 & E2 & E3). exists d, h. split; [exact E1|].
  pose proof (u_pos prec) as UP. pose proof (t_nonneg prec emax) as TP.
  set (n := (length p - 1)%nat) in *.
  pose proof (pow_ge_1 g n (g_ge_1 prec)) as GP.
  assert (g ^ n * 1 <= g ^ n * (1 + u)) by (apply Rmult_le_compat_l; lra).
  split; [lra|]. eapply Rle_trans; [exact E3|]. apply Rmult_le_pos; lra.
Qed.

(** ** Sums of products: exact for a changed first factor, up to underflow. *)
Definition cfactor (n : nat) : R := (1 + k) * (1 + u) ^ (n - 1).
Definition ctiny (n : nat) : R := INR n * (1 + u) ^ (n - 1) * t.

Definition cbackward_dot (n : nat) (a b : nat -> cplx) (r : cplx) : Prop :=
  exists (a' : nat -> cplx) (m : cplx),
    r = cadd (csum n (fun i => cmul (a' i) (b i))) m
    /\ (forall i, (i < n)%nat -> cperturbed (cfactor n) 0 (a i) (a' i))
    /\ cnorm m <= ctiny n.

Lemma to_cbackward n (a b : nat -> complex fl) f h r :
  (forall i, (i < n)%nat -> cval (a i) = f i) -> (forall i, (i < n)%nat -> cval (b i) = h i) ->
  cbackward prec emax a b n r -> cbackward_dot n f h r.
Proof.
  intros Ha Hb (d & m & E & D & M). exists (fun i => cmul (f i) (cadd c1 (d i))), m. split; [|split; [|exact M]].
  - rewrite E. f_equal. apply csum_ext. intros i Hi. rewrite Ha, Hb by exact Hi. reflexivity.
  - intros i Hi. exists (d i), c0. split; [ring|]. split; [apply D, Hi|]. rewrite cnorm_c0. lra.
Qed.

Theorem C97_svector_dot_backward :
  forall (n : nat) (a b : svector (complex fl) n) (r : complex fl), svector_dot CO a b = Ok r -> cfinite r ->
  cbackward_dot n (centry (entries a)) (centry (entries b)) (cval r).
Proof.
  intros n a b r E F. unfold svector_dot in E. rewrite (svector_dot_total CO _ (float_complex_implements prec emax)) in E.
  injection E as <-.
  apply (to_cbackward n (fun i => vec_at CS a i) (fun i => vec_at CS b i));
    [intros; apply centry_nth, cval_zero..|]. apply cdot_backward, F.
Qed.

(** [dot] of DVector conjugates the first factor. *)
Theorem C97_dvector_dot_backward :
  forall (a b : dvector (complex fl)) (r : complex fl), length a = length b ->
  dvector_dot (r_zero CO) (r_add CO) (r_mul CO) (complex_conj (r_neg FO)) a b = Ok r -> cfinite r ->
  cbackward_dot (length a) (fun i => cconj (centry a i)) (centry b) (cval r).
Proof.
  intros a b r L E F. unfold dvector_dot in E.
  pose proof (dvector_dot_value CS (r_add CO) (r_mul CO) (complex_conj (r_neg FO)) (fun x => Cx (re x) (Bopp (im x)))
    (fun _ _ => eq_refl) (fun _ _ => eq_refl) (fun _ => eq_refl) a b L) as D.
  set (A := fun i => (fun x : complex fl => Cx (re x) (Bopp (im x))) (nth i a (sz CS))).
  set (B := fun i => nth i b (sz CS)).
  assert (Er : r = cdot prec emax A B (length a)).
  { assert (X : Ok r = Ok (cdot prec emax A B (length a))) by (rewrite <- E; exact D). injection X as ->. reflexivity. }
  subst r. apply (to_cbackward (length a) A B); [| |apply cdot_backward, F]; intros i _; unfold A, B.
  - rewrite <- (centry_nth prec emax a (sz CS)) by apply cval_zero.
    unfold cval, cconj. cbn [re im fst snd]. rewrite B2R_Bopp. reflexivity.
  - apply centry_nth, cval_zero.
Qed.

(** ** Matrix times vector: one changed matrix explains the whole result. *)
Theorem C97_smatrix_vector_backward :
  forall (M N : nat) (a : smatrix (complex fl) M N) (v : svector (complex fl) N) (r : svector (complex fl) M),
  smatrix_mul_vec CO a v = Ok r -> Forall cfinite (entries r) ->
  exists (a' : nat -> nat -> cplx) (m : nat -> cplx),
    (forall i, (i < M)%nat -> centry (entries r) i = cadd (csum N (fun j => cmul (a' i j) (centry (entries v) j))) (m i))
    /\ (forall i j, (i < M)%nat -> (j < N)%nat -> cperturbed (cfactor N) 0 (csmat a i j) (a' i j))
    /\ (forall i, (i < M)%nat -> cnorm (m i) <= ctiny N).
Proof.
  intros M N a v r E F. rewrite (smatrix_mul_vec_total CO _ (float_complex_implements prec emax)) in E. injection E as <-.
  set (f := fun i => sum_n CS N (fun j => smul CS (mat_at CS a i j) (vec_at CS v j))) in *.
  assert (H : forall i, (i < M)%nat ->
             exists q : (nat -> cplx) * cplx,
               (centry (entries (tab M f)) i = cadd (csum N (fun j => cmul (fst q j) (centry (entries v) j))) (snd q))
               /\ (forall j, (j < N)%nat -> cperturbed (cfactor N) 0 (csmat a i j) (fst q j)) /\ cnorm (snd q) <= ctiny N).
  { intros i Hi. pose proof (@vec_at_tab _ CS M f i Hi) as Ev.
    assert (Fi : cfinite (f i)).
    { rewrite <- Ev. unfold vec_at. rewrite Forall_forall in F. apply F, nth_In. rewrite entries_length. exact Hi. }
    destruct (to_cbackward N (fun j => mat_at CS a i j) (fun j => vec_at CS v j) (csmat a i) (centry (entries v)) (cval (f i)))
      as (a' & m & E & D & B); [intros; apply centry_nth, cval_zero..|apply cdot_backward, Fi|].
    exists (a', m). cbn [fst snd]. split; [|split; [exact D|exact B]].
    rewrite <- E, <- Ev. unfold vec_at. symmetry. apply centry_nth, cval_zero. }
  destruct (finite_choice (fun _ : nat => c0, c0) M _ H) as [q Hq].
  exists (fun i => fst (q i)), (fun i => snd (q i)). split; [|split].
  - intros i Hi. apply (Hq i Hi).
  - intros i j Hi Hj. apply (Hq i Hi), Hj.
  - intros i Hi. apply (Hq i Hi).
Qed.

(** ** Matrix products: for every column [c] of the result one changed left factor. *)
Theorem C97_smatrix_product_backward :
  forall (L M N : nat) (a : smatrix (complex fl) L M) (b : smatrix (complex fl) M N) (r : smatrix (complex fl) L N),
  smatrix_mul CO a b = Ok r -> forall c, (c < N)%nat ->
  (forall i x, (i < L)%nat -> nth_error (nth i (map entries (entries r)) []) c = Some x -> cfinite x) ->
  exists (a' : nat -> nat -> cplx) (m : nat -> cplx),
    (forall i, (i < L)%nat -> csmat r i c = cadd (csum M (fun j => cmul (a' i j) (csmat b j c))) (m i))
    /\ (forall i j, (i < L)%nat -> (j < M)%nat -> cperturbed (cfactor M) 0 (csmat a i j) (a' i j))
    /\ (forall i, (i < L)%nat -> cnorm (m i) <= ctiny M).
Proof.
  intros L M N a b r E c Hc F. unfold smatrix_mul in E. rewrite (smatrix_mul_total CO _ (float_complex_implements prec emax)) in E.
  injection E as <-.
  set (f := fun l n => sum_n CS M (fun m => smul CS (mat_at CS a l m) (mat_at CS b m n))) in *.
  match type of F with context [entries ?s] => set (r := s) in * end.
  assert (H : forall i, (i < L)%nat ->
             exists q : (nat -> cplx) * cplx,
               (csmat r i c = cadd (csum M (fun j => cmul (fst q j) (csmat b j c))) (snd q))
               /\ (forall j, (j < M)%nat -> cperturbed (cfactor M) 0 (csmat a i j) (fst q j)) /\ cnorm (snd q) <= ctiny M).
  { intros i Hi. pose proof (mat_at_tab CS L N f i c Hi Hc) as Ev. change (mat_at CS r i c = f i c) in Ev.
    assert (Fi : cfinite (f i c)).
    { rewrite <- Ev. apply (F i _ Hi). unfold mat_at. apply nth_error_nth'.
      rewrite (nth_indep _ [] (entries (tab N (fun _ => sz CS)))) by (rewrite map_length, entries_length; exact Hi).
      rewrite map_nth, entries_length. exact Hc. }
    destruct (to_cbackward M (fun j => mat_at CS a i j) (fun j => mat_at CS b j c) (csmat a i) (fun j => csmat b j c) (cval (f i c)))
      as (a' & m & E & D & B); [intros; apply centry_nth, cval_zero..|apply cdot_backward, Fi|].
    exists (a', m). cbn [fst snd]. split; [|split; [exact D|exact B]].
    rewrite <- E, <- Ev. unfold mat_at, csmat. symmetry. apply centry_nth, cval_zero. }
  destruct (finite_choice (fun _ : nat => c0, c0) L _ H) as [q Hq].
  exists (fun i => fst (q i)), (fun i => snd (q i)). split; [|split].
  - intros i Hi. apply (Hq i Hi).
  - intros i j Hi Hj. apply (Hq i Hi), Hj.
  - intros i Hi. apply (Hq i Hi).
Qed.

Theorem C97_dmatrix_product_backward :
  forall (md : target) (a b r : dmatrix (complex fl)), dm_wf md a -> dm_wf md b -> dm_cols a = dm_rows b -> (1 <= dm_cols a)%N ->
  (e <- dmatrix_mul md (r_mul CO) (r_add CO) a b ;; m_eval e) = Ok r ->
  let K := N.to_nat (dm_cols a) in
  forall c, (c < dm_cols b)%N ->
  (forall i x, (i < dm_rows a)%N -> nth_error (dm_data r) (N.to_nat (i * dm_cols b + c)) = Some x -> cfinite x) ->
  exists (a' : nat -> nat -> cplx) (m : nat -> cplx),
    (forall i, (i < N.to_nat (dm_rows a))%nat ->
       cdmat r (N.of_nat i) c = cadd (csum K (fun j => cmul (a' i j) (cdmat b (N.of_nat j) c))) (m i))
    /\ (forall i j, (i < N.to_nat (dm_rows a))%nat -> (j < K)%nat -> cperturbed (cfactor K) 0 (cdmat a (N.of_nat i) (N.of_nat j)) (a' i j))
    /\ (forall i, (i < N.to_nat (dm_rows a))%nat -> cnorm (m i) <= ctiny K).
Proof.
  intros md a b r Wa Wb E H1 Er K c Hc F.
  rewrite (dm_mul_total CS (r_add CO) (r_mul CO) (fun _ _ => eq_refl) (fun _ _ => eq_refl) md a b Wa Wb E H1) in Er.
  match type of Er with Ok ?x = Ok _ => assert (E0 : x = r) by (injection Er; auto); subst r; clear Er end.
  match type of F with forall i x, _ -> nth_error (dm_data (dm_tab _ _ ?s)) _ = _ -> _ => set (f := s) in * end.
  set (r := dm_tab (dm_rows a) (dm_cols b) f) in *.
  assert (H : forall i, (i < N.to_nat (dm_rows a))%nat ->
             exists q : (nat -> cplx) * cplx,
               (cdmat r (N.of_nat i) c = cadd (csum K (fun j => cmul (fst q j) (cdmat b (N.of_nat j) c))) (snd q))
               /\ (forall j, (j < K)%nat -> cperturbed (cfactor K) 0 (cdmat a (N.of_nat i) (N.of_nat j)) (fst q j)) /\ cnorm (snd q) <= ctiny K).
  { intros i Hi. assert (Hi' : (N.of_nat i < dm_rows a)%N) by lia.
    pose proof (dm_at_tab CS (dm_rows a) (dm_cols b) f (N.of_nat i) c Hi' Hc) as D. fold r in D.
    assert (Er : cdmat r (N.of_nat i) c = cval (f (N.of_nat i) c)).
    { rewrite <- D. unfold dm_at, cdmat. symmetry. apply centry_nth, cval_zero. }
    assert (Fi : cfinite (f (N.of_nat i) c)).
    { rewrite <- D. apply (F (N.of_nat i) _ Hi'). unfold dm_at. apply nth_error_nth'.
      change (dm_cols r) with (dm_cols b). unfold r, dm_tab. cbn [dm_data].
      rewrite map_length, index_pairs_length. nia. }
    rewrite Er. unfold f in Fi |- *.
    rewrite (csum1_cdot1 prec emax (fun m => dm_at CS a (N.of_nat i) (N.of_nat m)) (fun m => dm_at CS b (N.of_nat m) c)) in *.
    assert (Ek : K = S (Nat.pred (N.to_nat (dm_cols a)))) by (unfold K; lia).
    set (n := Nat.pred (N.to_nat (dm_cols a))) in *.
    destruct (to_cbackward K (fun m => dm_at CS a (N.of_nat i) (N.of_nat m)) (fun m => dm_at CS b (N.of_nat m) c)
               (fun m => cdmat a (N.of_nat i) (N.of_nat m)) (fun m => cdmat b (N.of_nat m) c)
               (cval (cdot1 prec emax (fun m => dm_at CS a (N.of_nat i) (N.of_nat m)) (fun m => dm_at CS b (N.of_nat m) c) n)))
      as (a' & m & E' & D' & B'); [intros; apply centry_nth, cval_zero..|rewrite Ek; apply cdot1_backward, Fi|].
    exists (a', m). cbn [fst snd]. split; [exact E'|split; [exact D'|exact B']]. }
  destruct (finite_choice (fun _ : nat => c0, c0) _ _ H) as [q Hq].
  exists (fun i => fst (q i)), (fun i => snd (q i)). split; [|split].
  - intros i Hi. apply (Hq i Hi).
  - intros i j Hi Hj. apply (Hq i Hi), Hj.
  - intros i Hi. apply (Hq i Hi).
Qed.

End Fmt.

(** ** Cases in binary64 *)
Definition C97_z : complex f64 := Cx third (f64_of_Z 1).
Example C97_case_horner :
  on_ok (poly_eval (complex_ops f64_ring) [Cx third (f64_of_Z 2); Cx (f64_of_Z 5) third; Cx third third] C97_z) fin2 = true.
Proof. vm_compute. reflexivity. Qed.
(** x - z at x = z, and x^2 - fl(z^2) at z. *)
Definition zero2 (z : complex f64) : bool := is_finite (re z) && is_finite (im z) && Beqb (re z) (f64_of_Z 0) && Beqb (im z) (f64_of_Z 0).
Example C97_case_root :
  on_ok (z2 <- complex_mul f64_ring C97_z C97_z ;; nz2 <- complex_neg (r_neg f64_ring) z2 ;;
         poly_eval (complex_ops f64_ring) [nz2; Cx (f64_of_Z 0) (f64_of_Z 0); Cx (f64_of_Z 1) (f64_of_Z 0)] C97_z) zero2 = true.
Proof. vm_compute. reflexivity. Qed.
Example C97_case_dot :
  on_ok (svector_dot (complex_ops f64_ring) (acons (Cx third (f64_of_Z 2)) (acons (Cx (f64_of_Z 5) third) anil))
           (acons (Cx third third) (acons (Cx (f64_of_Z 7) third) anil))) fin2
  && on_ok (dvector_dot (r_zero (complex_ops f64_ring)) (r_add (complex_ops f64_ring)) (r_mul (complex_ops f64_ring))
              (complex_conj (r_neg f64_ring)) [Cx third third; Cx (f64_of_Z 5) third] [Cx third (f64_of_Z 2); Cx third third]) fin2 = true.
Proof. vm_compute. reflexivity. Qed.
Example C97_case_matrix :
  let M2 := acons (acons (Cx third third) (acons (Cx (f64_of_Z 3) third) anil)) (acons (acons C97_z (acons C97_z anil)) anil) in
  on_ok (smatrix_mul_vec (complex_ops f64_ring) M2 (acons (Cx third third) (acons (Cx (f64_of_Z 7) third) anil)))
        (fun r => forallb fin2 (entries r))
  && on_ok (smatrix_mul (complex_ops f64_ring) M2 M2) (fun r => forallb (fun row => forallb fin2 (entries row)) (entries r))
  && on_ok (e <- dmatrix_mul Release (r_mul (complex_ops f64_ring)) (r_add (complex_ops f64_ring))
                (MkDM [Cx third third; Cx (f64_of_Z 3) third] 1 2) (MkDM [Cx third third; Cx (f64_of_Z 7) third] 2 1) ;; m_eval e)
        (fun r => forallb fin2 (dm_data r)) = true.
Proof. vm_compute. reflexivity. Qed.

Print Assumptions C97_horner_backward.
Print Assumptions C97_computed_root.
Print Assumptions C97_svector_dot_backward.
Print Assumptions C97_dvector_dot_backward.
Print Assumptions C97_smatrix_vector_backward.
Print Assumptions C97_smatrix_product_backward.
Print Assumptions C97_dmatrix_product_backward.
