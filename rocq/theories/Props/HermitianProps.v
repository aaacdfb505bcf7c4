(** Property C99: inner products of complex float vectors are conjugate symmetric, and Gram
    matrices are exactly Hermitian, rounding included.

    [x ~ y]: the same float (all NaNs identified), except that a zero may have the other sign;
    [z ~~ w]: both parts of a complex number. *)
From Coq Require Import List ZArith NArith Reals Bool Lia Lra.
From Flocq Require Import Core.Core IEEE754.BinarySingleNaN.
From Verif Require Import Base.Outcome Base.Usize Base.Array Model.Traits Model.Float Model.Complex
  Model.DVector Model.DMatrix
  Spec.Ring Spec.Sums Spec.Complex Spec.Matrix Spec.DExpr Spec.DMatrix Spec.FloatErr
  Proofs.FloatErr Proofs.FloatInt Proofs.FloatComm Proofs.FloatSpecial
  Proofs.DVectorProofs Proofs.DMatrixProofs Proofs.DExprProofs
  Props.FloatProps.
Import ListNotations.

Section Fmt.
Context (prec emax : Z) {Hp : Prec_gt_0 prec} {He : Prec_lt_emax prec emax}.
Notation fl := (binary_float prec emax).
Notation FO := (float_ring prec emax).
Notation CO := (complex_ops FO).
Notation sig := (float_sig prec emax).
Notation CS := (complex_sig sig).
Notation zero := (fl_int prec emax 0).
Notation add := (fl_add prec emax).
Notation sub := (fl_sub prec emax).
Notation mul := (fl_mul prec emax).
Notation minus := (@Bopp prec emax).
Notation "x ~ y" := (same_up_to_zero x y) (at level 70).
Notation "z ~~ w" := (complex_same_up_to_zero prec emax z w) (at level 70).
(** [z.conj()] and the conjugation [dot], [h] use. *)
Notation conj := (complex_conj (r_neg FO)).
Definition cconj (z : complex fl) : complex fl := Cx (re z) (minus (im z)).

(** [x] stands in row [i], column [j]. *)
Definition dcell {T} (g : dmatrix T) (i j : N) (x : T) : Prop :=
  nth_error (dm_data g) (N.to_nat (i * dm_cols g + j)) = Some x.

(** ** Lemmas *)
Lemma add_same (x x' y y' : fl) : x ~ x' -> y ~ y' -> add x y ~ add x' y'.
Proof. intros H1 H2. eapply (same_trans prec emax); [apply add_same_l, H1|apply add_same_r, H2]. Qed.
Lemma add_minus (x x' y y' : fl) : x' ~ minus x -> y' ~ minus y -> add x' y' ~ minus (add x y).
Proof. intros H1 H2. eapply (same_trans prec emax); [apply add_same; eassumption|apply fl_add_opp]. Qed.
Lemma csame_trans (x y z : complex fl) : x ~~ y -> y ~~ z -> x ~~ z.
Proof. intros [H1 H2] [H3 H4]. split; eapply (same_trans prec emax); eassumption. Qed.
Lemma csame_sym (x y : complex fl) : x ~~ y -> y ~~ x.
Proof. intros [H1 H2]. split; apply (same_sym prec emax); assumption. Qed.

Lemma sum_conj (f f' : nat -> complex fl) n : (forall i, i < n -> f' i ~~ cconj (f i)) ->
  sum_n CS n f' ~~ cconj (sum_n CS n f).
Proof.
  induction n as [|n IH]; intros H; cbn [sum_n].
  - split; [left; reflexivity|right; eexists _, _; split; reflexivity].
  - destruct (IH (fun i Hi => H i ltac:(lia))) as [R I]. destruct (H n ltac:(lia)) as [Rn In].
    split; cbn [re im sadd complex_sig cconj]; [apply add_same; assumption|apply add_minus; assumption].
Qed.
Lemma sum1_conj (f f' : nat -> complex fl) n : (forall i, i <= n -> f' i ~~ cconj (f i)) ->
  sum1 CS n f' ~~ cconj (sum1 CS n f).
Proof.
  induction n as [|n IH]; intros H; cbn [sum1]; [apply H; lia|].
  destruct (IH (fun i Hi => H i ltac:(lia))) as [R I]. destruct (H (S n) ltac:(lia)) as [Rn In].
  split; cbn [re im sadd complex_sig cconj]; [apply add_same; assumption|apply add_minus; assumption].
Qed.

(** conj(w) z against conj(z) w, z conj(w) against w conj(z), conj(w) conj(z) against z w. *)
Lemma term_conj_l (z w : complex fl) : smul CS (cconj w) z ~~ cconj (smul CS (cconj z) w).
Proof.
  destruct z as [a b], w as [c d]. split; cbn [re im smul complex_sig cconj]; change (smul sig) with mul; change (sadd sig) with add; change (ssub sig) with sub.
  - left. rewrite !fl_mul_opp_l, (fl_mul_comm prec emax a c), (fl_mul_comm prec emax b d). reflexivity.
  - rewrite !fl_mul_opp_l. rewrite (fl_mul_comm prec emax c b), (fl_mul_comm prec emax d a), (fl_add_comm prec emax (mul b c)).
    apply add_minus; [left; reflexivity|]. rewrite fl_opp_opp. left. reflexivity.
Qed.
Lemma term_conj_r (z w : complex fl) : smul CS z (cconj w) ~~ cconj (smul CS w (cconj z)).
Proof.
  destruct z as [a b], w as [c d]. split; cbn [re im smul complex_sig cconj]; change (smul sig) with mul; change (sadd sig) with add; change (ssub sig) with sub.
  - left. rewrite !fl_mul_opp_r, (fl_mul_comm prec emax a c), (fl_mul_comm prec emax b d). reflexivity.
  - rewrite !fl_mul_opp_r. rewrite (fl_mul_comm prec emax c b), (fl_mul_comm prec emax d a), (fl_add_comm prec emax (minus (mul a d))).
    apply add_minus; [rewrite fl_opp_opp|]; left; reflexivity.
Qed.
Lemma term_conj (z w : complex fl) : smul CS (cconj w) (cconj z) ~~ cconj (smul CS z w).
Proof.
  destruct z as [a b], w as [c d]. split; cbn [re im smul complex_sig cconj]; change (smul sig) with mul; change (sadd sig) with add; change (ssub sig) with sub.
  - left. rewrite fl_mul_opp_l, fl_mul_opp_r, fl_opp_opp, (fl_mul_comm prec emax a c), (fl_mul_comm prec emax b d). reflexivity.
  - rewrite fl_mul_opp_l, fl_mul_opp_r, (fl_mul_comm prec emax c b), (fl_mul_comm prec emax d a), (fl_add_comm prec emax (minus (mul b c))).
    apply add_minus; left; reflexivity.
Qed.

(** Self products. *)
Definition zero_or_nan (x : fl) : Prop := x = B754_nan \/ is_zero prec emax x.
Lemma zn_add x y : zero_or_nan x -> zero_or_nan y -> zero_or_nan (add x y).
Proof.
  intros [->|[s ->]]; [left; reflexivity|]. intros [->|[t ->]]; [left; reflexivity|].
  right. destruct s, t; eexists; reflexivity.
Qed.
Lemma add_opp_self (x : fl) : zero_or_nan (add x (minus x)) /\ (is_finite x = true -> is_zero prec emax (add x (minus x))).
Proof.
  rewrite <- fl_sub_def. split; [|apply sub_self].
  destruct x as [s|s| |s m e B]; [right; apply sub_self; reflexivity|left; destruct s; reflexivity|left; reflexivity|right; apply sub_self; reflexivity].
Qed.
Lemma opp_add_self (x : fl) : zero_or_nan (add (minus x) x) /\ (is_finite x = true -> is_zero prec emax (add (minus x) x)).
Proof. rewrite fl_add_comm. apply add_opp_self. Qed.

Definition no_nan (z : complex fl) : Prop := re z <> B754_nan /\ im z <> B754_nan.
Definition calm (z : complex fl) : Prop := is_finite (mul (re z) (im z)) = true.

Definition like_square (z p : complex fl) : Prop :=
  (no_nan z -> nonneg prec emax (re p)) /\ zero_or_nan (im p) /\ (calm z -> is_zero prec emax (im p)).
Lemma square_l z : like_square z (smul CS (cconj z) z).
Proof.
  destruct z as [a b]. unfold like_square, no_nan, calm. cbn [re im smul complex_sig cconj].
  change (smul sig) with mul; change (sadd sig) with add; change (ssub sig) with sub.
  rewrite !fl_mul_opp_l, fl_sub_def, fl_opp_opp, (fl_mul_comm prec emax b a). split; [|apply add_opp_self].
  intros [Ha Hb]. apply nonneg_add; apply square_nonneg; assumption.
Qed.
Lemma square_r z : like_square z (smul CS z (cconj z)).
Proof.
  destruct z as [a b]. unfold like_square, no_nan, calm. cbn [re im smul complex_sig cconj].
  change (smul sig) with mul; change (sadd sig) with add; change (ssub sig) with sub.
  rewrite !fl_mul_opp_r, fl_sub_def, fl_opp_opp, (fl_mul_comm prec emax b a). split; [|apply opp_add_self].
  intros [Ha Hb]. apply nonneg_add; apply square_nonneg; assumption.
Qed.
Lemma zero_add_zero x y : is_zero prec emax x -> is_zero prec emax y -> is_zero prec emax (add x y).
Proof. intros [s ->] [t ->]. destruct s, t; eexists; reflexivity. Qed.

Lemma sum_square (z p : nat -> complex fl) n : (forall i, i < n -> like_square (z i) (p i)) ->
  ((forall i, i < n -> no_nan (z i)) -> nonneg prec emax (re (sum_n CS n p)))
  /\ zero_or_nan (im (sum_n CS n p)) /\ ((forall i, i < n -> calm (z i)) -> is_zero prec emax (im (sum_n CS n p))).
Proof.
  induction n as [|n IH]; intros H; cbn [sum_n re im sadd sz complex_sig].
  - split; [intros _; left; eexists; reflexivity|]. split; [right|intros _]; eexists; reflexivity.
  - destruct IH as (I1 & I2 & I3); [intros; apply H; lia|]. destruct (H n ltac:(lia)) as (H1 & H2 & H3).
    split; [|split].
    + intros Hn. apply nonneg_add; [apply I1; intros; apply Hn; lia|apply H1, Hn; lia].
    + apply zn_add; assumption.
    + intros Hn. apply zero_add_zero; [apply I3; intros; apply Hn; lia|apply H3, Hn; lia].
Qed.
Lemma sum1_square (z p : nat -> complex fl) n : (forall i, i <= n -> like_square (z i) (p i)) ->
  ((forall i, i <= n -> no_nan (z i)) -> nonneg prec emax (re (sum1 CS n p)))
  /\ zero_or_nan (im (sum1 CS n p)) /\ ((forall i, i <= n -> calm (z i)) -> is_zero prec emax (im (sum1 CS n p))).
Proof.
  induction n as [|n IH]; intros H; cbn [sum1 re im sadd complex_sig].
  - destruct (H 0 ltac:(lia)) as (H1 & H2 & H3). split; [intros Hn; apply H1, Hn; lia|]. split; [exact H2|intros Hn; apply H3, Hn; lia].
  - destruct IH as (I1 & I2 & I3); [intros; apply H; lia|]. destruct (H (S n) ltac:(lia)) as (H1 & H2 & H3).
    split; [|split].
    + intros Hn. apply nonneg_add; [apply I1; intros; apply Hn; lia|apply H1, Hn; lia].
    + apply zn_add; assumption.
    + intros Hn. apply zero_add_zero; [apply I3; intros; apply Hn; lia|apply H3, Hn; lia].
Qed.
Lemma zn_out (x : fl) : zero_or_nan x -> is_nan x = true \/ Beqb x zero = true.
Proof. intros [->|[s ->]]; [left; reflexivity|right; destruct s; reflexivity]. Qed.
Lemma z_out (x : fl) : is_zero prec emax x -> Beqb x zero = true.
Proof. intros [s ->]. destruct s; reflexivity. Qed.

(** ** Inner products of DVectors *)
(** v * u is the conjugate of u * v, whatever the entries. *)
Theorem C99_dot_conjugate_symmetric :
  forall u v : dvector (complex fl), length u = length v ->
  exists r s, dvector_dot (r_zero CO) (r_add CO) (r_mul CO) conj u v = Ok r
  /\ dvector_dot (r_zero CO) (r_add CO) (r_mul CO) conj v u = Ok s
  /\ s ~~ cconj r.
Proof.
  intros u v E. unfold dvector_dot.
  pose proof (dvector_dot_value CS (r_add CO) (r_mul CO) conj cconj (fun _ _ => eq_refl) (fun _ _ => eq_refl) (fun _ => eq_refl) u v E) as D1.
  pose proof (dvector_dot_value CS (r_add CO) (r_mul CO) conj cconj (fun _ _ => eq_refl) (fun _ _ => eq_refl) (fun _ => eq_refl) v u (eq_sym E)) as D2.
  do 2 eexists. split; [exact D1|]. split; [exact D2|]. rewrite <- E. apply sum_conj. intros i _. apply term_conj_l.
Qed.

(** u * u: the real part is never negative (unless an entry is NaN); the imaginary part is zero,
    or NaN if some product re * im overflows. *)
Theorem C99_dot_self :
  forall u : dvector (complex fl),
  exists r, dvector_dot (r_zero CO) (r_add CO) (r_mul CO) conj u u = Ok r
  /\ (Forall (fun z => is_nan (re z) = false /\ is_nan (im z) = false) u -> Bleb zero (re r) = true)
  /\ (is_nan (im r) = true \/ Beqb (im r) zero = true)
  /\ (Forall (fun z => is_finite (mul (re z) (im z)) = true) u -> Beqb (im r) zero = true).
Proof.
  intros u. unfold dvector_dot.
  pose proof (dvector_dot_value CS (r_add CO) (r_mul CO) conj cconj (fun _ _ => eq_refl) (fun _ _ => eq_refl) (fun _ => eq_refl) u u eq_refl) as D1.
  eexists. split; [exact D1|].
  destruct (sum_square (fun i => nth i u (sz CS)) (fun i => smul CS (cconj (nth i u (sz CS))) (nth i u (sz CS))) (length u)) as (S1 & S2 & S3);
    [intros; apply square_l|].
  split; [|split].
  - intros H. apply nonneg_leb, S1. intros i Hi. rewrite Forall_forall in H. destruct (H _ (nth_In u (sz CS) Hi)) as [N1 N2].
    split; intros E; [rewrite E in N1; discriminate N1|rewrite E in N2; discriminate N2].
  - apply zn_out, S2.
  - intros H. apply z_out, S3. intros i Hi. rewrite Forall_forall in H. apply (H _ (nth_In u (sz CS) Hi)).
Qed.

(** ** Matrices *)
Notation herm md a := (m_eval (dmatrix_h md conj a)).
Notation prod md a b := (e <- dmatrix_mul md (r_mul CO) (r_add CO) a b ;; m_eval e).

Lemma tab_cell {T} (rows cols : N) (f : N -> N -> T) (R : ring_sig T) i j : (i < rows)%N -> (j < cols)%N ->
  dcell (dm_tab rows cols f) i j (f i j).
Proof.
  intros Hi Hj. unfold dcell. pose proof (dm_at_tab R rows cols f i j Hi Hj) as D. rewrite <- D.
  unfold dm_at. apply nth_error_nth'. cbn [dm_cols dm_tab dm_data]. rewrite map_length, index_pairs_length. nia.
Qed.
Lemma prod_tab md (a b : dmatrix (complex fl)) : dm_wf md a -> dm_wf md b -> dm_cols a = dm_rows b -> (1 <= dm_cols a)%N ->
  prod md a b = Ok (dm_tab (dm_rows a) (dm_cols b) (fun r c => sum1 CS (Nat.pred (N.to_nat (dm_cols a)))
     (fun m => smul CS (dm_at CS a r (N.of_nat m)) (dm_at CS b (N.of_nat m) c)))).
Proof.
  intros Wa Wb E H1. exact (dm_mul_total CS (r_add CO) (r_mul CO) (fun _ _ => eq_refl) (fun _ _ => eq_refl) md a b Wa Wb E H1).
Qed.
Definition ctab (a : dmatrix (complex fl)) : dmatrix (complex fl) :=
  dm_tab (dm_cols a) (dm_rows a) (fun r c => cconj (dm_at CS a c r)).
Lemma herm_tab md (a : dmatrix (complex fl)) : dm_wf md a -> herm md a = Ok (ctab a) /\ dm_wf md (ctab a).
Proof.
  intros Wa. split; [exact (dm_h_total CS md conj cconj a (fun _ => eq_refl) Wa)|].
  apply dm_tab_wf. unfold fits. rewrite N.mul_comm. apply Wa.
Qed.
Lemma ctab_at a i j : (i < dm_cols a)%N -> (j < dm_rows a)%N -> dm_at CS (ctab a) i j = cconj (dm_at CS a j i).
Proof. intros. apply (dm_at_tab CS (dm_cols a) (dm_rows a) (fun r c => cconj (dm_at CS a c r))); assumption. Qed.
Lemma sum1_ext (f g : nat -> complex fl) n : (forall i, i <= n -> f i = g i) -> sum1 CS n f = sum1 CS n g.
Proof. induction n as [|n IH]; intros H; [apply H; lia|]. cbn [sum1]. rewrite IH, (H (S n)) by (intros; try apply H; lia). reflexivity. Qed.

(** (a b).h() and b.h() * a.h() agree entry by entry. *)
Theorem C99_hermitian_of_product :
  forall (md : target) (a b : dmatrix (complex fl)), dm_wf md a -> dm_wf md b -> dm_cols a = dm_rows b -> (1 <= dm_cols a)%N ->
  (dm_rows a * dm_cols b < usize_bound md)%N ->
  exists l r, (p <- prod md a b ;; herm md p) = Ok l
  /\ (bh <- herm md b ;; ah <- herm md a ;; prod md bh ah) = Ok r
  /\ dm_rows l = dm_cols b /\ dm_cols l = dm_rows a /\ dm_rows r = dm_cols b /\ dm_cols r = dm_rows a
  /\ forall i j, (i < dm_cols b)%N -> (j < dm_rows a)%N ->
     exists x y, dcell l i j x /\ dcell r i j y /\ x ~~ y.
Proof.
  intros md a b Wa Wb E H1 Hs. rewrite (prod_tab md a b Wa Wb E H1). cbn [bind].
  set (f := fun r c => sum1 CS _ _).
  assert (Wp : dm_wf md (dm_tab (dm_rows a) (dm_cols b) f)) by (apply dm_tab_wf; exact Hs).
  destruct (herm_tab md _ Wp) as [-> _]. destruct (herm_tab md a Wa) as [-> Wha]. destruct (herm_tab md b Wb) as [-> Whb].
  cbn [bind]. rewrite (prod_tab md (ctab b) (ctab a) Whb Wha) by (cbn [ctab dm_tab dm_cols dm_rows]; (symmetry; exact E) || lia).
  do 2 eexists. split; [reflexivity|]. split; [reflexivity|].
  do 4 (split; [reflexivity|]). intros i j Hi Hj. do 2 eexists.
  split; [apply (tab_cell _ _ _ CS); assumption|]. split; [apply (tab_cell _ _ _ CS); assumption|].
  cbv beta. rewrite (dm_at_tab CS (dm_rows a) (dm_cols b) f j i Hj Hi). unfold f.
  change (dm_cols (ctab b)) with (dm_rows b). rewrite <- E. apply csame_sym, sum1_conj. intros m Hm.
  rewrite ctab_at by (rewrite <- ?E; lia). rewrite ctab_at by lia. apply term_conj.
Qed.

(** a.h() * a is Hermitian: entry (j, i) is the conjugate of entry (i, j); on the diagonal the
    real part is never negative and the imaginary part is zero (or NaN after overflow). *)
Definition gram (a g : dmatrix (complex fl)) (n : N) : Prop :=
  dm_rows g = n /\ dm_cols g = n
  /\ (forall i j, (i < n)%N -> (j < n)%N -> exists x y, dcell g i j x /\ dcell g j i y /\ y ~~ cconj x)
  /\ (forall i, (i < n)%N -> exists x, dcell g i i x
       /\ (Forall (fun z => is_nan (re z) = false /\ is_nan (im z) = false) (dm_data a) -> Bleb zero (re x) = true)
       /\ (is_nan (im x) = true \/ Beqb (im x) zero = true)
       /\ (Forall (fun z => is_finite (mul (re z) (im z)) = true) (dm_data a) -> Beqb (im x) zero = true)).

Lemma at_in (md : target) (a : dmatrix (complex fl)) i j (P : complex fl -> Prop) : dm_wf md a -> (i < dm_rows a)%N -> (j < dm_cols a)%N ->
  Forall P (dm_data a) -> P (dm_at CS a i j).
Proof.
  intros Wa Hi Hj H. unfold dm_at. rewrite Forall_forall in H. apply H, nth_In. destruct Wa as [L _]. unfold ulen in L. nia.
Qed.
Lemma nn_of (z : complex fl) : is_nan (re z) = false /\ is_nan (im z) = false -> no_nan z.
Proof. intros [N1 N2]. split; intros E; [rewrite E in N1; discriminate N1|rewrite E in N2; discriminate N2]. Qed.

Theorem C99_gram_hermitian :
  forall (md : target) (a : dmatrix (complex fl)), dm_wf md a -> (1 <= dm_rows a)%N ->
  exists g, (ah <- herm md a ;; prod md ah a) = Ok g /\ gram a g (dm_cols a).
Proof.
  intros md a Wa H1. destruct (herm_tab md a Wa) as [-> Wh]. cbn [bind].
  rewrite (prod_tab md (ctab a) a Wh Wa) by (cbn [ctab dm_tab dm_cols]; (reflexivity || exact H1)).
  eexists. split; [reflexivity|]. change (dm_rows (ctab a)) with (dm_cols a). change (dm_cols (ctab a)) with (dm_rows a).
  split; [reflexivity|]. split; [reflexivity|].
  set (f := fun r c => sum1 CS _ _).
  assert (F : forall i j, (i < dm_cols a)%N -> f i j = sum1 CS (Nat.pred (N.to_nat (dm_rows a)))
             (fun m => smul CS (cconj (dm_at CS a (N.of_nat m) i)) (dm_at CS a (N.of_nat m) j))).
  { intros i j Hi. unfold f. apply sum1_ext. intros m Hm. rewrite ctab_at by lia. reflexivity. }
  split.
  - intros i j Hi Hj. exists (f i j), (f j i). split; [apply (tab_cell _ _ _ CS); assumption|].
    split; [apply (tab_cell _ _ _ CS); assumption|]. rewrite !F by assumption. apply sum1_conj. intros m _. apply term_conj_l.
  - intros i Hi. exists (f i i). split; [apply (tab_cell _ _ _ CS); assumption|]. rewrite F by assumption.
    destruct (sum1_square (fun m => dm_at CS a (N.of_nat m) i) (fun m => smul CS (cconj (dm_at CS a (N.of_nat m) i)) (dm_at CS a (N.of_nat m) i))
                (Nat.pred (N.to_nat (dm_rows a)))) as (S1 & S2 & S3); [intros; apply square_l|].
    split; [|split].
    + intros H. apply nonneg_leb, S1. intros m Hm. apply nn_of, (at_in md a _ _ (fun z => is_nan (re z) = false /\ is_nan (im z) = false) Wa); [lia|exact Hi|exact H].
    + apply zn_out, S2.
    + intros H. apply z_out, S3. intros m Hm. apply (at_in md a _ _ (fun z => is_finite (mul (re z) (im z)) = true) Wa); [lia|exact Hi|exact H].
Qed.
Theorem C99_cogram_hermitian :
  forall (md : target) (a : dmatrix (complex fl)), dm_wf md a -> (1 <= dm_cols a)%N ->
  exists g, (ah <- herm md a ;; prod md a ah) = Ok g /\ gram a g (dm_rows a).
Proof.
  intros md a Wa H1. destruct (herm_tab md a Wa) as [-> Wh]. cbn [bind].
  rewrite (prod_tab md a (ctab a) Wa Wh) by (cbn [ctab dm_tab dm_rows]; (reflexivity || exact H1)).
  eexists. split; [reflexivity|]. change (dm_cols (ctab a)) with (dm_rows a).
  split; [reflexivity|]. split; [reflexivity|].
  set (f := fun r c => sum1 CS _ _).
  assert (F : forall i j, (j < dm_rows a)%N -> f i j = sum1 CS (Nat.pred (N.to_nat (dm_cols a)))
             (fun m => smul CS (dm_at CS a i (N.of_nat m)) (cconj (dm_at CS a j (N.of_nat m))))).
  { intros i j Hj. unfold f. apply sum1_ext. intros m Hm. rewrite ctab_at by lia. reflexivity. }
  split.
  - intros i j Hi Hj. exists (f i j), (f j i). split; [apply (tab_cell _ _ _ CS); assumption|].
    split; [apply (tab_cell _ _ _ CS); assumption|]. rewrite !F by assumption. apply sum1_conj. intros m _. apply term_conj_r.
  - intros i Hi. exists (f i i). split; [apply (tab_cell _ _ _ CS); assumption|]. rewrite F by assumption.
    destruct (sum1_square (fun m => dm_at CS a i (N.of_nat m)) (fun m => smul CS (dm_at CS a i (N.of_nat m)) (cconj (dm_at CS a i (N.of_nat m))))
                (Nat.pred (N.to_nat (dm_cols a)))) as (S1 & S2 & S3); [intros; apply square_r|].
    split; [|split].
    + intros H. apply nonneg_leb, S1. intros m Hm. apply nn_of, (at_in md a _ _ (fun z => is_nan (re z) = false /\ is_nan (im z) = false) Wa); [exact Hi|lia|exact H].
    + apply zn_out, S2.
    + intros H. apply z_out, S3. intros m Hm. apply (at_in md a _ _ (fun z => is_finite (mul (re z) (im z)) = true) Wa); [exact Hi|lia|exact H].
Qed.

(** Over f32/f64: a.t() * a is symmetric bit for bit, with a non-negative diagonal. *)
Theorem C99_real_gram_symmetric :
  forall (md : target) (a : dmatrix fl), dm_wf md a -> (1 <= dm_rows a)%N ->
  let n := dm_cols a in
  exists g, (at' <- m_eval (dmatrix_t md a) ;; e <- dmatrix_mul md (r_mul FO) (r_add FO) at' a ;; m_eval e) = Ok g
  /\ dm_rows g = n /\ dm_cols g = n
  /\ (forall i j, (i < n)%N -> (j < n)%N -> exists x, dcell g i j x /\ dcell g j i x)
  /\ (forall i, (i < n)%N -> Forall (fun x => is_nan x = false) (dm_data a) -> exists x, dcell g i i x /\ Bleb zero x = true).
Proof.
  intros md a Wa H1 n. rewrite (dm_t_total sig md a Wa). cbn [bind].
  set (ta := dm_tab (dm_cols a) (dm_rows a) (fun r c => dm_at sig a c r)).
  assert (Wta : dm_wf md ta) by (apply dm_tab_wf; unfold fits; rewrite N.mul_comm; apply Wa).
  rewrite (dm_mul_total sig (r_add FO) (r_mul FO) (fun _ _ => eq_refl) (fun _ _ => eq_refl) md ta a Wta Wa)
    by (cbn [ta dm_tab dm_cols]; (reflexivity || exact H1)).
  eexists. split; [reflexivity|]. change (dm_rows ta) with n. change (dm_cols ta) with (dm_rows a). fold n.
  split; [reflexivity|]. split; [reflexivity|].
  set (f := fun r c => sum1 sig _ _).
  assert (SE : forall k p q, (forall i, i <= k -> p i = q i) -> sum1 sig k p = sum1 sig k q).
  { intros k p q. induction k as [|k IH]; intros H; [apply H; lia|]. cbn [sum1]. rewrite IH, (H (S k)) by (intros; try apply H; lia). reflexivity. }
  assert (F : forall i j, (i < n)%N -> f i j = sum1 sig (Nat.pred (N.to_nat (dm_rows a)))
             (fun m => mul (dm_at sig a (N.of_nat m) i) (dm_at sig a (N.of_nat m) j))).
  { intros i j Hi. unfold f. apply SE. intros m Hm. change (smul sig) with mul. f_equal.
    apply (dm_at_tab sig (dm_cols a) (dm_rows a) (fun r c => dm_at sig a c r)); [exact Hi|lia]. }
  split.
  - intros i j Hi Hj. exists (f i j). split; [apply (tab_cell _ _ _ sig); assumption|].
    replace (f i j) with (f j i); [apply (tab_cell _ _ _ sig); assumption|]. rewrite !F by assumption.
    apply SE. intros m _. apply fl_mul_comm.
  - intros i Hi H. exists (f i i). split; [apply (tab_cell _ _ _ sig); assumption|]. rewrite F by assumption.
    apply nonneg_leb. set (k := Nat.pred _). assert (Hk : (N.of_nat k < dm_rows a)%N) by (unfold k; lia). clearbody k.
    assert (NN : forall m, m <= k -> nonneg prec emax (mul (dm_at sig a (N.of_nat m) i) (dm_at sig a (N.of_nat m) i))).
    { intros m Hm. apply square_nonneg. intros E.
      assert (Q : is_nan (dm_at sig a (N.of_nat m) i) = false).
      { unfold dm_at. rewrite Forall_forall in H. apply H, nth_In. destruct Wa as [L _]. unfold ulen in L. fold n. change (dm_cols a) with n. unfold n in *. nia. }
      rewrite E in Q. discriminate Q. }
    clear -NN Hp He. induction k as [|k IH]; cbn [sum1]; [apply NN; lia|].
    apply nonneg_add; [apply IH; intros; apply NN; lia|apply NN; lia].
Qed.

End Fmt.

(** ** Cases in binary64 *)
Definition C99_a : dmatrix (complex f64) :=
  MkDM [Cx third (f64_of_Z 2); Cx (f64_of_Z 5) third; Cx third third; Cx (f64_of_Z (-1)) third] 2 2.
Example C99_case :
  dm_wf Release C99_a /\ (1 <= dm_rows C99_a)%N
  /\ forallb (fun z => is_finite (re z) && is_finite (im z) && is_finite (fl_mul 53 1024 (re z) (im z))) (dm_data C99_a) = true
  /\ on_ok (ah <- m_eval (dmatrix_h Release (complex_conj (r_neg f64_ring)) C99_a) ;;
            e <- dmatrix_mul Release (r_mul (complex_ops f64_ring)) (r_add (complex_ops f64_ring)) ah C99_a ;; m_eval e)
       (fun g => match dm_data g with
                 | [x; y; z; w] => Bltb (f64_of_Z 0) (re x) && Beqb (im x) (f64_of_Z 0) && Beqb (re y) (re z) && Beqb (im y) (Bopp (im z))
                                   && negb (Beqb (im y) (f64_of_Z 0))
                 | _ => false end) = true.
Proof. split; [split; vm_compute; reflexivity|]. split; [vm_compute; discriminate|]. split; vm_compute; reflexivity. Qed.
(** The escape clauses are needed: with an overflowing re * im the imaginary part of u * u is NaN. *)
Example C99_case_overflow :
  on_ok (dvector_dot (r_zero (complex_ops f64_ring)) (r_add (complex_ops f64_ring)) (r_mul (complex_ops f64_ring))
           (complex_conj (r_neg f64_ring)) [Cx (f64_of_Z (2 ^ 600)) (f64_of_Z (2 ^ 600))] [Cx (f64_of_Z (2 ^ 600)) (f64_of_Z (2 ^ 600))])
        (fun r => is_nan (im r) && Bleb (f64_of_Z 0) (re r)) = true.
Proof. vm_compute. reflexivity. Qed.

Print Assumptions C99_dot_conjugate_symmetric.
Print Assumptions C99_dot_self.
Print Assumptions C99_hermitian_of_product.
Print Assumptions C99_gram_hermitian.
Print Assumptions C99_cogram_hermitian.
Print Assumptions C99_real_gram_symmetric.
