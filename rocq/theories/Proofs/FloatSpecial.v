(** NaN, infinities, zeros and ones under IEEE addition and multiplication, and what they do
    to Horner's rule and to sums of products. *)
From Coq Require Import List ZArith Reals Bool Lia Lra.
From Flocq Require Import Core.Core IEEE754.BinarySingleNaN.
From Verif Require Import Base.Outcome Base.Array Model.Traits Model.Float Model.Polynomial Model.SMatrix
  Spec.Ring Spec.Sums Spec.Matrix Spec.Unwind Spec.FloatErr Proofs.FloatErr Proofs.FloatInt Proofs.FloatComm Proofs.FloatRange.
Import ListNotations.

Section Fmt.
Context (prec emax : Z) {Hp : Prec_gt_0 prec} {He : Prec_lt_emax prec emax}.
Notation fl := (binary_float prec emax).
Notation add := (fl_add prec emax).
Notation sub := (fl_sub prec emax).
Notation mul := (fl_mul prec emax).
Notation div := (fl_div prec emax).
Notation nan := (@B754_nan prec emax).
Notation zero := (fl_int prec emax 0).
Notation one := (fl_int prec emax 1).
Notation sig := (float_sig prec emax).

(** ** NaN *)
Lemma add_nan_l y : add nan y = nan. Proof. destruct y; reflexivity. Qed.
Lemma add_nan_r x : add x nan = nan. Proof. destruct x; reflexivity. Qed.
Lemma sub_nan_l y : sub nan y = nan. Proof. destruct y; reflexivity. Qed.
Lemma sub_nan_r x : sub x nan = nan. Proof. destruct x; reflexivity. Qed.
Lemma mul_nan_l y : mul nan y = nan. Proof. destruct y; reflexivity. Qed.
Lemma mul_nan_r x : mul x nan = nan. Proof. destruct x; reflexivity. Qed.
Lemma div_nan_l y : div nan y = nan. Proof. destruct y; reflexivity. Qed.
Lemma div_nan_r x : div x nan = nan. Proof. destruct x; reflexivity. Qed.

Lemma zero_eq : zero = B754_zero false. Proof. reflexivity. Qed.
Lemma zero_times_nonfinite x : is_finite x = false -> mul zero x = nan.
Proof. rewrite zero_eq. destruct x; try discriminate; reflexivity. Qed.

Lemma horner_nonfinite p x : p <> [] -> is_finite x = false -> fl_horner prec emax p x = nan.
Proof.
  induction p as [|a p IH]; [congruence|]. intros _ Fx. cbn [fl_horner].
  destruct p as [|b p].
  - cbn [fl_horner]. rewrite zero_times_nonfinite by exact Fx. apply add_nan_l.
  - rewrite IH by (congruence || exact Fx). rewrite mul_nan_l. apply add_nan_l.
Qed.

Lemma horner_nan p x : In nan p -> fl_horner prec emax p x = nan.
Proof.
  induction p as [|a p IH]; [contradiction|]. intros [->|H]; cbn [fl_horner].
  - apply add_nan_r.
  - rewrite (IH H), mul_nan_l. apply add_nan_l.
Qed.

Lemma sum_nan (f : nat -> fl) n i : (i < n)%nat -> f i = nan -> sum_n sig n f = nan.
Proof.
  induction n as [|n IH]; intros Hi Hf; [lia|]. cbn [sum_n].
  destruct (Nat.eq_dec i n) as [->|Hn]; [rewrite Hf; apply add_nan_r|].
  rewrite IH by (lia || exact Hf). apply add_nan_l.
Qed.

Lemma fdot_nan a b n i : (i < n)%nat -> a i = nan \/ b i = nan -> fdot prec emax a b n = nan.
Proof. intros Hi H. apply (sum_nan _ n i Hi). destruct H as [-> | ->]; [apply mul_nan_l|apply mul_nan_r]. Qed.

Lemma fdot1_nan a b n i : (i <= n)%nat -> a i = nan \/ b i = nan -> fdot1 prec emax a b n = nan.
Proof.
  intros Hi H. assert (P : mul (a i) (b i) = nan) by (destruct H as [-> | ->]; [apply mul_nan_l|apply mul_nan_r]).
  induction n as [|n IH]; cbn [fdot1].
  - replace i with O in P by lia. exact P.
  - destruct (Nat.eq_dec i (S n)) as [->|Hn]; [rewrite P; apply add_nan_r|]. rewrite IH by lia. apply add_nan_l.
Qed.

(** ** Zeros and ones *)
Definition is_zero (x : fl) : Prop := exists s, x = B754_zero s.
Notation "x ~ y" := (same_up_to_zero x y) (at level 70).

Lemma same_refl (x : fl) : x ~ x. Proof. left. reflexivity. Qed.
Lemma same_sym (x y : fl) : x ~ y -> y ~ x.
Proof. intros [->|(s & t & -> & ->)]; [left; reflexivity|right; eauto]. Qed.
Lemma same_trans (x y z : fl) : x ~ y -> y ~ z -> x ~ z.
Proof.
  intros [->|(s & t & -> & ->)] H; [exact H|]. destruct H as [<-|(s' & t' & _ & ->)]; right; eauto.
Qed.
Lemma same_zero x : is_zero x -> x ~ zero. Proof. intros (s & ->). right. exists s, false. auto. Qed.
Lemma zero_same x y : is_zero y -> x ~ y -> is_zero x.
Proof. intros (s & ->) [->|(a & b & -> & _)]; eexists; reflexivity. Qed.

Lemma beqb_refl_iff (x : fl) : Beqb x x = negb (is_nan x).
Proof.
  destruct x as [s|s| |s m e B]; try reflexivity; try (destruct s; reflexivity).
  rewrite Beqb_correct by reflexivity. simpl. apply Req_bool_true. reflexivity.
Qed.
Lemma same_beqb (x y : fl) : x ~ y -> is_nan y = false -> Beqb x y = true.
Proof. intros [->|(s & t & -> & ->)] H; [rewrite beqb_refl_iff, H; reflexivity|]. destruct s, t; reflexivity. Qed.

Lemma add_zero_l z x : is_zero z -> add z x ~ x.
Proof.
  intros (s & ->). destruct x as [t|t| |t m e B]; try (left; reflexivity).
  right. unfold fl_add. simpl. destruct (Bool.eqb s t); eexists _, _; split; reflexivity.
Qed.
Lemma add_zero_r z x : is_zero z -> add x z ~ x.
Proof. rewrite fl_add_comm. apply add_zero_l. Qed.
Lemma add_same_l x y z : x ~ y -> add x z ~ add y z.
Proof.
  intros [->|(s & t & -> & ->)]; [apply same_refl|].
  eapply same_trans; [apply add_zero_l; eexists; reflexivity|apply same_sym, add_zero_l; eexists; reflexivity].
Qed.
Lemma add_same_r x y z : x ~ y -> add z x ~ add z y.
Proof. rewrite !(fl_add_comm prec emax z). apply add_same_l. Qed.
Lemma mul_same_l x y z : x ~ y -> mul x z ~ mul y z.
Proof.
  intros [->|(s & t & -> & ->)]; [apply same_refl|].
  destruct z; try (left; reflexivity); right; eexists _, _; split; reflexivity.
Qed.
Lemma mul_same_r x y z : x ~ y -> mul z x ~ mul z y.
Proof. rewrite !(fl_mul_comm prec emax z). apply mul_same_l. Qed.
Lemma opp_same (x y : fl) : x ~ y -> Bopp x ~ Bopp y.
Proof. intros [->|(s & t & -> & ->)]; [apply same_refl|]. right; eexists _, _; split; reflexivity. Qed.
Lemma opp_zero (x : fl) : is_zero x -> is_zero (Bopp x). Proof. intros (s & ->). eexists. reflexivity. Qed.

Lemma mul_zero_l z x : is_zero z -> is_finite x = true -> is_zero (mul z x).
Proof. intros (s & ->). destruct x; try discriminate; intros _; eexists; reflexivity. Qed.
Lemma mul_zero_r z x : is_zero z -> is_finite x = true -> is_zero (mul x z).
Proof. rewrite fl_mul_comm. apply mul_zero_l. Qed.

Lemma one_value : is_finite one = true /\ B2R one = 1%R.
Proof.
  apply (fl_int_exact prec emax 1). pose proof Hp as P. unfold Prec_gt_0 in P. simpl.
  change 1%Z with (2 ^ 0)%Z. apply Z.pow_le_mono_r; lia.
Qed.
Lemma one_shape : exists m e B, one = B754_finite false m e B.
Proof.
  destruct one_value as [F E]. destruct one as [s|s| |s m e B]; try discriminate; simpl in E; [lra|].
  destruct s; [|eauto]. exfalso. pose proof (F2R_lt_0 radix2 {| Fnum := Z.neg m; Fexp := e |} eq_refl) as L. simpl in E. lra.
Qed.

Lemma mul_one_r x : mul x one = x.
Proof.
  destruct one_value as [F1 E1]. destruct one_shape as (m1 & e1 & B1 & E).
  destruct x as [s|s| |s m e B]; [rewrite E; simpl; destruct s; reflexivity..| |].
  - apply mul_nan_l.
  - set (x := B754_finite s m e B). pose proof (Bmult_correct prec emax Hp He mode_NE x one) as C.
    rewrite E1, Rmult_1_r in C. rewrite (round_generic radix2 _ _ (B2R x)) in C by apply generic_format_B2R.
    rewrite Rlt_bool_true in C by apply abs_B2R_lt_emax. destruct C as (V & F & S). rewrite F1 in F.
    unfold fl_mul. apply B2R_Bsign_inj; [exact F|reflexivity|exact V|].
    rewrite S by (destruct (Bmult mode_NE x one); try reflexivity; discriminate F).
    rewrite E. simpl. apply xorb_false_r.
Qed.
Lemma mul_one_l x : mul one x = x. Proof. rewrite fl_mul_comm. apply mul_one_r. Qed.

Lemma div_one_one : div one one = one.
Proof.
  destruct one_value as [F1 E1]. destruct one_shape as (m1 & e1 & B1 & E).
  pose proof (Bdiv_correct prec emax Hp He mode_NE one one) as C.
  rewrite E1 in C. specialize (C ltac:(lra)). replace (1 / 1)%R with (B2R one) in C by (rewrite E1; field).
  rewrite (round_generic radix2 _ _ (B2R one)) in C by apply generic_format_B2R.
  rewrite Rlt_bool_true in C by apply abs_B2R_lt_emax. destruct C as (V & F & S). rewrite F1 in F.
  unfold fl_div. apply B2R_Bsign_inj; [exact F|exact F1|exact V|].
  rewrite S by (destruct (Bdiv mode_NE one one); try reflexivity; discriminate F).
  rewrite E. reflexivity.
Qed.

(** A sum all but one of whose terms are zeros. *)
Lemma sum_zeros (f : nat -> fl) n : (forall i, (i < n)%nat -> is_zero (f i)) -> is_zero (sum_n sig n f).
Proof.
  induction n as [|n IH]; intros H; [exists false; reflexivity|]. cbn [sum_n].
  apply (zero_same _ (f n)); [apply H; lia|]. apply add_zero_l. apply IH. intros; apply H; lia.
Qed.

Lemma sum_single (f : nat -> fl) n j : (j < n)%nat -> (forall i, (i < n)%nat -> i <> j -> is_zero (f i)) ->
  sum_n sig n f ~ f j.
Proof.
  induction n as [|n IH]; intros Hj H; [lia|]. cbn [sum_n]. destruct (Nat.eq_dec j n) as [->|Hn].
  - apply add_zero_l. apply sum_zeros. intros i Hi. apply H; lia.
  - eapply same_trans; [apply add_zero_r, H; lia|]. apply IH; [lia|]. intros i Hi. apply H. lia.
Qed.

Lemma fdot1_single a b n j : (j <= n)%nat -> (forall i, (i <= n)%nat -> i <> j -> is_zero (mul (a i) (b i))) ->
  fdot1 prec emax a b n ~ mul (a j) (b j).
Proof.
  assert (Z : forall n, (forall i, (i <= n)%nat -> is_zero (mul (a i) (b i))) -> is_zero (fdot1 prec emax a b n)).
  { clear. induction n as [|n IH]; intros H; cbn [fdot1]; [apply H; lia|].
    apply (zero_same _ (mul (a (S n)) (b (S n)))); [apply H; lia|]. apply add_zero_l, IH. intros; apply H; lia. }
  induction n as [|n IH]; intros Hj H; cbn [fdot1].
  - replace j with O by lia. apply same_refl.
  - destruct (Nat.eq_dec j (S n)) as [->|Hn].
    + apply add_zero_l, Z. intros i Hi. apply H; lia.
    + eapply same_trans; [apply add_zero_r, H; lia|]. apply IH; [lia|]. intros i Hi. apply H. lia.
Qed.

(** ** Squares and sums of squares *)
Definition nonneg (x : fl) : Prop := is_zero x \/ (exists m e B, x = B754_finite false m e B) \/ x = B754_infinity false.

Lemma square_nonneg x : x <> nan -> nonneg (mul x x).
Proof.
  intros H. destruct (is_finite x) eqn:F.
  - destruct (mul_square_sign prec emax x F) as [?|[?|?]]; unfold nonneg, is_zero; auto.
  - destruct x as [s|s| |s m e B]; try discriminate; [|congruence]. right. right. destruct s; reflexivity.
Qed.

Lemma nonneg_real x : nonneg x -> is_finite x = true -> (0 <= B2R x)%R.
Proof.
  intros [(s & ->)|[(m & e & B & ->)| ->]] F; [simpl; lra| |discriminate].
  apply F2R_ge_0. simpl. lia.
Qed.

Lemma nonneg_add x y : nonneg x -> nonneg y -> nonneg (add x y).
Proof.
  intros Hx Hy.
  destruct Hx as [(s & ->)|[(m & e & B & ->)| ->]].
  { destruct (add_zero_l (B754_zero s) y) as [->|(a & b & -> & _)]; [eexists; reflexivity|exact Hy|left; eexists; reflexivity]. }
  2:{ destruct Hy as [(t & ->)|[(m' & e' & B' & ->)| ->]]; right; right; reflexivity. }
  destruct Hy as [(t & ->)|[(m' & e' & B' & ->)| ->]].
  - right. left. do 3 eexists. reflexivity.
  - set (x := B754_finite false m e B). set (y := B754_finite false m' e' B').
    pose proof (Bplus_correct prec emax Hp He mode_NE x y eq_refl eq_refl) as C. unfold fl_add.
    assert (Px : (0 < B2R x)%R) by (apply F2R_gt_0; reflexivity).
    assert (Py : (0 < B2R y)%R) by (apply F2R_gt_0; reflexivity).
    destruct (Rlt_bool _ _).
    + destruct C as (V & F & S). rewrite Rcompare_Gt in S by lra.
      destruct (Bplus mode_NE x y) as [s|s| |s m2 e2 B2]; try discriminate; [left; eexists; reflexivity|].
      simpl in S. subst s. right. left. eauto.
    + destruct C as (C & _). right. right. change (Bsign x) with false in C.
      destruct (Bplus mode_NE x y) as [s|s| |s m2 e2 B2]; try discriminate C. injection C as ->. reflexivity.
  - right. right. reflexivity.
Qed.

Lemma nonneg_leb x : nonneg x -> Bleb zero x = true /\ is_nan x = false.
Proof.
  intros [(s & ->)|[(m & e & B & ->)| ->]]; [destruct s; split; reflexivity| |split; reflexivity].
  split; [|reflexivity]. rewrite Bleb_correct by reflexivity. apply Rle_bool_true. rewrite (proj1 (zero_value prec emax)).
  apply Rlt_le, F2R_gt_0. reflexivity.
Qed.

Lemma sum_squares (a : nat -> fl) n : (forall i, (i < n)%nat -> a i <> nan) -> nonneg (fdot prec emax a a n).
Proof.
  unfold fdot. induction n as [|n IH]; intros H; cbn [sum_n]; [left; exists false; reflexivity|].
  apply nonneg_add; [apply IH; intros; apply H; lia|]. apply square_nonneg, H. lia.
Qed.

Lemma sqrt_nonneg x : nonneg x -> nonneg (Bsqrt mode_NE x).
Proof.
  intros [(s & ->)|[(m & e & B & ->)| ->]]; [left; eexists; reflexivity| |right; right; reflexivity].
  destruct (Bsqrt_correct prec emax Hp He mode_NE (B754_finite false m e B)) as (V & F & S).
  destruct (Bsqrt mode_NE (B754_finite false m e B)) as [s|s| |s m2 e2 B2]; try discriminate F; [left; eexists; reflexivity|].
  specialize (S eq_refl). simpl in S. subst s. right. left. eauto.
Qed.

(** Differences of equal finite numbers. *)
Lemma sub_self x : is_finite x = true -> is_zero (sub x x).
Proof.
  intros F. pose proof (Bminus_correct prec emax Hp He mode_NE x x F F) as C.
  rewrite Rminus_diag_eq, round_0, Rabs_R0, Rlt_bool_true in C by (reflexivity || apply valid_rnd_round_mode || apply bpow_gt_0).
  destruct C as (V & F' & S). unfold fl_sub.
  destruct (Bminus mode_NE x x) as [s|s| |s m e B]; try discriminate F'; [eexists; reflexivity|].
  exfalso. destruct s; unfold B2R in V; simpl cond_Zopp in V.
  - pose proof (F2R_lt_0 radix2 {| Fnum := Z.neg m; Fexp := e |} eq_refl) as L. unfold F2R in *. simpl in *. lra.
  - pose proof (F2R_gt_0 radix2 {| Fnum := Z.pos m; Fexp := e |} eq_refl) as L. unfold F2R in *. simpl in *. lra.
Qed.

(** [(h*0) + a] with a finite [h]. *)
Lemma horner_at_zero p z : is_zero z -> Forall (fun a : fl => is_finite a = true) p ->
  fl_horner prec emax p z ~ nth 0 p zero.
Proof.
  intros Hz. induction p as [|a p IH]; intros H; [apply same_refl|]. inversion H as [|? ? Fa Fp]; subst.
  cbn [fl_horner nth]. apply add_zero_l. apply mul_zero_r; [exact Hz|].
  destruct (IH Fp) as [E|(s & t & E & _)]; rewrite E; [|reflexivity].
  destruct p as [|b p]; [reflexivity|]. inversion Fp; assumption.
Qed.

Lemma same_finite (x y : fl) : x ~ y -> is_finite x = is_finite y.
Proof. intros [->|(s & t & -> & ->)]; reflexivity. Qed.
Lemma same_nan (x y : fl) : x ~ y -> is_nan x = is_nan y.
Proof. intros [->|(s & t & -> & ->)]; reflexivity. Qed.
End Fmt.

(** Cells of static matrices. *)
Lemma cell_mat_at {T} (R : ring_sig T) {m n} (a : smatrix T m n) i j : (i < m)%nat -> (j < n)%nat ->
  cell a i j = Some (mat_at R a i j).
Proof.
  intros Hi Hj. unfold cell, mat_at.
  destruct (nth_error (entries a) i) as [row|] eqn:E; [|apply nth_error_None in E; rewrite entries_length in E; lia].
  apply (map_nth_error entries) in E. rewrite (nth_error_nth _ _ _ E).
  apply nth_error_nth'. rewrite entries_length. exact Hj.
Qed.
Lemma cell_bounds {T} {m n} (a : smatrix T m n) i j x : cell a i j = Some x -> (i < m)%nat /\ (j < n)%nat.
Proof.
  unfold cell. destruct (nth_error (entries a) i) as [row|] eqn:E; [|discriminate]. intros H. split.
  - rewrite <- (entries_length a). apply nth_error_Some. congruence.
  - rewrite <- (entries_length row). apply nth_error_Some. congruence.
Qed.
