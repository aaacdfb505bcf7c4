(** Exact algebraic identities of IEEE addition and multiplication. *)
From Coq Require Import ZArith Bool Lia.
From Flocq Require Import Core.Core IEEE754.BinarySingleNaN.
From Verif Require Import Base.Outcome Model.Float Spec.FloatErr.

Section Comm.
Context (prec emax : Z) {Hp : Prec_gt_0 prec} {He : Prec_lt_emax prec emax}.
Notation fl := (binary_float prec emax).

Lemma fl_add_comm (x y : fl) : fl_add prec emax x y = fl_add prec emax y x.
Proof.
  unfold fl_add. destruct x as [sx|sx| |sx mx ex Bx], y as [sy|sy| |sy my ey By];
    try reflexivity; try (destruct sx, sy; reflexivity).
  unfold Bplus. rewrite (Z.min_comm ex ey). f_equal.
  unfold Fplus_naive. apply Z.add_comm.
Qed.

Lemma fl_mul_comm (x y : fl) : fl_mul prec emax x y = fl_mul prec emax y x.
Proof.
  unfold fl_mul. destruct x as [sx|sx| |sx mx ex Bx], y as [sy|sy| |sy my ey By];
    try reflexivity; try (destruct sx, sy; reflexivity).
  apply B2SF_inj. unfold Bmult. rewrite !B2SF_SF2B.
  rewrite (xorb_comm sx sy), (Pos.mul_comm mx my), (Z.add_comm ex ey). reflexivity.
Qed.

Lemma B2SF_opp (x : fl) : B2SF (Bopp x) = SpecFloat.SFopp (B2SF x).
Proof. destruct x; reflexivity. Qed.

Lemma round_aux_opp s m e l :
  binary_round_aux prec emax mode_NE (negb s) m e l
  = SpecFloat.SFopp (binary_round_aux prec emax mode_NE s m e l).
Proof.
  unfold binary_round_aux.
  set (shr := SpecFloat.shr_fexp _ _ _ _ _); case shr; intros mrs e2.
  unfold choice_mode.
  set (shr2 := SpecFloat.shr_fexp _ _ _ _ _); case shr2; intros mrs2 e3.
  unfold binary_fit_aux.
  case (SpecFloat.shr_m mrs2) as [|p|p]; [reflexivity|case Z.leb; reflexivity|reflexivity].
Qed.

Lemma fl_mul_opp_l (x y : fl) : fl_mul prec emax (Bopp x) y = Bopp (fl_mul prec emax x y).
Proof.
  unfold fl_mul. destruct x as [sx|sx| |sx mx ex Bx], y as [sy|sy| |sy my ey By];
    try reflexivity; try (destruct sx, sy; reflexivity).
  apply B2SF_inj. rewrite B2SF_opp. unfold Bmult, Bopp. rewrite !B2SF_SF2B.
  replace (xorb (negb sx) sy) with (negb (xorb sx sy)) by (destruct sx, sy; reflexivity).
  apply round_aux_opp.
Qed.

Lemma fl_mul_opp_r (x y : fl) : fl_mul prec emax x (Bopp y) = Bopp (fl_mul prec emax x y).
Proof. rewrite fl_mul_comm, fl_mul_opp_l, fl_mul_comm. reflexivity. Qed.

Lemma fl_sub_def (x y : fl) : fl_sub prec emax x y = fl_add prec emax x (Bopp y).
Proof. destruct x, y; reflexivity. Qed.

Lemma fl_opp_opp (x : fl) : Bopp (Bopp x) = x.
Proof. apply Bopp_involutive. Qed.

Lemma normalize_opp m e :
  same_up_to_zero (binary_normalize prec emax Hp He mode_NE (- m) e false)
                  (Bopp (binary_normalize prec emax Hp He mode_NE m e false)).
Proof.
  destruct m as [|p|p]; simpl.
  - right. exists false, true. auto.
  - left. apply B2SF_inj. rewrite B2SF_opp, !B2SF_SF2B. unfold binary_round.
    set (shl := shl_align_fexp _ _ _ _); case shl; intros mz ez. apply (round_aux_opp false).
  - left. apply B2SF_inj. rewrite B2SF_opp, !B2SF_SF2B. unfold binary_round.
    set (shl := shl_align_fexp _ _ _ _); case shl; intros mz ez. apply (round_aux_opp true).
Qed.

Lemma fl_add_opp (x y : fl) :
  same_up_to_zero (fl_add prec emax (Bopp x) (Bopp y)) (Bopp (fl_add prec emax x y)).
Proof.
  unfold fl_add. destruct x as [sx|sx| |sx mx ex Bx], y as [sy|sy| |sy my ey By];
    try (left; reflexivity); try (destruct sx, sy; left; reflexivity);
    try (destruct sx, sy; right; eexists _, _; split; reflexivity).
  - change (same_up_to_zero
      (binary_normalize prec emax Hp He mode_NE
        (Fplus_naive (negb sx) mx ex (negb sy) my ey (Z.min ex ey)) (Z.min ex ey) false)
      (Bopp (binary_normalize prec emax Hp He mode_NE
        (Fplus_naive sx mx ex sy my ey (Z.min ex ey)) (Z.min ex ey) false))).
    replace (Fplus_naive (negb sx) mx ex (negb sy) my ey (Z.min ex ey))
      with (- Fplus_naive sx mx ex sy my ey (Z.min ex ey))%Z.
    + apply normalize_opp.
    + unfold Fplus_naive. destruct sx, sy; simpl negb; unfold cond_Zopp; lia.
Qed.
End Comm.
