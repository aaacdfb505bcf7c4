(** Overflow and underflow in the squared norm. *)
From Coq Require Import List ZArith Reals Bool Lia Lra Psatz.
From Flocq Require Import Core.Core IEEE754.BinarySingleNaN Relative.
From Verif Require Import Base.Outcome Model.Traits Model.Float Model.Complex Spec.FloatErr Proofs.FloatErr Proofs.FloatComm.
Local Open Scope R_scope.

Section Fmt.
Context (prec emax : Z) {Hp : Prec_gt_0 prec} {He : Prec_lt_emax prec emax}.
Notation fl := (binary_float prec emax).
Notation u := (unit_roundoff prec).
Notation eta := (underflow_unit prec emax).
Notation rnd := (round radix2 (SpecFloat.fexp prec emax) (round_mode mode_NE)).
Notation big := (bpow radix2 emax).

Lemma big_format : generic_format radix2 (SpecFloat.fexp prec emax) big.
Proof.
  apply generic_format_bpow. unfold SpecFloat.fexp, SpecFloat.emin.
  pose proof Hp as P. pose proof He as Q. unfold Prec_gt_0, Prec_lt_emax in *. lia.
Qed.

Lemma mul_square_sign (x : fl) : is_finite x = true ->
  (exists s, fl_mul prec emax x x = B754_zero s) \/ (exists m e B, fl_mul prec emax x x = B754_finite false m e B)
  \/ fl_mul prec emax x x = B754_infinity false.
Proof.
  intros F. pose proof (Bmult_correct prec emax Hp He mode_NE x x) as C. unfold fl_mul in *.
  destruct (Rlt_bool _ _).
  - destruct C as (_ & F' & S). rewrite F in F'.
    destruct (Bmult mode_NE x x) as [s|s| |s m e B]; try discriminate; [left; eauto|].
    specialize (S eq_refl). simpl in S. rewrite xorb_nilpotent in S. subst s. right. left. eauto.
  - rewrite xorb_nilpotent in C. right. right.
    destruct (Bmult mode_NE x x) as [s|s| |s m e B]; try discriminate C. injection C as ->. reflexivity.
Qed.

Lemma square_overflow (x : fl) : is_finite x = true -> big <= B2R x * B2R x -> fl_mul prec emax x x = B754_infinity false.
Proof.
  intros F H. pose proof (Bmult_correct prec emax Hp He mode_NE x x) as C. unfold fl_mul.
  assert (G : big <= rnd (B2R x * B2R x)).
  { apply round_ge_generic; try apply valid_rnd_round_mode; [apply fexp_correct; exact Hp|apply big_format|exact H]. }
  rewrite Rlt_bool_false in C.
  - rewrite xorb_nilpotent in C. destruct (Bmult mode_NE x x) as [s|s| |s m e B]; try discriminate C. injection C as ->. reflexivity.
  - eapply Rle_trans; [exact G|apply Rle_abs].
Qed.

Lemma square_underflow (x : fl) : is_finite x = true -> B2R x * B2R x <= eta ->
  exists s, fl_mul prec emax x x = B754_zero s.
Proof.
  intros F H. pose proof (Bmult_correct prec emax Hp He mode_NE x x) as C.
  assert (Z : rnd (B2R x * B2R x) = 0).
  { assert (N0 : 0 <= B2R x * B2R x) by nra.
    pose proof (round_N_opp) as _.
    destruct (Req_dec (B2R x * B2R x) 0) as [E|NE].
    - rewrite E. apply round_0. apply valid_rnd_round_mode.
    - (* below half the smallest number, ties to even *)
      assert (EX : (cexp radix2 (SpecFloat.fexp prec emax) (B2R x * B2R x) = SpecFloat.emin prec emax)%Z).
      { unfold cexp, SpecFloat.fexp. apply Z.max_r.
        assert (M : (mag radix2 (B2R x * B2R x) <= SpecFloat.emin prec emax)%Z).
        { apply mag_le_bpow; [exact NE|]. rewrite Rabs_pos_eq by exact N0.
          eapply Rle_lt_trans; [exact H|]. apply bpow_lt. unfold SpecFloat.emin. lia. }
        pose proof Hp as P. unfold Prec_gt_0 in P. lia. }
      unfold round, F2R, scaled_mantissa. rewrite EX. simpl.
      replace (ZnearestE (B2R x * B2R x * bpow radix2 (- SpecFloat.emin prec emax))) with 0%Z; [simpl; lra|].
      symmetry.
      set (v := B2R x * B2R x * bpow radix2 (- SpecFloat.emin prec emax)).
      assert (V0 : 0 <= v) by (apply Rmult_le_pos; [exact N0|apply bpow_ge_0]).
      assert (V1 : v <= / 2).
      { unfold v. apply Rle_trans with (eta * bpow radix2 (- SpecFloat.emin prec emax)).
        - apply Rmult_le_compat_r; [apply bpow_ge_0|exact H].
        - unfold underflow_unit, SpecFloat.emin. rewrite <- bpow_plus.
          replace (2 - emax - prec + - (3 - emax - prec))%Z with (-1)%Z by ring. simpl. lra. }
      assert (FL : Zfloor v = 0%Z) by (apply Zfloor_imp; simpl; lra).
      unfold Znearest. rewrite FL. rewrite Rminus_0_r.
      destruct (Rcompare_spec v (/ 2)) as [L|L|L]; [reflexivity|reflexivity|lra]. }
  rewrite Z, Rabs_R0, Rlt_bool_true in C by apply bpow_gt_0.
  destruct C as (E & F' & _). rewrite F in F'. unfold fl_mul.
  destruct (Bmult mode_NE x x) as [s|s| |s m e B]; try discriminate; [eauto|].
  exfalso. clear - E. simpl in E. destruct s.
  - pose proof (F2R_lt_0 radix2 {| Fnum := Z.neg m; Fexp := e |}) as L. simpl in *. rewrite E in L. lra || (specialize (L eq_refl); lra).
  - pose proof (F2R_gt_0 radix2 {| Fnum := Z.pos m; Fexp := e |}) as L. simpl in *. rewrite E in L. specialize (L eq_refl). lra.
Qed.

(** ** Accuracy of the squared norm and of its square root *)
Definition fl_norm2 (a b : fl) : fl := fl_add prec emax (fl_mul prec emax a a) (fl_mul prec emax b b).

Lemma norm2_error a b : is_finite (fl_norm2 a b) = true ->
  let N := B2R a * B2R a + B2R b * B2R b in
  is_finite a = true /\ is_finite b = true
  /\ Rabs (B2R (fl_norm2 a b) - N) <= ((1 + u) ^ 2 - 1) * N + 2 * (1 + u) * eta.
Proof.
  intros F N. pose proof (u_pos prec) as Hu. pose proof (eta_pos prec emax) as Ht. unfold fl_norm2 in *.
  destruct (add_model prec emax _ _ F) as (F1 & F2 & d & Hd & E).
  pose proof (one_product prec emax a a F1) as E1.
  destruct (mul_model prec emax _ _ F1) as (Fa & _ & _).
  destruct (mul_model prec emax _ _ F2) as (Fb & _ & e & h & He' & Hh & E2).
  split; [exact Fa|]. split; [exact Fb|]. rewrite E, E2. set (sh := B2R (fl_mul prec emax a a)) in *.
  rewrite <- Rabs_mult, !Rplus_0_l in E1. rewrite (Rabs_pos_eq (B2R a * B2R a)) in E1 by nra.
  simpl in E1.
  eapply Rle_trans.
  - apply (dot_step prec emax (B2R a * B2R a) sh (B2R b * B2R b) e h d (B2R a * B2R a) (1 + u) eta); auto; try lra.
    rewrite Rabs_pos_eq by nra. lra.
  - rewrite (Rabs_pos_eq (B2R b * B2R b)) by nra. fold N. simpl. lra.
Qed.

Lemma norm2_nonneg a b : is_finite (fl_norm2 a b) = true -> 0 <= B2R (fl_norm2 a b).
Proof.
  intros F. unfold fl_norm2 in *. destruct (add_model prec emax _ _ F) as (F1 & F2 & _).
  destruct (mul_model prec emax _ _ F1) as (Fa & _ & _). destruct (mul_model prec emax _ _ F2) as (Fb & _ & _).
  assert (P : forall x : fl, is_finite x = true -> is_finite (fl_mul prec emax x x) = true -> 0 <= B2R (fl_mul prec emax x x)).
  { intros x Fx Fm. destruct (mul_square_sign x Fx) as [(s & ->)|[(m & e & B & ->)|Q]].
    - simpl. lra.
    - apply F2R_ge_0. simpl. lia.
    - rewrite Q in Fm. discriminate. }
  pose proof (P a Fa F1). pose proof (P b Fb F2).
  pose proof (Bplus_correct prec emax Hp He mode_NE _ _ F1 F2) as C. destruct (Rlt_bool _ _).
  - destruct C as (E & _). unfold fl_add. rewrite E.
    apply round_ge_generic; try apply valid_rnd_round_mode; [apply fexp_correct; exact Hp|apply generic_format_0|lra].
  - destruct C as (C & _). apply overflow_not_finite in C; [|reflexivity]. unfold fl_add in F. congruence.
Qed.

Lemma norm2_finite a b : is_finite a = true -> is_finite b = true ->
  let N := B2R a * B2R a + B2R b * B2R b in
  2 * eta <= u * N -> (1 + u) ^ 3 * N < big -> is_finite (fl_norm2 a b) = true.
Proof.
  intros Fa Fb N HN HB. pose proof (u_pos prec) as Hu. pose proof (eta_pos prec emax) as Ht.
  assert (N0 : 0 <= N) by (unfold N; nra).
  assert (E3 : (1 + u) ^ 3 * N = (1 + u) * N + ((1 + u) * u * N) + (1 + u) * (1 + u) * (u * N)) by ring.
  assert (P1 : 0 <= u * N) by nra. assert (P2 : 0 <= (1 + u) * u * N) by nra.
  assert (P3 : u * N <= (1 + u) * (1 + u) * (u * N)) by nra.
  assert (M : forall x : fl, is_finite x = true -> B2R x * B2R x <= N -> is_finite (fl_mul prec emax x x) = true
              /\ Rabs (B2R (fl_mul prec emax x x)) <= (1 + u) * (B2R x * B2R x) + eta).
  { intros x Fx Hx. assert (0 <= B2R x * B2R x) by nra.
    assert (F : is_finite (fl_mul prec emax x x) = true).
    { apply mul_finite; auto. rewrite Rabs_pos_eq by nra. unfold too_big.
      assert ((1 + u) * (B2R x * B2R x) <= (1 + u) * N) by (apply Rmult_le_compat_l; lra). lra. }
    split; [exact F|]. destruct (mul_model prec emax _ _ F) as (_ & _ & e & h & He' & Hh & ->).
    eapply Rle_trans; [apply Rabs_triang|]. apply Rplus_le_compat; [|exact Hh]. rewrite Rabs_mult.
    rewrite (Rabs_pos_eq (B2R x * B2R x)) by nra.
    assert (Rabs (1 + e) <= 1 + u) by (eapply Rle_trans; [apply Rabs_triang|]; rewrite Rabs_R1; lra). nra. }
  destruct (M a Fa) as [F1 B1]; [unfold N; nra|]. destruct (M b Fb) as [F2 B2]; [unfold N; nra|].
  apply add_finite; auto. unfold too_big.
  eapply Rle_lt_trans; [|exact HB].
  eapply Rle_trans; [apply Rmult_le_compat_l; [lra|apply Rabs_triang]|].
  eapply Rle_trans; [apply Rmult_le_compat_l; [lra|apply Rplus_le_compat; [exact B1|exact B2]]|].
  replace ((1 + u) * (B2R a * B2R a) + eta + ((1 + u) * (B2R b * B2R b) + eta)) with ((1 + u) * N + 2 * eta) by (unfold N; ring).
  assert ((1 + u) * (2 * eta) <= (1 + u) * (u * N)) by (apply Rmult_le_compat_l; lra).
  assert (0 <= (1 + u) * u * (u * N)) by (apply Rmult_le_pos; nra).
  replace ((1 + u) ^ 3 * N) with ((1 + u) * ((1 + u) * N) + (1 + u) * (u * N) + (1 + u) * u * (u * N)) by ring.
  lra.
Qed.

Lemma sqrt_one_plus t : 0 <= 1 + t -> Rabs (sqrt (1 + t) - 1) <= Rabs t.
Proof.
  intros H. pose proof (sqrt_pos (1 + t)) as P. pose proof (sqrt_sqrt _ H) as S.
  set (s := sqrt (1 + t)) in *. assert (E : t = (s - 1) * (s + 1)) by lra. rewrite E, Rabs_mult.
  rewrite (Rabs_pos_eq (s + 1)) by lra. pose proof (Rabs_pos (s - 1)). nra.
Qed.

Lemma sqrt_rel (n : fl) : is_finite n = true -> 0 <= B2R n ->
  is_finite (Bsqrt mode_NE n) = true /\
  exists e, Rabs e <= u /\ B2R (Bsqrt mode_NE n) = sqrt (B2R n) * (1 + e).
Proof.
  intros F H0. destruct (Bsqrt_correct prec emax Hp He mode_NE n) as (E & Fs & _).
  split.
  { rewrite Fs. destruct n as [s|s| |s m e B]; try discriminate; [reflexivity|]. destruct s; [|reflexivity].
    exfalso. simpl in H0. pose proof (F2R_lt_0 radix2 {| Fnum := Z.neg m; Fexp := e |} eq_refl). lra. }
  rewrite E. destruct (Req_dec (B2R n) 0) as [Z|NZ].
  - exists 0. rewrite Z, sqrt_0, round_0, Rabs_R0 by apply valid_rnd_round_mode. pose proof (u_pos prec). split; lra.
  - assert (L : bpow radix2 (SpecFloat.emin prec emax) <= B2R n).
    { destruct n as [s|s| |s m e B]; simpl in *; try lra. destruct s.
      - exfalso. simpl in H0. pose proof (F2R_lt_0 radix2 {| Fnum := Z.neg m; Fexp := e |} eq_refl). lra.
      - apply Rle_trans with (bpow radix2 e).
        + apply bpow_le. pose proof B as B'. unfold SpecFloat.bounded in B'. apply andb_prop in B' as [B' _].
          apply Zeq_bool_eq in B'. unfold SpecFloat.fexp in B'. lia.
        + unfold F2R. simpl. pose proof (bpow_gt_0 radix2 e). assert (1 <= IZR (Z.pos m)) by (apply IZR_le; lia). nra. }
    assert (S : bpow radix2 (SpecFloat.emin prec emax + prec - 1) <= Rabs (sqrt (B2R n))).
    { rewrite Rabs_pos_eq by apply sqrt_pos.
      rewrite <- (sqrt_square (bpow radix2 (SpecFloat.emin prec emax + prec - 1))) by apply bpow_ge_0.
      apply sqrt_le_1_alt. eapply Rle_trans; [|exact L]. rewrite <- bpow_plus. apply bpow_le.
      unfold SpecFloat.emin. pose proof He as Q. unfold Prec_lt_emax in Q. lia. }
    destruct (relative_error_N_FLT_ex radix2 (SpecFloat.emin prec emax) prec Hp (fun z => negb (Z.even z)) _ S) as (e & He' & Er).
    exists e. split; [|exact Er]. rewrite <- u_ro_eq. exact He'.
Qed.

Lemma abs_accurate a b : is_finite (fl_norm2 a b) = true ->
  let N := B2R a * B2R a + B2R b * B2R b in
  2 * eta <= u * N ->
  is_finite (Bsqrt mode_NE (fl_norm2 a b)) = true
  /\ Rabs (B2R (Bsqrt mode_NE (fl_norm2 a b)) - sqrt N) <= ((1 + u) ^ 4 - 1) * sqrt N.
Proof.
  intros F N HN. pose proof (u_pos prec) as Hu. pose proof (eta_pos prec emax) as Ht.
  destruct (norm2_error a b F) as (_ & _ & En). fold N in En. pose proof (norm2_nonneg a b F) as P.
  destruct (sqrt_rel _ F P) as (Fs & e & He' & Es). split; [exact Fs|].
  set (n := B2R (fl_norm2 a b)) in *. rewrite Es.
  assert (N0 : 0 < N) by nra.
  set (t := (n - N) / N).
  assert (T : n = N * (1 + t)) by (unfold t; field; lra).
  assert (Bt : Rabs t <= (1 + u) ^ 3 - 1).
  { unfold t. unfold Rdiv. rewrite Rabs_mult, (Rabs_pos_eq (/ N)) by (apply Rlt_le, Rinv_0_lt_compat, N0).
    apply Rmult_le_reg_r with N; [exact N0|]. rewrite Rmult_assoc, Rinv_l, Rmult_1_r by lra.
    eapply Rle_trans; [exact En|].
    assert ((1 + u) * (2 * eta) <= (1 + u) * (u * N)) by (apply Rmult_le_compat_l; lra).
    assert (0 <= u * u * N) by (apply Rmult_le_pos; nra). assert (0 <= u * (u * u * N)) by nra.
    replace (((1 + u) ^ 3 - 1) * N) with (((1 + u) ^ 2 - 1) * N + (1 + u) * (u * N) + (u * u * N + u * (u * u * N))) by ring.
    lra. }
  assert (P1 : 0 <= 1 + t).
  { apply Rmult_le_reg_l with N; [exact N0|]. rewrite Rmult_0_r, <- T. exact P. }
  rewrite T, sqrt_mult by lra. set (S := sqrt N). assert (S0 : 0 <= S) by apply sqrt_pos.
  replace (S * sqrt (1 + t) * (1 + e) - S) with (S * ((sqrt (1 + t) - 1) * (1 + e) + e)) by ring.
  rewrite Rabs_mult, (Rabs_pos_eq S), Rmult_comm by exact S0. apply Rmult_le_compat_r; [exact S0|].
  eapply Rle_trans; [apply Rabs_triang|]. rewrite Rabs_mult.
  pose proof (sqrt_one_plus t P1) as Q.
  assert (R1 : Rabs (1 + e) <= 1 + u) by (eapply Rle_trans; [apply Rabs_triang|]; rewrite Rabs_R1; lra).
  assert (Rabs (sqrt (1 + t) - 1) * Rabs (1 + e) <= ((1 + u) ^ 3 - 1) * (1 + u))
    by (apply Rmult_le_compat; try apply Rabs_pos; lra).
  replace ((1 + u) ^ 4 - 1) with (((1 + u) ^ 3 - 1) * (1 + u) + u) by ring. lra.
Qed.
End Fmt.
