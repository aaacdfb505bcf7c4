(** Normwise error of complex float division when only an upper bound of the numerator is known (for C108). *)
From Coq Require Import List ZArith Reals Bool Lia Lra Psatz.
From Flocq Require Import Core.Core IEEE754.BinarySingleNaN.
From Verif Require Import Base.Outcome Model.Traits Model.Float Model.Complex Spec.Ring Spec.Complex Spec.FloatErr Spec.ComplexErr
  Proofs.FloatErr Proofs.FloatRound Proofs.FloatRange Proofs.FloatComm Proofs.ComplexErr Props.ComplexErrProps Props.TrigTestProps Proofs.ComplexUndo.
Local Open Scope R_scope.

Section Fmt.
Context (prec emax : Z) {Hp : Prec_gt_0 prec} {He : Prec_lt_emax prec emax} (libm : FunOps (binary_float prec emax)).
Notation fl := (binary_float prec emax).
Notation FF := (float_field prec emax).
Notation FR := (float_ring prec emax).
Notation FE := (float_fun prec emax libm).
Notation u := (unit_roundoff prec).
Notation eta := (underflow_unit prec emax).
Notation rnd := (round radix2 (SpecFloat.fexp prec emax) (round_mode mode_NE)).
Notation add := (fl_add prec emax). Notation sub := (fl_sub prec emax).
Notation mul := (fl_mul prec emax). Notation div := (fl_div prec emax).
Notation hi := (half_big emax).
Context (Hprec : (24 <= prec)%Z) (k : Z) (Hk0 : (0 <= k)%Z) (Hk : (4 * k + 26 <= emax)%Z).

Notation mid := (mid k).
Notation u_range := (u_range prec Hprec). Notation norm_sized := (norm_sized prec emax Hprec k Hk). Notation mid_hi := (mid_hi emax k Hk).
Notation mid_eta := (mid_eta prec emax Hprec k Hk). Notation mid_pos := (mid_pos k). Notation rnd_err := (rnd_err prec emax).
Notation two_products := (two_products prec emax Hprec k Hk). Notation add_f := (add_f prec emax). Notation sub_f := (sub_f prec emax). Notation eta_pos := (eta_pos prec emax).
Lemma div_below (z w : complex fl) Z : cfinite z -> cfinite w -> cnorm (cval z) <= Z ->
  let W := cnorm (cval w) in
  mid (W * W) -> mid (Z * W) -> mid (/ (W * W)) -> mid (Z * / W) -> 0 < W -> 0 < Z ->
  exists q, complex_div FF z w = Ok q /\ cfinite q
  /\ cnorm (csub (cmul (cval q) (cval w)) (cval z)) <= 632 / 100 * u * Z.
Proof.
  intros [Fa Fb] [Fc Fd] HZ W MWW MZW MI MQ W0 Z0. pose proof u_range as U.
  destruct (norm_sized w (conj Fc Fd) MWW) as [Fn En]. fold W in En. set (n := fl_norm2 prec emax (re w) (im w)) in *.
  assert (WW : 0 < W * W) by (apply Rmult_lt_0_compat; lra). assert (uWW : u * (W * W) <= / 16777216 * (W * W)) by (apply Rmult_le_compat_r; lra).
  apply Rabs_le_inv in En. assert (n0 : 0 < B2R n) by lra.
  set (a := re z) in *. set (b := im z) in *. set (c := re w) in *. set (d := im w) in *.
  assert (One : is_finite (fl_int prec emax 1) = true /\ B2R (fl_int prec emax 1) = 1).
  { apply (small_int prec emax Hprec 1). lia. }
  destruct One as [F1 V1].
  (* reciprocal *)
  set (I := / (W * W)) in *. assert (I0 : 0 < I) by (apply Rinv_0_lt_compat; exact WW).
  assert (RI : Rabs (/ B2R n - I) <= 20003 / 10000 * u * I).
  { replace (/ B2R n - I) with ((W * W - B2R n) * (I * / B2R n)) by (unfold I; field; split; apply Rgt_not_eq; lra).
    rewrite Rabs_mult. rewrite (Rabs_pos_eq (I * / B2R n)) by (apply Rmult_le_pos; [lra|left; apply Rinv_0_lt_compat; exact n0]).
    apply Rle_trans with (20001 / 10000 * u * (W * W) * (I * / B2R n)).
    - apply Rmult_le_compat_r; [apply Rmult_le_pos; [lra|left; apply Rinv_0_lt_compat; exact n0]|]. apply Rabs_le. lra.
    - replace (20001 / 10000 * u * (W * W) * (I * / B2R n)) with (u * I * (20001 / 10000 * (W * W * / B2R n))) by ring.
      replace (20003 / 10000 * u * I) with (u * I * (20003 / 10000)) by ring. apply Rmult_le_compat_l; [apply Rmult_le_pos; lra|].
      assert (W * W * / B2R n <= 20003 / 20001); [|lra]. apply Rmult_le_reg_r with (B2R n); [exact n0|]. rewrite Rmult_assoc, Rinv_l, Rmult_1_r by lra. lra. }
  apply Rabs_le_inv in RI. assert (uI : u * I <= / 16777216 * I) by (apply Rmult_le_compat_r; lra). assert (uI0 : 0 < u * I) by (apply Rmult_lt_0_compat; lra).
  pose proof (mid_hi _ MI) as HI. pose proof (mid_eta _ MI) as EI. fold I in HI, EI.
  destruct (div_round prec emax (fl_int prec emax 1) n F1 (Rgt_not_eq _ _ n0)) as [Fr Vr].
  { rewrite V1. unfold Rdiv. rewrite Rmult_1_l, Rabs_pos_eq by lra. lra. }
  rewrite V1 in Vr. unfold Rdiv in Vr. rewrite Rmult_1_l in Vr. set (r := div (fl_int prec emax 1) n) in *.
  pose proof (rnd_err (/ B2R n)) as Rr. rewrite <- Vr in Rr. rewrite (Rabs_pos_eq (/ B2R n)) in Rr by lra.
  assert (RR : Rabs (B2R r - I) <= 3001 / 1000 * u * I).
  { replace (B2R r - I) with ((B2R r - / B2R n) + (/ B2R n - I)) by ring. eapply Rle_trans; [apply Rabs_triang|].
    assert (u * / B2R n <= u * (10001 / 10000 * I)) by (apply Rmult_le_compat_l; lra). apply Rabs_le in RI. lra. }
  pose proof (Rabs_le_inv _ _ RR) as RR'.
  (* numerator *)
  set (M := Z * W) in *. pose proof (mid_pos _ MZW) as M0. fold M in M0. assert (ZWM : cnorm (cval z) * W <= M) by (apply Rmult_le_compat_r; [lra|exact HZ]).
  assert (uM0 : 0 < u * M) by (apply Rmult_lt_0_compat; lra). assert (uM : u * M <= / 16777216 * M) by (apply Rmult_le_compat_r; lra).
  destruct (two_products a c b d 1 add M add_f) as [Fp1 E1]; try assumption; [left; reflexivity|eapply Rle_trans; [apply cauchy_abs|exact ZWM]|].
  destruct (two_products b c a d (-1) sub M sub_f) as [Fp2 E2]; try assumption; [right; reflexivity|eapply Rle_trans; [|exact ZWM]; unfold cval; fold a b; rewrite <- (cnorm_swap (B2R a)); apply cauchy_abs|].
  set (p1 := add (mul a c) (mul b d)) in *. set (p2 := sub (mul b c) (mul a d)) in *.
  set (P := cmul (cval z) (cconj (cval w))).
  assert (EP : P = (B2R a * B2R c + 1 * (B2R b * B2R d), B2R b * B2R c + -1 * (B2R a * B2R d))).
  { unfold P, cmul, cconj, cval. cbn [fst snd]. fold a b c d. f_equal; ring. }
  assert (NP : cnorm P <= M) by (unfold P; rewrite cnorm_mul, cnorm_conj; exact ZWM).
  assert (DP : cnorm (csub (B2R p1, B2R p2) P) <= 231 / 100 * u * M).
  { assert (V : cval (Cx c (Bopp d)) = cconj (cval w)).
    { unfold cval, cconj. cbn [re im fst snd]. fold c d. rewrite B2R_Bopp. reflexivity. }
    destruct (mul_below prec emax Hprec k Hk z (Cx c (Bopp d)) M) as (p & Ep & _ & Hpp); [split; assumption|split; cbn [re im]; [exact Fc|rewrite is_finite_Bopp; exact Fd]|exact MZW|rewrite V, cnorm_conj; exact ZWM|].
    rewrite V in Hpp. fold P in Hpp.
    assert (Q : p = Cx p1 p2).
    { change (complex_mul FR z (Cx c (Bopp d))) with (Ok (Cx (sub (mul a c) (mul b (Bopp d))) (add (mul a (Bopp d)) (mul b c)))) in Ep. injection Ep as <-.
      rewrite !fl_mul_opp_r, (fl_add_comm _ _ (Bopp (mul a d))), <- fl_sub_def, fl_sub_def, fl_opp_opp. reflexivity. }
    rewrite Q in Hpp. exact Hpp. }
  (* scaled numerator *)
  assert (r0 : 0 <= B2R r) by lra.
  set (S := cscale (B2R r) (B2R p1, B2R p2)).
  assert (NQ : M * I = Z * / W). { unfold M, I. field. apply Rgt_not_eq; lra. }
  pose proof (mid_pos _ MQ) as Q0. pose proof (mid_eta _ MQ) as EQ. pose proof (mid_hi _ MQ) as HQ. rewrite <- NQ in Q0, EQ, HQ. set (Q := M * I) in *.
  assert (uQ0 : 0 < u * Q) by (apply Rmult_lt_0_compat; lra). assert (uQ : u * Q <= / 16777216 * Q) by (apply Rmult_le_compat_r; lra).
  assert (DS : cnorm (csub S (cscale I P)) <= 53112 / 10000 * u * Q).
  { eapply Rle_trans; [apply (csub_triangle _ (cscale (B2R r) P))|].
    replace (csub S (cscale (B2R r) P)) with (cscale (B2R r) (csub (B2R p1, B2R p2) P)) by (unfold S, csub, cscale; cbn [fst snd]; f_equal; ring).
    rewrite cnorm_scale by exact r0.
    assert (D2 : cnorm (csub (cscale (B2R r) P) (cscale I P)) <= 3001 / 1000 * u * I * M).
    { eapply Rle_trans; [apply (cnorm_mono _ (cscale (3001 / 1000 * u * I) (Rabs (fst P), Rabs (snd P)))); unfold csub, cscale; cbn [fst snd]|].
      - replace (B2R r * fst P - I * fst P) with ((B2R r - I) * fst P) by ring. rewrite Rabs_mult. apply Rmult_le_compat_r; [apply Rabs_pos|exact RR].
      - replace (B2R r * snd P - I * snd P) with ((B2R r - I) * snd P) by ring. rewrite Rabs_mult. apply Rmult_le_compat_r; [apply Rabs_pos|exact RR].
      - rewrite cnorm_scale by lra. rewrite cnorm_abs, <- surjective_pairing. assert (u * I * cnorm P <= u * I * M) by (apply Rmult_le_compat_l; lra). replace (3001 / 1000 * u * I * cnorm P) with (3001 / 1000 * (u * I * cnorm P)) by ring. replace (3001 / 1000 * u * I * M) with (3001 / 1000 * (u * I * M)) by ring. lra. }
    assert (D1 : B2R r * cnorm (csub (B2R p1, B2R p2) P) <= (1 + / 1000000) * I * (231 / 100 * u * M)).
    { apply Rmult_le_compat; [exact r0|apply cnorm_nonneg|lra|exact DP]. }
    replace ((1 + / 1000000) * I * (231 / 100 * u * M)) with ((1 + / 1000000) * (231 / 100) * (u * Q)) in D1 by (unfold Q; ring).
    replace (3001 / 1000 * u * I * M) with (3001 / 1000 * (u * Q)) in D2 by (unfold Q; ring). lra. }
  assert (NS : cnorm S <= 100001 / 100000 * Q).
  { eapply Rle_trans; [apply (cnorm_le_diff _ (cscale I P))|]. rewrite cnorm_scale by lra. assert (I * cnorm P <= I * M) by (apply Rmult_le_compat_l; lra). replace (I * M) with Q in * by (unfold Q; ring). lra. }
  destruct (abs_le_norm (fst S) (snd S)) as [NS1 NS2]. rewrite <- surjective_pairing in NS1, NS2. unfold S in NS1, NS2. cbn [cscale fst snd] in NS1, NS2. fold S in NS1, NS2.
  destruct (mul_round prec emax p1 r Fp1 Fr) as [Fq1 Vq1]; [rewrite Rmult_comm; lra|]. destruct (mul_round prec emax p2 r Fp2 Fr) as [Fq2 Vq2]; [rewrite Rmult_comm; lra|].
  exists (Cx (mul p1 r) (mul p2 r)). split; [reflexivity|]. split; [split; assumption|].
  assert (DQ : cnorm (csub (B2R (mul p1 r), B2R (mul p2 r)) (cscale I P)) <= 6312 / 1000 * u * Q).
  { eapply Rle_trans; [apply (csub_triangle _ S)|]. rewrite Vq1, Vq2. replace S with (B2R p1 * B2R r, B2R p2 * B2R r) by (unfold S, cscale; cbn [fst snd]; f_equal; ring).
    assert (D3 : cnorm (csub (rnd (B2R p1 * B2R r), rnd (B2R p2 * B2R r)) (B2R p1 * B2R r, B2R p2 * B2R r)) <= u * cnorm (B2R p1 * B2R r, B2R p2 * B2R r) + 3 / 2 * eta).
    { apply cnorm_perturb; [lra|left; apply eta_pos|apply rnd_err|apply rnd_err]. }
    replace (B2R p1 * B2R r, B2R p2 * B2R r) with S in D3 |- * by (unfold S, cscale; cbn [fst snd]; f_equal; ring).
    assert (u * cnorm S <= u * (100001 / 100000 * Q)) by (apply Rmult_le_compat_l; lra). lra. }
  change (cval {| re := mul p1 r; im := mul p2 r |}) with (B2R (mul p1 r), B2R (mul p2 r)). set (q := (B2R (mul p1 r), B2R (mul p2 r))) in *.
  assert (EZ : cmul (cscale I P) (cval w) = cval z).
  { rewrite cscale_mul. unfold P. rewrite cmul_assoc. assert (CW : cmul (cconj (cval w)) (cval w) = (W * W, 0)).
    { unfold W. rewrite cnorm_sq. unfold cmul, cconj. cbn [fst snd]. f_equal; ring. }
    rewrite CW. unfold cscale, cmul. cbn [fst snd]. apply injective_projections; cbn [fst snd]; unfold I; field; apply Rgt_not_eq; lra. }
  rewrite <- EZ at 1. rewrite csub_mul, cnorm_mul. fold W.
  apply Rle_trans with (6312 / 1000 * u * Q * W); [apply Rmult_le_compat_r; [lra|exact DQ]|].
  replace (6312 / 1000 * u * Q * W) with (6312 / 1000 * (u * Z)); [assert (0 < u * Z) by (apply Rmult_lt_0_compat; lra); lra|].
  unfold Q, M, I. field. apply Rgt_not_eq; lra.
Qed.
End Fmt.
