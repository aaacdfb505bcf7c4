(** Property C111: the laws of square roots for Complex<f32> and Complex<f64>, up to rounding and, where the principal
    branch demands it, up to sign: (sqrt z)^2 = z, sqrt(z^2) = +-z, sqrt(zw) = +-sqrt z sqrt w, sqrt(z/w) = +-sqrt z / sqrt w,
    |sqrt z| = sqrt |z|. *)
From Coq Require Import List ZArith Reals Bool Lia Lra Psatz.
From Flocq Require Import Core.Core IEEE754.BinarySingleNaN.
From Verif Require Import Base.Outcome Model.Traits Model.Float Model.Complex Spec.FloatErr Spec.ComplexErr
  Proofs.FloatErr Proofs.FloatRound Proofs.FloatRange Proofs.ComplexErr Props.ComplexErrProps Props.FloatProps Props.FloatSqrtProps Props.SqrtAnyProps
  Props.TrigTestProps Proofs.ComplexUndo Props.ComplexUndoProps.
Local Open Scope R_scope.

(** [s] times the complex number z, for a sign s. *)
Definition signed (s : R) (z : cplx) : cplx := (s * fst z, s * snd z).
Definition is_sign (s : R) : Prop := s = 1 \/ s = -1.

Lemma signed_norm s z : is_sign s -> cnorm (signed s z) = cnorm z.
Proof. intros [-> | ->]; unfold cnorm, signed; cbn [fst snd]; f_equal; ring. Qed.
Lemma signed_sub s z w : csub (signed s z) (signed s w) = signed s (csub z w).
Proof. unfold csub, signed. cbn [fst snd]. f_equal; ring. Qed.
Lemma signed_mul s z w : cmul (signed s z) w = signed s (cmul z w).
Proof. unfold cmul, signed. cbn [fst snd]. f_equal; ring. Qed.

(** Numbers whose squares are close are close up to sign. *)
Lemma close_squares (p r : cplx) e : cnorm (csub (cmul p p) (cmul r r)) <= e * (cnorm r * cnorm r) ->
  0 < cnorm r -> exists s, is_sign s /\ cnorm (csub p (signed s r)) <= e * cnorm r.
Proof.
  intros H R0. replace (csub (cmul p p) (cmul r r)) with (cmul (csub p r) (cadd p r)) in H by (unfold cmul, csub, cadd; cbn [fst snd]; f_equal; ring).
  rewrite cnorm_mul in H.
  assert (A1 : csub p (signed 1 r) = csub p r) by (unfold csub, signed; cbn [fst snd]; f_equal; ring).
  assert (A2 : csub p (signed (-1) r) = cadd p r) by (unfold csub, cadd, signed; cbn [fst snd]; f_equal; ring).
  assert (PL : cnorm (csub p r) * cnorm (csub p r) + cnorm (cadd p r) * cnorm (cadd p r) = 2 * (cnorm p * cnorm p) + 2 * (cnorm r * cnorm r)).
  { rewrite !cnorm_sq. unfold csub, cadd. cbn [fst snd]. ring. }
  pose proof (cnorm_nonneg (csub p r)) as X0. pose proof (cnorm_nonneg (cadd p r)) as Y0. pose proof (cnorm_nonneg p) as P0.
  set (x := cnorm (csub p r)) in *. set (y := cnorm (cadd p r)) in *. set (c := cnorm r) in *.
  assert (PP : 0 <= cnorm p * cnorm p) by (apply Rmult_le_pos; lra).
  destruct (Rle_or_lt c y) as [C|C].
  - exists 1. split; [left; reflexivity|]. rewrite A1. fold x. apply Rmult_le_reg_r with c; [exact R0|].
    assert (x * c <= x * y) by (apply Rmult_le_compat_l; lra). lra.
  - exists (-1). split; [right; reflexivity|]. rewrite A2. fold y. assert (D : c <= x).
    { apply Rnot_lt_le. intros D. assert (x * x <= c * c) by (apply Rmult_le_compat; lra). assert (y * y < c * c) by (apply Rmult_le_0_lt_compat; lra).
      lra. }
    apply Rmult_le_reg_r with c; [exact R0|]. assert (y * c <= y * x) by (apply Rmult_le_compat_l; lra). lra.
Qed.

Section Fmt.
Context (prec emax : Z) {Hp : Prec_gt_0 prec} {He : Prec_lt_emax prec emax} (libm : FunOps (binary_float prec emax)).
Notation fl := (binary_float prec emax).
Notation FF := (float_field prec emax).
Notation FR := (float_ring prec emax).
Notation FE := (float_fun prec emax libm).
Notation u := (unit_roundoff prec).
Context (Hprec : (24 <= prec)%Z) (k : Z) (Hk0 : (0 <= k)%Z) (Hk : (4 * k + 26 <= emax)%Z).
Notation mid := (mid k).
Notation win := (win k).

(** The computed root [s] with the exact principal root [r]. *)
Lemma root_of (z : complex fl) : cfinite z -> win 2 2 (cnorm (cval z)) ->
  exists s r, complex_sqrt FF FE z = Ok s /\ cfinite s /\ cmul r r = cval z /\ 0 <= fst r /\ 0 < cnorm r
    /\ cnorm r * cnorm r = cnorm (cval z) /\ cnorm r = sqrt (cnorm (cval z))
    /\ cnorm (csub (cval s) r) <= 121 / 10 * u * cnorm r.
Proof.
  intros Fz W. assert (Z0 : 0 < cnorm (cval z)) by (apply (win_pos k 2 2); [lra|exact W]).
  destruct (C72_sqrt_normwise prec emax libm (2 * k + 1) z) as (s & p & q & Es & (A & B & P & _) & Fs & H & N); try lia; try assumption.
  { destruct W as [W1 W2]. replace (- (2 * k + 1))%Z with (- (1) + - (2 * k))%Z by lia. replace (2 * k + 1)%Z with (1 + 2 * k)%Z by lia. rewrite !bpow_plus.
    change (bpow radix2 (- (1))) with (/ 2). change (bpow radix2 1) with 2. split; assumption. }
  exists s, (p, q). split; [exact Es|]. split; [exact Fs|]. split; [|split; [exact P|]].
  - unfold cmul, cval. cbn [fst snd]. f_equal; [exact A|rewrite <- B; ring].
  - rewrite N in H |- *. split; [apply sqrt_lt_R0, Z0|]. split; [apply sqrt_sqrt; lra|]. split; [reflexivity|exact H].
Qed.

Lemma win_weaken c n x : 1 <= c <= 2 -> (0 <= n <= 2)%Z -> win c n x -> win 2 2 x.
Proof.
  intros Hc Hn [A B]. assert (M : bpow radix2 (- (2 * k)) <= bpow radix2 (- (n * k))) by (apply bpow_le; nia). assert (M' : bpow radix2 (n * k) <= bpow radix2 (2 * k)) by (apply bpow_le; nia).
  pose proof (bpow_gt_0 radix2 (- (2 * k))). pose proof (bpow_gt_0 radix2 (n * k)). split.
  - eapply Rle_trans; [|exact A]. apply Rmult_le_compat; [lra|lra|apply Rinv_le; lra|exact M].
  - eapply Rle_trans; [exact B|]. apply Rmult_le_compat; lra.
Qed.
Lemma sized_22 (z : complex fl) : sized k z -> win 2 2 (cnorm (cval z)).
Proof. intros S. apply (win_weaken 1 1); [lra|lia|]. apply win_sized, S. Qed.
Lemma sized_pos (z : complex fl) : sized k z -> 0 < cnorm (cval z).
Proof. intros S. apply (win_pos k 1 1); [lra|]. apply win_sized, S. Qed.
Lemma root_win (z : complex fl) : sized k z -> win 1 1 (sqrt (cnorm (cval z))).
Proof.
  intros S. pose proof (sized_pos z S) as Z0. apply win_sized in S. destruct S as [A B]. unfold ComplexUndoProps.win in *. rewrite Rinv_1, Rmult_1_l, Z.mul_1_l in *.
  set (x := cnorm (cval z)) in *. pose proof (sqrt_lt_R0 x Z0) as S0. pose proof (sqrt_sqrt x ltac:(lra)) as SS.
  assert (L : bpow radix2 (- k) <= 1) by (change 1 with (bpow radix2 0); apply bpow_le; lia). assert (U : 1 <= bpow radix2 k) by (change 1 with (bpow radix2 0); apply bpow_le; lia).
  pose proof (bpow_gt_0 radix2 (- k)) as P. set (y := sqrt x) in *. split; apply Rnot_lt_le; intros C.
  - assert (y * y <= y * 1) by (apply Rmult_le_compat_l; lra). lra.
  - assert (y * 1 <= y * y) by (apply Rmult_le_compat_l; lra). lra.
Qed.

Lemma u_tiny : 0 < u <= / 16777216. Proof. apply (u_range prec Hprec). Qed.

(** |s t - a b| for s near a and t near b. *)
Lemma product_close (s t a b : cplx) e : 0 <= e <= 20 * u -> cnorm (csub s a) <= e * cnorm a -> cnorm (csub t b) <= e * cnorm b ->
  cnorm (csub (cmul s t) (cmul a b)) <= (2 * e + / 1000 * u) * (cnorm a * cnorm b) /\ cnorm s * cnorm t <= (1 + / 1000) * (cnorm a * cnorm b).
Proof.
  intros He' HA HB. pose proof u_tiny as U. pose proof (cnorm_nonneg a) as A0. pose proof (cnorm_nonneg b) as B0.
  assert (S1 : cnorm s <= (1 + e) * cnorm a) by (pose proof (cnorm_le_diff s a); lra). assert (T1 : cnorm t <= (1 + e) * cnorm b) by (pose proof (cnorm_le_diff t b); lra).
  pose proof (cnorm_nonneg s) as S0. pose proof (cnorm_nonneg t) as T0. set (P := cnorm a * cnorm b) in *. assert (P0 : 0 <= P) by (apply Rmult_le_pos; assumption).
  assert (ee : 0 <= e * e <= / 10000 * u). { split; [apply Rmult_le_pos; lra|]. apply Rle_trans with (20 * u * (20 * u)); [apply Rmult_le_compat; lra|]. assert (u * u <= / 16777216 * u) by (apply Rmult_le_compat_r; lra). lra. }
  split.
  - eapply Rle_trans; [apply (csub_triangle _ (cmul s b))|].
    replace (csub (cmul s t) (cmul s b)) with (cmul s (csub t b)) by (unfold cmul, csub; cbn [fst snd]; f_equal; ring). rewrite csub_mul, !cnorm_mul.
    assert (H1 : cnorm s * cnorm (csub t b) <= (1 + e) * cnorm a * (e * cnorm b)) by (apply Rmult_le_compat; auto using cnorm_nonneg).
    assert (H2 : cnorm (csub s a) * cnorm b <= e * cnorm a * cnorm b) by (apply Rmult_le_compat_r; lra).
    replace ((1 + e) * cnorm a * (e * cnorm b)) with ((e + e * e) * P) in H1 by (unfold P; ring). replace (e * cnorm a * cnorm b) with (e * P) in H2 by (unfold P; ring).
    assert (e * e * P <= / 1000 * u * P) by (apply Rmult_le_compat_r; lra). lra.
  - apply Rle_trans with ((1 + e) * cnorm a * ((1 + e) * cnorm b)); [apply Rmult_le_compat; lra|].
    replace ((1 + e) * cnorm a * ((1 + e) * cnorm b)) with ((1 + 2 * e + e * e) * P) by (unfold P; ring). apply Rmult_le_compat_r; lra.
Qed.

(** (sqrt z)^2 is z up to 27 u |z|. *)
Theorem C111_square_of_root : forall z : complex fl, sized k z ->
  exists s, complex_sqrt FF FE z = Ok s /\ yields (complex_mul FR s s) (cval z) (27 * u).
Proof.
  intros z Sz. pose proof u_tiny as U. destruct (root_of z (proj1 Sz) (sized_22 z Sz)) as (s & r & Es & Fs & RR & _ & R0 & NN & NS & H).
  exists s. split; [exact Es|]. destruct (product_close (cval s) (cval s) r r (121 / 10 * u)) as [H1 H2]; try assumption; [lra|]. rewrite RR, NN in *.
  pose proof (win_sized prec emax k z Sz) as W. pose proof (sized_pos z Sz) as Z0. set (Z := cnorm (cval z)) in *.
  destruct (mul_below prec emax Hprec k Hk s s (Z * (1 + / 1000)) Fs Fs) as (p & Ep & Fp & Hpp).
  - apply (win_mid k Hk0 2 1); [lra|lia|]. replace 2 with (2 * 1) by ring. apply (win_near k 1 1 Z); [lra|exact W|lra].
  - lra.
  - exists p. split; [exact Ep|]. split; [exact Fp|]. fold Z. eapply Rle_trans; [apply (csub_triangle _ (cmul (cval s) (cval s)))|].
    assert (0 < u * Z) by (apply Rmult_lt_0_compat; lra). lra.
Qed.

(** sqrt(z^2) is z or -z up to 15 u |z|: z in the right half plane, -z in the left one, if z is not too close to the imaginary axis. *)
Theorem C111_root_of_square : forall z : complex fl, sized k z ->
  exists w s sign, complex_mul FR z z = Ok w /\ complex_sqrt FF FE w = Ok s /\ cfinite s /\ is_sign sign
  /\ cnorm (csub (cval s) (signed sign (cval z))) <= 15 * u * cnorm (cval z)
  /\ (3 * u * cnorm (cval z) < B2R (re z) -> sign = 1) /\ (B2R (re z) < - (3 * u * cnorm (cval z)) -> sign = -1).
Proof.
  intros z Sz. pose proof u_tiny as U. pose proof (win_sized prec emax k z Sz) as W. pose proof (sized_pos z Sz) as Z0.
  pose proof (win_mul k _ _ _ _ _ _ Rlt_0_1 Rlt_0_1 W W) as WW.
  destruct (mul_sized prec emax Hprec k Hk z z (proj1 Sz) (proj1 Sz)) as (w & Ew & Fw & Hw).
  { eapply (win_mid k Hk0); [| |exact WW]; [lra|lia]. }
  set (Z := cnorm (cval z)) in *. assert (ZZ : 0 < Z * Z) by (apply Rmult_lt_0_compat; lra).
  assert (NE : cnorm (cmul (cval z) (cval z)) = Z * Z) by apply cnorm_mul. assert (uZZ : u * (Z * Z) <= / 16777216 * (Z * Z)) by (apply Rmult_le_compat_r; lra).
  rewrite <- NE in Hw. destruct (near_norm prec _ _ (231 / 100) ltac:(lra) Hw) as [N1 N2]. rewrite NE in N1, N2, Hw.
  destruct (root_of w Fw) as (s & r & Es & Fs & RR & P & R0 & NN & NS & H).
  { replace 2 with (2 * (1 * 1)) at 1 by ring. apply (win_near k _ _ (Z * Z)); [lra|exact WW|lra]. }
  rewrite <- RR in Hw. destruct (close_squares r (cval z) _ Hw Z0) as (sg & Hs & D). fold Z in D.
  assert (NR : cnorm r <= (1 + / 1000) * Z). { pose proof (cnorm_le_diff r (signed sg (cval z))) as Q. rewrite signed_norm in Q by exact Hs. fold Z in Q. assert (u * Z <= / 16777216 * Z) by (apply Rmult_le_compat_r; lra). lra. }
  assert (uR : u * cnorm r <= u * ((1 + / 1000) * Z)) by (apply Rmult_le_compat_l; lra).
  assert (uZ : 0 < u * Z) by (apply Rmult_lt_0_compat; lra).
  exists w, s, sg. split; [exact Ew|]. split; [exact Es|]. split; [exact Fs|]. split; [exact Hs|]. split.
  - eapply Rle_trans; [apply (csub_triangle _ r)|]. lra.
  - assert (X : Rabs (fst r - sg * B2R (re z)) <= 231 / 100 * u * Z).
    { eapply Rle_trans; [|exact D]. change (csub r (signed sg (cval z))) with (fst r - sg * B2R (re z), snd r - sg * B2R (im z)). apply abs_le_norm. }
    apply Rabs_le_inv in X. split; intros Q; destruct Hs as [-> | ->]; try reflexivity; exfalso; lra.
Qed.

(** sqrt(z w) is sqrt z sqrt w up to sign and 41.5 u sqrt(|z||w|). *)
Theorem C111_root_of_product : forall z w : complex fl, sized k z -> sized k w ->
  exists p s a b m sign, complex_mul FR z w = Ok p /\ complex_sqrt FF FE p = Ok s
  /\ complex_sqrt FF FE z = Ok a /\ complex_sqrt FF FE w = Ok b /\ complex_mul FR a b = Ok m /\ cfinite s /\ cfinite m /\ is_sign sign
  /\ cnorm (csub (cval s) (signed sign (cval m))) <= 415 / 10 * u * sqrt (cnorm (cval z) * cnorm (cval w)).
Proof.
  intros z w Sz Sw. pose proof u_tiny as U. pose proof (win_sized prec emax k z Sz) as Wz. pose proof (sized_pos z Sz) as Z0. pose proof (win_sized prec emax k w Sw) as Ww. pose proof (sized_pos w Sw) as W0.
  pose proof (win_mul k _ _ _ _ _ _ Rlt_0_1 Rlt_0_1 Wz Ww) as WW.
  destruct (mul_sized prec emax Hprec k Hk z w (proj1 Sz) (proj1 Sw)) as (p & Ep & Fp & Hpp).
  { eapply (win_mid k Hk0); [| |exact WW]; [lra|lia]. }
  destruct (root_of z (proj1 Sz) (sized_22 z Sz)) as (a & ra & Ea & Fa & RRa & Pa & Ra0 & NNa & NSa & Ha).
  destruct (root_of w (proj1 Sw) (sized_22 w Sw)) as (b & rb & Eb & Fb & RRb & Pb & Rb0 & NNb & NSb & Hb).
  pose proof (root_win z Sz) as Va. rewrite <- NSa in Va. pose proof (root_win w Sw) as Vb. rewrite <- NSb in Vb.
  set (Z := cnorm (cval z)) in *. set (W := cnorm (cval w)) in *. assert (ZW : 0 < Z * W) by (apply Rmult_lt_0_compat; lra).
  assert (NE : cnorm (cmul (cval z) (cval w)) = Z * W) by apply cnorm_mul. assert (uZZ : u * (Z * W) <= / 16777216 * (Z * W)) by (apply Rmult_le_compat_r; lra).
  rewrite <- NE in Hpp. destruct (near_norm prec _ _ (231 / 100) ltac:(lra) Hpp) as [N1 N2]. rewrite NE in N1, N2, Hpp.
  destruct (root_of p Fp) as (s & r & Es & Fs & RR & P & R0 & NN & NS & H).
  { replace 2 with (2 * (1 * 1)) at 1 by ring. apply (win_near k _ _ (Z * W)); [lra|exact WW|lra]. }
  set (e := cmul ra rb) in *. assert (NEr : cnorm e = cnorm ra * cnorm rb) by apply cnorm_mul.
  assert (E0 : 0 < cnorm e) by (rewrite NEr; apply Rmult_lt_0_compat; lra).
  assert (EE : cmul e e = cmul (cval z) (cval w)). { rewrite <- RRa, <- RRb. unfold e, cmul. cbn [fst snd]. f_equal; ring. }
  assert (EN : cnorm e * cnorm e = Z * W) by (rewrite NEr, <- NNa, <- NNb; ring).
  rewrite <- RR, <- EE, <- EN in Hpp. destruct (close_squares r e _ Hpp E0) as (sg & Hs & D).
  assert (RN : sqrt (Z * W) = cnorm e) by (rewrite <- EN; apply sqrt_square; lra). rewrite RN.
  destruct (product_close (cval a) (cval b) ra rb (121 / 10 * u)) as [H1 H2]; try assumption; [lra|]. fold e in H1. rewrite <- NEr in H1, H2.
  set (E := cnorm e) in *. assert (uE : 0 < u * E) by (apply Rmult_lt_0_compat; lra). assert (uE' : u * E <= / 16777216 * E) by (apply Rmult_le_compat_r; lra).
  pose proof (win_mul k _ _ _ _ _ _ Rlt_0_1 Rlt_0_1 Va Vb) as VV. rewrite <- NEr in VV. fold E in VV.
  destruct (mul_below prec emax Hprec k Hk a b (E * (1 + / 1000)) Fa Fb) as (m & Em & Fm & Hm).
  { apply (win_mid k Hk0 2 2); [lra|lia|]. replace 2 with (2 * (1 * 1)) at 1 by ring. apply (win_near k _ _ E); [lra|exact VV|lra]. }
  { lra. }
  assert (NR : cnorm r <= (1 + / 1000) * E). { pose proof (cnorm_le_diff r (signed sg e)) as Q. rewrite signed_norm in Q by exact Hs. fold E in Q. lra. }
  assert (uR : u * cnorm r <= u * ((1 + / 1000) * E)) by (apply Rmult_le_compat_l; lra).
  exists p, s, a, b, m, sg. repeat (split; [assumption|]).
  eapply Rle_trans; [apply (csub_triangle _ (signed sg e))|].
  assert (H3 : cnorm (csub (cval s) (signed sg e)) <= 121 / 10 * u * cnorm r + 231 / 100 * u * E) by (eapply Rle_trans; [apply (csub_triangle _ r)|]; lra).
  assert (H4 : cnorm (csub (signed sg e) (signed sg (cval m))) <= 231 / 100 * u * (E * (1 + / 1000)) + (2 * (121 / 10 * u) + / 1000 * u) * E).
  { rewrite signed_sub, signed_norm, csub_norm_sym by exact Hs. eapply Rle_trans; [apply (csub_triangle _ (cmul (cval a) (cval b)))|]. lra. }
  lra.
Qed.

(** sqrt(z / w) is sqrt z / sqrt w up to sign and 50 u sqrt(|z|/|w|). *)
Theorem C111_root_of_quotient : forall z w : complex fl, sized k z -> sized k w ->
  exists q s a b d sign, complex_div FF z w = Ok q /\ complex_sqrt FF FE q = Ok s
  /\ complex_sqrt FF FE z = Ok a /\ complex_sqrt FF FE w = Ok b /\ complex_div FF a b = Ok d /\ cfinite s /\ cfinite d /\ is_sign sign
  /\ cnorm (csub (cval s) (signed sign (cval d))) <= 50 * u * sqrt (cnorm (cval z) / cnorm (cval w)).
Proof.
  intros z w Sz Sw. pose proof u_tiny as U. pose proof (win_sized prec emax k z Sz) as Wz. pose proof (sized_pos z Sz) as Z0. pose proof (win_sized prec emax k w Sw) as Ww. pose proof (sized_pos w Sw) as W0.
  set (Z := cnorm (cval z)) in *. set (W := cnorm (cval w)) in *.
  pose proof (win_mul k _ _ _ _ _ _ Rlt_0_1 Rlt_0_1 Ww Ww) as WWW. pose proof (win_mul k _ _ _ _ _ _ Rlt_0_1 Rlt_0_1 Wz Ww) as WZW.
  pose proof (win_mul k _ _ _ _ _ _ Rlt_0_1 Rlt_0_1 Wz (win_inv k _ _ _ Rlt_0_1 Ww)) as WQ.
  destruct (div_sized prec emax Hprec k Hk z w (proj1 Sz) (proj1 Sw)) as (q & Eq & Fq & Hq); fold Z W; try assumption.
  1,2: eapply (win_mid k Hk0); [| |eassumption]; [lra|lia].
  1: eapply (win_mid k Hk0); [| |eapply win_inv; [|exact WWW]]; [lra|lia|lra].
  1: eapply (win_mid k Hk0); [| |exact WQ]; [lra|lia].
  fold Z in Hq. pose proof (near_norm prec _ _ (632 / 100) ltac:(lra) Hq) as [N1 N2]. rewrite cnorm_mul in N1, N2. fold Z W in N1, N2.
  assert (uZ : u * Z <= / 16777216 * Z) by (apply Rmult_le_compat_r; lra). assert (uZ0 : 0 < u * Z) by (apply Rmult_lt_0_compat; lra).
  destruct (root_of z (proj1 Sz) (sized_22 z Sz)) as (a & ra & Ea & Fa & RRa & Pa & Ra0 & NNa & NSa & Ha).
  destruct (root_of w (proj1 Sw) (sized_22 w Sw)) as (b & rb & Eb & Fb & RRb & Pb & Rb0 & NNb & NSb & Hb).
  pose proof (root_win z Sz) as Va. rewrite <- NSa in Va. pose proof (root_win w Sw) as Vb. rewrite <- NSb in Vb. fold Z in NNa, NSa. fold W in NNb, NSb.
  assert (IW : Z * / W * W = Z) by (rewrite Rmult_assoc, Rinv_l by lra; ring).
  destruct (root_of q Fq) as (s & r & Es & Fs & RR & P & R0 & NN & NS & H).
  { replace 2 with (2 * (1 * 1)) at 1 by ring. apply (win_near k _ _ (Z * / W)); [lra|exact WQ|]. split; apply Rmult_le_reg_r with W; try exact W0.
    - replace (Z * / W / 2 * W) with (Z * / W * W / 2) by (unfold Rdiv; ring). rewrite IW. lra.
    - replace (2 * (Z * / W) * W) with (2 * (Z * / W * W)) by ring. rewrite IW. lra. }
  set (e := cmul r rb) in *. assert (NEr : cnorm e = cnorm r * cnorm rb) by apply cnorm_mul.
  assert (EE : cmul e e = cmul (cval q) (cval w)). { rewrite <- RR, <- RRb. unfold e, cmul. cbn [fst snd]. f_equal; ring. }
  rewrite <- EE, <- RRa, <- NNa in Hq. destruct (close_squares e ra _ Hq Ra0) as (sg & Hs & D).
  set (A := cnorm ra) in *. set (B := cnorm rb) in *. assert (uA : 0 < u * A) by (apply Rmult_lt_0_compat; lra). assert (uA' : u * A <= / 16777216 * A) by (apply Rmult_le_compat_r; lra).
  pose proof (near_norm prec _ _ (121 / 10) ltac:(lra) Ha) as [A1 A2]. fold A in A1, A2. pose proof (near_norm prec _ _ (121 / 10) ltac:(lra) Hb) as [B1 B2]. fold B in B1, B2.
  assert (uB : 0 < u * B) by (apply Rmult_lt_0_compat; lra). assert (uB' : u * B <= / 16777216 * B) by (apply Rmult_le_compat_r; lra).
  set (A' := cnorm (cval a)) in *. set (B' := cnorm (cval b)) in *.
  assert (Wa : win 2 1 A') by (replace 2 with (2 * 1) by ring; apply (win_near k 1 1 A); [lra|exact Va|lra]).
  assert (Wb : win 2 1 B') by (replace 2 with (2 * 1) by ring; apply (win_near k 1 1 B); [lra|exact Vb|lra]).
  assert (P2 : 0 < 2) by lra.
  destruct (div_sized prec emax Hprec k Hk a b Fa Fb) as (d & Ed & Fd & Hd); fold A' B'; try lra.
  1: eapply (win_mid k Hk0); [| |exact (win_mul k _ _ _ _ _ _ P2 P2 Wb Wb)]; [lra|lia].
  1: eapply (win_mid k Hk0); [| |exact (win_mul k _ _ _ _ _ _ P2 P2 Wa Wb)]; [lra|lia].
  1: eapply (win_mid k Hk0); [| |apply win_inv; [|exact (win_mul k _ _ _ _ _ _ P2 P2 Wb Wb)]]; [lra|lia|lra].
  1: eapply (win_mid k Hk0); [| |exact (win_mul k _ _ _ _ _ _ P2 P2 Wa (win_inv k _ _ _ P2 Wb))]; [lra|lia].
  fold A' in Hd. exists q, s, a, b, d, sg. repeat (split; [assumption|]).
  assert (RN : sqrt (Z / W) * B = A). { rewrite NSa, NSb. rewrite <- sqrt_mult_alt; [|apply Rmult_le_pos; [lra|left; apply Rinv_0_lt_compat; exact W0]]. f_equal. exact IW. }
  apply Rmult_le_reg_r with B; [exact Rb0|]. rewrite Rmult_assoc, RN. unfold B at 1. rewrite <- cnorm_mul, <- csub_mul, signed_mul.
  (* s rb ~ e ~ ra ~ a ~ d b ~ d rb *)
  assert (RB : cnorm r * B <= (1 + / 1000) * A). { rewrite <- NEr. pose proof (cnorm_le_diff e (signed sg ra)) as Q. rewrite signed_norm in Q by exact Hs. fold A in Q. lra. }
  assert (T1 : cnorm (csub (cmul (cval s) rb) e) <= 121 / 10 * u * ((1 + / 1000) * A)).
  { unfold e. rewrite csub_mul, cnorm_mul. fold B. apply Rle_trans with (121 / 10 * u * cnorm r * B); [apply Rmult_le_compat_r; lra|]. rewrite Rmult_assoc. apply Rmult_le_compat_l; lra. }
  assert (uA1 : u * A' <= u * ((1 + / 1000) * A)) by (apply Rmult_le_compat_l; lra).
  set (D' := cnorm (cval d)) in *. assert (D0 : 0 <= D') by apply cnorm_nonneg.
  assert (DB : D' * B' <= (1 + / 1000) * A). { unfold D', B'. rewrite <- cnorm_mul. pose proof (cnorm_le_diff (cmul (cval d) (cval b)) (cval a)) as Q. fold A' in Q. lra. }
  assert (DB2 : D' * B <= (1 + 2 / 1000) * A). { assert (D' * B <= D' * ((1 + / 10000) * B')) by (apply Rmult_le_compat_l; lra). lra. }
  assert (T2 : cnorm (csub (cmul (cval d) (cval b)) (cmul (cval d) rb)) <= 121 / 10 * u * ((1 + 2 / 1000) * A)).
  { replace (csub (cmul (cval d) (cval b)) (cmul (cval d) rb)) with (cmul (cval d) (csub (cval b) rb)) by (unfold cmul, csub; cbn [fst snd]; f_equal; ring).
    rewrite cnorm_mul. fold D'. apply Rle_trans with (D' * (121 / 10 * u * B)); [apply Rmult_le_compat_l; lra|]. replace (D' * (121 / 10 * u * B)) with (121 / 10 * u * (D' * B)) by ring. apply Rmult_le_compat_l; lra. }
  assert (T3 : cnorm (csub ra (cmul (cval d) rb)) <= 121 / 10 * u * A + 632 / 100 * u * ((1 + / 1000) * A) + 121 / 10 * u * ((1 + 2 / 1000) * A)).
  { eapply Rle_trans; [apply (csub_triangle _ (cval a))|]. rewrite csub_norm_sym. eapply Rle_trans; [apply Rplus_le_compat; [exact Ha|apply (csub_triangle _ (cmul (cval d) (cval b)))]|]. fold A.
    rewrite (csub_norm_sym (cval a)). lra. }
  eapply Rle_trans; [apply (csub_triangle _ e)|]. eapply Rle_trans; [apply Rplus_le_compat; [exact T1|apply (csub_triangle _ (signed sg ra))]|].
  rewrite signed_sub, (signed_norm sg (csub ra _)) by exact Hs. fold A in D. lra.
Qed.

(** |sqrt z| is sqrt |z| up to 18 u sqrt |z|. *)
Theorem C111_abs_of_root : forall z : complex fl, sized k z ->
  exists s m a r, complex_sqrt FF FE z = Ok s /\ complex_abs FF FE s = Ok m /\ complex_abs FF FE z = Ok a /\ fn_sqrt FE a = Ok r
  /\ is_finite m = true /\ is_finite r = true /\ Rabs (B2R m - B2R r) <= 18 * u * sqrt (cnorm (cval z)).
Proof.
  intros z Sz. pose proof u_tiny as U. pose proof (win_sized prec emax k z Sz) as Wz. pose proof (sized_pos z Sz) as Z0.
  destruct (root_of z (proj1 Sz) (sized_22 z Sz)) as (s & r & Es & Fs & RR & P & R0 & NN & NS & H).
  pose proof (root_win z Sz) as Vr. rewrite <- NS in Vr |- *.
  destruct (abs_sized prec emax libm Hprec k Hk z (proj1 Sz)) as (a & Ea & Fa & Ha).
  { eapply (win_mid k Hk0); [| |exact (win_mul k _ _ _ _ _ _ Rlt_0_1 Rlt_0_1 Wz Wz)]; [lra|lia]. }
  { eapply (win_mid k Hk0); [| |exact Wz]; [lra|lia]. }
  set (Z := cnorm (cval z)) in *. set (R := cnorm r) in *. assert (uR : 0 < u * R) by (apply Rmult_lt_0_compat; lra). assert (uR' : u * R <= / 16777216 * R) by (apply Rmult_le_compat_r; lra).
  pose proof (near_norm prec _ _ (121 / 10) ltac:(lra) H) as [N1 N2]. fold R in N1, N2. set (S := cnorm (cval s)) in *.
  assert (Ws : win 2 1 S) by (replace 2 with (2 * 1) by ring; apply (win_near k 1 1 R); [lra|exact Vr|lra]). assert (P2 : 0 < 2) by lra.
  destruct (abs_sized prec emax libm Hprec k Hk s Fs) as (m & Em & Fm & Hm).
  { eapply (win_mid k Hk0); [| |exact (win_mul k _ _ _ _ _ _ P2 P2 Ws Ws)]; [lra|lia]. }
  { eapply (win_mid k Hk0); [| |exact Ws]; [lra|lia]. }
  fold S in Hm. assert (uZ : u * Z <= / 16777216 * Z) by (apply Rmult_le_compat_r; lra). apply Rabs_le_inv in Ha. assert (a0 : 0 <= B2R a) by lra.
  destruct (sqrt_round prec emax a Fa a0) as [Fr Vt]. exists s, m, a, (Bsqrt mode_NE a). split; [exact Es|]. split; [exact Em|]. split; [exact Ea|]. split; [reflexivity|]. split; [exact Fm|]. split; [exact Fr|].
  assert (Hr : Rabs (sqrt (B2R a) - R) <= 201 / 100 * u * R).
  { pose proof (sqrt_pos (B2R a)) as S0. assert (D : (sqrt (B2R a) - R) * (sqrt (B2R a) + R) = B2R a - Z).
    { replace ((sqrt (B2R a) - R) * (sqrt (B2R a) + R)) with (sqrt (B2R a) * sqrt (B2R a) - R * R) by ring. rewrite sqrt_sqrt by exact a0. rewrite NN. reflexivity. }
    apply Rmult_le_reg_r with R; [exact R0|]. apply Rle_trans with (Rabs (sqrt (B2R a) - R) * (sqrt (B2R a) + R)); [apply Rmult_le_compat_l; [apply Rabs_pos|lra]|].
    rewrite <- (Rabs_pos_eq (sqrt (B2R a) + R)) by lra. rewrite <- Rabs_mult, D. rewrite Rmult_assoc, NN. apply Rabs_le. lra. }
  pose proof (rnd_err prec emax (sqrt (B2R a))) as Q. rewrite <- Vt in Q. rewrite (Rabs_pos_eq (sqrt _)) in Q by apply sqrt_pos.
  assert (MR : mid R) by (eapply (win_mid k Hk0); [| |exact Vr]; [lra|lia]). pose proof (mid_eta prec emax Hprec k Hk R MR) as ET.
  apply Rabs_le_inv in Hr. apply Rabs_le_inv in Q. apply Rabs_le_inv in Hm.
  assert (us : u * sqrt (B2R a) <= u * ((1 + / 1000) * R)) by (apply Rmult_le_compat_l; lra). assert (uS : u * S <= u * ((1 + / 1000) * R)) by (apply Rmult_le_compat_l; lra).
  apply Rabs_le. lra.
Qed.
End Fmt.

(** *** The two formats *)
Corollary C111_f32 : forall (libm : FunOps f32) (z w : complex f32), sized 25 z -> sized 25 w ->
  let FF := float_field 24 128 in let FR := float_ring 24 128 in let FE := float_fun 24 128 libm in
  (exists s, complex_sqrt FF FE z = Ok s /\ yields (complex_mul FR s s) (cval z) (27 * / 2 ^ 24))
  /\ (exists q s sign, complex_mul FR z z = Ok q /\ complex_sqrt FF FE q = Ok s /\ is_sign sign
       /\ cnorm (csub (cval s) (signed sign (cval z))) <= 15 * / 2 ^ 24 * cnorm (cval z))
  /\ (exists p s a b m sign, complex_mul FR z w = Ok p /\ complex_sqrt FF FE p = Ok s
       /\ complex_sqrt FF FE z = Ok a /\ complex_sqrt FF FE w = Ok b /\ complex_mul FR a b = Ok m /\ is_sign sign
       /\ cnorm (csub (cval s) (signed sign (cval m))) <= 415 / 10 * / 2 ^ 24 * sqrt (cnorm (cval z) * cnorm (cval w))).
Proof.
  intros libm z w Sz Sw. cbv zeta. assert (E : / 2 ^ 24 = unit_roundoff 24) by (unfold unit_roundoff; simpl; lra). rewrite E.
  split; [|split].
  - apply (C111_square_of_root 24 128 libm ltac:(lia) 25 ltac:(lia) ltac:(lia) z Sz).
  - destruct (C111_root_of_square 24 128 libm ltac:(lia) 25 ltac:(lia) ltac:(lia) z Sz) as (q & s & sg & E1 & E2 & _ & E3 & E4 & _). exists q, s, sg. auto.
  - destruct (C111_root_of_product 24 128 libm ltac:(lia) 25 ltac:(lia) ltac:(lia) z w Sz Sw) as (p & s & a & b & m & sg & E1 & E2 & E3 & E4 & E5 & _ & _ & E6 & E7).
    exists p, s, a, b, m, sg. repeat (split; [assumption|]). exact E7.
Qed.

Corollary C111_f64 : forall (libm : FunOps f64) (z w : complex f64), sized 249 z -> sized 249 w ->
  let FR := float_ring 53 1024 in let FE := float_fun 53 1024 libm in
  (exists s, complex_sqrt f64_field FE z = Ok s /\ yields (complex_mul FR s s) (cval z) (27 * / 2 ^ 53))
  /\ (exists q s sign, complex_mul FR z z = Ok q /\ complex_sqrt f64_field FE q = Ok s /\ is_sign sign
       /\ cnorm (csub (cval s) (signed sign (cval z))) <= 15 * / 2 ^ 53 * cnorm (cval z))
  /\ (exists p s a b m sign, complex_mul FR z w = Ok p /\ complex_sqrt f64_field FE p = Ok s
       /\ complex_sqrt f64_field FE z = Ok a /\ complex_sqrt f64_field FE w = Ok b /\ complex_mul FR a b = Ok m /\ is_sign sign
       /\ cnorm (csub (cval s) (signed sign (cval m))) <= 415 / 10 * / 2 ^ 53 * sqrt (cnorm (cval z) * cnorm (cval w))).
Proof.
  intros libm z w Sz Sw. cbv zeta. assert (E : / 2 ^ 53 = unit_roundoff 53) by (unfold unit_roundoff; simpl; lra). rewrite E.
  split; [|split].
  - apply (C111_square_of_root 53 1024 libm ltac:(lia) 249 ltac:(lia) ltac:(lia) z Sz).
  - destruct (C111_root_of_square 53 1024 libm ltac:(lia) 249 ltac:(lia) ltac:(lia) z Sz) as (q & s & sg & E1 & E2 & _ & E3 & E4 & _). exists q, s, sg. auto.
  - destruct (C111_root_of_product 53 1024 libm ltac:(lia) 249 ltac:(lia) ltac:(lia) z w Sz Sw) as (p & s & a & b & m & sg & E1 & E2 & E3 & E4 & E5 & _ & _ & E6 & E7).
    exists p, s, a, b, m, sg. repeat (split; [assumption|]). exact E7.
Qed.

(** Without the sign the law is false: sqrt((-4)(-4)) = 4, but sqrt(-4) sqrt(-4) = -4, and sqrt((-4)^2) = -(-4). *)
Theorem C111_sign_needed_refuted : forall libm : FunOps f64, let m4 := Cx (f64_of_Z (-4)) (f64_of_Z 0) in let FE := float_fun 53 1024 libm in
  on_ok (p <- complex_mul (float_ring 53 1024) m4 m4 ;; complex_sqrt f64_field FE p) (fun s => Beqb (re s) (f64_of_Z 4) && Beqb (im s) (f64_of_Z 0)) = true
  /\ on_ok (a <- complex_sqrt f64_field FE m4 ;; complex_mul (float_ring 53 1024) a a) (fun m => Beqb (re m) (f64_of_Z (-4)) && Beqb (im m) (f64_of_Z 0)) = true.
Proof. intros libm m4 FE. split; vm_compute; reflexivity. Qed.

(** A concrete case: 1 + 4i and -3 + i in f64. *)
Example C111_case : sized 249 (Cx (f64_of_Z 1) (f64_of_Z 4)) /\ sized 249 (Cx (f64_of_Z (-3)) (f64_of_Z 1)).
Proof.
  assert (B1 : bpow radix2 (-249) <= 1) by (change 1 with (bpow radix2 0); apply bpow_le; lia). assert (B2 : 16 <= bpow radix2 249) by (change 16 with (bpow radix2 4); apply bpow_le; lia).
  assert (G : forall x y : f64, is_finite x = true -> is_finite y = true -> 1 <= B2R x * B2R x + B2R y * B2R y <= 256 -> sized 249 (Cx x y)).
  { intros x y Fx Fy H. split; [split; assumption|]. change (- (249))%Z with (-249)%Z. unfold cnorm, cval. cbn [fst snd re im]. split.
    - apply Rle_trans with (sqrt 1); [rewrite sqrt_1; lra|apply sqrt_le_1_alt; lra].
    - apply Rle_trans with (sqrt (16 * 16)); [apply sqrt_le_1_alt; lra|rewrite sqrt_square; lra]. }
  split; apply G; try reflexivity.
  - replace (B2R (f64_of_Z 1)) with 1 by (vm_compute; lra). replace (B2R (f64_of_Z 4)) with 4 by (vm_compute; lra). lra.
  - replace (B2R (f64_of_Z 1)) with 1 by (vm_compute; lra). replace (B2R (f64_of_Z (-3))) with (-3) by (vm_compute; lra). lra.
Qed.
Print Assumptions C111_square_of_root.
Print Assumptions C111_root_of_square.
Print Assumptions C111_root_of_product.
Print Assumptions C111_root_of_quotient.
Print Assumptions C111_abs_of_root.
Print Assumptions C111_f32.
Print Assumptions C111_f64.
Print Assumptions C111_sign_needed_refuted.
