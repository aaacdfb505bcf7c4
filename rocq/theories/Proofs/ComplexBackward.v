(** Backward error analysis of Complex<f32>/Complex<f64>: computed values as exact values of
    perturbed complex data. *)
From Coq Require Import List ZArith Reals Bool Lia Lra Ring.
From Flocq Require Import Core.Core IEEE754.BinarySingleNaN.
From Verif Require Import Base.Outcome Model.Traits Model.Float Model.Polynomial Model.Complex
  Spec.Ring Spec.Sums Spec.Complex Spec.FloatErr Spec.ComplexErr Proofs.FloatErr Proofs.ComplexErr.
Import ListNotations.
Local Open Scope R_scope.

(** ** The complex numbers form a ring *)
Definition copp (z : cplx) : cplx := (- fst z, - snd z).
Lemma cplx_ring : ring_theory c0 c1 cadd cmul csub copp (@eq cplx).
Proof.
  split; intros; repeat match goal with z : cplx |- _ => destruct z end;
    unfold c0, c1, cadd, cmul, csub, copp; cbn [fst snd]; apply (f_equal2 pair); ring.
Qed.
Add Ring cplx_ring : cplx_ring.

Lemma cnorm_c1 : cnorm c1 = 1.
Proof. unfold cnorm, c1. cbn [fst snd]. replace (1 * 1 + 0 * 0) with 1 by ring. apply sqrt_1. Qed.
Lemma cnorm_real a z : cnorm (cmul (a, 0) z) = Rabs a * cnorm z.
Proof.
  rewrite cnorm_mul. f_equal. unfold cnorm. cbn [fst snd].
  replace (a * a + 0 * 0) with (Rsqr a) by (unfold Rsqr; ring). apply sqrt_Rsqr_abs.
Qed.
Lemma cnorm_zero z : cnorm z = 0 -> z = c0.
Proof.
  intros H. pose proof (cnorm_sq z) as S. rewrite H in S. destruct z as [a b]. cbn [fst snd] in S.
  pose proof (sq_nonneg a). pose proof (sq_nonneg b).
  assert (a * a = 0) by lra. assert (b * b = 0) by lra.
  apply Rsqr_0_uniq in H2. apply Rsqr_0_uniq in H3. subst. reflexivity.
Qed.
(** z / w, as a quotient in the field. *)
Lemma cdiv_exists z w : 0 < cnorm w -> exists q, cmul w q = z /\ cnorm q * cnorm w = cnorm z.
Proof.
  intros Hw. set (s := fst w * fst w + snd w * snd w).
  assert (Hs : 0 < s). { unfold s. rewrite <- cnorm_sq. apply Rmult_lt_0_compat; exact Hw. }
  exists (cmul (cmul z (cconj w)) (/ s, 0)).
  assert (E : cmul w (cmul (cmul z (cconj w)) (/ s, 0)) = z).
  { replace (cmul w (cmul (cmul z (cconj w)) (/ s, 0))) with (cmul z (cmul (cmul w (cconj w)) (/ s, 0))) by ring.
    replace (cmul (cmul w (cconj w)) (/ s, 0)) with c1; [ring|].
    destruct w as [c d]. unfold s in *. unfold cmul, cconj, c1. cbn [fst snd] in *. apply (f_equal2 pair); field; lra. }
  split; [exact E|]. rewrite <- E at 2. rewrite (cnorm_mul w). ring.
Qed.

(** An error below A |v| + B is a relative change of [v] by at most A and an absolute one by at
    most B. *)
Lemma split_error e v A B : 0 <= A -> 0 <= B -> cnorm e <= A * cnorm v + B ->
  exists d h, e = cadd (cmul v d) h /\ cnorm d <= A /\ cnorm h <= B.
Proof.
  intros HA HB H. pose proof (cnorm_nonneg v) as Nv. pose proof (cnorm_nonneg e) as Ne.
  destruct (Rle_lt_or_eq_dec 0 (cnorm v) Nv) as [Pv|Zv].
  2:{ exists c0, e. split; [ring|]. rewrite cnorm_c0. rewrite <- Zv, Rmult_0_r, Rplus_0_l in H. split; assumption. }
  assert (0 <= A * cnorm v) as HAv by (apply Rmult_le_pos; assumption).
  destruct (Req_dec (A * cnorm v + B) 0) as [Z|NZ].
  { exists c0, c0. split; [|rewrite cnorm_c0; split; assumption].
    replace (cadd (cmul v c0) c0) with c0 by ring. apply cnorm_zero. lra. }
  set (D := A * cnorm v + B) in *. assert (HD : 0 < D) by (unfold D in *; lra).
  destruct (cdiv_exists e v Pv) as (q & Eq & Nq).
  set (l := A * cnorm v / D). set (m := B / D).
  assert (Elm : l + m = 1) by (unfold l, m, D; field; fold D; lra).
  assert (Hl : 0 <= l) by (apply Rmult_le_pos; [exact HAv|apply Rlt_le, Rinv_0_lt_compat, HD]).
  assert (Hm : 0 <= m) by (apply Rmult_le_pos; [exact HB|apply Rlt_le, Rinv_0_lt_compat, HD]).
  exists (cmul (l, 0) q), (cmul (m, 0) e). split; [|split].
  - rewrite <- Eq. replace (cadd (cmul v (cmul (l, 0) q)) (cmul (m, 0) (cmul v q)))
      with (cmul (cadd (l, 0) (m, 0)) (cmul v q)) by ring.
    replace (cadd (l, 0) (m, 0)) with c1; [ring|]. unfold cadd, c1. cbn [fst snd]. rewrite Elm. apply (f_equal2 pair); ring.
  - rewrite cnorm_real, (Rabs_pos_eq l Hl). apply Rmult_le_reg_r with (cnorm v); [exact Pv|].
    rewrite Rmult_assoc, Nq. unfold l. apply Rmult_le_reg_r with D; [exact HD|].
    replace (A * cnorm v / D * cnorm e * D) with (A * cnorm v * cnorm e) by (field; lra).
    apply Rmult_le_compat_l; assumption.
  - rewrite cnorm_real, (Rabs_pos_eq m Hm). unfold m. apply Rmult_le_reg_r with D; [exact HD|].
    replace (B / D * cnorm e * D) with (B * cnorm e) by (field; lra). apply Rmult_le_compat_l; assumption.
Qed.

(** Products of relative perturbations. *)
Lemma cperturb_mul d1 d2 g1 g2 : cnorm d1 <= g1 - 1 -> cnorm d2 <= g2 - 1 ->
  exists d, cnorm d <= g1 * g2 - 1 /\ cadd c1 d = cmul (cadd c1 d1) (cadd c1 d2).
Proof.
  intros H1 H2. exists (cadd (cadd d1 d2) (cmul d1 d2)). split; [|ring].
  eapply Rle_trans; [apply cnorm_triangle|]. rewrite cnorm_mul.
  pose proof (cnorm_triangle d1 d2). pose proof (cnorm_nonneg d1). pose proof (cnorm_nonneg d2).
  assert (cnorm d1 * cnorm d2 <= (g1 - 1) * (g2 - 1)) by (apply Rmult_le_compat; assumption).
  replace (g1 * g2 - 1) with ((g1 - 1) + (g2 - 1) + (g1 - 1) * (g2 - 1)) by ring. lra.
Qed.
Lemma cperturb_abs d g : cnorm d <= g - 1 -> cnorm (cadd c1 d) <= g.
Proof. intros H. eapply Rle_trans; [apply cnorm_triangle|]. rewrite cnorm_c1. lra. Qed.
Lemma cperturb_0 g : 1 <= g -> cnorm c0 <= g - 1.
Proof. rewrite cnorm_c0. lra. Qed.
Lemma cperturb_in d a : cnorm d <= a -> cnorm d <= (1 + a) - 1.
Proof. intros. lra. Qed.

Section Fmt.
Context (prec emax : Z) {Hp : Prec_gt_0 prec} {He : Prec_lt_emax prec emax}.
Notation fl := (binary_float prec emax).
Notation FO := (float_ring prec emax).
Notation FS := (float_sig prec emax).
Notation CS := (complex_sig FS).
Notation u := (unit_roundoff prec).
Notation k := (mul_roundoff prec).
Notation t := (mul_underflow prec emax).
Notation g := ((1 + k) * (1 + u)).

Lemma cadd_model (z w : complex fl) : cfinite (sadd CS z w) ->
  cfinite z /\ cfinite w /\ exists d, cnorm d <= u /\ cval (sadd CS z w) = cmul (cadd (cval z) (cval w)) (cadd c1 d).
Proof.
  intros F. destruct (cadd_error prec emax z w F) as (F1 & F2 & E). split; [exact F1|]. split; [exact F2|].
  destruct (split_error (csub (cval (sadd CS z w)) (cadd (cval z) (cval w))) (cadd (cval z) (cval w)) u 0 (Rlt_le _ _ (u_pos prec)) (Rle_refl 0)) as (d & h & Ed & Hd & Hh).
  { rewrite Rplus_0_r. exact E. }
  exists d. split; [exact Hd|].
  assert (h = c0) as -> by (apply cnorm_zero; pose proof (cnorm_nonneg h); lra).
  replace (cval (sadd CS z w)) with (cadd (csub (cval (sadd CS z w)) (cadd (cval z) (cval w))) (cadd (cval z) (cval w))) by ring.
  rewrite Ed. ring.
Qed.
Lemma cmul_model (z w : complex fl) : cfinite (smul CS z w) ->
  exists e h, cnorm e <= k /\ cnorm h <= t /\ cval (smul CS z w) = cadd (cmul (cmul (cval z) (cval w)) (cadd c1 e)) h.
Proof.
  intros F. pose proof (cmul_error prec emax z w F) as E. rewrite <- cnorm_mul in E.
  destruct (split_error _ _ _ _ (k_nonneg prec) (t_nonneg prec emax) E) as (d & h & Ed & Hd & Hh).
  exists d, h. split; [exact Hd|]. split; [exact Hh|].
  replace (cval (smul CS z w)) with (cadd (csub (cval (smul CS z w)) (cmul (cval z) (cval w))) (cmul (cval z) (cval w))) by ring.
  rewrite Ed. ring.
Qed.

Lemma g1 : 1 <= g. Proof. apply g_ge_1. Qed.
Lemma k1 : 1 <= 1 + k. Proof. pose proof (k_nonneg prec). lra. Qed.
Lemma u1 : 1 <= 1 + u. Proof. pose proof (u_pos prec). lra. Qed.

(** ** Horner's rule *)
Definition hfac (n j : nat) : R := if (j <? n)%nat then g ^ j * (1 + u) else g ^ j.
Lemma hfac_1 n j : 1 <= hfac n j.
Proof.
  unfold hfac. pose proof (pow_ge_1 g j g1). destruct (j <? n)%nat; [|assumption].
  pose proof u1. rewrite <- (Rmult_1_r 1) at 1. apply Rmult_le_compat; lra.
Qed.
Lemma hfac_S n j : hfac (S n) (S j) = hfac n j * g.
Proof. unfold hfac. change (S j <? S n)%nat with (j <? n)%nat. destruct (j <? n)%nat; cbn [Rpow_def.pow]; ring. Qed.

Lemma centry_S a (p : list (complex fl)) i : centry (a :: p) (S i) = centry p i.
Proof. reflexivity. Qed.

Lemma chorner_backward (p : list (complex fl)) x : cfinite (c_horner prec emax p x) ->
  let n := (length p - 1)%nat in
  exists d h : nat -> cplx,
    cval (c_horner prec emax p x)
      = csum (length p) (fun j => cmul (cadd (cmul (centry p j) (cadd c1 (d j))) (h j)) (cpow (cval x) j))
    /\ (forall j, (j <= n)%nat -> cnorm (d j) <= hfac n j - 1)
    /\ (forall j, (j < n)%nat -> cnorm (h j) <= g ^ j * (1 + u) * t)
    /\ (forall j, (n <= j)%nat -> h j = c0).
Proof.
  pose proof u1 as U1. pose proof g1 as G1. pose proof (t_nonneg prec emax) as EP. intros F. cbv zeta. revert F.
  induction p as [|a p IH]; intros F.
  - exists (fun _ => c0), (fun _ => c0). cbn [length csum c_horner].
    split.
    { unfold cval. cbn [re im sz complex_sig]. change (sz FS) with (fl_int prec emax 0). rewrite (proj1 (zero_value prec emax)). reflexivity. }
    split; [intros; apply cperturb_0, hfac_1|]. split; [|reflexivity]. intros j Hj. simpl in Hj. lia.
  - destruct p as [|b p].
    + clear IH. change (c_horner prec emax [a] x) with (sadd CS (smul CS (sz CS) x) a) in *.
      destruct (cadd_model _ _ F) as (F1 & F2 & _). destruct (cmul_finite prec emax _ _ F1) as (_ & F4).
      destruct (czero_mul prec emax x F4) as [Fm Em].
      pose proof (cadd_zero_l prec emax _ a Em Fm F2) as Ea.
      exists (fun _ => c0), (fun _ => c0). split.
      { rewrite Ea. cbn [length csum]. unfold centry. cbn [map nth cpow]. ring. }
      split; [intros; apply cperturb_0, hfac_1|]. split; [|reflexivity]. intros j Hj. simpl in Hj. lia.
    + set (q := b :: p) in *. cbn [length Nat.sub]. rewrite Nat.sub_0_r.
      change (c_horner prec emax (a :: q) x) with (sadd CS (smul CS (c_horner prec emax q x) x) a) in *.
      destruct (cadd_model _ _ F) as (F1 & F2 & d' & Hd & Ed).
      destruct (cmul_finite prec emax _ _ F1) as (F3 & F4).
      destruct (cmul_model _ _ F1) as (e & h' & He' & Hh & Em).
      destruct (IH F3) as (d & h & E & D & B & Z). clear IH.
      assert (Lq : length q = S (length p)) by reflexivity.
      rewrite Lq in D, B, Z. replace (S (length p) - 1)%nat with (length p) in D, B, Z by lia.
      destruct (cperturb_mul e d' (1 + k) (1 + u) (cperturb_in _ _ He') (cperturb_in _ _ Hd)) as (f & Hf & Ef).
      exists (fun j => match j with O => d' | S j' => csub (cmul (cadd c1 (d j')) (cadd c1 f)) c1 end),
             (fun j => match j with O => cmul h' (cadd c1 d') | S j' => cmul (h j') (cadd c1 f) end).
      split; [|split; [|split]].
      * rewrite Ed, Em, E, Lq. clear E. rewrite (csum_shift (S (length p))).
        rewrite (csum_ext (S (length p))
                   (fun i => cmul (cadd (cmul (centry (a :: q) (S i)) (cadd c1 (csub (cmul (cadd c1 (d i)) (cadd c1 f)) c1)))
                                        (cmul (h i) (cadd c1 f))) (cpow (cval x) (S i)))
                   (fun i => cmul (cmul (cadd c1 f) (cval x)) (cmul (cadd (cmul (centry q i) (cadd c1 (d i))) (h i)) (cpow (cval x) i)))).
        2:{ intros i _. rewrite centry_S. cbn [cpow]. ring. }
        rewrite csum_mul. change (centry (a :: q) 0) with (cval a). rewrite Ef. cbn [cpow]. ring.
      * rewrite Lq. intros [|j] Hj.
        { unfold hfac. change (0 <? S (length p))%nat with true. cbn [Rpow_def.pow]. lra. }
        assert (Hj' : (j <= length p)%nat) by lia. specialize (D j Hj').
        destruct (cperturb_mul (d j) f _ _ D Hf) as (m & Hm & Em'). rewrite <- Em'.
        replace (csub (cadd c1 m) c1) with m by ring. rewrite hfac_S. exact Hm.
      * rewrite Lq. intros [|j] Hj.
        { rewrite cnorm_mul, Rmult_comm. cbn [Rpow_def.pow]. rewrite Rmult_1_l.
          apply Rmult_le_compat; try apply cnorm_nonneg; [|exact Hh]. apply cperturb_abs, cperturb_in, Hd. }
        assert (Hj' : (j < length p)%nat) by lia. specialize (B j Hj').
        rewrite cnorm_mul. replace (g ^ S j * (1 + u) * t) with (g ^ j * (1 + u) * t * g) by (cbn [Rpow_def.pow]; ring).
        apply Rmult_le_compat; try apply cnorm_nonneg; [exact B|]. apply cperturb_abs, Hf.
      * rewrite Lq. intros [|j] Hj; [lia|]. rewrite Z by lia. ring.
Qed.

(** ** Sums of products *)
Section Dot.
Context (a b : nat -> complex fl).

Definition cbackward (n : nat) (r : cplx) : Prop :=
  exists (d : nat -> cplx) (m : cplx),
    r = cadd (csum n (fun i => cmul (cmul (cval (a i)) (cadd c1 (d i))) (cval (b i)))) m
    /\ (forall i, (i < n)%nat -> cnorm (d i) <= (1 + k) * (1 + u) ^ (n - 1) - 1)
    /\ cnorm m <= INR n * (1 + u) ^ (n - 1) * t.

Lemma cbackward_1 : cfinite (smul CS (a 0) (b 0)) -> cbackward 1 (cval (smul CS (a 0) (b 0))).
Proof.
  intros F. destruct (cmul_model _ _ F) as (e & h & He' & Hh & E).
  exists (fun _ => e), h. split; [rewrite E; cbn [csum]; ring|]. split.
  - intros i _. cbn [Nat.sub Rpow_def.pow]. lra.
  - cbn [INR Nat.sub Rpow_def.pow]. lra.
Qed.

Lemma cbackward_S n (s : complex fl) : cfinite (sadd CS s (smul CS (a (S n)) (b (S n)))) ->
  cbackward (S n) (cval s) -> cbackward (S (S n)) (cval (sadd CS s (smul CS (a (S n)) (b (S n))))).
Proof.
  intros F (d & m & E & D & M). pose proof u1 as U1. pose proof k1 as K1. pose proof (t_nonneg prec emax) as EP.
  destruct (cadd_model _ _ F) as (_ & F2 & d' & Hd & Ed).
  destruct (cmul_model _ _ F2) as (e & h & He' & Hh & Em).
  destruct (cperturb_mul e d' (1 + k) (1 + u) (cperturb_in _ _ He') (cperturb_in _ _ Hd)) as (f & Hf & Ef).
  replace (S n - 1)%nat with n in D, M by lia.
  exists (fun i => if (i =? S n)%nat then f else csub (cmul (cadd c1 (d i)) (cadd c1 d')) c1), (cmul (cadd m h) (cadd c1 d')).
  replace (S (S n) - 1)%nat with (S n) by lia.
  split; [|split].
  - rewrite Ed, Em, E. change (csum (S (S n))) with (fun f => cadd (csum (S n) f) (f (S n))). cbv beta.
    rewrite (csum_ext (S n)
               (fun i => cmul (cmul (cval (a i)) (cadd c1 (if (i =? S n)%nat then f else csub (cmul (cadd c1 (d i)) (cadd c1 d')) c1))) (cval (b i)))
               (fun i => cmul (cadd c1 d') (cmul (cmul (cval (a i)) (cadd c1 (d i))) (cval (b i))))).
    2:{ intros i Hi. destruct (Nat.eqb_spec i (S n)); [lia|]. ring. }
    rewrite csum_mul, Nat.eqb_refl, Ef. ring.
  - intros i Hi. destruct (Nat.eqb_spec i (S n)) as [->|Hn].
    + eapply Rle_trans; [exact Hf|]. apply Rplus_le_compat_r, Rmult_le_compat_l; [lra|].
      rewrite <- (pow_1 (1 + u)) at 1. apply pow_mono; [exact U1|lia].
    + assert (Hi' : (i < S n)%nat) by lia. specialize (D i Hi').
      destruct (cperturb_mul (d i) d' _ _ D (cperturb_in _ _ Hd)) as (q & Hq & Eq). rewrite <- Eq.
      replace (csub (cadd c1 q) c1) with q by ring. eapply Rle_trans; [exact Hq|].
      right. cbn [Rpow_def.pow]. ring.
  - rewrite cnorm_mul.
    apply Rle_trans with ((INR (S n) * (1 + u) ^ n * t + t) * (1 + u)).
    + apply Rmult_le_compat; try apply cnorm_nonneg; [|apply cperturb_abs, cperturb_in, Hd].
      eapply Rle_trans; [apply cnorm_triangle|]. lra.
    + rewrite (S_INR (S n)). pose proof (pow_ge_1 (1 + u) n U1) as Pn.
      assert (H : t * (1 + u) <= t * ((1 + u) * (1 + u) ^ n)).
      { apply Rmult_le_compat_l; [exact EP|]. rewrite <- (Rmult_1_r (1 + u)) at 1. apply Rmult_le_compat_l; lra. }
      replace ((INR (S n) + 1) * (1 + u) ^ S n * t) with (INR (S n) * (1 + u) ^ n * t * (1 + u) + t * ((1 + u) * (1 + u) ^ n))
        by (cbn [Rpow_def.pow]; ring).
      rewrite Rmult_plus_distr_r. lra.
Qed.

Lemma cdot_backward n : cfinite (cdot prec emax a b n) -> cbackward n (cval (cdot prec emax a b n)).
Proof.
  induction n as [|n IH]; intros F.
  - exists (fun _ => c0), c0. split.
    { cbn [csum]. replace (cadd c0 c0) with c0 by ring. unfold cdot, cval. cbn [sum_n re im sz complex_sig].
      change (sz FS) with (fl_int prec emax 0). rewrite (proj1 (zero_value prec emax)). reflexivity. }
    split; [intros; lia|]. rewrite cnorm_c0. cbn [INR]. lra.
  - destruct n as [|n].
    + change (cdot prec emax a b 1) with (sadd CS (sz CS) (smul CS (a 0) (b 0))) in *.
      destruct (cadd_model _ _ F) as (F1 & F2 & _).
      assert (Z : cval (sz CS) = c0).
      { unfold cval. cbn [re im sz complex_sig]. change (sz FS) with (fl_int prec emax 0). rewrite (proj1 (zero_value prec emax)). reflexivity. }
      rewrite (cadd_zero_l prec emax _ _ Z F1 F2). apply cbackward_1, F2.
    + change (cdot prec emax a b (S (S n))) with (sadd CS (cdot prec emax a b (S n)) (smul CS (a (S n)) (b (S n)))) in *.
      apply cbackward_S; [exact F|]. apply IH. apply (cadd_model _ _ F).
Qed.
Lemma cdot1_backward n : cfinite (cdot1 prec emax a b n) -> cbackward (S n) (cval (cdot1 prec emax a b n)).
Proof.
  induction n as [|n IH]; intros F.
  - apply cbackward_1, F.
  - apply cbackward_S; [exact F|]. apply IH. apply (cadd_model _ _ F).
Qed.
End Dot.
End Fmt.
