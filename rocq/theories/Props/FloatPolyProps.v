(** Property C64: products and sums of polynomials with f32/f64 coefficients.

    [dot_bound prec emax n mag] is the usual error bound for a sum of [n] products the sum of
    whose absolute values is [mag]; [entry_R p i] is the real number coefficient [i] stands
    for, 0 beyond the last (Spec/FloatErr.v). *)
From Coq Require Import List ZArith NArith Reals Bool Lia Lra.
From Flocq Require Import Core.Core IEEE754.BinarySingleNaN.
From Verif Require Import Base.Outcome Base.Array Model.Traits Model.Float Model.Polynomial
  Spec.Ring Spec.Sums Spec.FloatErr Proofs.FloatErr Proofs.FloatInt Proofs.FloatComm Proofs.PolyExact Proofs.PolyPartial
  Props.FloatProps.
Import ListNotations.
Local Open Scope R_scope.

Lemma rsum_window f lo cnt : forall n, (lo + cnt <= n)%nat ->
  (forall i, (i < n)%nat -> (i < lo)%nat \/ (lo + cnt <= i)%nat -> f i = 0) ->
  rsum n f = rsum cnt (fun t => f (lo + t)%nat).
Proof.
  intros n. remember (n - (lo + cnt))%nat as extra eqn:E. revert n E.
  induction extra as [|x IH]; intros n E Hle H0.
  - replace n with (lo + cnt)%nat in * by lia. clear E Hle. induction cnt as [|c IHc].
    + simpl. rewrite Nat.add_0_r in *. induction lo as [|l IHl]; [reflexivity|].
      simpl. rewrite IHl by (intros i Hi _; apply H0; lia). rewrite (H0 l) by lia. lra.
    + rewrite Nat.add_succ_r. simpl. rewrite IHc by (intros i Hi Hc; apply H0; lia). reflexivity.
  - destruct n as [|n]; [lia|]. simpl. rewrite (IH n) by (try lia; intros i Hi Hc; apply H0; lia).
    rewrite (H0 n) by lia. lra.
Qed.

Section Fmt.
Context (prec emax : Z) {Hp : Prec_gt_0 prec} {He : Prec_lt_emax prec emax}.
Notation fl := (binary_float prec emax).
Notation FO := (float_ring prec emax).
Notation u := (unit_roundoff prec).
Notation eta := (underflow_unit prec emax).

Notation conv_exact p q k := (rsum (S k) (fun i => entry_R p i * entry_R q (k - i))).
Notation conv_mag p q k := (rsum (S k) (fun i => Rabs (entry_R p i) * Rabs (entry_R q (k - i)))).

Lemma entry_R_past (p : list fl) i : (length p <= i)%nat -> entry_R p i = 0.
Proof. intros H. unfold entry_R. apply nth_overflow. rewrite map_length. exact H. Qed.

Lemma dot_bound_mono n m mag : (n <= m)%nat -> 0 <= mag -> dot_bound prec emax n mag <= dot_bound prec emax m mag.
Proof.
  intros H Hm. unfold dot_bound. pose proof (u_pos prec). pose proof (eta_pos prec emax).
  apply Rplus_le_compat.
  - apply Rmult_le_compat_r; [exact Hm|]. apply Rplus_le_compat_r, pow_mono; [lra|exact H].
  - apply Rmult_le_compat_r; [lra|]. apply Rmult_le_compat.
    + apply pos_INR.
    + apply pow_le. lra.
    + apply le_INR, H.
    + apply pow_mono; [lra|lia].
Qed.

Lemma product_terms (p q r : poly fl) k : poly_mul FO p q = Ok r -> (k < length r)%nat ->
  let lo := conv_lo (length q) k in let cnt := (conv_hi (length p) k - lo)%nat in
  (lo + cnt <= S k)%nat /\ (cnt <= min (length p) (length q))%nat /\
  nth k r (fl_int prec emax 0) = fdot prec emax (fun t => nth (lo + t) p (fl_int prec emax 0))
                                   (fun t => nth (k - (lo + t)) q (fl_int prec emax 0)) cnt
  /\ conv_exact p q k = rsum cnt (fun t => entry_R p (lo + t) * entry_R q (k - (lo + t)))
  /\ conv_mag p q k = rsum cnt (fun t => Rabs (entry_R p (lo + t)) * Rabs (entry_R q (k - (lo + t)))).
Proof.
  intros E Hk lo cnt. destruct (poly_mul_exact FO _ (float_implements prec emax) p q) as (r' & Hr & Hl & Hn).
  unfold poly_mul in E. rewrite E in Hr. injection Hr as <-.
  assert (Hlen : (length r = length p + length q - 1 /\ 0 < length p /\ 0 < length q)%nat).
  { destruct (Nat.eqb_spec (length p) 0), (Nat.eqb_spec (length q) 0); simpl in Hl; lia. }
  assert (Z : forall i, (i < S k)%nat -> (i < lo)%nat \/ (lo + cnt <= i)%nat -> entry_R p i = 0 \/ entry_R q (k - i) = 0).
  { intros i Hi Hc. unfold cnt, lo, conv_lo, conv_hi in Hc.
    destruct (Nat.lt_ge_cases i (length p)).
    - right. apply entry_R_past. lia.
    - left. apply entry_R_past. lia. }
  assert (Hb : (lo + cnt <= S k)%nat) by (unfold cnt, lo, conv_lo, conv_hi; lia).
  split; [exact Hb|]. split; [unfold cnt, lo, conv_lo, conv_hi; lia|]. split; [exact (Hn k Hk)|]. split.
  - apply (rsum_window (fun i => entry_R p i * entry_R q (k - i))); [exact Hb|]. intros i Hi Hc. destruct (Z i Hi Hc) as [-> | ->]; ring.
  - apply (rsum_window (fun i => Rabs (entry_R p i) * Rabs (entry_R q (k - i)))); [exact Hb|].
    intros i Hi Hc. destruct (Z i Hi Hc) as [-> | ->]; rewrite Rabs_R0; ring.
Qed.

(** ** Products *)
Theorem C64_product_error :
  forall p q : poly fl, exists r, poly_mul FO p q = Ok r
  /\ forall k x, nth_error r k = Some x -> is_finite x = true ->
     Rabs (B2R x - conv_exact p q k)
     <= dot_bound prec emax (min (length p) (length q)) (conv_mag p q k).
Proof.
  intros p q. destruct (poly_mul_exact FO _ (float_implements prec emax) p q) as (r & Hr & _).
  exists r. split; [exact Hr|]. intros k x Hx F.
  assert (Hk : (k < length r)%nat) by (apply nth_error_Some; congruence).
  destruct (product_terms p q r k Hr Hk) as (_ & Hc & Hn & Hx1 & Hx2).
  apply nth_error_nth with (d := fl_int prec emax 0) in Hx. rewrite Hx in Hn. subst x. rewrite Hn in *.
  eapply Rle_trans; [|apply dot_bound_mono; [exact Hc|]].
  - rewrite Hx1, Hx2. apply fdot_bound; [intros; apply entry_nth, zero_value|intros; apply entry_nth, zero_value|exact F].
  - apply rsum_nonneg. intros. apply Rmult_le_pos; apply Rabs_pos.
Qed.

Theorem C64_product_finite :
  forall (p q r : poly fl), poly_mul FO p q = Ok r ->
  (* finite results come from finite coefficients only *)
  (forall k x, nth_error r k = Some x -> is_finite x = true ->
     forall i a b, (i <= k)%nat -> nth_error p i = Some a -> nth_error q (k - i) = Some b ->
     is_finite a = true /\ is_finite b = true)
  (* no overflow while the bound stays below 2^emax *)
  /\ (Forall (fun a => is_finite a = true) p -> Forall (fun a => is_finite a = true) q ->
      forall k x, nth_error r k = Some x ->
      conv_mag p q k + dot_bound prec emax (min (length p) (length q)) (conv_mag p q k) < bpow radix2 emax ->
      is_finite x = true).
Proof.
  intros p q r E. split.
  - intros k x Hx F i a b Hik Ha Hb.
    assert (Hk : (k < length r)%nat) by (apply nth_error_Some; congruence).
    destruct (product_terms p q r k E Hk) as (_ & _ & Hn & _).
    apply nth_error_nth with (d := fl_int prec emax 0) in Hx. rewrite Hx in Hn. subst x. rewrite Hn in F.
    assert (Hi : (i < length p)%nat) by (apply nth_error_Some; congruence).
    assert (Hj : (k - i < length q)%nat) by (apply nth_error_Some; congruence).
    destruct (dot_finite_args _ _ _ _ _ F (i - conv_lo (length q) k)) as [Fa Fb].
    { unfold conv_lo, conv_hi in *. lia. }
    cbv beta in Fa, Fb.
    replace (conv_lo (length q) k + (i - conv_lo (length q) k))%nat with i in Fa, Fb by (unfold conv_lo in *; lia).
    apply nth_error_nth with (d := fl_int prec emax 0) in Ha, Hb. rewrite Ha in Fa. rewrite Hb in Fb. auto.
  - intros Fp Fq k x Hx HB.
    assert (Hk : (k < length r)%nat) by (apply nth_error_Some; congruence).
    destruct (product_terms p q r k E Hk) as (_ & Hc & Hn & _ & Hm).
    apply nth_error_nth with (d := fl_int prec emax 0) in Hx. rewrite Hx in Hn. subst x. rewrite Hn.
    assert (Fz : forall l : list fl, Forall (fun a => is_finite a = true) l -> forall i, is_finite (nth i l (fl_int prec emax 0)) = true).
    { intros l Hl i. destruct (nth_in_or_default i l (fl_int prec emax 0)) as [H|H].
      - rewrite Forall_forall in Hl. apply Hl, H.
      - rewrite H. apply zero_value. }
    apply dot_no_overflow; [intros; split; apply Fz; assumption|].
    rewrite Hm in HB.
    rewrite (rsum_ext _ _ (fun t => Rabs (entry_R p (conv_lo (length q) k + t)) * Rabs (entry_R q (k - (conv_lo (length q) k + t)))))
      by (intros; rewrite !(entry_nth prec emax) by apply zero_value; reflexivity).
    eapply Rle_lt_trans; [|exact HB].
    set (mag := rsum _ _) in *.
    assert (Hmag : 0 <= mag) by (apply rsum_nonneg; intros; apply Rmult_le_pos; apply Rabs_pos).
    pose proof (dot_bound_mono _ _ mag Hc Hmag) as Hd. unfold dot_bound in *. lra.
Qed.

(** ** Sums and differences *)
(** The IEEE sum where both polynomials have a coefficient, a copy where only one has. *)
Definition sum_at (x y : option fl) : option fl :=
  match x, y with
  | Some a, Some b => Some (fl_add prec emax a b)
  | Some a, None => Some a
  | None, b => b
  end.
Definition diff_at (x y : option fl) : option fl :=
  match x, y with
  | Some a, Some b => Some (fl_sub prec emax a b)
  | Some a, None => Some a
  | None, Some b => Some (Bopp b)
  | None, None => None
  end.
Definition same_up_to_zero_at (x y : option fl) : Prop :=
  match x, y with
  | Some a, Some b => same_up_to_zero a b
  | None, None => True
  | _, _ => False
  end.

Lemma zipM_total (f : fl -> fl -> fl) (g : fl -> fl -> outcome fl) a q : (forall x y, g x y = Ok (f x y)) ->
  zipM g a q = Ok (map (fun '(s, x) => f s x) (combine a q)).
Proof. intros H. unfold zipM. apply mapM_total. intros [s x] _. apply H. Qed.

Lemma nth_error_zip (f : fl -> fl -> fl) a : forall q k,
  nth_error (map (fun '(s, x) => f s x) (combine a q) ++ skipn (length q) a ++ skipn (length a) q) k
  = match nth_error a k, nth_error q k with
    | Some x, Some y => Some (f x y) | Some x, None => Some x | None, o => o end.
Proof.
  induction a as [|x a IH]; intros [|y q] [|k]; simpl; try reflexivity.
  - rewrite app_nil_r. destruct (nth_error a k); reflexivity.
  - apply IH.
Qed.

Lemma zero_add_same (x : fl) : same_up_to_zero (fl_add prec emax (fl_int prec emax 0) x) x.
Proof.
  change (fl_int prec emax 0) with (@B754_zero prec emax false). unfold fl_add.
  destruct x as [s|s| |s m e B]; simpl; try (left; reflexivity).
  right. destruct s; eexists _, _; split; reflexivity.
Qed.

Theorem C64_sums :
  forall p q : poly fl, exists r r',
  poly_add FO p q = Ok r /\ poly_add_assign FO p q = Ok r /\ poly_add_assign_ref FO p q = Ok r'
  /\ (forall k, nth_error r k = sum_at (nth_error p k) (nth_error q k))
  /\ (forall k, same_up_to_zero_at (nth_error r' k) (nth_error r k)).
Proof.
  intros p q. rewrite (add_assign_zipM FO), (add_zipM FO), (add_assign_ref_zipM FO). cbv zeta.
  rewrite !(zipM_total (fl_add prec emax) (r_add FO)) by reflexivity. cbn [bind].
  assert (N : forall k, nth_error (map (fun '(s, x) => fl_add prec emax s x) (combine p q) ++ skipn (length q) p ++ skipn (length p) q) k
              = sum_at (nth_error p k) (nth_error q k)) by (intros k; apply nth_error_zip).
  eexists; eexists. split; [|split; [reflexivity|split; [reflexivity|split; [exact N|]]]].
  - destruct (Nat.ltb_spec (length p) (length q)) as [Hl|Hl].
    + rewrite (skipn_all2 p) by lia. simpl app.
      assert (C : forall a b : list fl, map (fun '(s, x) => fl_add prec emax s x) (combine b a)
                    = map (fun '(s, x) => fl_add prec emax s x) (combine a b)).
      { clear. induction a as [|x a IH]; intros [|y b]; simpl; try reflexivity.
        rewrite IH, fl_add_comm. reflexivity. }
      rewrite (C p q). reflexivity.
    + rewrite (skipn_all2 q) by lia. rewrite app_nil_r. reflexivity.
  - intros k. rewrite N.
    set (a := p ++ repeat (r_zero FO) (length q - length p)).
    assert (Ha : (length q <= length a)%nat) by (unfold a; rewrite app_length, repeat_length; lia).
    pose proof (nth_error_zip (fl_add prec emax) a q k) as Z. rewrite (skipn_all2 q) in Z by exact Ha.
    rewrite app_nil_r in Z. rewrite Z. unfold sum_at, same_up_to_zero_at. unfold a.
    destruct (Nat.lt_ge_cases k (length p)) as [Hk|Hk].
    + rewrite nth_error_app1 by exact Hk. destruct (nth_error p k) eqn:E; [|apply nth_error_None in E; lia].
      destruct (nth_error q k); left; reflexivity.
    + rewrite nth_error_app2 by exact Hk. rewrite (proj2 (nth_error_None p k) Hk).
      destruct (Nat.lt_ge_cases k (length q)) as [Hq|Hq].
      * rewrite nth_error_repeat by lia. destruct (nth_error q k) eqn:E; [|apply nth_error_None in E; lia].
        apply zero_add_same.
      * rewrite (proj2 (nth_error_None q k) Hq).
        rewrite (proj2 (nth_error_None (repeat _ _) _)) by (rewrite repeat_length; lia). exact I.
Qed.

Theorem C64_differences :
  forall p q : poly fl, exists r r',
  poly_sub FO p q = Ok r /\ poly_sub_assign FO p q = Ok r /\ poly_sub_assign_ref FO p q = Ok r'
  /\ (forall k, nth_error r k = diff_at (nth_error p k) (nth_error q k))
  /\ (forall k, same_up_to_zero_at (nth_error r' k) (nth_error r k)).
Proof.
  intros p q.
  assert (Hn : poly_neg FO q = Ok (map (@Bopp prec emax) q)) by (apply mapM_total; reflexivity).
  destruct (C64_sums p (map (@Bopp prec emax) q)) as (r & _ & H1 & H2 & _ & N & _).
  assert (N' : forall k, nth_error r k = diff_at (nth_error p k) (nth_error q k)).
  { intros k. rewrite N, nth_error_map. unfold sum_at, diff_at.
    destruct (nth_error p k), (nth_error q k); simpl; try reflexivity. rewrite fl_sub_def. reflexivity. }
  unfold poly_sub, poly_sub_assign. rewrite Hn. cbn [bind]. rewrite H1, H2, (sub_assign_ref_zipM FO). cbv zeta.
  rewrite !(zipM_total (fl_sub prec emax) (r_sub FO)) by reflexivity. cbn [bind].
  eexists; eexists. split; [reflexivity|split; [reflexivity|split; [reflexivity|split; [exact N'|]]]].
  intros k. rewrite N'.
  set (a := p ++ repeat (r_zero FO) (length q - length p)).
  assert (Ha : (length q <= length a)%nat) by (unfold a; rewrite app_length, repeat_length; lia).
  pose proof (nth_error_zip (fl_sub prec emax) a q k) as Z. rewrite (skipn_all2 q) in Z by exact Ha.
  rewrite app_nil_r in Z. rewrite Z. unfold diff_at, same_up_to_zero_at. unfold a.
  destruct (Nat.lt_ge_cases k (length p)) as [Hk|Hk].
  - rewrite nth_error_app1 by exact Hk. destruct (nth_error p k) eqn:E; [|apply nth_error_None in E; lia].
    destruct (nth_error q k); left; reflexivity.
  - rewrite nth_error_app2 by exact Hk. rewrite (proj2 (nth_error_None p k) Hk).
    destruct (Nat.lt_ge_cases k (length q)) as [Hq|Hq].
    + rewrite nth_error_repeat by lia. destruct (nth_error q k) eqn:E; [|apply nth_error_None in E; lia].
      rewrite fl_sub_def. apply zero_add_same.
    + rewrite (proj2 (nth_error_None q k) Hq).
      rewrite (proj2 (nth_error_None (repeat _ _) _)) by (rewrite repeat_length; lia). exact I.
Qed.
End Fmt.

(** (1/3 + x) * (3 + x/3): every coefficient is finite; the bounds' hypotheses are met. *)
Example C64_case :
  on_ok (poly_mul f64_ring [third; f64_of_Z 1] [f64_of_Z 3; third])
        (fun r => (length r =? 3)%nat && forallb (fun x => is_finite x) r) = true.
Proof. vm_compute. reflexivity. Qed.

(** (1 + x)^2 satisfies the no-overflow hypothesis in its middle coefficient. *)
Example C64_case_finite :
  let p := [f64_of_Z 1; f64_of_Z 1] in
  Forall (fun a : f64 => is_finite a = true) p
  /\ (let mag := rsum 2 (fun i => Rabs (entry_R p i) * Rabs (entry_R p (1 - i))) in
      mag + dot_bound 53 1024 (min (length p) (length p)) mag < bpow radix2 1024).
Proof.
  intros p. split; [repeat constructor|]. intros mag.
  assert (E1 : B2R (f64_of_Z 1) = 1) by (apply (fl_int_exact 53 1024 1); lia).
  assert (Em : mag = 2).
  { unfold mag, p, rsum, entry_R. cbn [nth map Nat.sub]. rewrite E1, Rabs_R1. ring. }
  rewrite Em. unfold dot_bound, p. simpl length. change (Nat.min 2 2) with 2%nat. simpl INR.
  assert (U : unit_roundoff 53 <= 1) by (change 1 with (bpow radix2 0); apply bpow_le; lia).
  assert (U0 : 0 <= unit_roundoff 53) by apply bpow_ge_0.
  assert (T : underflow_unit 53 1024 <= 1) by (change 1 with (bpow radix2 0); apply bpow_le; lia).
  assert (T0 : 0 <= underflow_unit 53 1024) by apply bpow_ge_0.
  assert (B : 64 <= bpow radix2 1024) by (change 64 with (bpow radix2 6); apply bpow_le; lia).
  set (u := unit_roundoff 53) in *. set (t := underflow_unit 53 1024) in *. clearbody u t. clear Em mag E1 p.
  replace ((1 + u) ^ 2) with ((1 + u) * (1 + u)) by ring.
  replace ((1 + u) ^ (2 - 1)) with (1 + u) by (simpl; ring). nra.
Qed.

(** Finding: [p * q] and [q * p] differ already for f64: the products of one coefficient are
    added in the opposite order.  Here the middle coefficients differ:
    (1e16*1 + (-1e16)*1) + 1*1 = 1, but (1*1 + (-1e16)*1) + 1e16*1 = 0 from the other end. *)
Definition comm_p : poly f64 := [f64_of_Z 10000000000000000; f64_of_Z (-10000000000000000); f64_of_Z 1].
Definition comm_q : poly f64 := [f64_of_Z 1; f64_of_Z 1; f64_of_Z 1].
Theorem C64_multiplication_commutes_refuted :
  exists r s, poly_mul f64_ring comm_p comm_q = Ok r /\ poly_mul f64_ring comm_q comm_p = Ok s
  /\ poly_eqb f64_ring r s = false.
Proof.
  destruct (poly_mul_exact f64_ring _ (float_implements 53 1024) comm_p comm_q) as (r & Hr & _).
  destruct (poly_mul_exact f64_ring _ (float_implements 53 1024) comm_q comm_p) as (s & Hs & _).
  exists r, s. split; [exact Hr|]. split; [exact Hs|].
  assert (H : on_ok (poly_mul f64_ring comm_p comm_q) (fun r =>
                on_ok (poly_mul f64_ring comm_q comm_p) (fun s => negb (poly_eqb f64_ring r s))) = true)
    by (vm_compute; reflexivity).
  unfold on_ok in H.
  change (poly_mul f64_ring comm_p comm_q = Ok r) in Hr. change (poly_mul f64_ring comm_q comm_p = Ok s) in Hs.
  rewrite Hr, Hs in H. apply negb_true_iff in H. exact H.
Qed.

(** [p += q] keeps a negative zero that [p += &q] turns into a positive one. *)
Example C64_negative_zero :
  poly_add_assign f64_ring [] [B754_zero true] = Ok [B754_zero true]
  /\ poly_add_assign_ref f64_ring [] [B754_zero true] = Ok [B754_zero false].
Proof. split; reflexivity. Qed.

Print Assumptions C64_product_error.
Print Assumptions C64_product_finite.
Print Assumptions C64_sums.
Print Assumptions C64_differences.
Print Assumptions C64_multiplication_commutes_refuted.
