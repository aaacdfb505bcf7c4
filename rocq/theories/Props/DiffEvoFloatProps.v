(** Property C102: where the points of a differential evolution run lie when the coordinates are
    f32/f64 numbers; the documented call never leaves a small box and never computes a NaN. *)
From Coq Require Import List Arith Bool ZArith Lia Reals Lra Psatz.
From Flocq Require Import Core.Core IEEE754.BinarySingleNaN.
From Verif Require Import Base.Outcome Base.Array Base.Wp Model.DiffEvo Model.Float Model.Ackley Spec.DiffEvo Spec.DiffEvoMore Spec.FloatErr
  Proofs.FloatErr Proofs.NoOverflow Proofs.FloatInt Proofs.PiE Proofs.DiffEvoProofs Proofs.DiffEvoSim Proofs.DiffEvoMore Proofs.DiffEvoGrowth
  Props.DiffEvoProps Props.DiffEvoMoreProps Props.DiffEvoInvProps Props.FloatRangeProps Props.AckleyProps Props.AckleyFloatProps Props.DocExampleProps.
Import ListNotations.
Local Open Scope R_scope.

(** [x] was returned or shown to the comparator. *)
Definition seen {T N} (best : array T N) (log : list (array T N * array T N * bool)) (x : array T N) : Prop :=
  x = best \/ exists y b, In (x, y, b) log \/ In (y, x, b) log.

(** ** One step a + (b - c) * w in floating point *)
Section Fmt.
Context (prec emax : Z) {Hp : Prec_gt_0 prec} {He : Prec_lt_emax prec emax}.
Notation fl := (binary_float prec emax).
Notation FN := (float_de_num prec emax).
Notation u := (unit_roundoff prec).
Notation eta := (underflow_unit prec emax).

(** By what factor one step can enlarge magnitudes. *)
Definition factor (W : R) : R := (1 + u) * (1 + 2 * W * (1 + u) ^ 2).
(** Magnitudes after [m] iterations from start values of magnitude at most [B]. *)
Definition reach (W B : R) (m : nat) : R := factor W ^ m * (B + INR m * ((1 + u) * eta)).

Lemma float_step (a b c w : fl) M : is_finite a = true -> is_finite b = true -> is_finite c = true -> is_finite w = true ->
  Rabs (B2R a) <= M -> Rabs (B2R b) <= M -> Rabs (B2R c) <= M -> 0 <= B2R w ->
  let M' := factor (B2R w) * M + (1 + u) * eta in
  2 * (1 + u) * M < too_big emax -> M' < too_big emax ->
  let r := fl_add prec emax a (fl_mul prec emax (fl_sub prec emax b c) w) in
  is_finite r = true /\ Rabs (B2R r) <= M'
  /\ Rabs (B2R r - (B2R a + (B2R b - B2R c) * B2R w)) <= M' - (1 + 2 * B2R w) * M.
Proof.
  intros Fa Fb Fc Fw Ha Hb Hc Hw M' L1 L2 r. pose proof (u_pos prec) as U. pose proof (eta_pos prec emax) as Et.
  assert (M0 : 0 <= M) by (pose proof (Rabs_pos (B2R a)); lra).
  set (W := B2R w) in *. set (D := B2R b - B2R c).
  assert (HD : Rabs D <= 2 * M) by (unfold D; apply Rabs_le_inv in Hb, Hc; apply Rabs_le; lra).
  assert (F1 : is_finite (fl_sub prec emax b c) = true).
  { apply (sub_finite prec emax); try assumption. fold D. eapply Rle_lt_trans; [|exact L1].
    apply Rle_trans with ((1 + u) * (2 * M)); [apply Rmult_le_compat_l; lra|lra]. }
  destruct (sub_model prec emax _ _ F1) as (_ & _ & e1 & He1 & E1). fold D in E1.
  assert (W0 : 0 <= M * W) by (apply Rmult_le_pos; assumption).
  assert (X1 : Rabs (1 + e1) <= 1 + u) by (eapply Rle_trans; [apply Rabs_triang|]; rewrite Rabs_R1; lra).
  assert (HP : Rabs (B2R (fl_sub prec emax b c) * W) <= 2 * (M * W) * (1 + u)).
  { rewrite E1, !Rabs_mult, (Rabs_pos_eq W Hw).
    apply Rle_trans with ((2 * M) * (1 + u) * W); [|right; ring]. apply Rmult_le_compat_r; [exact Hw|].
    apply Rmult_le_compat; try apply Rabs_pos; assumption. }
  assert (EM : M' = (1 + u) * (M + (1 + u) * (2 * (M * W) * (1 + u)) + eta)) by (unfold M', factor; ring).
  set (Q := (1 + u) * (2 * (M * W) * (1 + u))) in *.
  assert (Q0 : 0 <= Q) by (unfold Q; apply Rmult_le_pos; [lra|apply Rmult_le_pos; lra]).
  assert (UQ : 0 <= u * (M + Q + eta)) by (apply Rmult_le_pos; lra).
  assert (HP' : (1 + u) * Rabs (B2R (fl_sub prec emax b c) * W) <= Q) by (apply Rmult_le_compat_l; lra).
  assert (F2 : is_finite (fl_mul prec emax (fl_sub prec emax b c) w) = true).
  { apply (mul_finite prec emax); try assumption. fold W. lra. }
  pose proof (prod_bound prec emax _ _ F2) as HM. fold W in HM.
  set (P := fl_mul prec emax (fl_sub prec emax b c) w) in *.
  assert (HS : Rabs (B2R a + B2R P) <= M + Q + eta) by (eapply Rle_trans; [apply Rabs_triang|]; lra).
  assert (F3 : is_finite r = true).
  { apply (add_finite prec emax); try assumption. eapply Rle_lt_trans; [|exact L2]. rewrite EM. apply Rmult_le_compat_l; lra. }
  split; [exact F3|]. destruct (add_model prec emax _ _ F3) as (_ & _ & e3 & He3 & E3). fold r in E3. fold P in E3.
  split.
  - rewrite E3, Rabs_mult, EM, Rmult_comm. apply Rmult_le_compat; try apply Rabs_pos; try assumption.
    eapply Rle_trans; [apply Rabs_triang|]; rewrite Rabs_R1; lra.
  - destruct (mul_model prec emax _ _ F2) as (_ & _ & e2 & h & He2 & Hh & E2). fold P in E2. fold W in E2.
    rewrite E3. replace ((B2R a + B2R P) * (1 + e3) - (B2R a + D * W)) with ((B2R a + B2R P) * e3 + (B2R P - D * W)) by ring.
    eapply Rle_trans; [apply Rabs_triang|]. rewrite Rabs_mult.
    assert (Y1 : Rabs (B2R a + B2R P) * Rabs e3 <= (M + Q + eta) * u) by (apply Rmult_le_compat; try apply Rabs_pos; assumption).
    assert (Y2 : Rabs (B2R P - D * W) <= Q + eta - 2 * (M * W)).
    { rewrite E2, E1. replace (D * (1 + e1) * W * (1 + e2) + h - D * W) with (D * W * ((1 + e1) * (1 + e2) - 1) + h) by ring.
      eapply Rle_trans; [apply Rabs_triang|]. rewrite !Rabs_mult, (Rabs_pos_eq W Hw).
      assert (G : Rabs ((1 + e1) * (1 + e2) - 1) <= (1 + u) * (1 + u) - 1).
      { apply Rabs_le_inv in He1, He2. replace ((1 + e1) * (1 + e2) - 1) with (e1 + e2 + e1 * e2) by ring.
        eapply Rle_trans; [apply Rabs_triang|]. eapply Rle_trans; [apply Rplus_le_compat_r, Rabs_triang|].
        rewrite Rabs_mult. assert (Rabs e1 <= u) by (apply Rabs_le; lra). assert (Rabs e2 <= u) by (apply Rabs_le; lra).
        assert (Rabs e1 * Rabs e2 <= u * u) by (apply Rmult_le_compat; try apply Rabs_pos; assumption). lra. }
      assert (DW : Rabs D * W <= 2 * (M * W)) by (rewrite <- Rmult_assoc; apply Rmult_le_compat_r; assumption).
      assert (Rabs D * W * Rabs ((1 + e1) * (1 + e2) - 1) <= 2 * (M * W) * ((1 + u) * (1 + u) - 1)).
      { apply Rmult_le_compat; try apply Rabs_pos; try assumption. apply Rmult_le_pos; [apply Rabs_pos|exact Hw]. }
      unfold Q. lra. }
    rewrite EM. lra.
Qed.

Lemma factor_ge W : 0 <= W -> 1 + 2 * W <= factor W /\ 1 <= factor W.
Proof.
  intros HW. pose proof (u_pos prec) as U. unfold factor.
  assert (A : 1 <= (1 + u) ^ 2) by (apply pow_R1_Rle; lra).
  assert (B : 2 * W * 1 <= 2 * W * (1 + u) ^ 2) by (apply Rmult_le_compat_l; lra).
  assert (C : 0 <= u * (1 + 2 * W * (1 + u) ^ 2)) by (apply Rmult_le_pos; lra). lra.
Qed.
Lemma reach_step W B m : 0 <= W -> 0 <= B -> factor W * reach W B m + (1 + u) * eta <= reach W B (S m).
Proof.
  intros HW HB. pose proof (u_pos prec) as U. pose proof (eta_pos prec emax) as Et. unfold reach. rewrite S_INR. cbn [pow].
  set (t := (1 + u) * eta). assert (T0 : 0 <= t) by (unfold t; apply Rmult_le_pos; lra).
  assert (G : 1 <= factor W * factor W ^ m).
  { change (factor W * factor W ^ m) with (factor W ^ S m). apply pow_R1_Rle, (factor_ge W HW). }
  assert (1 * t <= factor W * factor W ^ m * t) by (apply Rmult_le_compat_r; assumption). lra.
Qed.
Lemma reach_nonneg W B m : 0 <= W -> 0 <= B -> 0 <= reach W B m.
Proof.
  intros HW HB. pose proof (u_pos prec). pose proof (eta_pos prec emax). unfold reach.
  apply Rmult_le_pos; [apply pow_le; pose proof (factor_ge W HW); lra|].
  assert (0 <= INR m * ((1 + u) * eta)) by (apply Rmult_le_pos; [apply pos_INR|apply Rmult_le_pos; lra]). lra.
Qed.

(** Rounding can add to the exact excess over a range (see [C58_growth]) what it adds to the reach. *)
Definition excess (W B D : R) (m : nat) : R := D * (((1 + 2 * W) ^ m - 1) / 2) + (reach W B m - (1 + 2 * W) ^ m * B).

Lemma excess_step W B D m lo hi a b c r : 0 <= W -> 0 <= B -> 0 <= D -> hi = lo + D ->
  lo - excess W B D m <= a <= hi + excess W B D m -> lo - excess W B D m <= b <= hi + excess W B D m ->
  lo - excess W B D m <= c <= hi + excess W B D m ->
  Rabs (r - (a + (b - c) * W)) <= reach W B (S m) - (1 + 2 * W) * reach W B m ->
  lo - excess W B D (S m) <= r <= hi + excess W B D (S m).
Proof.
  intros HW HB HD Eh Ha Hb Hc Hr. subst hi.
  assert (EX : excess W B D (S m) = (1 + 2 * W) * excess W B D m + D * W + (reach W B (S m) - (1 + 2 * W) * reach W B m)).
  { unfold excess. cbn [pow]. field. }
  set (E := excess W B D m) in *. set (d := reach W B (S m) - (1 + 2 * W) * reach W B m) in *.
  assert (X : - (D + 2 * E) <= b - c <= D + 2 * E) by lra.
  assert (X1 : (b - c) * W <= (D + 2 * E) * W) by (apply Rmult_le_compat_r; lra).
  assert (X2 : - (D + 2 * E) * W <= (b - c) * W) by (apply Rmult_le_compat_r; lra).
  apply Rabs_le_inv in Hr. rewrite EX. lra.
Qed.
Lemma excess_mono W B D m : 0 <= W -> 0 <= B -> 0 <= D -> 0 <= excess W B D m -> excess W B D m <= excess W B D (S m).
Proof.
  intros HW HB HD H0.
  assert (EX : excess W B D (S m) = (1 + 2 * W) * excess W B D m + D * W + (reach W B (S m) - (1 + 2 * W) * reach W B m)).
  { unfold excess. cbn [pow]. field. }
  assert (0 <= W * excess W B D m) by (apply Rmult_le_pos; assumption). assert (0 <= D * W) by (apply Rmult_le_pos; assumption).
  pose proof (reach_step W B m HW HB). pose proof (factor_ge W HW). pose proof (reach_nonneg W B m HW HB).
  pose proof (u_pos prec). pose proof (eta_pos prec emax). assert (0 <= (1 + u) * eta) by (apply Rmult_le_pos; lra).
  assert ((1 + 2 * W) * reach W B m <= factor W * reach W B m) by (apply Rmult_le_compat_r; lra). lra.
Qed.
Lemma excess_nonneg W B D m : 0 <= W -> 0 <= B -> 0 <= D -> 0 <= excess W B D m.
Proof.
  intros HW HB HD. induction m as [|m IH].
  - unfold excess, reach. cbn. lra.
  - pose proof (excess_mono W B D m HW HB HD IH). lra.
Qed.

Lemma weight_nonneg {S C} (rng : de_rng fl f32 S) {N} (cmp : C -> array fl N -> array fl N -> outcome (bool * C))
    fuel bounds size p (w : fl) iters s c r :
  de_optimize FN rng cmp fuel bounds size p w iters s c = Ok r -> 0 <= B2R w.
Proof.
  intros E. pose proof (weight_finite prec emax rng cmp _ _ _ _ _ _ _ _ _ E) as Fw.
  unfold de_optimize in E. destruct (4 <=? size)%nat; [|discriminate E]. cbn [de_assert bind] in E.
  destruct (p_leb FN (p_0 FN) p && p_leb FN p (p_1 FN))%bool; [|discriminate E]. cbn [de_assert bind] in E.
  destruct (t_leb FN (t_0 FN) w && t_leb FN w (t_2 FN))%bool eqn:B; [|discriminate E]. clear E.
  apply andb_prop in B as [B1 _]. cbn [t_leb t_0 float_de_num] in B1.
  destruct (zero_value prec emax) as [Vz Fz]. rewrite Bleb_correct in B1 by assumption.
  destruct (Rle_bool_spec (B2R (fl_int prec emax 0)) (B2R w)); [|discriminate B1]. rewrite <- Vz. assumption.
Qed.

(** Every coordinate of every point returned or shown to the comparator is finite and close to its
    range, as long as the reach (and twice it) does not exceed the largest float: by at most
    [excess], which is the bound for exact arithmetic plus what rounding adds to magnitudes. *)
Theorem C102_float_reach :
  forall (S C : Type) (rng : de_rng fl f32 S) (N : nat) (cmp : C -> array fl N -> array fl N -> outcome (bool * C)),
  index_in_range rng ->
  forall fuel bounds size p w iters s c best s' c' log,
  de_optimize FN rng (recorded cmp) fuel bounds size p w iters s (c, []) = Ok (best, s', (c', log)) ->
  forall n lo hi, nth_error (entries bounds) n = Some (lo, hi) ->
  (forall t v t', gen_value rng lo hi t = Ok (v, t') -> is_finite v = true /\ B2R lo <= B2R v <= B2R hi) ->
  let W := B2R w in let B := Rmax (Rabs (B2R lo)) (Rabs (B2R hi)) in
  2 * (1 + u) * reach W B iters < too_big emax ->
  forall x, seen best log x -> exists v, nth_error (entries x) n = Some v
  /\ is_finite v = true /\ Rabs (B2R v) <= reach W B iters
  /\ let e := excess W B (B2R hi - B2R lo) iters in B2R lo - e <= B2R v <= B2R hi + e.
Proof.
  intros S C rng N cmp Hr fuel bounds size p w iters s c best s' c' log E n lo hi Hn Hgen W B HB x Hx.
  pose proof (weight_finite prec emax rng _ _ _ _ _ _ _ _ _ _ E) as Fw. pose proof (weight_nonneg rng _ _ _ _ _ _ _ _ _ _ E) as W0. fold W in W0.
  pose proof (u_pos prec) as U. pose proof (eta_pos prec emax) as Et.
  assert (B0 : 0 <= B) by (unfold B; eapply Rle_trans; [apply Rabs_pos|apply Rmax_l]).
  set (D := B2R hi - B2R lo).
  assert (RM : forall m, reach W B m <= reach W B (Datatypes.S m)).
  { intros m. pose proof (reach_step W B m W0 B0). pose proof (reach_nonneg W B m W0 B0). pose proof (factor_ge W W0).
    assert (1 * reach W B m <= factor W * reach W B m) by (apply Rmult_le_compat_r; lra).
    assert (0 <= (1 + u) * eta) by (apply Rmult_le_pos; lra). lra. }
  destruct (Rle_or_lt 0 D) as [D0|D0].
  2:{ (* an empty range: no start value *)
    exfalso. destruct (optimize_history FN rng cmp Hr _ _ _ _ _ _ _ _ _ _ _ _ E) as (start & final & Hh).
    assert (Hs : (4 <= size)%nat) by (unfold de_optimize in E; destruct (4 <=? size)%nat eqn:Q; [apply Nat.leb_le, Q|discriminate E]).
    destruct Hh as (log1 & log2 & _ & L1 & Hst & _). destruct start as [|x0 start]; [simpl in L1; lia|].
    inversion Hst as [|? ? H1 _]; subst. assert (Hlt : (n < N)%nat) by (apply nth_error_Some_lt in Hn; rewrite entries_length in Hn; exact Hn).
    destruct (H1 n Hlt) as (lo' & hi' & v & t & t' & Hb & Hg & _). rewrite Hn in Hb. injection Hb as <- <-.
    destruct (Hgen _ _ _ Hg). unfold D in D0. lra. }
  set (P := fun (m n' : nat) (v : fl) => n' = n -> 2 * (1 + u) * reach W B m < too_big emax ->
     is_finite v = true /\ Rabs (B2R v) <= reach W B m /\ B2R lo - excess W B D m <= B2R v <= B2R hi + excess W B D m).
  assert (Pm : forall m n' v, P m n' v -> P (Datatypes.S m) n' v).
  { intros m n' v HP En L. assert (L' : 2 * (1 + u) * reach W B m < too_big emax).
    { eapply Rle_lt_trans; [|exact L]. apply Rmult_le_compat_l; [lra|apply RM]. }
    destruct (HP En L') as (F & A & I). split; [exact F|]. split; [eapply Rle_trans; [exact A|apply RM]|].
    pose proof (excess_mono W B D m W0 B0 D0 (excess_nonneg W B D m W0 B0 D0)). lra. }
  assert (P0 : contains_start rng bounds (P 0%nat)).
  { intros n' lo' hi' t v t' Hb Hg En _. subst n'. rewrite Hn in Hb. injection Hb as <- <-. destruct (Hgen _ _ _ Hg) as [F I].
    split; [exact F|]. assert (R0 : reach W B 0 = B) by (unfold reach; cbn; ring). assert (E0 : excess W B D 0 = 0) by (unfold excess; rewrite R0; cbn; field).
    rewrite R0, E0. split; [|lra]. unfold B. apply Rabs_le. pose proof (Rmax_l (Rabs (B2R lo)) (Rabs (B2R hi))). pose proof (Rmax_r (Rabs (B2R lo)) (Rabs (B2R hi))).
    pose proof (Rle_abs (B2R hi)). pose proof (Rle_abs (- B2R lo)). rewrite Rabs_Ropp in *. lra. }
  assert (Ps : forall m n', one_step FN w (P m n') (P (Datatypes.S m) n')).
  { intros m n' a b c0 d e v Pa Pb Pc E1 E2 E3 En L. cbn [t_sub t_mul t_add float_de_num] in E1, E2, E3.
    assert (Ed : fl_sub prec emax b c0 = d) by (injection E1; auto). subst d. assert (Ee : fl_mul prec emax (fl_sub prec emax b c0) w = e) by (injection E2; auto). subst e.
    assert (Ev : fl_add prec emax a (fl_mul prec emax (fl_sub prec emax b c0) w) = v) by (injection E3; auto). subst v.
    pose proof (reach_step W B m W0 B0) as RS.
    assert (L' : 2 * (1 + u) * reach W B m < too_big emax).
    { eapply Rle_lt_trans; [|exact L]. apply Rmult_le_compat_l; [lra|apply RM]. }
    destruct (Pa En L') as (Fa & Aa & Ia). destruct (Pb En L') as (Fb & Ab & Ib). destruct (Pc En L') as (Fc & Ac & Ic).
    destruct (float_step a b c0 w (reach W B m) Fa Fb Fc Fw Aa Ab Ac W0 L') as (F & A & X).
    { eapply Rle_lt_trans; [exact RS|]. pose proof (reach_nonneg W B (Datatypes.S m) W0 B0).
      assert (0 <= u * reach W B (Datatypes.S m)) by (apply Rmult_le_pos; lra). lra. }
    split; [exact F|]. fold W in A, X. split; [lra|].
    apply (excess_step W B D m _ _ (B2R a) (B2R b) (B2R c0)); try assumption; [unfold D; ring|]. lra. }
  destruct (optimize_history FN rng cmp Hr _ _ _ _ _ _ _ _ _ _ _ _ E) as (start & final & Hh).
  destruct (history_graded FN rng P bounds size p w iters log start final best P0 Pm Ps Hh) as (G1 & G2 & G3).
  assert (PP : forall k m, (m <= k)%nat -> forall n' v, P m n' v -> P k n' v).
  { induction 1; intros; [assumption|]. apply Pm. auto. }
  assert (Hall : all_coords (P iters) x).
  { destruct Hx as [->|(y & b & [Hin|Hin])]; [exact G1| |];
      apply In_nth_error in Hin as [i Hi]; (destruct (Nat.lt_ge_cases i iters) as [L|L];
        [destruct (G2 i _ _ _ Hi L) as [Q1 Q2]|destruct (G3 i _ _ _ Hi L) as [Q1 Q2]]); intros n' v Hv.
    - apply (PP iters (Datatypes.S i)); [lia|]. exact (Q2 n' v Hv).
    - exact (Q2 n' v Hv).
    - apply (PP iters i); [lia|]. exact (Q1 n' v Hv).
    - exact (Q1 n' v Hv). }
  assert (Hlt : (n < N)%nat) by (apply nth_error_Some_lt in Hn; rewrite entries_length in Hn; exact Hn).
  destruct (nth_error (entries x) n) as [v|] eqn:Ev.
  - exists v. split; [reflexivity|]. exact (Hall n v Ev eq_refl HB).
  - apply nth_error_None in Ev. rewrite entries_length in Ev. lia.
Qed.
End Fmt.

(** ** Points that are kept *)
Section Kept.
Context {T F S : Type} (num : de_num T F) (rng : de_rng T F S) {N : nat}.
Notation cand := (array T N).

(** If trials made from points in [I] lie in [J], and a trial in [J] that beats a point in [I] lies
    in [I], then a population in [I] stays in [I] and only points of [J] are tried. *)
Lemma evolves_kept (I J : cand -> Prop) p w :
  (forall pop i x, Forall I pop -> is_trial num rng p w pop i x -> J x) ->
  forall t (pop : list cand) log pop', evolves num rng p w t pop log pop' -> Forall I pop ->
  (forall x y, In (x, y, true) log -> J x -> I y -> I x) ->
  Forall I pop' /\ forall x y b, In (x, y, b) log -> J x /\ I y.
Proof.
  intros Hstep. induction 1 as [t pop|t pop x y b log pop' Hy Hx Hev IH]; intros Hpop Hk.
  - split; [exact Hpop|]. intros x y b [].
  - pose proof (Hstep _ _ _ Hpop Hx) as Jx.
    assert (Iy : I y) by (rewrite Forall_forall in Hpop; apply Hpop; eapply nth_error_In, Hy).
    assert (Hpop' : Forall I (if b then list_upd pop (t mod length pop) x else pop)).
    { destruct b; [|exact Hpop]. rewrite Forall_forall in Hpop |- *. intros z Hz.
      apply In_nth_error in Hz as [i Hi]. rewrite nth_error_list_upd in Hi.
      destruct ((i =? t mod length pop) && (t mod length pop <? length pop))%nat.
      - injection Hi as <-. apply (Hk x y); [left; reflexivity|assumption|assumption].
      - apply nth_error_In in Hi. auto. }
    destruct (IH Hpop') as [IH1 IH2].
    { intros x1 y1 Hin. apply Hk. right. exact Hin. }
    split; [exact IH1|]. intros x1 y1 b1 [E|H1].
    + injection E as <- <- <-. split; assumption.
    + eapply IH2, H1.
Qed.

Lemma run_kept {C} (cmp : C -> cand -> cand -> outcome (bool * C)) (Hr : index_in_range rng) (I J : cand -> Prop)
    fuel bounds size p w iters s c best s' c' log :
  de_optimize num rng (recorded cmp) fuel bounds size p w iters s (c, []) = Ok (best, s', (c', log)) ->
  (forall x, drawn_from rng bounds x -> I x) -> (forall x, I x -> J x) ->
  (forall pop i x, Forall I pop -> is_trial num rng p w pop i x -> J x) ->
  (forall x y, In (x, y, true) log -> J x -> I y -> I x) ->
  I best /\ forall x y b, In (x, y, b) log -> J x /\ I y.
Proof.
  intros E H0 HIJ Ht Hk. destruct (optimize_history num rng cmp Hr _ _ _ _ _ _ _ _ _ _ _ _ E) as (start & final & Hh).
  destruct Hh as (log1 & log2 & -> & L1 & Hst & L2 & Hev & Hko).
  assert (Hs : Forall I start) by (eapply Forall_impl; [|exact Hst]; exact H0).
  destruct (evolves_kept I J p w Ht _ _ _ _ Hev Hs) as [G1 G2].
  { intros x y Hin. apply Hk. apply in_or_app. left. exact Hin. }
  destruct (knockout_invariant I _ _ _ Hko G1) as [K1 K2]. split; [exact K1|].
  intros x y b Hin. apply in_app_or in Hin as [Hin|Hin]; [eapply G2, Hin|]. destruct (K2 _ _ _ Hin) as [Q1 Q2]. auto.
Qed.

(** Coordinates of a trial. *)
Lemma trial_coord (I : cand -> Prop) (P Q : nat -> T -> Prop) p w pop i x :
  (forall x, I x -> all_coords P x) -> (forall n v, P n v -> Q n v) -> (forall n, one_step num w (P n) (Q n)) ->
  Forall I pop -> is_trial num rng p w pop i x -> all_coords Q x.
Proof.
  intros HI HPQ Hs Hpop Ht n v Hv.
  assert (Hc : forall j v, coord pop j n v -> P n v).
  { intros j v0 (z & Hz & Hv0). rewrite Forall_forall in Hpop. apply nth_error_In in Hz. exact (HI z (Hpop z Hz) n v0 Hv0). }
  destruct Ht as (j & k & l & r & u & _ & _ & _ & _ & _ & _ & _ & Ht).
  assert (Hn : (n < N)%nat) by (apply nth_error_Some_lt in Hv; rewrite entries_length in Hv; exact Hv).
  destruct (Ht n Hn) as (v' & Hv' & Hb). rewrite Hv in Hv'. injection Hv' as <-.
  destruct ((n =? r) || p_ltb num (u n) p)%bool.
  - destruct Hb as (a & b0 & c & d & e & Ha & Hb & Hc' & E1 & E2 & E3).
    exact (Hs n a b0 c d e v (Hc _ _ Ha) (Hc _ _ Hb) (Hc _ _ Hc') E1 E2 E3).
  - eauto.
Qed.
End Kept.

(** ** Minimising an objective: the run stays near the level set of the worst start value *)
(** In exact arithmetic, for the comparator f(l) < f(r): if f is at most [M] on the start ranges and
    points with f at most [M] lie in the box [lo_n, hi_n], then the result and all incumbents lie in
    that box (with f at most [M]) and every point ever tried lies at most w times its width outside. *)
Theorem C102_level_set :
  forall (S C : Type) (rng : de_rng R R S) (N : nat) (f : array R N -> R) (cmp : C -> array R N -> array R N -> outcome (bool * C)),
  index_in_range rng -> decides cmp (fun x y => if Rlt_dec (f x) (f y) then true else false) ->
  forall fuel bounds size p w iters s c best s' c' log,
  de_optimize real_de_num rng (recorded cmp) fuel bounds size p w iters s (c, []) = Ok (best, s', (c', log)) ->
  forall M (lo hi : nat -> R),
  (forall x, drawn_from rng bounds x -> f x <= M) ->
  let inside (margin : R) x := forall n v, nth_error (entries x) n = Some v ->
     lo n - margin * (hi n - lo n) <= v <= hi n + margin * (hi n - lo n) in
  (forall x, f x <= M -> inside 0 x) ->
  (f best <= M /\ inside 0 best)
  /\ forall x y b, In (x, y, b) log -> inside w x /\ (f y <= M /\ inside 0 y).
Proof.
  intros S C rng N f cmp Hr Hd fuel bounds size p w iters s c best s' c' log E M lo hi H0 inside HM.
  assert (W0 : 0 <= w).
  { unfold de_optimize in E. destruct (4 <=? size)%nat; [|discriminate E]. cbn [de_assert bind] in E.
    destruct (p_leb real_de_num (p_0 real_de_num) p && p_leb real_de_num p (p_1 real_de_num))%bool; [|discriminate E]. cbn [de_assert bind] in E.
    cbn [t_leb t_0 t_2 real_de_num] in E. destruct (Rle_dec 0 w) as [W0|W0]; [exact W0|discriminate E]. }
  pose proof (recorded_optimize_truthful real_de_num rng cmp _ Hd _ _ _ _ _ _ _ _ _ _ _ _ E) as Ht.
  unfold truthful in Ht. rewrite Forall_forall in Ht.
  set (I := fun x : array R N => f x <= M /\ inside 0 x).
  assert (IJ : forall x, I x -> inside w x).
  { intros x [_ Hx] n v Hv. specialize (Hx n v Hv). rewrite Rmult_0_l in Hx.
    assert (0 <= w * (hi n - lo n)) by (apply Rmult_le_pos; lra). lra. }
  destruct (run_kept real_de_num rng cmp Hr I (inside w) _ _ _ _ _ _ _ _ _ _ _ _ E) as [G1 G2]; [| exact IJ | | |].
  - intros x Hx. pose proof (H0 x Hx) as L. split; [exact L|apply HM, L].
  - intros pop i x Hpop Htr. apply (trial_coord real_de_num rng I (fun n v => lo n <= v <= hi n)
      (fun n v => lo n - w * (hi n - lo n) <= v <= hi n + w * (hi n - lo n)) p w pop i x); try assumption.
    + intros z [_ Hz] n v Hv. specialize (Hz n v Hv). lra.
    + intros n v Hv. assert (0 <= w * (hi n - lo n)) by (apply Rmult_le_pos; lra). lra.
    + intros n a b c0 d e v Ha Hb Hc E1 E2 E3. cbn [t_sub t_mul t_add real_de_num] in E1, E2, E3.
      injection E1 as <-. injection E2 as <-. injection E3 as <-.
      assert ((b - c0) * w <= (hi n - lo n) * w) by (apply Rmult_le_compat_r; lra).
      assert (- (hi n - lo n) * w <= (b - c0) * w) by (apply Rmult_le_compat_r; lra). lra.
  - intros x y Hin _ [Iy _]. specialize (Ht _ Hin). cbn in Ht. destruct (Rlt_dec (f x) (f y)) as [L|L]; [|discriminate Ht].
    assert (f x <= M) by lra. split; [assumption|apply HM; assumption].
  - split; [exact G1|exact G2].
Qed.

(** ** The documented call *)
Lemma exp_sqrt2 : 4044 / 1000 <= exp (14 / 10).
Proof.
  replace (14 / 10) with (1 + 32 * (/ 80)) by field. rewrite exp_plus.
  assert (P : forall a b, 0 <= a -> a <= exp b -> a * a <= exp (b + b)) by (intros a b Ha H; rewrite exp_plus; apply Rmult_le_compat; lra).
  assert (A0 : 10125 / 10000 <= exp (/ 80)) by (pose proof (exp_ineq1 (/ 80) ltac:(lra)); lra).
  assert (A1 : 102515 / 100000 <= exp (/ 80 + / 80)) by (eapply Rle_trans; [|apply (P (10125 / 10000)); [lra|exact A0]]; lra).
  assert (A2 : 105092 / 100000 <= exp ((/ 80 + / 80) + (/ 80 + / 80))) by (eapply Rle_trans; [|apply (P (102515 / 100000)); [lra|exact A1]]; lra).
  set (q := / 80 + / 80 + (/ 80 + / 80)) in *.
  assert (A3 : 110443 / 100000 <= exp (q + q)) by (eapply Rle_trans; [|apply (P (105092 / 100000)); [lra|exact A2]]; lra).
  assert (A4 : 121976 / 100000 <= exp ((q + q) + (q + q))) by (eapply Rle_trans; [|apply (P (110443 / 100000)); [lra|exact A3]]; lra).
  set (r := q + q + (q + q)) in *.
  assert (A5 : 148781 / 100000 <= exp (r + r)) by (eapply Rle_trans; [|apply (P (121976 / 100000)); [lra|exact A4]]; lra).
  replace (32 * / 80) with (r + r) by (unfold r, q; field). pose proof E_close as [L _].
  apply Rle_trans with (2718281820 / 1000000000 * (148781 / 100000)); [lra|]. apply Rmult_le_compat; lra.
Qed.

(** Ackley on [-5,5]^2 is below 15, outside [-10,10]^2 it is above 15.05. *)
Lemma ackley_inside x y : Rabs x <= 5 -> Rabs y <= 5 -> ackley_formula x y <= 14993 / 1000.
Proof.
  intros Hx Hy. unfold ackley_formula. pose proof (waves x y) as [Wv _]. pose proof E_close as [_ Eu]. pose proof exp_m1_bounds as [El _].
  assert (S5 : sqrt (5 / 10 * (x ^ 2 + y ^ 2)) <= 5).
  { apply Rle_trans with (sqrt (5 * 5)); [|right; apply sqrt_square; lra]. apply sqrt_le_1_alt. apply Rabs_le_inv in Hx, Hy.
    assert (0 <= (5 - x) * (5 + x)) by (apply Rmult_le_pos; lra). assert (0 <= (5 - y) * (5 + y)) by (apply Rmult_le_pos; lra). lra. }
  assert (X : exp (-1) <= exp (- (2 / 10) * sqrt (5 / 10 * (x ^ 2 + y ^ 2)))) by (apply AckleyProps.exp_mono; lra). lra.
Qed.
Lemma ackley_outside x y : 10 < Rabs x \/ 10 < Rabs y -> 15050 / 1000 <= ackley_formula x y.
Proof.
  intros H. unfold ackley_formula. pose proof (waves x y) as [_ Wv].
  assert (S7 : 7 <= sqrt (5 / 10 * (x ^ 2 + y ^ 2))).
  { apply Rle_trans with (sqrt (7 * 7)); [right; symmetry; apply sqrt_square; lra|]. apply sqrt_le_1_alt.
    assert (X2 : x ^ 2 = Rabs x * Rabs x) by (rewrite <- Rabs_mult, Rabs_pos_eq; [ring|apply Rle_0_sqr]).
    assert (Y2 : y ^ 2 = Rabs y * Rabs y) by (rewrite <- Rabs_mult, Rabs_pos_eq; [ring|apply Rle_0_sqr]).
    rewrite X2, Y2. pose proof (Rabs_pos x). pose proof (Rabs_pos y). destruct H; nra. }
  assert (X : exp (- (2 / 10) * sqrt (5 / 10 * (x ^ 2 + y ^ 2))) <= exp (- (14 / 10))) by (apply AckleyProps.exp_mono; lra).
  rewrite exp_Ropp in X. pose proof exp_sqrt2 as G.
  assert (Y : / exp (14 / 10) <= / (4044 / 1000)) by (apply Rinv_le; lra). lra.
Qed.

(** Both coordinates are finite and at most [r] in magnitude. *)
Definition within (r : R) (x : array f32 2) : Prop :=
  forall n v, nth_error (entries x) n = Some v -> is_finite v = true /\ Rabs (B2R v) <= r.
(** The exact Ackley function at a point with float coordinates. *)
Definition exact_value (x : array f32 2) : R :=
  match entries x with [a; b] => ackley_formula (B2R a) (B2R b) | _ => 0 end.

Lemma two_entries (x : array f32 2) : exists a b, entries x = [a; b].
Proof.
  pose proof (entries_length x) as L. destruct (entries x) as [|a [|b [|c l]]]; try discriminate L. exists a, b. reflexivity.
Qed.
(** The computed value of a point of moderate size. *)
Lemma doc_value_close eta ex em co r x : 0 <= eta <= 1 / 8 -> libm_accurate eta ex em co -> 0 <= r <= 100 -> within r x ->
  exists v, doc_value ex em co x = Ok v /\ is_finite v = true
  /\ Rabs (B2R v - exact_value x) <= 25 * eta + (64 + 84 * r) * / 2 ^ 24.
Proof.
  intros He' HL Hr' Hx. destruct (two_entries x) as (a & b & E).
  destruct (Hx 0%nat a) as [Fa Ha]; [rewrite E; reflexivity|]. destruct (Hx 1%nat b) as [Fb Hb]; [rewrite E; reflexivity|].
  assert (B60 : 100 <= 2 ^ 60) by (rewrite (pow_IZR 2 60); apply IZR_le; vm_compute; discriminate).
  destruct (C71_f32_error eta ex em co a b He' HL) as (v & Ev & Fv & Hv); [split; [exact Fa|lra]|split; [exact Fb|lra]|].
  exists v. split; [|split; [exact Fv|]].
  - unfold doc_value, array_get, vget. rewrite E. cbn [nth_error bind]. exact Ev.
  - unfold exact_value. rewrite E. eapply Rle_trans; [exact Hv|].
    assert (P : 0 < / 2 ^ 24) by (apply Rinv_0_lt_compat, pow_lt; lra).
    assert (42 * / 2 ^ 24 * (Rabs (B2R a) + Rabs (B2R b)) <= 42 * / 2 ^ 24 * (2 * r)) by (apply Rmult_le_compat_l; lra). lra.
Qed.

(** For a libm that is accurate to 1/1000 and a generator that keeps to the ranges, the documented
    call keeps only points in [-10,10]^2 and tries only points in [-27,27]^2; all function values it
    computes are finite, so the result has the smallest of them ([C90_doc_call_never_worse] without
    its condition), and up to the error of two evaluations also the smallest exact value. *)
Theorem C102_doc_call :
  forall eta ex em co, 0 <= eta <= 1 / 1000 -> libm_accurate eta ex em co ->
  forall (S : Type) (rng : de_rng f32 f32 S) fuel s best s' c' log,
  index_in_range rng ->
  (forall t v t', gen_value rng (f32_of_Z (-5)) (f32_of_Z 5) t = Ok (v, t') -> is_finite v = true /\ -5 <= B2R v <= 5) ->
  doc_run rng (recorded (doc_compare ex em co)) fuel s (tt, []) = Ok (best, s', (c', log)) ->
  within 10 best
  /\ (forall x y b, In (x, y, b) log -> within 27 x /\ within 10 y)
  /\ exists v, doc_value ex em co best = Ok v /\ is_finite v = true
     /\ forall x, seen best log x -> exists vx, doc_value ex em co x = Ok vx /\ is_finite vx = true /\ B2R v <= B2R vx
        /\ exact_value best <= exact_value x + 2 * (25 * eta + 2400 * / 2 ^ 24).
Proof.
  intros eta ex em co He' HL S rng fuel s best s' c' log Hr Hgen E.
  assert (P24 : / 2 ^ 24 = / 16777216) by (f_equal; rewrite (pow_IZR 2); reflexivity).
  assert (V : forall x, exists v, doc_value ex em co x = Ok v) by (intros x; apply value_ok).
  set (f := fun x => match doc_value ex em co x with Ok v => v | _ => B754_nan end).
  assert (Ef : forall x, doc_value ex em co x = Ok (f x)) by (intros x; unfold f; destruct (V x) as [v ->]; reflexivity).
  assert (D1 : decides (doc_compare ex em co) (fun x y => Bltb (f x) (f y))).
  { intros c x y. exists c. unfold doc_compare. rewrite !Ef. reflexivity. }
  pose proof E as E'. unfold doc_run in E'.
  pose proof (recorded_optimize_truthful num32 rng _ _ D1 _ _ _ _ _ _ _ _ _ _ _ _ E') as Ht. unfold truthful in Ht. rewrite Forall_forall in Ht.
  assert (CL : forall r x, 0 <= r <= 100 -> within r x -> is_finite (f x) = true
     /\ Rabs (B2R (f x) - exact_value x) <= 25 * eta + (64 + 84 * r) * / 2 ^ 24).
  { intros r x Hr' Hx. destruct (doc_value_close eta ex em co r x ltac:(lra) HL Hr' Hx) as (v & Ev & Fv & Hv).
    rewrite Ef in Ev. assert (f x = v) by (injection Ev; auto). subst v. split; assumption. }
  set (I := fun x => within 10 x /\ B2R (f x) <= 150182 / 10000).
  assert (Mono : forall x, I x -> within 27 x).
  { intros x [Hx _] n v Hv. destruct (Hx n v Hv). split; [assumption|lra]. }
  destruct (run_kept num32 rng (doc_compare ex em co) Hr I (within 27) _ _ _ _ _ _ _ _ _ _ _ _ E') as [G1 G2]; [|exact Mono| | |].
  - intros x Hx.
    assert (W5 : within 5 x).
    { intros n v Hv. assert (Hn : (n < 2)%nat) by (apply nth_error_Some_lt in Hv; rewrite entries_length in Hv; exact Hv).
      destruct (Hx n Hn) as (lo & hi & v' & t & t' & Hb & Hg & Hv'). rewrite Hv in Hv'. assert (v = v') by (injection Hv'; auto). subst v'.
      assert (B5 : lo = f32_of_Z (-5) /\ hi = f32_of_Z 5).
      { destruct n as [|[|n]]; [| |lia]; change (entries doc_bounds) with [(f32_of_Z (-5), f32_of_Z 5); (f32_of_Z (-5), f32_of_Z 5)] in Hb;
          cbn [nth_error] in Hb; injection Hb; auto. }
      destruct B5 as [-> ->]. destruct (Hgen _ _ _ Hg) as [F5 H5]. split; [exact F5|apply Rabs_le; lra]. }
    split; [intros n v Hv; destruct (W5 n v Hv); split; [assumption|lra]|].
    destruct (CL 5 x ltac:(lra) W5) as [_ C]. apply Rabs_le_inv in C.
    assert (A : exact_value x <= 14993 / 1000).
    { destruct (two_entries x) as (a & b & Ee). unfold exact_value. rewrite Ee. apply ackley_inside.
      - apply (W5 0%nat a). rewrite Ee. reflexivity.
      - apply (W5 1%nat b). rewrite Ee. reflexivity. }
    rewrite P24 in C. lra.
  - intros pop i x Hpop Htr. intros n v Hv. revert n v Hv.
    apply (trial_coord num32 rng I (fun _ v => is_finite v = true /\ Rabs (B2R v) <= 10) (fun _ v => is_finite v = true /\ Rabs (B2R v) <= 27) f32_0_9 f32_0_8 pop i x);
      try assumption.
    + intros z [Hz _]. exact Hz.
    + intros n v [F H]. split; [exact F|lra].
    + intros n a b c0 d e v [Fa Ha] [Fb Hb] [Fc Hc] E1 E2 E3. cbn [t_sub t_mul t_add float_de_num] in E1, E2, E3.
      assert (Ed : fl_sub 24 128 b c0 = d) by (injection E1; auto). subst d.
      assert (Ee : fl_mul 24 128 (fl_sub 24 128 b c0) f32_0_8 = e) by (injection E2; auto). subst e.
      assert (Ev : fl_add 24 128 a (fl_mul 24 128 (fl_sub 24 128 b c0) f32_0_8) = v) by (injection E3; auto). subst v.
      destruct doc_literals as [_ W8]. apply Rabs_le_inv in W8.
      assert (P25 : / 2 ^ 25 <= / 1000). { apply Rinv_le; [lra|]. rewrite (pow_IZR 2). apply IZR_le. vm_compute. discriminate. }
      assert (F8 : is_finite f32_0_8 = true) by (vm_compute; reflexivity).
      assert (BB : 1000 <= too_big 128). { change 1000 with (IZR 1000). eapply Rle_trans; [|right; symmetry; apply (IZR_Zpower radix2 128); lia]. apply IZR_le. vm_compute. discriminate. }
      assert (UU : unit_roundoff 24 <= / 1000). { rewrite u32_eq. unfold u32. lra. }
      assert (TT : underflow_unit 24 128 <= / 1000). { eapply Rle_trans; [apply tiny_eq|]. unfold tiny. apply Rinv_le; [lra|]. apply IZR_le. vm_compute. discriminate. }
      pose proof (u_pos 24). pose proof (eta_pos 24 128).
      set (u := unit_roundoff 24) in *. set (W := B2R f32_0_8) in *.
      assert (U2 : (1 + u) ^ 2 <= 1003 / 1000) by (cbn; nra). assert (U2' : 0 <= (1 + u) ^ 2) by (apply pow_le; lra).
      assert (X1 : 2 * W * (1 + u) ^ 2 <= 2 * (802 / 1000) * (1003 / 1000)) by (apply Rmult_le_compat; lra).
      assert (X2 : 0 <= 2 * W * (1 + u) ^ 2) by (apply Rmult_le_pos; lra).
      assert (FA : factor 24 W <= 1001 / 1000 * (1 + 2 * (802 / 1000) * (1003 / 1000))).
      { unfold factor. fold u. apply Rmult_le_compat; lra. }
      assert (T2 : (1 + u) * underflow_unit 24 128 <= 1001 / 1000 * / 1000) by (apply Rmult_le_compat; lra).
      destruct (float_step 24 128 a b c0 f32_0_8 10 Fa Fb Fc F8 Ha Hb Hc) as (Fr & Hm & _); fold W; fold u; try lra.
      fold W u in Hm. split; [exact Fr|]. eapply Rle_trans; [exact Hm|]. lra.
  - intros x y Hin Jx [Iy Ly]. specialize (Ht _ Hin). cbn in Ht. symmetry in Ht.
    destruct (CL 27 x ltac:(lra) Jx) as [Fx Cx]. destruct (CL 10 y ltac:(lra) Iy) as [Fy _].
    rewrite Bltb_correct in Ht by assumption. destruct (Rlt_bool_spec (B2R (f x)) (B2R (f y))) as [L|L]; [|discriminate Ht].
    assert (LX : B2R (f x) <= 150182 / 10000) by lra. split; [|exact LX].
    apply Rabs_le_inv in Cx. rewrite P24 in Cx. assert (EX : exact_value x < 15050 / 1000) by lra.
    destruct (two_entries x) as (a & b & Ee). unfold exact_value in EX. rewrite Ee in EX.
    assert (NO : Rabs (B2R a) <= 10 /\ Rabs (B2R b) <= 10).
    { destruct (Rle_or_lt (Rabs (B2R a)) 10) as [L1|L1]; [|exfalso; pose proof (ackley_outside (B2R a) (B2R b) (or_introl L1)); lra].
      destruct (Rle_or_lt (Rabs (B2R b)) 10) as [L2|L2]; [|exfalso; pose proof (ackley_outside (B2R a) (B2R b) (or_intror L2)); lra]. auto. }
    intros n v Hv. split; [exact (proj1 (Jx n v Hv))|]. rewrite Ee in Hv.
    destruct n as [|[|n]]; cbn [nth_error] in Hv; [| |destruct n; discriminate Hv]; assert (Q : v = a \/ v = b) by (injection Hv; auto);
      destruct Q as [-> | ->]; tauto.
  - split; [exact (proj1 G1)|]. split.
    { intros x y b Hin. destruct (G2 x y b Hin) as [J1 [I1 _]]. split; assumption. }
    assert (SE : forall x, seen best log x -> within 27 x).
    { intros x [->|(y & b & [Hin|Hin])]; [apply Mono, G1|apply (G2 _ _ _ Hin)|apply Mono, (G2 _ _ _ Hin)]. }
    destruct (C90_doc_call_never_worse ex em co S rng fuel s best s' c' log Hr E) as [_ (v & Ev & Hv)].
    { intros x y b Hin. rewrite !Ef. cbn [on_ok].
      assert (Fx : is_finite (f x) = true) by (apply (CL 27 x ltac:(lra)), SE; right; eauto).
      assert (Fy : is_finite (f y) = true) by (apply (CL 27 y ltac:(lra)), SE; right; eauto).
      split; [destruct (f x)|destruct (f y)]; try reflexivity; discriminate. }
    rewrite Ef in Ev. assert (f best = v) by (injection Ev; auto). subst v.
    destruct (CL 27 best ltac:(lra) (SE best (or_introl eq_refl))) as [Fb Cb].
    exists (f best). split; [apply Ef|]. split; [exact Fb|]. intros x Hx. exists (f x). split; [apply Ef|].
    destruct (CL 27 x ltac:(lra) (SE x Hx)) as [Fx Cx]. split; [exact Fx|].
    assert (LE : B2R (f best) <= B2R (f x)).
    { destruct Hx as [->|(y & b & [Hin|Hin])]; [lra| |]; destruct (Hv _ _ _ Hin) as [H1 H2]; rewrite Ef in H1, H2; cbn [on_ok] in H1, H2.
      - rewrite Bleb_correct in H1 by assumption. destruct (Rle_bool_spec (B2R (f best)) (B2R (f x))); [assumption|discriminate].
      - rewrite Bleb_correct in H2 by assumption. destruct (Rle_bool_spec (B2R (f best)) (B2R (f x))); [assumption|discriminate]. }
    split; [exact LE|]. apply Rabs_le_inv in Cb, Cx. rewrite P24 in *. lra.
Qed.

(** ** Without such a bound a run can leave the finite numbers *)
(** Start values 0 and 2^127 for the range 0 .. 3 * 2^126 (whose width is a finite f32). *)
Definition huge_hi : f32 := f32_of_Z (3 * 2 ^ 126).
Definition huge : de_rng f32 f32 nat := {|
  gen_index := fun n s => if (n =? 0)%nat then Panic EmptyRange else Ok ((s mod n)%nat, Datatypes.S s);
  gen_value := fun _ _ s => Ok (if ((s =? 1) || (s =? 2))%nat then f32_of_Z (2 ^ 127) else f32_of_Z 0, Datatypes.S s);
  gen_unit := fun s => Ok (f32_of_Z 0, Datatypes.S s)
|}.
(** Maximise the only coordinate. *)
Definition larger (c : unit) (x y : array f32 1) : outcome (bool * unit) :=
  a <- array_get x 0 ;; b <- array_get y 0 ;; Ok (Bltb b a, c).
Definition has_inf (x : array f32 1) : bool := existsb (fun v : f32 => match v with B754_infinity false => true | _ => false end) (entries x).
Definition has_nan (x : array f32 1) : bool := existsb (@is_nan 24 128) (entries x).
(** Finite bounds, a finite weight, four iterations, an honest comparator: the result is infinite
    and the comparator was shown a NaN. *)
Theorem C102_stays_finite_refuted :
  index_in_range huge
  /\ (forall t v t', gen_value huge (f32_of_Z 0) huge_hi t = Ok (v, t') ->
        is_finite v = true /\ Bleb (f32_of_Z 0) v = true /\ Bltb v huge_hi = true)
  /\ is_finite (fl_sub 24 128 huge_hi (f32_of_Z 0)) = true
  /\ exists best s' c' log,
     de_optimize (float_de_num 24 128) huge (recorded larger) 10 (acons (f32_of_Z 0, huge_hi) anil) 5 (f32_of_Z 1) (f32_of_Z 1) 4 0%nat (tt, [])
       = Ok (best, s', (c', log))
     /\ has_inf best = true /\ exists x y b, In (x, y, b) log /\ has_nan x = true.
Proof.
  split.
  { intros n s v s'. cbn [gen_index huge]. destruct (Nat.eqb_spec n 0) as [->|Hn]; [discriminate|].
    intros E. injection E as <- _. apply Nat.mod_upper_bound. exact Hn. }
  split.
  { intros t v t' E. cbn [gen_value huge] in E. assert (V : v = if ((t =? 1) || (t =? 2))%nat then f32_of_Z (2 ^ 127) else f32_of_Z 0) by (injection E; auto).
    subst v. destruct ((t =? 1) || (t =? 2))%nat; vm_compute; repeat split; reflexivity. }
  split; [vm_compute; reflexivity|].
  assert (K : on_ok (de_optimize (float_de_num 24 128) huge (recorded larger) 10 (acons (f32_of_Z 0, huge_hi) anil) 5 (f32_of_Z 1) (f32_of_Z 1) 4 0%nat (tt, []))
     (fun r => has_inf (fst (fst r)) && existsb (fun e => has_nan (fst (fst e))) (snd (snd r))) = true) by (vm_compute; reflexivity).
  destruct (de_optimize _ _ _ _ _ _ _ _ _ _ _) as [[[best s'] [c' log]]| |]; try discriminate K. cbn [on_ok fst snd] in K.
  apply andb_prop in K as [K1 K2]. exists best, s', c', log. split; [reflexivity|]. split; [exact K1|].
  apply existsb_exists in K2 as ([[x y] b] & Hin & Hx). exists x, y, b. split; [exact Hin|exact Hx].
Qed.

(** ** Concrete cases *)
(** The generators below draw numbers in turn, so every number keeps coming up. *)
Lemma in_turn_fair {T F} (rng : de_rng T F nat) :
  (forall n s, gen_index rng n s = if (n =? 0)%nat then Panic EmptyRange else Ok ((s mod n)%nat, Datatypes.S s)) -> fair rng.
Proof.
  intros HI n v s Hv.
  assert (Hd : forall d s, ((s + d) mod n)%nat = v -> comes_up rng n v s).
  { induction d as [|d IH]; intros s0 H.
    - rewrite Nat.add_0_r in H. eapply comes_up_now. rewrite HI.
      destruct (Nat.eqb_spec n 0) as [E|_]; [lia|]. rewrite H. reflexivity.
    - eapply comes_up_later.
      + rewrite HI. destruct (Nat.eqb_spec n 0) as [E|_]; [lia|]. reflexivity.
      + apply IH. rewrite <- H. f_equal. lia. }
  apply (Hd (n - s mod n + v)%nat s).
  pose proof (Nat.mod_upper_bound s n ltac:(lia)). pose proof (Nat.div_mod_eq s n).
  replace (s + (n - s mod n + v))%nat with (v + (s / n + 1) * n)%nat by lia.
  rewrite Nat.mod_add by lia. apply Nat.mod_small. exact Hv.
Qed.
Lemma in_turn_range {T F} (rng : de_rng T F nat) :
  (forall n s, gen_index rng n s = if (n =? 0)%nat then Panic EmptyRange else Ok ((s mod n)%nat, Datatypes.S s)) -> index_in_range rng.
Proof.
  intros HI n s v s'. rewrite HI. destruct (Nat.eqb_spec n 0) as [->|Hn]; [discriminate|].
  intros E. injection E as <- _. apply Nat.mod_upper_bound. exact Hn.
Qed.
Lemma in_turn_answers {T F} (rng : de_rng T F nat) :
  (forall n s, gen_index rng n s = if (n =? 0)%nat then Panic EmptyRange else Ok ((s mod n)%nat, Datatypes.S s)) ->
  forall n s, (0 < n)%nat -> exists v s', gen_index rng n s = Ok (v, s') /\ (v < n)%nat.
Proof.
  intros HI n s Hn. rewrite HI. destruct (Nat.eqb_spec n 0) as [E|_]; [lia|].
  exists (s mod n)%nat, (Datatypes.S s). split; [reflexivity|apply Nat.mod_upper_bound; lia].
Qed.

(** The documented call with a correctly rounded libm and start coordinates -3/2, -1, ..., 3/2. *)
Lemma spread_values t v t' : gen_value spread (f32_of_Z (-5)) (f32_of_Z 5) t = Ok (v, t') -> is_finite v = true /\ -5 <= B2R v <= 5.
Proof.
  intros E. cbn [gen_value spread] in E. set (m := (t mod 7)%nat) in E.
  assert (Hm : (m < 7)%nat) by (apply Nat.mod_upper_bound; lia). clearbody m.
  assert (V : fl_div 24 128 (f32_of_Z (Z.of_nat m - 3)) (f32_of_Z 2) = v) by (injection E; auto). subst v.
  assert (K : is_finite (fl_div 24 128 (f32_of_Z (Z.of_nat m - 3)) (f32_of_Z 2)) && Bleb (f32_of_Z (-5)) (fl_div 24 128 (f32_of_Z (Z.of_nat m - 3)) (f32_of_Z 2))
     && Bleb (fl_div 24 128 (f32_of_Z (Z.of_nat m - 3)) (f32_of_Z 2)) (f32_of_Z 5) = true)
    by (do 7 (destruct m as [|m]; [vm_compute; reflexivity|]); lia).
  apply andb_prop in K as [K K3]. apply andb_prop in K as [K1 K2]. split; [exact K1|].
  destruct (small_int (-5) ltac:(lia)) as [V1 F1]. destruct (small_int 5 ltac:(lia)) as [V2 F2].
  rewrite Bleb_correct in K2, K3 by assumption. rewrite V1 in K2. rewrite V2 in K3.
  destruct (Rle_bool_spec (-5) (B2R (fl_div 24 128 (f32_of_Z (Z.of_nat m - 3)) (f32_of_Z 2)))); [|discriminate K2].
  destruct (Rle_bool_spec (B2R (fl_div 24 128 (f32_of_Z (Z.of_nat m - 3)) (f32_of_Z 2))) 5); [|discriminate K3]. lra.
Qed.
Example C102_case_doc :
  0 <= 8 * / 2 ^ 24 <= 1 / 1000 /\ libm_accurate (8 * / 2 ^ 24) round_exp round_em1 round_cos /\ index_in_range spread
  /\ (forall t v t', gen_value spread (f32_of_Z (-5)) (f32_of_Z 5) t = Ok (v, t') -> is_finite v = true /\ -5 <= B2R v <= 5)
  /\ exists fuel best s' c' log,
     doc_run spread (recorded (doc_compare round_exp round_em1 round_cos)) fuel 0%nat (tt, []) = Ok (best, s', (c', log)).
Proof.
  split. { rewrite (pow_IZR 2). change (2 ^ Z.of_nat 24)%Z with 16777216%Z. lra. }
  split; [exact C71_rounded_libm_accurate|]. split; [apply in_turn_range; reflexivity|]. split; [exact spread_values|].
  destruct (C90_doc_call_returns round_exp round_em1 round_cos nat spread 0%nat) as (enough & best & s' & H).
  - constructor; try (intros; simpl; eauto; fail). apply in_turn_answers. reflexivity.
  - apply in_turn_fair. reflexivity.
  - specialize (H enough (Nat.le_refl _)). unfold doc_run in H. apply C44_logging_is_transparent in H as [log H].
    exists enough, best, s', tt, log. exact H.
Qed.

(** A run in f32 with the ranges (-5, 5), weight 0.8 and 20 iterations in which every trial is accepted. *)
Example C102_case_reach :
  (exists best s' c' log, de_optimize num32 spread (recorded (fun (c : unit) x y => Ok (true, c))) 100 doc_bounds 7 f32_0_9 f32_0_8 20 0%nat (tt, []) = Ok (best, s', (c', log)))
  /\ 2 * (1 + unit_roundoff 24) * reach 24 128 (B2R f32_0_8) (Rmax (Rabs (B2R (f32_of_Z (-5)))) (Rabs (B2R (f32_of_Z 5)))) 20 < too_big 128.
Proof.
  split.
  - assert (K : on_ok (de_optimize num32 spread (recorded (fun (c : unit) x y => Ok (true, c))) 100 doc_bounds 7 f32_0_9 f32_0_8 20 0%nat (tt, [])) (fun _ => true) = true)
      by (vm_compute; reflexivity).
    destruct (de_optimize _ _ _ _ _ _ _ _ _ _ _) as [[[best s'] [c' log]]| |]; try discriminate K. exists best, s', c', log. reflexivity.
  - destruct (small_int (-5) ltac:(lia)) as [V1 F1]. destruct (small_int 5 ltac:(lia)) as [V2 F2]. rewrite V1, V2.
    rewrite <- !abs_IZR. change (Z.abs (-5)) with 5%Z. change (Z.abs 5) with 5%Z. rewrite Rmax_left by lra.
    destruct doc_literals as [_ W8]. apply Rabs_le_inv in W8.
    assert (P25 : / 2 ^ 25 <= / 1000). { apply Rinv_le; [lra|]. rewrite (pow_IZR 2). apply IZR_le. vm_compute. discriminate. }
    assert (UU : unit_roundoff 24 <= / 1000). { rewrite u32_eq. unfold u32. lra. }
    assert (TT : underflow_unit 24 128 <= / 1000). { eapply Rle_trans; [apply tiny_eq|]. unfold tiny. apply Rinv_le; [lra|]. apply IZR_le. vm_compute. discriminate. }
    pose proof (u_pos 24). pose proof (eta_pos 24 128).
    set (u := unit_roundoff 24) in *. set (W := B2R f32_0_8) in *.
    assert (U2 : (1 + u) ^ 2 <= 1003 / 1000) by (cbn; nra). assert (U2' : 0 <= (1 + u) ^ 2) by (apply pow_le; lra).
    assert (X1 : 2 * W * (1 + u) ^ 2 <= 2 * (802 / 1000) * (1003 / 1000)) by (apply Rmult_le_compat; lra).
    assert (X2 : 0 <= 2 * W * (1 + u) ^ 2) by (apply Rmult_le_pos; lra).
    assert (FA : 0 <= factor 24 W <= 4).
    { unfold factor. fold u. split; [apply Rmult_le_pos; lra|]. apply Rle_trans with (1001 / 1000 * (1 + 2 * (802 / 1000) * (1003 / 1000))); [apply Rmult_le_compat; lra|lra]. }
    assert (PW : factor 24 W ^ 20 <= 4 ^ 20) by (apply pow_incr; exact FA).
    assert (P0 : 0 <= factor 24 W ^ 20) by (apply pow_le; lra).
    assert (T2 : 0 <= (1 + u) * underflow_unit 24 128 <= 1) by (split; [apply Rmult_le_pos; lra|apply Rle_trans with (1001 / 1000 * / 1000); [apply Rmult_le_compat; lra|lra]]).
    unfold reach. fold u. replace (INR 20) with 20 by (cbn; lra).
    assert (Y : factor 24 W ^ 20 * (5 + 20 * ((1 + u) * underflow_unit 24 128)) <= 4 ^ 20 * 25) by (apply Rmult_le_compat; lra).
    apply Rle_lt_trans with (4 * (4 ^ 20 * 25)).
    + apply Rmult_le_compat; try lra. apply Rmult_le_pos; lra.
    + eapply Rlt_le_trans; [|right; apply (IZR_Zpower radix2 128); lia]. rewrite (pow_IZR 4), <- !mult_IZR. apply IZR_lt. vm_compute. reflexivity.
Qed.

(** Minimising x^2 over (0, 1) in exact arithmetic. *)
Definition square_of (x : array R 1) : R := match entries x with [a] => a * a | _ => 0 end.
Definition by_square (c : unit) (x y : array R 1) : outcome (bool * unit) := Ok (if Rlt_dec (square_of x) (square_of y) then true else false, c).
Example C102_case_level_set :
  index_in_range real_rng /\ decides by_square (fun x y => if Rlt_dec (square_of x) (square_of y) then true else false)
  /\ (exists fuel best s' c' log, de_optimize real_de_num real_rng (recorded by_square) fuel (acons (0, 1) anil) 5 1 2 3 0%nat (tt, []) = Ok (best, s', (c', log)))
  /\ (forall x, drawn_from real_rng (acons (0, 1) anil) x -> square_of x <= 1)
  /\ (forall x, square_of x <= 1 -> forall n v, nth_error (entries x) n = Some v -> -1 - 0 * (1 - -1) <= v <= 1 + 0 * (1 - -1)).
Proof.
  split; [apply in_turn_range; reflexivity|]. split; [intros c x y; exists c; reflexivity|]. split.
  - destruct (C42_fair_terminates R R nat unit real_de_num real_rng 1 by_square (acons (0, 1) anil)) with (size := 5%nat) (p := 1) (w := 2) (iters := 3%nat) (s := 0%nat) (c := tt)
      as (enough & [[best s'] c'] & H).
    + constructor; try (intros; simpl; eauto; fail). 1: apply in_turn_answers; reflexivity.
      intros n lo hi s Hb. destruct n as [|[|n]]; [|discriminate Hb|discriminate Hb]. injection Hb as <- <-.
      cbn [gen_value real_rng]. rewrite Rle_true by lra. eauto.
    + lia.
    + intros c x y. unfold by_square. eauto.
    + apply in_turn_fair. reflexivity.
    + repeat split; try lia; cbn; rewrite Rle_true by lra; reflexivity.
    + specialize (H enough (Nat.le_refl _)). apply C44_logging_is_transparent in H as [log H].
      exists enough, best, s', c', log. exact H.
  - split.
    + intros x Hx. destruct (Hx 0%nat ltac:(lia)) as (lo & hi & v & s & s' & Hb & Hg & Hv). injection Hb as <- <-.
      cbn [gen_value real_rng] in Hg. rewrite Rle_true in Hg by lra. pose proof (entries_length x) as L. unfold square_of.
      destruct (entries x) as [|a [|b l]]; try discriminate L. injection Hv as ->. destruct (Nat.even s); injection Hg as <- _; lra.
    + intros x Hx n v Hv. pose proof (entries_length x) as L. unfold square_of in Hx.
      destruct (entries x) as [|a [|b l]]; try discriminate L. destruct n as [|n]; [|destruct n; discriminate Hv]. injection Hv as ->.
      split; nra.
Qed.

Print Assumptions C102_float_reach.
Print Assumptions C102_level_set.
Print Assumptions C102_doc_call.
Print Assumptions C102_stays_finite_refuted.
