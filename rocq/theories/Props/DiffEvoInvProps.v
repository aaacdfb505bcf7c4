(** Property C84: what a run of differential evolution cannot change. *)
From Coq Require Import List Arith ZArith Lia Lra Bool Reals.
From Flocq Require Import Core.Core IEEE754.BinarySingleNaN.
From Verif Require Import Base.Outcome Base.Array Base.Wp Model.DiffEvo Model.Float Spec.DiffEvo Spec.DiffEvoMore Spec.DiffEvoEquiv
  Spec.FloatErr Proofs.FloatErr Proofs.FloatInt Proofs.FloatComm Proofs.FloatSpecial
  Proofs.DiffEvoProofs Proofs.DiffEvoSim Proofs.DiffEvoMore Proofs.DiffEvoGrowth Props.DiffEvoProps Props.DiffEvoMoreProps.
Import ListNotations.
Open Scope nat_scope.

(** ** Invariants of runs *)
Section Inv.
Context {T F S C : Type} (num : de_num T F) (rng : de_rng T F S) {N : nat}.
Notation cand := (array T N).

Lemma evolves_invariant (I : cand -> Prop) p w :
  (forall pop i x, Forall I pop -> is_trial num rng p w pop i x -> I x) ->
  forall t (pop : list cand) log pop', evolves num rng p w t pop log pop' -> Forall I pop ->
  Forall I pop' /\ forall x y b, In (x, y, b) log -> I x /\ I y.
Proof.
  intros Hstep. induction 1 as [t pop|t pop x y b log pop' Hy Hx Hev IH]; intros Hpop.
  - split; [exact Hpop|]. intros x y b [].
  - pose proof (Hstep _ _ _ Hpop Hx) as Ix.
    assert (Iy : I y) by (rewrite Forall_forall in Hpop; apply Hpop; eapply nth_error_In, Hy).
    assert (Hpop' : Forall I (if b then list_upd pop (t mod length pop) x else pop)).
    { destruct b; [|exact Hpop]. rewrite Forall_forall in Hpop |- *. intros z Hz.
      apply In_nth_error in Hz as [i Hi]. rewrite nth_error_list_upd in Hi.
      destruct ((i =? t mod length pop) && (t mod length pop <? length pop)).
      - injection Hi as <-. exact Ix.
      - apply nth_error_In in Hi. auto. }
    destruct (IH Hpop') as [IH1 IH2]. split; [exact IH1|]. intros x1 y1 b1 [E|H1].
    + injection E as <- <- <-. split; assumption.
    + eapply IH2, H1.
Qed.

Lemma knockout_invariant (I : cand -> Prop) pop log best :
  knockout pop log best -> Forall I pop -> I best /\ forall x y b, In (x, y, b) log -> I x /\ I y.
Proof.
  induction 1 as [x|pop pop' now later best H1 Hn Hl Hr Ho Hk IH]; intros Hpop.
  - split; [inversion Hpop; assumption|]. intros ? ? ? [].
  - assert (Hat : forall i z, nth_error pop i = Some z -> I z)
      by (intros i z Hz; rewrite Forall_forall in Hpop; apply Hpop; eapply nth_error_In, Hz).
    assert (Hpop' : Forall I pop').
    { rewrite Forall_forall. intros z Hz. apply In_nth_error in Hz as [i Hi].
      assert (Li : i < length pop') by (apply nth_error_Some; congruence). rewrite Hl in Li.
      pose proof (Nat.div_mod (length pop) 2 ltac:(lia)) as D1.
      pose proof (Nat.div_mod (length pop + 1) 2 ltac:(lia)) as D2.
      pose proof (Nat.mod_upper_bound (length pop) 2 ltac:(lia)).
      pose proof (Nat.mod_upper_bound (length pop + 1) 2 ltac:(lia)).
      destruct (Nat.lt_ge_cases i (length pop / 2)) as [L|L].
      - destruct (Hr i L) as (x & y & b & Hx & Hy & _ & Hz). rewrite Hi in Hz. injection Hz as ->.
        destruct b; eauto.
      - assert (Hodd : length pop mod 2 = 1) by lia. assert (i = length pop / 2) as -> by lia.
        rewrite (Ho Hodd) in Hi. eauto. }
    destruct (IH Hpop') as [IH1 IH2]. split; [exact IH1|]. intros x y b Hin. apply in_app_or in Hin as [Hin|Hin]; [|eapply IH2, Hin].
    apply In_nth_error in Hin as [i Hi]. assert (Li : i < length now) by (apply nth_error_Some; congruence).
    rewrite Hn in Li. destruct (Hr i Li) as (x' & y' & b' & Hx & Hy & Hz & _). rewrite Hi in Hz. injection Hz as -> -> ->.
    split; eauto.
Qed.

Context (cmp : C -> cand -> cand -> outcome (bool * C)).

(** The start population of a run, and a history that begins with it. *)
Lemma history_from (Hr : index_in_range rng) fuel bounds size p w iters s c best s' c' log start s1 :
  de_initial_population rng bounds size s = Ok (start, s1) ->
  de_optimize num rng (recorded cmp) fuel bounds size p w iters s (c, []) = Ok (best, s', (c', log)) ->
  exists final log1 log2, log = log1 ++ log2 /\ evolves num rng p w 0 start log1 final /\ knockout final log2 best.
Proof.
  intros E0 E. destruct (optimize_inv _ _ _ _ _ _ _ _ _ _ _ _ _ _ E) as (Hs & start' & s1' & final & s2 & c2 & fin & E1 & E2 & E3 & E4 & E5).
  rewrite E0 in E1. injection E1 as <- <-. destruct c2 as [c2 log2].
  assert (L0 : 0 < length start).
  { pose proof (wp_initial_population (fun _ => True) True rng bounds (fun _ _ _ _ _ => wp_top _) size s) as W.
    rewrite E0 in W. destruct W as [W _]. cbn [fst] in W. lia. }
  pose proof (wp_greedy (fun _ => True) True num rng cmp (fun _ _ => wp_top _) (fun _ _ => wp_top _) (fun _ _ => wp_top _)
    (fun n s _ => index_wp rng Hr n s) (fun s => index_wp rng Hr N s) (fun s => wp_top _) (fun _ _ _ => wp_top _)
    I fuel p w iters start s1 c [] L0) as W.
  rewrite E2 in W. destruct W as (log1 & W1 & W2 & W3). cbn [fst snd app] in *. subst log2.
  pose proof (evolves_length _ _ _ _ _ _ _ _ W3) as L1.
  pose proof (wp_knockout (fun _ => True) True cmp (fun _ _ _ => wp_top _) (length final) final c2 log1 ltac:(lia) (Nat.le_refl _)) as W.
  rewrite E3 in W. destruct W as (best' & log2 & W4 & W5 & W6). cbn [fst snd] in *. subst fin.
  injection E4 as <-. exists final, log1, log2. auto.
Qed.

Lemma run_invariant (I : cand -> Prop) (Hr : index_in_range rng) fuel bounds size p w iters s c best s' c' log start s1 :
  (forall pop i x, Forall I pop -> is_trial num rng p w pop i x -> I x) ->
  de_initial_population rng bounds size s = Ok (start, s1) -> Forall I start ->
  de_optimize num rng (recorded cmp) fuel bounds size p w iters s (c, []) = Ok (best, s', (c', log)) ->
  I best /\ forall x y b, In (x, y, b) log -> I x /\ I y.
Proof.
  intros Hstep E0 H0 E. destruct (history_from Hr _ _ _ _ _ _ _ _ _ _ _ _ _ _ E0 E) as (final & log1 & log2 & -> & H1 & H2).
  destruct (evolves_invariant I p w Hstep _ _ _ _ H1 H0) as [F1 L1]. destruct (knockout_invariant I _ _ _ H2 F1) as [B L2].
  split; [exact B|]. intros x y b Hin. apply in_app_or in Hin as [Hin|Hin]; [eapply L1|eapply L2]; exact Hin.
Qed.
End Inv.

(** [x] has the value [v] in coordinate [n]. *)
Definition has {T N} (n : nat) (v : T) (x : array T N) : Prop := nth_error (entries x) n = Some v.

Lemma has_lt {T N} n v (x : array T N) : has n v x -> n < N.
Proof. intros H. rewrite <- (entries_length x). apply nth_error_Some. unfold has in H. congruence. Qed.

(** ** A coordinate on which all start points agree *)

(** If the values of coordinate [n] in the start points of a run lie in a set closed under
    a + (b - c) * w, so do those of the result and of every point the comparator is shown,
    whatever the comparator and the generator do. *)
Theorem C84_closed_coordinate :
  forall (T F S C : Type) (num : de_num T F) (rng : de_rng T F S) (N : nat)
    (cmp : C -> array T N -> array T N -> outcome (bool * C)),
  index_in_range rng ->
  forall fuel bounds size p w iters s c best s' c' log start s1,
  de_initial_population rng bounds size s = Ok (start, s1) ->
  de_optimize num rng (recorded cmp) fuel bounds size p w iters s (c, []) = Ok (best, s', (c', log)) ->
  forall n (P : T -> Prop), (forall a b c v, P a -> P b -> P c -> step num w a b c = Ok v -> P v) ->
  (forall x, In x start -> exists v, has n v x /\ P v) ->
  (exists v, has n v best /\ P v)
  /\ forall x y b, In (x, y, b) log -> (exists v, has n v x /\ P v) /\ (exists v, has n v y /\ P v).
Proof.
  intros T F S C num rng N cmp Hr fuel bounds size p w iters s c best s' c' log start s1 E0 E n P Hs H0.
  apply (run_invariant num rng cmp (fun x => exists v, has n v x /\ P v) Hr fuel bounds size p w iters s c best s' c' log start s1);
    [|exact E0|apply Forall_forall; exact H0|exact E].
  intros pop i x Hpop (j & k & l & r & u & _ & Hi & _ & _ & _ & _ & _ & Hx).
  rewrite Forall_forall in Hpop.
  assert (Hc : forall m v, coord pop m n v -> P v).
  { intros m v (z & Hz & Hv). destruct (Hpop z (nth_error_In _ _ Hz)) as (v' & Hv' & Pv). unfold has in Hv'. congruence. }
  assert (Hn : n < N).
  { destruct (nth_error pop i) as [z|] eqn:Ez; [|apply nth_error_None in Ez; lia].
    destruct (Hpop z (nth_error_In _ _ Ez)) as (v & Hv & _). eapply has_lt, Hv. }
  destruct (Hx n Hn) as (v & Hv & Hb). exists v. split; [exact Hv|].
  destruct ((n =? r) || p_ltb num (u n) p)%bool; [|eapply Hc, Hb].
  destruct Hb as (a & b0 & c0 & d & e & Ha & Hb & Hc' & E1 & E2 & E3).
  apply (Hs a b0 c0 v); eauto. unfold step. rewrite E1. cbn [bind]. rewrite E2. cbn [bind]. exact E3.
Qed.

(** In f32/f64 the arithmetic does that for every finite [v] (up to the sign of zero), so fixing a
    coordinate by a one-value range works exactly. *)
Section Fmt.
Context (prec emax : Z) {Hp : Prec_gt_0 prec} {He : Prec_lt_emax prec emax}.
Notation fl := (binary_float prec emax).
Notation FN := (float_de_num prec emax).

Lemma same_finite (x y : fl) : same_up_to_zero x y -> is_finite x = is_finite y.
Proof. intros [->|(s & t & -> & ->)]; reflexivity. Qed.
Lemma step_same (v a b c w : fl) : is_finite v = true -> is_finite w = true ->
  same_up_to_zero a v -> same_up_to_zero b v -> same_up_to_zero c v ->
  forall x, step FN w a b c = Ok x -> same_up_to_zero x v.
Proof.
  intros Fv Fw Ha Hb Hc x E. unfold step in E. cbn [t_sub t_mul t_add float_de_num bind] in E. injection E as <-.
  assert (Zd : is_zero prec emax (fl_sub prec emax b c)).
  { rewrite fl_sub_def. eapply zero_same; [apply (sub_self prec emax v Fv)|]. rewrite fl_sub_def.
    eapply same_trans; [apply add_same_l, Hb|apply add_same_r, opp_same, Hc]. }
  eapply same_trans; [apply add_zero_r, mul_zero_l; [exact Zd|exact Fw]|exact Ha].
Qed.


Lemma two_finite : is_finite (fl_int prec emax 2) = true.
Proof.
  apply (proj1 (fl_int_exact prec emax 2 ltac:(change (2 ^ 1 <= 2 ^ prec)%Z; apply Z.pow_le_mono_r; [lia|unfold Prec_gt_0 in Hp; lia]))).
Qed.
Lemma weight_finite {S C} (rng : de_rng fl f32 S) {N} (cmp : C -> array fl N -> array fl N -> outcome (bool * C))
    fuel bounds size p (w : fl) iters s c r :
  de_optimize FN rng cmp fuel bounds size p w iters s c = Ok r -> is_finite w = true.
Proof.
  intros E. unfold de_optimize in E. destruct (4 <=? size); [|discriminate E]. cbn [de_assert bind] in E.
  destruct (p_leb FN (p_0 FN) p && p_leb FN p (p_1 FN))%bool; [|discriminate E]. cbn [de_assert bind] in E.
  destruct (t_leb FN (t_0 FN) w && t_leb FN w (t_2 FN))%bool eqn:B; [|discriminate E]. clear E.
  apply andb_prop in B as [B1 B2]. cbn [t_leb t_0 t_2 float_de_num] in B1, B2. pose proof two_finite as F2.
  destruct w as [|[|]| |]; try reflexivity; exfalso.
  - destruct (fl_int prec emax 0) as [ | [|] | | [|] ? ? ?] eqn:Z; try discriminate B1. discriminate Z.
  - destruct (fl_int prec emax 2) as [ | [|] | | [|] ? ? ?]; try discriminate B2. discriminate F2.
  - destruct (fl_int prec emax 2) as [ | [|] | | [|] ? ? ?]; discriminate B2.
Qed.

Theorem C84_constant_coordinate_float :
  forall (S C : Type) (rng : de_rng fl f32 S) (N : nat) (cmp : C -> array fl N -> array fl N -> outcome (bool * C)),
  index_in_range rng ->
  forall fuel bounds size p w iters s c best s' c' log start s1,
  de_initial_population rng bounds size s = Ok (start, s1) ->
  de_optimize FN rng (recorded cmp) fuel bounds size p w iters s (c, []) = Ok (best, s', (c', log)) ->
  forall n v, is_finite v = true -> (forall x, In x start -> has n v x) ->
  let fixed x := exists v', has n v' x /\ same_up_to_zero v' v in
  fixed best /\ forall x y b, In (x, y, b) log -> fixed x /\ fixed y.
Proof.
  intros S C rng N cmp Hr fuel bounds size p w iters s c best s' c' log start s1 E0 E n v Fv H0 fixed.
  pose proof (weight_finite rng _ _ _ _ _ _ _ _ _ _ E) as Fw.
  apply (C84_closed_coordinate _ _ S C FN rng N cmp Hr fuel bounds size p w iters s c best s' c' log start s1 E0 E n
           (fun v' => same_up_to_zero v' v)).
  - intros a b c0 x Ha Hb Hc. apply (step_same v a b c0 w Fv Fw Ha Hb Hc).
  - intros x Hx. exists v. split; [apply H0, Hx|left; reflexivity].
Qed.
End Fmt.

(** With weight 0 (in an arithmetic in which a + (b - c) * 0 = a) the run only recombines: each
    coordinate of each point comes from a start point of this run. *)
Theorem C84_recombination :
  forall (T F S C : Type) (num : de_num T F) (rng : de_rng T F S) (N : nat)
    (cmp : C -> array T N -> array T N -> outcome (bool * C)),
  index_in_range rng ->
  forall fuel bounds size p w iters s c best s' c' log start s1,
  de_initial_population rng bounds size s = Ok (start, s1) ->
  de_optimize num rng (recorded cmp) fuel bounds size p w iters s (c, []) = Ok (best, s', (c', log)) ->
  (forall a b c v, step num w a b c = Ok v -> v = a) ->
  let recombined x := forall n v, has n v x -> exists x0, In x0 start /\ has n v x0 in
  recombined best /\ forall x y b, In (x, y, b) log -> recombined x /\ recombined y.
Proof.
  intros T F S C num rng N cmp Hr fuel bounds size p w iters s c best s' c' log start s1 E0 E Hs recombined.
  apply (run_invariant num rng cmp recombined Hr fuel bounds size p w iters s c best s' c' log start s1);
    [|exact E0|apply Forall_forall; intros x Hx n v Hv; exists x; split; assumption|exact E].
  intros pop i x Hpop (j & k & l & r & u & _ & Hi & _ & _ & _ & _ & _ & Hx) n v Hv.
  rewrite Forall_forall in Hpop. pose proof (has_lt _ _ _ Hv) as Hn.
  assert (Hc : forall m, coord pop m n v -> exists x0, In x0 start /\ has n v x0).
  { intros m (z & Hz & Hvz). exact (Hpop z (nth_error_In _ _ Hz) n v Hvz). }
  destruct (Hx n Hn) as (v' & Hv' & Hb). unfold has in Hv. rewrite Hv in Hv'. injection Hv' as <-.
  destruct ((n =? r) || p_ltb num (u n) p)%bool; [|eapply Hc, Hb].
  destruct Hb as (a & b0 & c0 & d & e & Ha & Hb & Hc' & E1 & E2 & E3).
  assert (v = a) as ->. { apply (Hs a b0 c0). unfold step. rewrite E1. cbn [bind]. rewrite E2. cbn [bind]. exact E3. }
  eapply Hc, Ha.
Qed.

(** ** Linear equality constraints survive full crossover *)

(** The sum of q_n x_n. *)
Definition linear {N} (q : nat -> R) (x : array R N) : R := rsum N (fun n => q n * nth n (entries x) 0)%R.

(** In exact arithmetic, when every unit number drawn is below the crossover probability (as for
    probability 1 and numbers in [0, 1)), a linear equation that all start points satisfy is
    satisfied by the result and by every point that is ever tried. *)
Theorem C84_linear_constraints :
  forall (S C : Type) (rng : de_rng R R S) (N : nat) (cmp : C -> array R N -> array R N -> outcome (bool * C)),
  index_in_range rng ->
  forall fuel bounds size p w iters s c best s' c' log start s1,
  (forall t u t', gen_unit rng t = Ok (u, t') -> (u < p)%R) ->
  de_initial_population rng bounds size s = Ok (start, s1) ->
  de_optimize real_de_num rng (recorded cmp) fuel bounds size p w iters s (c, []) = Ok (best, s', (c', log)) ->
  forall q d, (forall x, In x start -> linear q x = d) ->
  linear q best = d /\ forall x y b, In (x, y, b) log -> linear q x = d /\ linear q y = d.
Proof.
  intros S C rng N cmp Hr fuel bounds size p w iters s c best s' c' log start s1 Hu E0 E q d H0.
  apply (run_invariant real_de_num rng cmp (fun x => linear q x = d) Hr fuel bounds size p w iters s c best s' c' log start s1);
    [|exact E0|apply Forall_forall; exact H0|exact E].
  intros pop i x Hpop (j & k & l & r & u & _ & _ & Hj & Hk & Hl & _ & HU & Hx).
  rewrite Forall_forall in Hpop.
  destruct (nth_error pop j) as [xj|] eqn:Ej; [|apply nth_error_None in Ej; lia].
  destruct (nth_error pop k) as [xk|] eqn:Ek; [|apply nth_error_None in Ek; lia].
  destruct (nth_error pop l) as [xl|] eqn:El; [|apply nth_error_None in El; lia].
  assert (Hn : forall n, n < N -> nth n (entries x) 0%R
                 = (nth n (entries xj) 0 + (nth n (entries xk) 0 - nth n (entries xl) 0) * w)%R).
  { intros n Hn. destruct (Hx n Hn) as (v & Hv & Hb).
    assert (B : ((n =? r) || p_ltb real_de_num (u n) p)%bool = true).
    { destruct (Nat.eqb_spec n r) as [->|Hne]; [reflexivity|]. destruct (HU n Hn Hne) as (t & t' & Et).
      cbn [orb p_ltb real_de_num]. destruct (Rlt_dec (u n) p) as [_|L]; [reflexivity|]. exfalso. apply L. eapply Hu, Et. }
    rewrite B in Hb. destruct Hb as (a & b0 & c0 & d0 & e & (z1 & Z1 & V1) & (z2 & Z2 & V2) & (z3 & Z3 & V3) & E1 & E2 & E3).
    assert (z1 = xj) as -> by congruence. assert (z2 = xk) as -> by congruence. assert (z3 = xl) as -> by congruence.
    rewrite (nth_error_nth _ _ _ Hv), (nth_error_nth _ _ _ V1), (nth_error_nth _ _ _ V2), (nth_error_nth _ _ _ V3).
    cbn [t_sub t_mul t_add real_de_num] in E1, E2, E3. injection E1 as <-. injection E2 as <-. injection E3 as <-. reflexivity. }
  pose proof (Hpop xj (nth_error_In _ _ Ej)) as Lj. pose proof (Hpop xk (nth_error_In _ _ Ek)) as Lk.
  pose proof (Hpop xl (nth_error_In _ _ El)) as Ll. unfold linear in *.
  rewrite (rsum_ext N _ (fun n => q n * nth n (entries xj) 0 + w * (q n * nth n (entries xk) 0) - w * (q n * nth n (entries xl) 0))%R)
    by (intros n Hn'; rewrite (Hn n Hn'); ring).
  assert (Sp : forall m f g h, rsum m (fun n => f n + w * g n - w * h n)%R = (rsum m f + w * rsum m g - w * rsum m h)%R).
  { induction m as [|m IH]; intros f g h; cbn [rsum]; [ring|]. rewrite IH. ring. }
  rewrite Sp, Lj, Lk, Ll. ring.
Qed.

(** ** Runs in which nothing is ever better, runs from equal points *)
Lemma all_false {T N} (log : list (array T N * array T N * bool)) x y b :
  truthful (fun _ _ => false) log -> In (x, y, b) log -> b = false.
Proof. unfold truthful. rewrite Forall_forall. intros H Hin. exact (H _ Hin). Qed.

Lemma knockout_first {T N} (pop : list (array T N)) log best :
  knockout pop log best -> (forall x y b, In (x, y, b) log -> b = false) -> nth_error pop 0 = Some best.
Proof.
  induction 1 as [x|pop pop' now later best H1 Hn Hl Hr Ho Hk IH]; intros Hf; [reflexivity|].
  assert (Hh : 0 < length pop / 2) by (apply Nat.div_str_pos; lia).
  destruct (Hr 0 Hh) as (x & y & b & Hx & Hy & Hz & Hw).
  rewrite (Hf x y b) in Hw by (apply in_or_app; left; eapply nth_error_In, Hz).
  rewrite Hy, <- Hw. apply IH. intros x' y' b' Hin. apply (Hf x' y'). apply in_or_app. right. exact Hin.
Qed.

(** If the comparator finds nothing better than anything, as for a constant objective, the run
    returns the first start point. *)
Theorem C84_never_better :
  forall (T F S C : Type) (num : de_num T F) (rng : de_rng T F S) (N : nat)
    (cmp : C -> array T N -> array T N -> outcome (bool * C)),
  index_in_range rng -> decides cmp (fun _ _ => false) ->
  forall fuel bounds size p w iters s c best s' c' start s1,
  de_initial_population rng bounds size s = Ok (start, s1) ->
  de_optimize num rng cmp fuel bounds size p w iters s c = Ok (best, s', c') ->
  nth_error start 0 = Some best.
Proof.
  intros T F S C num rng N cmp Hr Hd fuel bounds size p w iters s c best s' c' start s1 E0 E.
  destruct (orel_ok_r _ _ _ _ (recorded_optimize num rng cmp fuel bounds size p w iters s c) E)
    as [[[b0 s0] [c0 log]] [E' [E1 E2]]]. simpl in E1, E2. injection E1 as -> ->. subst c0.
  pose proof (recorded_optimize_truthful num rng cmp _ Hd _ _ _ _ _ _ _ _ _ _ _ _ E') as Ht.
  destruct (history_from num rng cmp Hr _ _ _ _ _ _ _ _ _ _ _ _ _ _ E0 E') as (final & log1 & log2 & -> & H1 & H2).
  assert (Hf : forall x y b, In (x, y, b) (log1 ++ log2) -> b = false) by (intros; eapply all_false; eassumption).
  assert (Es : start = final).
  { assert (Hf1 : forall x y b, In (x, y, b) log1 -> b = false) by (intros x y b Hin; apply (Hf x y), in_or_app; auto).
    clear - H1 Hf1. induction H1 as [|t pop x y b log pop' Hy Hx Hev IH]; [reflexivity|].
    assert (b = false) as -> by (apply (Hf1 x y); left; reflexivity).
    apply IH. intros x' y' b' Hin. apply (Hf1 x' y'). right. exact Hin. }
  subst final. apply (knockout_first _ _ _ H2). intros x y b Hin. apply (Hf x y), in_or_app. right. exact Hin.
Qed.

(** A run from [size] copies of one point of finite floats never leaves it (up to the sign of zeros). *)
Theorem C84_collapsed_population :
  forall (prec emax : Z) (Hp : Prec_gt_0 prec) (He : Prec_lt_emax prec emax)
    (S C : Type) (rng : de_rng (binary_float prec emax) f32 S) (N : nat) (cmp : C -> array _ N -> array _ N -> outcome (bool * C)),
  index_in_range rng ->
  forall fuel bounds size p w iters s c best s' c' log s1 x0,
  de_initial_population rng bounds size s = Ok (repeat x0 size, s1) -> Forall (fun v => is_finite v = true) (entries x0) ->
  de_optimize (float_de_num prec emax) rng (recorded cmp) fuel bounds size p w iters s (c, []) = Ok (best, s', (c', log)) ->
  let there x := Forall2 same_up_to_zero (entries x) (entries x0) in
  there best /\ forall x y b, In (x, y, b) log -> there x /\ there y.
Proof.
  intros prec emax Hp He S C rng N cmp Hr fuel bounds size p w iters s c best s' c' log s1 x0 E0 F0 E there.
  rewrite Forall_forall in F0.
  assert (K : forall x, (forall n v, has n v x0 -> exists v', has n v' x /\ same_up_to_zero v' v) -> there x).
  { intros x Hx. unfold there. assert (L : length (entries x) = length (entries x0)) by (rewrite !entries_length; reflexivity).
    unfold has in Hx. revert L Hx. generalize (entries x) (entries x0). clear.
    induction l as [|a l IH]; intros [|b m] L Hx; try discriminate L; constructor.
    - destruct (Hx 0 b eq_refl) as (v & Hv & Hs). injection Hv as <-. exact Hs.
    - apply IH; [injection L as L; exact L|]. intros n v Hv. apply (Hx (Datatypes.S n) v Hv). }
  assert (M : forall n v, has n v x0 ->
            (exists v', has n v' best /\ same_up_to_zero v' v)
            /\ forall x y b, In (x, y, b) log -> (exists v', has n v' x /\ same_up_to_zero v' v) /\ (exists v', has n v' y /\ same_up_to_zero v' v)).
  { intros n v Hv. apply (C84_constant_coordinate_float prec emax S C rng N cmp Hr fuel bounds size p w iters s c best s' c' log _ s1 E0 E n v).
    - apply F0. eapply nth_error_In, Hv.
    - intros x Hx. apply repeat_spec in Hx. subst x. exact Hv. }
  split.
  - apply K. intros n v Hv. apply (M n v Hv).
  - intros x y b Hin. split; apply K; intros n v Hv; apply (M n v Hv) in Hin; apply Hin.
Qed.

(** ** Cases *)
(** A generator whose first coordinate varies and whose second range holds one value. *)
Definition fixing_rng : de_rng f64 f32 nat := {|
  gen_index := fun n s => if n =? 0 then Panic EmptyRange else Ok (s mod n, Datatypes.S s);
  gen_value := fun lo _ s => Ok (if Beqb lo (z64 7) then lo else z64 (Z.of_nat s), Datatypes.S s);
  gen_unit := fun s => Ok (f32_of_Z 0, Datatypes.S s)
|}.
Definition fixing_bounds : array (f64 * f64) 2 := acons (z64 0, z64 100) (acons (z64 7, z64 8) anil).
Definition cmp_first (c : unit) (x y : array f64 2) : outcome (bool * unit) := Ok (Bltb (ahd y) (ahd x), c).
Definition is_fixed (x : array f64 2) : bool := match entries x with [_; v] => Beqb v (z64 7) | _ => false end.

Example C84_case_fixed :
  index_in_range fixing_rng /\
  match de_initial_population fixing_rng fixing_bounds 5 0 with
  | Ok (start, _) => forallb is_fixed start && negb (Beqb (ahd (hd (acons (z64 1) (acons (z64 1) anil)) start)) (ahd (last start (acons (z64 1) (acons (z64 1) anil)))))
  | _ => false
  end = true /\
  match de_optimize num64 fixing_rng (recorded cmp_first) 20 fixing_bounds 5 (f32_of_Z 1) (z64 2) 9 0 (tt, []) with
  | Ok (best, _, (_, log)) => is_fixed best && Bltb (z64 8) (ahd best) && existsb (fun e => snd e) log
  | _ => false
  end = true.
Proof.
  split; [|split].
  - intros n s v s'. cbn [gen_index fixing_rng]. destruct (Nat.eqb_spec n 0) as [->|Hn]; [discriminate|].
    intros E. injection E as <- _. apply Nat.mod_upper_bound. exact Hn.
  - vm_compute. reflexivity.
  - vm_compute. reflexivity.
Qed.
(** The run from copies of one point, and one with a comparator that never says yes. *)
Example C84_case_collapsed :
  match de_initial_population (counter_rng (z64 3) (z64 3)) unit_bounds 5 0 with
  | Ok (start, _) => forallb (fun x => Beqb (ahd x) (z64 3)) start
  | _ => false
  end = true /\
  match de_optimize num64 (counter_rng (z64 3) (z64 3)) (recorded cmp_larger) 20 unit_bounds 5 (f32_of_Z 1) (z64 1) 7 0 (tt, []) with
  | Ok (best, _, (_, log)) => Beqb (ahd best) (z64 3) && (length log =? 11)
  | _ => false
  end = true.
Proof. split; vm_compute; reflexivity. Qed.
Example C84_case_never :
  decides (fun (c : unit) (_ _ : array f64 1) => Ok (false, c)) (fun _ _ => false) /\
  match de_optimize num64 (counter_rng (z64 3) (z64 5)) (fun (c : unit) _ _ => Ok (false, c)) 20 unit_bounds 5 (f32_of_Z 1) (z64 1) 7 0 tt with
  | Ok (best, _, _) => Beqb (ahd best) (z64 3)
  | _ => false
  end = true.
Proof. split; [intros c x y; eexists; reflexivity|]. vm_compute. reflexivity. Qed.

(** Points on the line x + y = 1: the start points are (0, 1), (2, -1), (4, -3), (6, -5), (8, -7). *)
Local Open Scope R_scope.
Definition line_rng : de_rng R R nat := {|
  gen_index := fun n s => if (n =? 0)%nat then Panic EmptyRange else Ok (s mod n, Datatypes.S s)%nat;
  gen_value := fun _ _ s => Ok (if Nat.even s then INR s else 1 - INR (Nat.pred s), Datatypes.S s);
  gen_unit := fun s => Ok (0, Datatypes.S s)
|}.
Definition line_bounds : array (R * R) 2 := acons (0, 9) (acons (-9, 9) anil).
Definition ones_vec (n : nat) : R := 1.
Example C84_case_line :
  index_in_range line_rng
  /\ (forall t u t', gen_unit line_rng t = Ok (u, t') -> u < 1)
  /\ (exists start s1, de_initial_population line_rng line_bounds 5 0%nat = Ok (start, s1)
        /\ (forall x, In x start -> linear ones_vec x = 1) /\ length start = 5%nat)
  /\ exists best s' c' log,
       de_optimize real_de_num line_rng (recorded (fun (c : nat) (x y : array R 2) => Ok (true, Datatypes.S c))) 20 line_bounds 5 1 2 1%nat 0%nat (0%nat, [])
       = Ok (best, s', (c', log)) /\ length log = 5%nat.
Proof.
  split; [|split; [|split]].
  - intros n s v s'. cbn [gen_index line_rng]. destruct (Nat.eqb_spec n 0) as [->|Hn]; [discriminate|].
    intros E. injection E as <- _. apply Nat.mod_upper_bound. exact Hn.
  - intros t u t' E. cbn [gen_unit line_rng] in E. injection E as <- _. lra.
  - eexists _, _. split; [cbn -[INR Rminus]; reflexivity|]. split; [|reflexivity].
    intros x Hx. repeat (destruct Hx as [<-|Hx]; [unfold linear, ones_vec; cbn -[INR Rminus Rplus Rmult]; cbn [Nat.pred]; ring|]). destruct Hx.
  - unfold de_optimize. cbn -[Rle_dec Rlt_dec Rplus Rmult Rminus INR].
    repeat (rewrite Rle_true by lra; cbn -[Rle_dec Rlt_dec Rplus Rmult Rminus INR]).
    assert (RL : forall A (a b : A), (if Rlt_dec 0 1 then a else b) = a) by (intros; destruct (Rlt_dec 0 1); [reflexivity|lra]).
    repeat (rewrite RL; cbn -[Rle_dec Rlt_dec Rplus Rmult Rminus INR]).
    eexists _, _, _, _. split; [reflexivity|reflexivity].
Qed.
(** Weight 0 over the reals is an arithmetic for the recombination theorem. *)
Example C84_case_weight_zero : forall a b c v, step real_de_num 0 a b c = Ok v -> v = a.
Proof. intros a b c v E. unfold step in E. cbn [t_sub t_mul t_add real_de_num bind] in E. injection E as <-. ring. Qed.
Print Assumptions C84_closed_coordinate.
Print Assumptions C84_constant_coordinate_float.
Print Assumptions C84_recombination.
Print Assumptions C84_linear_constraints.
Print Assumptions C84_never_better.
Print Assumptions C84_collapsed_population.
