(** Property C90: the documented use of the optimizer (doc example and test of
    differential_evolution.rs: minimise the f32 Ackley function). *)
From Coq Require Import List Arith Bool ZArith Lia Reals Lra.
From Flocq Require Import Core.Core IEEE754.BinarySingleNaN.
From Verif Require Import Base.Outcome Base.Array Model.DiffEvo Model.Float Model.Ackley Spec.DiffEvo Spec.FloatErr
  Proofs.FloatOrder Proofs.DiffEvoProofs Proofs.DiffEvoSim Proofs.DiffEvoMore Proofs.Equality Props.DiffEvoProps Props.DiffEvoMoreProps Props.DiffEvoInvProps Props.FloatRangeProps.
Import ListNotations.
Local Open Scope nat_scope.

(** ** Verdicts that are consistent where they are given *)

(** [C39_never_worse] asks for a comparator that is a strict weak order on all points.  It is
    enough that the verdicts given during the run are those of some strict weak order. *)
Theorem C90_consistent_verdicts :
  forall (T F S C : Type) (num : de_num T F) (rng : de_rng T F S) (N : nat)
    (cmp : C -> array T N -> array T N -> outcome (bool * C)) better,
  index_in_range rng -> strict_weak_order better ->
  forall fuel bounds size p w iters s c best s' c' log,
  de_optimize num rng (recorded cmp) fuel bounds size p w iters s (c, []) = Ok (best, s', (c', log)) ->
  (forall x y b, In (x, y, b) log -> b = better x y) ->
  (forall x y b, In (x, y, b) log -> better x best = false /\ better y best = false) /\
  exists start final, run_history num rng bounds size p w iters log start final best /\
    (forall x, In x start -> better x best = false) /\
    (forall i x, nth_error start i = Some x ->
       exists y, nth_error final i = Some y /\ (y = x \/ better y x = true)).
Proof.
  intros T F S C num rng N cmp better Hr HO fuel bounds size p w iters s c best s' c' log H Hb.
  destruct (optimize_history num rng cmp Hr _ _ _ _ _ _ _ _ _ _ _ _ H) as (start & final & Hh).
  assert (Ht : truthful better log).
  { unfold truthful. rewrite Forall_forall. intros [[x y] b] Hin. exact (Hb x y b Hin). }
  pose proof Hh as (log1 & log2 & -> & Hl & _ & _ & Hev & Hko).
  apply Forall_app in Ht as [Ht1 Ht2].
  pose proof (knockout_best better HO _ _ _ Hko Ht2) as Hbest.
  split.
  - intros x y b Hin. apply in_app_iff in Hin as [Hin|Hin].
    + destruct (evolves_log num rng better p w HO _ _ _ _ Hev Ht1 x y b Hin) as (z & Hz & Hx & Hy).
      split; eapply not_better_trans; eauto.
    + destruct (proj2 (knockout_in _ _ _ Hko) x y b Hin) as [Hx Hy]. auto.
  - exists start, final. split; [exact Hh|]. split.
    + intros x Hx. apply In_nth_error in Hx as [i Hi].
      destruct (evolves_slot num rng better p w HO _ _ _ _ Hev Ht1 i x Hi) as (y & Hy & Hor).
      apply nth_error_In in Hy. apply Hbest in Hy. destruct Hor as [->|Hor]; [exact Hy|].
      eapply not_better_trans; [exact HO| |exact Hy]. apply better_not_rev; assumption.
    + intros i x Hi. exact (evolves_slot num rng better p w HO _ _ _ _ Hev Ht1 i x Hi).
Qed.

(** The winner took part in some comparison. *)
Lemma knockout_winner_seen {T N} (pop : list (array T N)) log best :
  knockout pop log best -> 1 < length pop -> exists x y b, In (x, y, b) log /\ (best = x \/ best = y).
Proof.
  induction 1 as [x|pop pop' now later best H1 Hn Hl Hr Ho Hk IH]; intros L; [simpl in L; lia|].
  destruct (Nat.eq_dec (length pop') 1) as [E|E].
  - assert (Hh : 0 < length pop / 2) by (apply Nat.div_str_pos; lia).
    destruct (Hr 0 Hh) as (x & y & b & Hx & Hy & Hz & Hw). exists x, y, b.
    split; [apply in_or_app; left; eapply nth_error_In, Hz|].
    inversion Hk as [v E1 E2 E3|p1 p2 n1 l1 b1 G1]; subst; [|lia]. simpl in Hw. destruct b; injection Hw as ->; auto.
  - assert (Hd : 1 <= (length pop + 1) / 2) by (apply Nat.div_le_lower_bound; lia).
    destruct IH as (x & y & b & Hin & Hor); [lia|]. exists x, y, b. split; [apply in_or_app; right; exact Hin|exact Hor].
Qed.

(** ** Minimising a float objective: it is enough that no value computed in the run is NaN *)
Section Float.
Context {prec emax : Z} {Hp : Prec_gt_0 prec} {He : Prec_lt_emax prec emax}.
Notation fl := (binary_float prec emax).

Lemma not_less (a b : fl) : is_nan a = false -> is_nan b = false -> Bltb a b = false -> Bleb b a = true.
Proof.
  intros Ha Hb H. destruct (is_finite a) eqn:Fa, (is_finite b) eqn:Fb.
  - rewrite Bltb_correct in H by assumption. rewrite Bleb_correct by assumption.
    destruct (Rlt_bool_spec (B2R a) (B2R b)); [discriminate|]. apply Rle_bool_true. assumption.
  - destruct a as [s|s| |s m e h], b as [s'|[]| |s' m' e' h']; try discriminate; reflexivity.
  - destruct a as [s|[]| |s m e h], b as [s'|s'| |s' m' e' h']; try discriminate; try reflexivity; destruct s'; try discriminate; reflexivity.
  - destruct a as [s|[]| |s m e h], b as [s'|[]| |s' m' e' h']; try discriminate; reflexivity.
Qed.

Theorem C90_objective_without_nan :
  forall (T F S : Type) (num : de_num T F) (rng : de_rng T F S) (N : nat) (f : array T N -> fl),
  index_in_range rng ->
  let cmp (c : unit) x y := Ok (Bltb (f x) (f y), c) in
  forall fuel bounds size p w iters s best s' c' log,
  de_optimize num rng (recorded cmp) fuel bounds size p w iters s (tt, []) = Ok (best, s', (c', log)) ->
  (forall x y b, In (x, y, b) log -> is_nan (f x) = false /\ is_nan (f y) = false) ->
  is_nan (f best) = false /\
  forall x y b, In (x, y, b) log -> Bleb (f best) (f x) = true /\ Bleb (f best) (f y) = true.
Proof.
  intros T F S num rng N f Hr cmp fuel bounds size p w iters s best s' c' log H Hn.
  set (g := fun x => if is_nan (f x) then B754_infinity false else f x).
  assert (Hg : forall x, is_nan (g x) = false) by (intros x; unfold g; destruct (is_nan (f x)) eqn:E; [reflexivity|exact E]).
  assert (Hd : decides cmp (fun x y => Bltb (f x) (f y))) by (intros c0 x0 y0; exists c0; reflexivity).
  pose proof (recorded_optimize_truthful num rng cmp _ Hd _ _ _ _ _ _ _ _ _ _ _ _ H) as Ht.
  unfold truthful in Ht. rewrite Forall_forall in Ht.
  destruct (C90_consistent_verdicts _ _ _ _ num rng N cmp _ Hr (float_swo prec emax g Hg) _ _ _ _ _ _ _ _ _ _ _ _ H) as [G1 (start & final & Hh & _)].
  { intros x y b Hin. destruct (Hn x y b Hin) as [Nx Ny]. specialize (Ht _ Hin). simpl in Ht. unfold g. rewrite Nx, Ny. exact Ht. }
  destruct Hh as (log1 & log2 & -> & L1 & _ & _ & Hev & Hko).
  assert (Hs : 4 <= size).
  { unfold de_optimize in H. destruct (4 <=? size) eqn:E; [apply Nat.leb_le, E|discriminate H]. }
  assert (Nb : is_nan (f best) = false).
  { destruct (knockout_winner_seen _ _ _ Hko) as (x & y & b & Hin & Hor).
    - pose proof (evolves_length _ _ _ _ _ _ _ _ Hev). lia.
    - destruct (Hn x y b) as [Nx Ny]; [apply in_or_app; right; exact Hin|]. destruct Hor; subst; assumption. }
  split; [exact Nb|]. intros x y b Hin. destruct (Hn x y b Hin) as [Nx Ny]. destruct (G1 x y b Hin) as [Bx By].
  unfold g in Bx, By. rewrite Nx, Nb in Bx. rewrite Ny, Nb in By. split; apply not_less; assumption.
Qed.
End Float.

(** ** The documented call *)
(** differential_evolution.rs lines 14-22 and 134-142: the bounds (-5, 5) in both coordinates,
    population size 20, crossover probability 0.9, weight 0.8, 500 iterations, and the comparator
    [|lhs, rhs| ackley(lhs[0], lhs[1]) < ackley(rhs[0], rhs[1])]. *)
Definition doc_bounds : array (f32 * f32) 2 :=
  acons (f32_of_Z (-5), f32_of_Z 5) (acons (f32_of_Z (-5), f32_of_Z 5) anil).
Definition f32_0_9 : f32 := f32_lit 15099494 (-24).
Definition f32_0_8 : f32 := f32_lit 13421773 (-24).
Definition doc_value (libm_exp libm_exp_m1 libm_cos : f32 -> f32) (x : array f32 2) : outcome f32 :=
  a <- array_get x 0 ;; b <- array_get x 1 ;; ackley (f32_ackley_ops libm_exp libm_exp_m1 libm_cos) a b.
Definition doc_compare (libm_exp libm_exp_m1 libm_cos : f32 -> f32) (c : unit) (lhs rhs : array f32 2) : outcome (bool * unit) :=
  l <- doc_value libm_exp libm_exp_m1 libm_cos lhs ;;
  r <- doc_value libm_exp libm_exp_m1 libm_cos rhs ;;
  Ok (Bltb l r, c).
Notation num32 := (float_de_num 24 128).
Definition doc_run {S C} (rng : de_rng f32 f32 S) (cmp : C -> array f32 2 -> array f32 2 -> outcome (bool * C)) fuel s c :=
  de_optimize num32 rng cmp fuel doc_bounds 20 f32_0_9 f32_0_8 500 s c.

(** The literals are the nearest f32 numbers. *)
Lemma doc_literals : (Rabs (B2R f32_0_9 - 9 / 10) <= / 2 ^ 25 /\ Rabs (B2R f32_0_8 - 8 / 10) <= / 2 ^ 25)%R.
Proof.
  assert (E1 : (B2R f32_0_9 = 15099494 / 16777216)%R) by (vm_compute; lra).
  assert (E2 : (B2R f32_0_8 = 13421773 / 16777216)%R) by (vm_compute; lra).
  rewrite E1, E2. split; apply Rabs_le; cbn [pow]; lra.
Qed.

Section Doc.
Context (libm_exp libm_exp_m1 libm_cos : f32 -> f32).
Notation value := (doc_value libm_exp libm_exp_m1 libm_cos).
Notation compare := (doc_compare libm_exp libm_exp_m1 libm_cos).

Lemma value_ok x : exists v, value x = Ok v.
Proof.
  unfold doc_value. rewrite (array_get_ok (f32_of_Z 0) x 0), (array_get_ok (f32_of_Z 0) x 1) by lia. eexists. reflexivity.
Qed.

(** With every generator that rand allows and that is fair, the call returns. *)
Theorem C90_doc_call_returns :
  forall (S : Type) (rng : de_rng f32 f32 S) s,
  well_behaved num32 rng doc_bounds -> fair rng ->
  exists enough best s', forall fuel, enough <= fuel -> doc_run rng compare fuel s tt = Ok (best, s', tt).
Proof.
  intros S rng s HW HF.
  destruct (C42_fair_terminates _ _ _ _ num32 rng 2 compare doc_bounds HW ltac:(lia)) with (size := 20) (p := f32_0_9) (w := f32_0_8) (iters := 500) (s := s) (c := tt)
    as (enough & [[best s'] []] & H).
  - intros c x y. unfold doc_compare. destruct (value_ok x) as [v ->]. destruct (value_ok y) as [v' ->]. eexists _, _. reflexivity.
  - exact HF.
  - repeat split; try lia; vm_compute; reflexivity.
  - exists enough, best, s'. exact H.
Qed.

(** If no computed function value is NaN, no computed value seen in the run is below the result's;
    the comparator is asked 519 times. *)
Theorem C90_doc_call_never_worse :
  forall (S : Type) (rng : de_rng f32 f32 S) fuel s best s' c' log,
  index_in_range rng ->
  doc_run rng (recorded compare) fuel s (tt, []) = Ok (best, s', (c', log)) ->
  (forall x y b, In (x, y, b) log -> on_ok (value x) (fun v => negb (is_nan v)) = true /\ on_ok (value y) (fun v => negb (is_nan v)) = true) ->
  length log = 519 /\
  exists v, value best = Ok v /\ forall x y b, In (x, y, b) log ->
    on_ok (value x) (fun vx => Bleb v vx) = true /\ on_ok (value y) (fun vy => Bleb v vy) = true.
Proof.
  intros S rng fuel s best s' c' log Hr H Hn. unfold doc_run in H.
  split; [exact (C44_number_of_calls _ _ _ _ _ _ _ _ Hr _ _ _ _ _ _ _ _ _ _ _ _ H)|].
  set (f := fun x => match value x with Ok v => v | _ => B754_nan end).
  assert (Ef : forall x, value x = Ok (f x)) by (intros x; unfold f; destruct (value_ok x) as [v ->]; reflexivity).
  set (cmp := fun (c : unit) x y => Ok (Bltb (f x) (f y), c) : outcome (bool * unit)).
  assert (D1 : decides compare (fun x y => Bltb (f x) (f y))).
  { intros c x y. exists c. unfold doc_compare. rewrite !Ef. reflexivity. }
  assert (D2 : decides cmp (fun x y => Bltb (f x) (f y))) by (intros c x y; exists c; reflexivity).
  destruct (DiffEvoMoreProps.C59_same_calls _ _ _ _ _ num32 rng 2 compare cmp _ D1 D2 _ _ _ _ _ _ _ _ tt _ _ _ _ H) as ([] & H').
  destruct (C90_objective_without_nan _ _ _ num32 rng 2 f Hr _ _ _ _ _ _ _ _ _ _ _ H') as [_ G].
  { intros x y b Hin. destruct (Hn x y b Hin) as [Nx Ny]. rewrite Ef in Nx, Ny. cbn [on_ok] in Nx, Ny.
    split; apply negb_true_iff; assumption. }
  exists (f best). split; [apply Ef|]. intros x y b Hin. rewrite !Ef. exact (G x y b Hin).
Qed.
End Doc.

(** The assertions of the doc example and of the test (|loc[i]| < 0.1) are not guaranteed: with a
    generator that meets every contract of rand and is fair, but happens to draw 3 for every start
    coordinate, the call returns (3, 3) for every comparator. *)
Definition threes : de_rng f32 f32 nat := {|
  gen_index := fun n s => if n =? 0 then Panic EmptyRange else Ok (s mod n, Datatypes.S s);
  gen_value := fun _ _ s => Ok (f32_of_Z 3, Datatypes.S s);
  gen_unit := fun s => Ok (f32_of_Z 0, Datatypes.S s)
|}.
Definition three_three : array f32 2 := acons (f32_of_Z 3) (acons (f32_of_Z 3) anil).

Lemma threes_in_range : index_in_range threes.
Proof.
  intros n s v s'. cbn [gen_index threes]. destruct (Nat.eqb_spec n 0) as [->|Hn]; [discriminate|].
  intros E. injection E as <- _. apply Nat.mod_upper_bound. exact Hn.
Qed.
Lemma threes_well_behaved : well_behaved num32 threes doc_bounds.
Proof.
  constructor; try (intros; simpl; eauto; fail).
  intros n s Hn. cbn [gen_index threes]. destruct (Nat.eqb_spec n 0) as [E|_]; [lia|].
  exists (s mod n), (Datatypes.S s). split; [reflexivity|apply Nat.mod_upper_bound; lia].
Qed.
Lemma threes_fair : fair threes.
Proof.
  intros n v s Hv.
  assert (Hd : forall d s, (s + d) mod n = v -> comes_up threes n v s).
  { induction d as [|d IH]; intros s0 H.
    - rewrite Nat.add_0_r in H. eapply comes_up_now. cbn [gen_index threes].
      destruct (Nat.eqb_spec n 0) as [E|_]; [lia|]. rewrite H. reflexivity.
    - eapply comes_up_later.
      + cbn [gen_index threes]. destruct (Nat.eqb_spec n 0) as [E|_]; [lia|]. reflexivity.
      + apply IH. rewrite <- H. f_equal. lia. }
  apply (Hd (n - s mod n + v) s).
  pose proof (Nat.mod_upper_bound s n ltac:(lia)). pose proof (Nat.div_mod_eq s n).
  replace (s + (n - s mod n + v)) with (v + (s / n + 1) * n) by lia.
  rewrite Nat.mod_add by lia. apply Nat.mod_small. exact Hv.
Qed.

Theorem C90_doc_assertions_refuted :
  index_in_range threes /\ well_behaved num32 threes doc_bounds /\ fair threes /\
  (forall s, exists v s', gen_value threes (f32_of_Z (-5)) (f32_of_Z 5) s = Ok (v, s')
     /\ Bleb (f32_of_Z (-5)) v = true /\ Bltb v (f32_of_Z 5) = true) /\
  forall (C : Type) (cmp : C -> array f32 2 -> array f32 2 -> outcome (bool * C)) c,
  (forall c x y, exists b c', cmp c x y = Ok (b, c')) ->
  exists enough s' c', forall fuel, enough <= fuel -> doc_run threes cmp fuel 0 c = Ok (three_three, s', c').
Proof.
  split; [exact threes_in_range|]. split; [exact threes_well_behaved|]. split; [exact threes_fair|].
  split. { intros s. exists (f32_of_Z 3), (Datatypes.S s). repeat split; vm_compute; reflexivity. }
  intros C cmp c Hc.
  destruct (C42_fair_terminates _ _ _ _ num32 threes 2 cmp doc_bounds threes_well_behaved ltac:(lia) Hc threes_fair) with (size := 20) (p := f32_0_9) (w := f32_0_8) (iters := 500) (s := 0) (c := c)
    as (enough & [[best s'] c'] & H).
  { repeat split; try lia; vm_compute; reflexivity. }
  exists enough, s', c'. intros fuel Hf. specialize (H fuel Hf). unfold doc_run. rewrite H.
  apply C44_logging_is_transparent in H as [log H].
  destruct (C84_collapsed_population 24 128 _ _ _ _ threes 2 cmp threes_in_range fuel doc_bounds 20 f32_0_9 f32_0_8 500 0 c best s' c' log 40 three_three) as [K _]; [| |exact H|].
  - assert (G : forall k s, de_initial_population threes doc_bounds k s = Ok (repeat three_three k, s + 2 * k)).
    { induction k as [|k IH]; intros s0; [rewrite Nat.mul_0_r, Nat.add_0_r; reflexivity|].
      cbn [de_initial_population].
      assert (E : de_initial_candidate threes doc_bounds s0 = Ok (three_three, Datatypes.S (Datatypes.S s0))) by reflexivity.
      rewrite E. cbn [bind]. rewrite IH. cbn [bind repeat]. do 2 f_equal. lia. }
    apply G.
  - repeat constructor; vm_compute; reflexivity.
  - do 3 f_equal. apply entries_inj. inversion K as [|x1 x2 l1 l2 K1 K2 E1 E2]; subst.
    inversion K2 as [|x3 x4 l3 l4 K3 K4 E3 E4]; subst. inversion K4; subst.
    assert (Q : forall v : f32, same_up_to_zero v (f32_of_Z 3) -> v = f32_of_Z 3).
    { intros v [->|(a & b & -> & Eb)]; [reflexivity|]. exfalso. apply (f_equal (fun v : f32 => Beqb v (f32_of_Z 3))) in Eb. vm_compute in Eb. destruct b; discriminate. }
    rewrite (Q _ K1), (Q _ K3). reflexivity.
Qed.
Lemma not_below_tenth : Bltb (Babs (f32_of_Z 3)) (f32_lit 13421773 (-27)) = false.
Proof. vm_compute. reflexivity. Qed.

(** A concrete run with other start values: no NaN (for a constant libm), 519 comparisons. *)
Definition spread : de_rng f32 f32 nat := {|
  gen_index := fun n s => if n =? 0 then Panic EmptyRange else Ok (s mod n, Datatypes.S s);
  gen_value := fun _ _ s => Ok (fl_div 24 128 (f32_of_Z (Z.of_nat (s mod 7) - 3)) (f32_of_Z 2), Datatypes.S s);
  gen_unit := fun s => Ok (f32_of_Z 0, Datatypes.S s)
|}.
Example C90_case :
  let one := fun _ : f32 => f32_of_Z 1 in
  let m1 := fun x : f32 => x in
  on_ok (doc_run spread (recorded (doc_compare one m1 one)) 100 0 (tt, [])) (fun r =>
    (length (snd (snd r)) =? 519) && existsb (fun e => snd e) (snd (snd r))
    && forallb (fun e => on_ok (doc_value one m1 one (fst (fst e))) (fun v => negb (is_nan v))
                        && on_ok (doc_value one m1 one (snd (fst e))) (fun v => negb (is_nan v))) (snd (snd r))) = true.
Proof. vm_compute. reflexivity. Qed.
Print Assumptions C90_consistent_verdicts.
Print Assumptions C90_objective_without_nan.
Print Assumptions C90_doc_call_returns.
Print Assumptions C90_doc_call_never_worse.
Print Assumptions C90_doc_assertions_refuted.
