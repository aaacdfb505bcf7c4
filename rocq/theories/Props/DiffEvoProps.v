(** Properties C38-C45: differential evolution (optimize::differential_evolution).

    The generator, the comparator, the numeric type and the dimension are arbitrary.
    [de_optimize fuel] allows [fuel] draws to each rejection loop and is [Diverge] if they
    do not suffice; a statement about every [fuel] therefore covers every prefix of an
    infinite run.  Vocabulary ([decides], [strict_weak_order], [recorded], [is_trial],
    [evolves], [knockout], [run_history], [well_behaved], [fair]): Spec/DiffEvo.v. *)
From Coq Require Import List Arith ZArith Lia Bool Reals.
From Coq Require Import Lra.
From Flocq Require Import Core.FLX Core.Raux IEEE754.BinarySingleNaN.
From Verif Require Import Base.Outcome Base.Array Base.Wp Model.DiffEvo Model.Float Spec.DiffEvo
  Proofs.DiffEvoProofs Proofs.DiffEvoSim Proofs.DiffEvoMore Proofs.DiffEvoTerm Proofs.FloatOrder.
Import ListNotations.
Open Scope nat_scope.

(** A generator used in the examples: counts up, its start values alternate. *)
Definition counter_rng (even odd : f64) : de_rng f64 f32 nat := {|
  gen_index := fun n s => if n =? 0 then Panic EmptyRange else Ok (s mod n, Datatypes.S s);
  gen_value := fun _ _ s => Ok (if Nat.even s then even else odd, Datatypes.S s);
  gen_unit := fun s => Ok (f32_of_Z 0, Datatypes.S s)
|}.
Definition z64 (z : Z) : f64 := f64_of_Z z.
Definition unit_bounds : array (f64 * f64) 1 := acons (z64 0, z64 8) anil.
Definition num64 : de_num f64 f32 := float_de_num 53 1024.
(** Maximise the only coordinate. *)
Definition larger (x y : array f64 1) : bool := Bltb (ahd y) (ahd x).
Definition cmp_larger (c : unit) (x y : array f64 1) : outcome (bool * unit) := Ok (larger x y, c).

Lemma counter_in_range a b : index_in_range (counter_rng a b).
Proof.
  intros n s v s'. cbn [gen_index counter_rng]. destruct (Nat.eqb_spec n 0) as [->|Hn]; [discriminate|].
  intros E. injection E as <- _. apply Nat.mod_upper_bound. exact Hn.
Qed.

Lemma counter_well_behaved a b N (bounds : array (f64 * f64) N) : well_behaved num64 (counter_rng a b) bounds.
Proof.
  constructor; try (intros; simpl; eauto; fail).
  intros n s Hn. cbn [gen_index counter_rng]. destruct (Nat.eqb_spec n 0) as [E|_]; [lia|].
  exists (s mod n), (Datatypes.S s). split; [reflexivity|apply Nat.mod_upper_bound; lia].
Qed.

Lemma counter_fair a b : fair (counter_rng a b).
Proof.
  intros n v s Hv.
  assert (Hd : forall d s, (s + d) mod n = v -> comes_up (counter_rng a b) n v s).
  { induction d as [|d IH]; intros s0 H.
    - rewrite Nat.add_0_r in H. eapply comes_up_now. cbn [gen_index counter_rng].
      destruct (Nat.eqb_spec n 0) as [E|_]; [lia|]. rewrite H. reflexivity.
    - eapply comes_up_later.
      + cbn [gen_index counter_rng]. destruct (Nat.eqb_spec n 0) as [E|_]; [lia|]. reflexivity.
      + apply IH. rewrite <- H. f_equal. lia. }
  apply (Hd (n - s mod n + v) s).
  pose proof (Nat.mod_upper_bound s n ltac:(lia)).
  pose proof (Nat.div_mod_eq s n).
  replace (s + (n - s mod n + v)) with (v + (s / n + 1) * n) by lia.
  rewrite Nat.mod_add by lia. apply Nat.mod_small. exact Hv.
Qed.

(** Concrete runs are checked by evaluating a boolean. *)
Lemma run_case {A} (m : outcome A) (P : A -> bool) :
  match m with Ok a => P a | _ => false end = true -> exists a, m = Ok a /\ P a = true.
Proof. destruct m as [a| |]; try discriminate. intros H. exists a. auto. Qed.

Lemma example_valid : valid_arguments num64 5 (f32_of_Z 1) (z64 1).
Proof.
  split; [lia|]. split; [vm_compute; reflexivity|]. split; [vm_compute; reflexivity|].
  split; vm_compute; reflexivity.
Qed.

Definition example_run (iters : nat) : outcome (array f64 1 * nat * unit) :=
  de_optimize num64 (counter_rng (z64 3) (z64 5)) cmp_larger 20 unit_bounds 5 (f32_of_Z 1) (z64 1) iters 0 tt.

(** ** C38: the result is a best member of the final population *)

Theorem C38_best_of_final_population :
  forall (T F S C : Type) (num : de_num T F) (rng : de_rng T F S) (N : nat)
    (cmp : C -> array T N -> array T N -> outcome (bool * C)) better,
  index_in_range rng -> decides cmp better -> strict_weak_order better ->
  forall fuel bounds size p w iters s c best s' c',
  de_optimize num rng cmp fuel bounds size p w iters s c = Ok (best, s', c') ->
  exists log start final,
    run_history num rng bounds size p w iters log start final best /\
    length final = size /\ In best final /\ forall x, In x final -> better x best = false.
Proof.
  intros T F S C num rng N cmp better Hr Hd HO fuel bounds size p w iters s c best s' c' H.
  destruct (orel_ok_r _ _ _ _ (recorded_optimize num rng cmp fuel bounds size p w iters s c) H)
    as [[[b0 s0] [c0 log]] [H' [E1 E2]]]. simpl in E1, E2. injection E1 as -> ->. subst c0.
  destruct (optimize_history num rng cmp Hr _ _ _ _ _ _ _ _ _ _ _ _ H') as (start & final & Hh).
  exists log, start, final. split; [exact Hh|].
  pose proof (recorded_optimize_truthful num rng cmp better Hd _ _ _ _ _ _ _ _ _ _ _ _ H') as Ht.
  destruct Hh as (log1 & log2 & -> & Hl & _ & _ & Hev & Hko).
  apply Forall_app in Ht as [_ Ht]. split; [|split].
  - rewrite (evolves_length _ _ _ _ _ _ _ _ Hev). exact Hl.
  - apply (knockout_in _ _ _ Hko).
  - eapply knockout_best; eassumption.
Qed.

(** The knockout stage alone, for every non-empty population, odd or even: it always ends,
    never indexes out of range, and its winner is a best member. *)
Theorem C38_knockout :
  forall (T C : Type) (N : nat) (cmp : C -> array T N -> array T N -> outcome (bool * C)) better,
  decides cmp better -> strict_weak_order better ->
  forall (pop : list (array T N)) c, pop <> [] ->
  exists best c', de_knockout cmp (length pop) pop c = Ok ([best], c') /\
    In best pop /\ forall x, In x pop -> better x best = false.
Proof.
  intros T C N cmp better Hd HO pop c Hne.
  assert (Hlen : 0 < length pop) by (destruct pop; [congruence|simpl; lia]).
  assert (Hc : forall c x y, wp (fun _ => False) False (cmp c x y) (fun _ => True)).
  { intros c0 x y. destruct (Hd c0 x y) as [c' E]. rewrite E. exact I. }
  pose proof (wp_knockout (fun _ => False) False cmp Hc (length pop) pop c [] Hlen (le_n _)) as W.
  pose proof (sim_knockout (recorded cmp) cmp (fun c1 c2 => fst c1 = c2)
     (fun c1 c2 x y H => recorded_sim cmp c1 c2 x y H) (length pop) pop (c, []) c eq_refl) as Sk.
  pose proof (sim_knockout (recorded cmp) (recorded cmp)
      (fun c1 c2 => c1 = c2 /\ truthful better (snd c1)) (fun c1 c2 x y => recorded_truthful cmp better Hd c1 c2 x y)
      (length pop) pop (c, []) (c, []) (conj eq_refl (Forall_nil _))) as Tk.
  destruct (de_knockout (recorded cmp) (length pop) pop (c, [])) as [[k [c' log]]|q|]; try contradiction.
  destruct W as (best & log' & E1 & E2 & Hko). simpl in E1, E2. subst k log'.
  destruct Tk as (_ & _ & Ht). simpl in Ht.
  destruct (de_knockout cmp (length pop) pop c) as [[k c2]|q|]; simpl in Sk; try contradiction.
  destruct Sk as [E1 E2]. simpl in E1, E2. subst k c2.
  exists best, c'. split; [reflexivity|]. split; [apply (knockout_in _ _ _ Hko)|].
  eapply knockout_best; eassumption.
Qed.

(** A comparator on candidates that is a strict weak order: a coordinate above 1 is
    better than one that is not. *)
Definition above_one (x : array f64 1) : bool := Bltb (z64 1) (ahd x).
Definition obj_better (x y : array f64 1) : bool := above_one x && negb (above_one y).
Definition cmp_obj (c : nat) (x y : array f64 1) : outcome (bool * nat) := Ok (obj_better x y, Datatypes.S c).

Example C38_case :
  index_in_range (counter_rng (z64 0) (z64 5)) /\ decides cmp_obj obj_better /\
  strict_weak_order obj_better /\
  exists best s' c',
    de_optimize num64 (counter_rng (z64 0) (z64 5)) cmp_obj 20 unit_bounds 5 (f32_of_Z 1) (z64 1) 7 0 0
      = Ok (best, s', c') /\ above_one best = true /\ c' = 11.
Proof.
  split; [apply counter_in_range|]. split; [intros c x y; eexists; reflexivity|]. split.
  - unfold obj_better. constructor; intros x; [destruct (above_one x); reflexivity| |];
      intros y z; destruct (above_one x), (above_one y), (above_one z); simpl; auto.
  - edestruct (run_case (de_optimize num64 (counter_rng (z64 0) (z64 5)) cmp_obj 20 unit_bounds 5
        (f32_of_Z 1) (z64 1) 7 0 0) (fun r => above_one (fst (fst r)) && (snd r =? 11))) as [[[b s] c] [E H]].
    { vm_compute. reflexivity. }
    apply andb_true_iff in H as [H1 H2]. apply Nat.eqb_eq in H2. exists b, s, c. auto.
Qed.
Print Assumptions C38_best_of_final_population.
Print Assumptions C38_knockout.

(** ** C39: never worse *)

(** The result is not worse than any start point nor than any point the comparator ever saw;
    a slot is only ever taken over by a better point. *)
Theorem C39_never_worse :
  forall (T F S C : Type) (num : de_num T F) (rng : de_rng T F S) (N : nat)
    (cmp : C -> array T N -> array T N -> outcome (bool * C)) better,
  index_in_range rng -> decides cmp better -> strict_weak_order better ->
  forall fuel bounds size p w iters s c best s' c' log,
  de_optimize num rng (recorded cmp) fuel bounds size p w iters s (c, []) = Ok (best, s', (c', log)) ->
  (forall x y b, In (x, y, b) log ->
     b = better x y /\ better x best = false /\ better y best = false) /\
  exists start final, run_history num rng bounds size p w iters log start final best /\
    (forall x, In x start -> better x best = false) /\
    (forall i x, nth_error start i = Some x ->
       exists y, nth_error final i = Some y /\ (y = x \/ better y x = true)).
Proof.
  intros T F S C num rng N cmp better Hr Hd HO fuel bounds size p w iters s c best s' c' log H.
  destruct (optimize_history num rng cmp Hr _ _ _ _ _ _ _ _ _ _ _ _ H) as (start & final & Hh).
  pose proof (recorded_optimize_truthful num rng cmp better Hd _ _ _ _ _ _ _ _ _ _ _ _ H) as Ht.
  pose proof Hh as (log1 & log2 & -> & Hl & _ & _ & Hev & Hko).
  pose proof Ht as Hall. unfold truthful in Hall. rewrite Forall_forall in Hall.
  apply Forall_app in Ht as [Ht1 Ht2].
  pose proof (knockout_best better HO _ _ _ Hko Ht2) as Hbest.
  split.
  - intros x y b Hin. split; [apply (Hall _ Hin)|]. apply in_app_iff in Hin as [Hin|Hin].
    + destruct (evolves_log num rng better p w HO _ _ _ _ Hev Ht1 x y b Hin) as (z & Hz & Hx & Hy).
      split; eapply not_better_trans; eauto.
    + destruct (proj2 (knockout_in _ _ _ Hko) x y b Hin) as [Hx Hy]. auto.
  - exists start, final. split; [exact Hh|]. split.
    + intros x Hx. apply In_nth_error in Hx as [i Hi].
      destruct (evolves_slot num rng better p w HO _ _ _ _ Hev Ht1 i x Hi) as (y & Hy & Hor).
      apply nth_error_In in Hy. apply Hbest in Hy. destruct Hor as [->|Hor]; [exact Hy|].
      eapply not_better_trans; [exact HO| |exact Hy]. apply better_not_rev; assumption.
    + intros i x Hi. exact (evolves_slot num rng better p w HO _ _ _ _ Hev Ht1 i x Hi).
Qed.

(** More iterations with the same random stream never give a worse result. *)
Theorem C39_more_iterations :
  forall (T F S C : Type) (num : de_num T F) (rng : de_rng T F S) (N : nat)
    (cmp : C -> array T N -> array T N -> outcome (bool * C)) better,
  index_in_range rng -> decides cmp better -> strict_weak_order better ->
  forall fuel bounds size p w iters more s c b1 s1' c1' b2 s2' c2',
  de_optimize num rng cmp fuel bounds size p w iters s c = Ok (b1, s1', c1') ->
  de_optimize num rng cmp fuel bounds size p w (iters + more) s c = Ok (b2, s2', c2') ->
  better b1 b2 = false.
Proof. intros T F S C num rng N cmp better Hr Hd HO. intros. eapply more_iterations; eassumption. Qed.

(** The same slot by slot: with [more] extra iterations and the same random stream the run
    starts with the same points, asks the same [iters] questions first, and ends with every slot
    holding either what the shorter run left there or something better. *)
Theorem C39_more_iterations_slots :
  forall (T F S C : Type) (num : de_num T F) (rng : de_rng T F S) (N : nat)
    (cmp : C -> array T N -> array T N -> outcome (bool * C)) better,
  index_in_range rng -> decides cmp better -> strict_weak_order better ->
  forall fuel bounds size p w iters more s c b1 s1' c1' log1 b2 s2' c2' log2,
  de_optimize num rng (recorded cmp) fuel bounds size p w iters s (c, []) = Ok (b1, s1', (c1', log1)) ->
  de_optimize num rng (recorded cmp) fuel bounds size p w (iters + more) s (c, []) = Ok (b2, s2', (c2', log2)) ->
  exists start final1 final2,
    run_history num rng bounds size p w iters log1 start final1 b1 /\
    run_history num rng bounds size p w (iters + more) log2 start final2 b2 /\
    firstn iters log2 = firstn iters log1 /\
    (forall i x, nth_error final1 i = Some x ->
       exists y, nth_error final2 i = Some y /\ (y = x \/ better y x = true)).
Proof.
  intros T F S C num rng N cmp better Hr Hd HO fuel bounds size p w iters more s c b1 s1' c1' log1 b2 s2' c2' log2 H1 H2.
  pose proof (recorded_optimize_truthful num rng cmp better Hd _ _ _ _ _ _ _ _ _ _ _ _ H2) as Ht.
  destruct (longer_run_continues num rng cmp Hr _ _ _ _ _ _ _ _ _ _ _ _ _ _ _ _ _ H1 H2)
    as (start & mid & final & g1 & g2 & k1 & k2 & -> & -> & Hl & Hdr & L1 & L2 & Ev1 & Ev2 & K1 & K2).
  exists start, mid, final. split; [|split; [|split]].
  - exists g1, k1. repeat split; auto.
  - exists (g1 ++ g2), k2. repeat split; auto; [rewrite app_length; lia|].
    eapply evolves_app; [exact Ev1|]. simpl. rewrite L1. exact Ev2.
  - rewrite <- app_assoc, !firstn_app, <- L1, Nat.sub_diag, firstn_all. reflexivity.
  - apply Forall_app in Ht as [Ht _]. apply Forall_app in Ht as [_ Ht].
    intros i x Hi. exact (evolves_slot num rng better p w HO _ _ _ _ Ev2 Ht i x Hi).
Qed.
Print Assumptions C39_more_iterations_slots.

(** The documented use: minimise a real-valued objective. *)
Corollary C39_objective :
  forall (T F S : Type) (num : de_num T F) (rng : de_rng T F S) (N : nat) (f : array T N -> R),
  index_in_range rng ->
  let cmp (c : unit) x y := Ok (if Rlt_dec (f x) (f y) then true else false, c) in
  forall fuel bounds size p w iters s best s' c' log,
  de_optimize num rng (recorded cmp) fuel bounds size p w iters s (tt, []) = Ok (best, s', (c', log)) ->
  forall x y b, In (x, y, b) log -> (f best <= f x)%R /\ (f best <= f y)%R.
Proof.
  intros T F S num rng N f Hr cmp fuel bounds size p w iters s best s' c' log H x y b Hin.
  set (better := fun x y => if Rlt_dec (f x) (f y) then true else false).
  assert (HO : strict_weak_order better).
  { unfold better. constructor.
    - intros a. destruct (Rlt_dec (f a) (f a)) as [G|G]; [|reflexivity]. exfalso. exact (Rlt_irrefl _ G).
    - intros a b0 c0. destruct (Rlt_dec (f a) (f b0)), (Rlt_dec (f b0) (f c0)), (Rlt_dec (f a) (f c0)); auto;
        try discriminate. exfalso. eauto using Rlt_trans.
    - intros a b0 c0. destruct (Rlt_dec (f a) (f b0)), (Rlt_dec (f b0) (f c0)), (Rlt_dec (f a) (f c0)); auto;
        try discriminate. exfalso. apply n0. apply Rle_lt_trans with (f a); [apply Rnot_lt_le; assumption|assumption]. }
  assert (Hd : decides cmp better) by (intros c0 x0 y0; exists c0; reflexivity).
  destruct (C39_never_worse _ _ _ _ num rng N cmp better Hr Hd HO _ _ _ _ _ _ _ _ _ _ _ _ H) as [Hlog _].
  destruct (Hlog x y b Hin) as (_ & Hx & Hy). unfold better in Hx, Hy.
  destruct (Rlt_dec (f x) (f best)), (Rlt_dec (f y) (f best)); try discriminate.
  split; apply Rnot_lt_le; assumption.
Qed.

(** The same for the documented comparator on floats, when no objective value is NaN. *)
Corollary C39_float_objective :
  forall (prec emax : Z) (T F S : Type) (num : de_num T F) (rng : de_rng T F S) (N : nat)
    (f : array T N -> binary_float prec emax),
  (forall x, is_nan (f x) = false) -> index_in_range rng ->
  let cmp (c : unit) x y := Ok (Bltb (f x) (f y), c) in
  forall fuel bounds size p w iters s best s' c' log,
  de_optimize num rng (recorded cmp) fuel bounds size p w iters s (tt, []) = Ok (best, s', (c', log)) ->
  forall x y b, In (x, y, b) log -> Bltb (f x) (f best) = false /\ Bltb (f y) (f best) = false.
Proof.
  intros prec emax T F S num rng N f Hn Hr cmp fuel bounds size p w iters s best s' c' log H x y b Hin.
  assert (Hd : decides cmp (fun x y => Bltb (f x) (f y))) by (intros c0 x0 y0; exists c0; reflexivity).
  destruct (C39_never_worse _ _ _ _ num rng N cmp _ Hr Hd (float_swo prec emax f Hn) _ _ _ _ _ _ _ _ _ _ _ _ H)
    as [Hlog _].
  destruct (Hlog x y b Hin) as (_ & Hx & Hy). auto.
Qed.

Example C39_case :
  exists b1 s1 b2 s2,
    example_run 0 = Ok (b1, s1, tt) /\ example_run (0 + 10) = Ok (b2, s2, tt) /\
    larger b2 b1 = true.
Proof.
  edestruct (run_case (a <- example_run 0 ;; b <- example_run (0 + 10) ;; Ok (a, b))
    (fun r => larger (fst (fst (snd r))) (fst (fst (fst r))))) as [[[[b1 s1] []] [[b2 s2] []]] [E H]].
  { vm_compute. reflexivity. }
  apply bind_Ok_inv in E as (a & E1 & E). apply bind_Ok_inv in E as (b & E2 & E).
  injection E as -> ->. exists b1, s1, b2, s2. auto.
Qed.
Print Assumptions C39_never_worse.
Print Assumptions C39_more_iterations.
Print Assumptions C39_objective.
Print Assumptions C39_float_objective.

(** ** C40: argument validation *)

(** Invalid arguments: the assertion fails whatever the generator and the comparator would
    do (also if they would panic or hang), so neither is called. *)
Theorem C40_invalid_arguments :
  forall (T F S C : Type) (num : de_num T F) (rng : de_rng T F S) (N : nat)
    (cmp : C -> array T N -> array T N -> outcome (bool * C)),
  forall fuel bounds size p w iters s c,
  ~ valid_arguments num size p w ->
  de_optimize num rng cmp fuel bounds size p w iters s c = Panic AssertFailed.
Proof.
  intros T F S C num rng N cmp fuel bounds size p w iters s c H. unfold de_optimize.
  destruct (4 <=? size) eqn:E1; [|reflexivity]. apply Nat.leb_le in E1. cbn [de_assert bind].
  destruct (p_leb num (p_0 num) p && p_leb num p (p_1 num)) eqn:E2; [|reflexivity].
  apply andb_true_iff in E2 as [E2 E3]. cbn [de_assert bind].
  destruct (t_leb num (t_0 num) w && t_leb num w (t_2 num)) eqn:E4; [|reflexivity].
  apply andb_true_iff in E4 as [E4 E5]. exfalso. apply H. repeat split; assumption.
Qed.

(** Valid arguments: no panic, whatever the number of draws allowed. *)
Theorem C40_valid_arguments :
  forall (T F S C : Type) (num : de_num T F) (rng : de_rng T F S) (N : nat)
    (cmp : C -> array T N -> array T N -> outcome (bool * C)) (bounds : array (T * T) N),
  well_behaved num rng bounds -> 0 < N ->
  (forall c x y, exists b c', cmp c x y = Ok (b, c')) ->
  forall fuel size p w iters s c q,
  valid_arguments num size p w ->
  de_optimize num rng cmp fuel bounds size p w iters s c <> Panic q.
Proof. intros T F S C num rng N cmp bounds HW HN Hc. intros. eapply optimize_safe; eassumption. Qed.

(** NaN is not a valid probability or weight, for every float format. *)
Corollary C40_nan_arguments :
  forall (S C : Type) (rng : de_rng f64 f32 S) (N : nat)
    (cmp : C -> array f64 N -> array f64 N -> outcome (bool * C)),
  forall fuel bounds size p w iters s c,
  is_nan p = true \/ is_nan w = true ->
  de_optimize num64 rng cmp fuel bounds size p w iters s c = Panic AssertFailed.
Proof.
  intros S C rng N cmp fuel bounds size p w iters s c H. apply C40_invalid_arguments.
  intros (_ & _ & Hp & _ & Hw). destruct H as [H|H].
  - destruct p; try discriminate H. discriminate Hp.
  - destruct w; try discriminate H. discriminate Hw.
Qed.

(** For f64 and f32: the accepted probabilities and weights are the finite floats in [0, 1]
    and in [0, 2]; both ends, [-0.0] included, are accepted and NaN and infinities are not. *)
Lemma float_leb_range prec emax {Hp : FLX.Prec_gt_0 prec} {He : Prec_lt_emax prec emax} (a b x : binary_float prec emax) :
  is_finite a = true -> is_finite b = true ->
  (Bleb a x = true /\ Bleb x b = true <-> is_finite x = true /\ (B2R a <= B2R x <= B2R b)%R).
Proof.
  intros Ha Hb. destruct (is_finite x) eqn:Hx.
  - rewrite !Bleb_correct by assumption. split.
    + intros [H1 H2]. split; [reflexivity|]. split;
        [destruct (Rle_bool_spec (B2R a) (B2R x))|destruct (Rle_bool_spec (B2R x) (B2R b))]; congruence || lra.
    + intros [_ [H1 H2]]. rewrite !Rle_bool_true by assumption. auto.
  - split; [|intros [H _]; discriminate H]. intros [H1 H2]. exfalso.
    destruct x as [|[]| |]; try discriminate Hx; destruct a as [|[]| |[]], b as [|[]| |[]]; try discriminate Ha; try discriminate Hb; discriminate.
Qed.

Theorem C40_float_arguments :
  (forall size (p : f32) (w : f64), valid_arguments num64 size p w <->
     4 <= size /\ (is_finite p = true /\ (0 <= B2R p <= 1)%R) /\ (is_finite w = true /\ (0 <= B2R w <= 2)%R))
  /\ (forall size (p : f32) (w : f32), valid_arguments (float_de_num 24 128) size p w <->
     4 <= size /\ (is_finite p = true /\ (0 <= B2R p <= 1)%R) /\ (is_finite w = true /\ (0 <= B2R w <= 2)%R)).
Proof.
  assert (P0 : B2R (f32_of_Z 0) = 0%R) by reflexivity.
  assert (P1 : B2R (f32_of_Z 1) = 1%R) by (vm_compute; lra).
  assert (W0 : B2R (f64_of_Z 0) = 0%R) by reflexivity.
  assert (W2 : B2R (f64_of_Z 2) = 2%R) by (vm_compute; lra).
  assert (V2 : B2R (f32_of_Z 2) = 2%R) by (vm_compute; lra).
  assert (Hp : forall p, Bleb (f32_of_Z 0) p = true /\ Bleb p (f32_of_Z 1) = true <-> is_finite p = true /\ (0 <= B2R p <= 1)%R).
  { intros p. rewrite (float_leb_range 24 128) by reflexivity. rewrite P0, P1. reflexivity. }
  split; intros size p w; unfold valid_arguments; cbn [p_leb t_leb p_0 p_1 t_0 t_2 num64 float_de_num].
  - rewrite <- Hp. pose proof (float_leb_range 53 1024 (f64_of_Z 0) (f64_of_Z 2) w eq_refl eq_refl) as Hw.
    rewrite W0, W2 in Hw. rewrite <- Hw. tauto.
  - rewrite <- Hp. pose proof (float_leb_range 24 128 (f32_of_Z 0) (f32_of_Z 2) w eq_refl eq_refl) as Hw.
    rewrite P0, V2 in Hw. rewrite <- Hw. tauto.
Qed.

(** Without dimensions ([N = 0]) the loop cannot draw the forced coordinate: no result. *)
Theorem C40_no_dimensions :
  forall (T F S C : Type) (num : de_num T F) (rng : de_rng T F S)
    (cmp : C -> array T 0 -> array T 0 -> outcome (bool * C)),
  index_in_range rng ->
  forall fuel bounds size p w iters s c r, 0 < iters ->
  de_optimize num rng cmp fuel bounds size p w iters s c <> Ok r.
Proof.
  intros T F S C num rng cmp Hr fuel bounds size p w iters s c [[best s'] c'] Hit H.
  destruct (orel_ok_r _ _ _ _ (recorded_optimize num rng cmp fuel bounds size p w iters s c) H)
    as [[[b0 s0] [c0 log]] [H' [E1 E2]]]. simpl in E1, E2. injection E1 as -> ->. subst c0.
  destruct (optimize_history num rng cmp Hr _ _ _ _ _ _ _ _ _ _ _ _ H') as (start & final & Hh).
  destruct Hh as (log1 & log2 & -> & Hl & _ & Hlen & Hev & _).
  destruct Hev as [|t pop x y b log pop' Hy (j & k & l & r & u & Hx) Hev]; [simpl in Hlen; lia|].
  destruct Hx as (_ & _ & _ & _ & _ & Hr0 & _). lia.
Qed.

Example C40_case :
  valid_arguments num64 5 (f32_of_Z 1) (z64 1) /\ ~ valid_arguments num64 3 (f32_of_Z 1) (z64 1) /\
  ~ valid_arguments num64 5 (f32_of_Z 2) (z64 1) /\ ~ valid_arguments num64 5 (f32_of_Z 1) (z64 (-1)) /\
  ~ valid_arguments num64 5 B754_nan (z64 1) /\
  well_behaved num64 (counter_rng (z64 0) (z64 5)) unit_bounds.
Proof.
  split; [apply example_valid|].
  split; [intros (H & _); lia|].
  split; [intros (_ & _ & H & _); vm_compute in H; discriminate H|].
  split; [intros (_ & _ & _ & H & _); vm_compute in H; discriminate H|].
  split; [intros (_ & _ & H & _); vm_compute in H; discriminate H|].
  apply counter_well_behaved.
Qed.
Print Assumptions C40_invalid_arguments.
Print Assumptions C40_valid_arguments.
Print Assumptions C40_nan_arguments.
Print Assumptions C40_no_dimensions.

(** ** C41: donors, targets, crossover *)

Lemma evolves_nth {T F S} (num : de_num T F) (rng : de_rng T F S) {N} p w size :
  forall t0 (pop : list (array T N)) log pop', evolves num rng p w t0 pop log pop' -> length pop = size ->
  forall t, t < length log -> exists x y b pop1, nth_error log t = Some (x, y, b) /\ length pop1 = size /\
    nth_error pop1 ((t0 + t) mod size) = Some y /\ is_trial num rng p w pop1 ((t0 + t) mod size) x.
Proof.
  induction 1 as [t0 pop|t0 pop x y b log pop' Hy Hx Hev IH]; intros Hl t Ht; simpl in Ht; [lia|].
  destruct t as [|t].
  - exists x, y, b, pop. rewrite Nat.add_0_r, <- Hl. simpl. auto.
  - rewrite <- Nat.add_succ_comm. apply IH; [|lia].
    destruct b; [rewrite list_upd_length|]; exact Hl.
Qed.

(** The [t]-th comparison of the improvement phase asks about a trial for slot
    [t mod size] against the point in that slot, and the trial is made with three donors
    that are different from each other and from the target ([is_trial]). *)
Theorem C41_trials :
  forall (T F S C : Type) (num : de_num T F) (rng : de_rng T F S) (N : nat)
    (cmp : C -> array T N -> array T N -> outcome (bool * C)),
  index_in_range rng ->
  forall fuel bounds size p w iters s c best s' c' log,
  de_optimize num rng (recorded cmp) fuel bounds size p w iters s (c, []) = Ok (best, s', (c', log)) ->
  (exists start final, run_history num rng bounds size p w iters log start final best) /\
  forall t, t < iters -> exists x y b pop,
    nth_error log t = Some (x, y, b) /\ length pop = size /\
    nth_error pop (t mod size) = Some y /\ is_trial num rng p w pop (t mod size) x.
Proof.
  intros T F S C num rng N cmp Hr fuel bounds size p w iters s c best s' c' log H.
  destruct (optimize_history num rng cmp Hr _ _ _ _ _ _ _ _ _ _ _ _ H) as (start & final & Hh).
  split; [eauto|]. destruct Hh as (log1 & log2 & -> & Hl & _ & Hlen & Hev & _).
  intros t Ht. rewrite <- Hlen in Ht.
  destruct (evolves_nth num rng p w size _ _ _ _ Hev Hl t Ht) as (x & y & b & pop & H1 & H2 & H3 & H4).
  exists x, y, b, pop. rewrite nth_error_app1 by exact Ht. auto.
Qed.

(** Crossover probability 1 (every draw is below it): every coordinate comes from the donors. *)
Theorem C41_full_crossover :
  forall (T F S : Type) (num : de_num T F) (rng : de_rng T F S) (N : nat) p w
    (pop : list (array T N)) i x,
  (forall u, drawn_unit rng u -> p_ltb num u p = true) ->
  is_trial num rng p w pop i x ->
  exists j k l, NoDup [i; j; k; l] /\
    forall n, n < N -> exists v, nth_error (entries x) n = Some v /\ donor_value num w pop j k l n v.
Proof.
  intros T F S num rng N p w pop i x Hu (j & k & l & r & u & Hnd & _ & _ & _ & _ & _ & Hdr & Hx).
  exists j, k, l. split; [exact Hnd|]. intros n Hn. destruct (Hx n Hn) as (v & Hv & Hb).
  exists v. split; [exact Hv|]. destruct (Nat.eqb_spec n r) as [_|Hne]; [exact Hb|].
  rewrite (Hu (u n)) in Hb by (apply Hdr; assumption). exact Hb.
Qed.

(** Crossover probability 0 (no draw is below it): exactly one coordinate does. *)
Theorem C41_no_crossover :
  forall (T F S : Type) (num : de_num T F) (rng : de_rng T F S) (N : nat) p w
    (pop : list (array T N)) i x,
  (forall u, drawn_unit rng u -> p_ltb num u p = false) ->
  is_trial num rng p w pop i x ->
  exists j k l r, NoDup [i; j; k; l] /\ r < N /\
    (exists v, nth_error (entries x) r = Some v /\ donor_value num w pop j k l r v) /\
    (forall n, n < N -> n <> r -> exists v, nth_error (entries x) n = Some v /\ coord pop i n v).
Proof.
  intros T F S num rng N p w pop i x Hu (j & k & l & r & u & Hnd & _ & _ & _ & _ & Hr & Hdr & Hx).
  exists j, k, l, r. split; [exact Hnd|]. split; [exact Hr|]. split.
  - destruct (Hx r Hr) as (v & Hv & Hb). rewrite Nat.eqb_refl in Hb. exists v. auto.
  - intros n Hn Hne. destruct (Hx n Hn) as (v & Hv & Hb). exists v. split; [exact Hv|].
    rewrite (Hu (u n)) in Hb by (apply Hdr; assumption).
    destruct (Nat.eqb_spec n r) as [E|_]; [contradiction|exact Hb].
Qed.

Example C41_case :
  index_in_range (counter_rng (z64 3) (z64 5)) /\
  (forall u, drawn_unit (counter_rng (z64 3) (z64 5)) u -> p_ltb num64 u (f32_of_Z 1) = true) /\
  (forall u, drawn_unit (counter_rng (z64 3) (z64 5)) u -> p_ltb num64 u (f32_of_Z 0) = false) /\
  exists best s' log,
    de_optimize num64 (counter_rng (z64 3) (z64 5)) (recorded cmp_larger) 20 unit_bounds 5
      (f32_of_Z 1) (z64 1) 7 0 (tt, []) = Ok (best, s', (tt, log)) /\ length log = 11.
Proof.
  split; [apply counter_in_range|].
  split; [intros u (s & s' & E); injection E as <- _; vm_compute; reflexivity|].
  split; [intros u (s & s' & E); injection E as <- _; vm_compute; reflexivity|].
  edestruct (run_case (de_optimize num64 (counter_rng (z64 3) (z64 5)) (recorded cmp_larger) 20 unit_bounds 5
      (f32_of_Z 1) (z64 1) 7 0 (tt, [])) (fun r => length (snd (snd r)) =? 11)) as [[[b s] [[] log]] [E H]].
  { vm_compute. reflexivity. }
  apply Nat.eqb_eq in H. exists b, s, log. auto.
Qed.
Print Assumptions C41_trials.
Print Assumptions C41_full_crossover.
Print Assumptions C41_no_crossover.

(** ** C42: termination *)

(** With a fair generator the run ends: some number of draws per loop suffices, and more
    draws do not change the result. *)
Theorem C42_fair_terminates :
  forall (T F S C : Type) (num : de_num T F) (rng : de_rng T F S) (N : nat)
    (cmp : C -> array T N -> array T N -> outcome (bool * C)) (bounds : array (T * T) N),
  well_behaved num rng bounds -> 0 < N ->
  (forall c x y, exists b c', cmp c x y = Ok (b, c')) -> fair rng ->
  forall size p w iters s c, valid_arguments num size p w ->
  exists enough result, forall fuel, enough <= fuel ->
    de_optimize num rng cmp fuel bounds size p w iters s c = Ok result.
Proof. intros T F S C num rng N cmp bounds HW HN Hc Hf. intros. eapply optimize_terminates; eassumption. Qed.

(** A generator whose answer to [gen_range(0..size)] never changes: no end (a real hang). *)
Theorem C42_stuck_generator_refuted :
  forall (T F S C : Type) (num : de_num T F) (rng : de_rng T F S) (N : nat)
    (cmp : C -> array T N -> array T N -> outcome (bool * C)) (bounds : array (T * T) N),
  well_behaved num rng bounds ->
  forall size p w iters s c v, valid_arguments num size p w -> 0 < iters ->
  (forall s, exists s', gen_index rng size s = Ok (v, s')) ->
  forall fuel, de_optimize num rng cmp fuel bounds size p w iters s c = Diverge.
Proof. intros T F S C num rng N cmp bounds HW. intros. eapply optimize_stuck; eassumption. Qed.

(** Why four: with three candidates or fewer the third donor can never be found, by any
    generator. *)
Theorem C42_why_four :
  forall (T F S : Type) (rng : de_rng T F S), index_in_range rng ->
  (forall n s, 0 < n -> exists v s', gen_index rng n s = Ok (v, s')) ->
  forall size i j k s fuel, 0 < size <= 3 -> NoDup [i; j; k] -> i < size -> j < size -> k < size ->
  de_reject rng fuel size [i; j; k] s = Diverge.
Proof.
  intros T F S rng Hr Hg size i j k s fuel Hs Hnd Hi Hj Hk. apply reject_small; auto; [|lia].
  intros v Hv. apply NoDup_cons_iff in Hnd as [H1 Hnd]. apply NoDup_cons_iff in Hnd as [H2 _].
  simpl in *. assert (i <> j /\ i <> k /\ j <> k) by (repeat split; intros ->; tauto). lia.
Qed.

Example C42_case :
  well_behaved num64 (counter_rng (z64 3) (z64 5)) unit_bounds /\ fair (counter_rng (z64 3) (z64 5)) /\
  valid_arguments num64 5 (f32_of_Z 1) (z64 1) /\
  (forall s, exists s', gen_index (MkDeRng f64 f32 unit (fun _ s => Ok (2, s)) (fun lo _ s => Ok (lo, s))
      (fun s => Ok (f32_of_Z 0, s))) 5 s = Ok (2, s')).
Proof.
  split; [apply counter_well_behaved|]. split; [apply counter_fair|].
  split; [apply example_valid|].
  intros s. exists s. reflexivity.
Qed.
Print Assumptions C42_fair_terminates.
Print Assumptions C42_stuck_generator_refuted.
Print Assumptions C42_why_four.

(** ** C43: bounds *)

(** Without iterations every coordinate of the result was drawn for its range. *)
Theorem C43_start_in_bounds :
  forall (T F S C : Type) (num : de_num T F) (rng : de_rng T F S) (N : nat)
    (cmp : C -> array T N -> array T N -> outcome (bool * C)) (inside : T -> T -> T -> Prop),
  index_in_range rng ->
  (forall lo hi s v s', gen_value rng lo hi s = Ok (v, s') -> inside lo hi v) ->
  forall fuel bounds size p w s c best s' c',
  de_optimize num rng cmp fuel bounds size p w 0 s c = Ok (best, s', c') ->
  forall n, n < N -> exists lo hi v, nth_error (entries bounds) n = Some (lo, hi) /\
    nth_error (entries best) n = Some v /\ inside lo hi v.
Proof.
  intros T F S C num rng N cmp inside Hr Hin fuel bounds size p w s c best s' c' H n Hn.
  destruct (orel_ok_r _ _ _ _ (recorded_optimize num rng cmp fuel bounds size p w 0 s c) H)
    as [[[b0 s0] [c0 log]] [H' [E1 E2]]]. simpl in E1, E2. injection E1 as -> ->. subst c0.
  destruct (optimize_history num rng cmp Hr _ _ _ _ _ _ _ _ _ _ _ _ H') as (start & final & Hh).
  destruct Hh as (log1 & log2 & -> & Hl & Hd & Hlen & Hev & Hko).
  destruct log1; [|discriminate Hlen]. inversion Hev; subst.
  destruct (knockout_in _ _ _ Hko) as [Hb _]. rewrite Forall_forall in Hd.
  destruct (Hd _ Hb n Hn) as (lo & hi & v & s1 & s2 & Hbo & Hg & Hv).
  exists lo, hi, v. split; [exact Hbo|]. split; [exact Hv|]. eapply Hin; exact Hg.
Qed.

(** In general the bounds are not respected: a run on f64 with bounds [0, 8), start values 3
    and 5, a fair generator and all contracts met returns a point above 8. *)
Theorem C43_bounds_respected_refuted :
  exists (S : Type) (rng : de_rng f64 f32 S) (bounds : array (f64 * f64) 1) (lo hi : f64)
    (fuel size : nat) p w iters s best s' c',
  entries bounds = [(lo, hi)] /\ Bltb lo hi = true /\
  index_in_range rng /\ well_behaved num64 rng bounds /\ fair rng /\
  (forall s v s', gen_value rng lo hi s = Ok (v, s') -> Bleb lo v = true /\ Bltb v hi = true) /\
  valid_arguments num64 size p w /\
  de_optimize num64 rng cmp_larger fuel bounds size p w iters s tt = Ok (best, s', c') /\
  Bltb hi (ahd best) = true.
Proof.
  exists nat, (counter_rng (z64 3) (z64 5)), unit_bounds, (z64 0), (z64 8), 20, 5, (f32_of_Z 1), (z64 1), 30, 0.
  edestruct (run_case (de_optimize num64 (counter_rng (z64 3) (z64 5)) cmp_larger 20 unit_bounds 5
      (f32_of_Z 1) (z64 1) 30 0 tt) (fun r => Bltb (z64 8) (ahd (fst (fst r))))) as [[[b s1] c1] [E H]].
  { vm_compute. reflexivity. }
  exists b, s1, c1.
  split; [reflexivity|]. split; [vm_compute; reflexivity|]. split; [apply counter_in_range|].
  split; [apply counter_well_behaved|]. split; [apply counter_fair|]. split.
  { intros s v s' Eg. cbn [gen_value counter_rng] in Eg. injection Eg as <- _.
    destruct (Nat.even s); split; vm_compute; reflexivity. }
  split; [apply example_valid|].
  split; [exact E|exact H].
Qed.
Print Assumptions C43_start_in_bounds.
Print Assumptions C43_bounds_respected_refuted.

(** ** C44: number of comparator calls *)

(** Logging the calls does not change the run... *)
Theorem C44_logging_is_transparent :
  forall (T F S C : Type) (num : de_num T F) (rng : de_rng T F S) (N : nat)
    (cmp : C -> array T N -> array T N -> outcome (bool * C)) fuel bounds size p w iters s c best s' c',
  de_optimize num rng cmp fuel bounds size p w iters s c = Ok (best, s', c') <->
  exists log, de_optimize num rng (recorded cmp) fuel bounds size p w iters s (c, []) = Ok (best, s', (c', log)).
Proof.
  intros T F S C num rng N cmp fuel bounds size p w iters s c best s' c'.
  pose proof (recorded_optimize num rng cmp fuel bounds size p w iters s c) as W. split.
  - intros H. destruct (orel_ok_r _ _ _ _ W H) as [[[b0 s0] [c0 log]] [H' [E1 E2]]].
    simpl in E1, E2. injection E1 as -> ->. subst c0. exists log. exact H'.
  - intros [log H]. destruct (orel_ok_l _ _ _ _ W H) as [[[b0 s0] c0] [H' [E1 E2]]].
    simpl in E1, E2. injection E1 as <- <-. subst c0. exact H'.
Qed.

(** ... and the log has exactly [iters + size - 1] entries. *)
Theorem C44_number_of_calls :
  forall (T F S C : Type) (num : de_num T F) (rng : de_rng T F S) (N : nat)
    (cmp : C -> array T N -> array T N -> outcome (bool * C)),
  index_in_range rng ->
  forall fuel bounds size p w iters s c best s' c' log,
  de_optimize num rng (recorded cmp) fuel bounds size p w iters s (c, []) = Ok (best, s', (c', log)) ->
  length log = iters + size - 1.
Proof.
  intros T F S C num rng N cmp Hr fuel bounds size p w iters s c best s' c' log H.
  destruct (optimize_history num rng cmp Hr _ _ _ _ _ _ _ _ _ _ _ _ H) as (start & final & Hh).
  destruct Hh as (log1 & log2 & -> & Hl & _ & Hlen & Hev & Hko).
  pose proof (knockout_calls _ _ _ Hko). pose proof (evolves_length _ _ _ _ _ _ _ _ Hev).
  rewrite app_length. lia.
Qed.

Example C44_case :
  exists best s' c', de_optimize num64 (counter_rng (z64 3) (z64 5)) cmp_obj 20 unit_bounds 6
      (f32_of_Z 1) (z64 1) 10 0 0 = Ok (best, s', c') /\ c' = 10 + 6 - 1.
Proof.
  edestruct (run_case (de_optimize num64 (counter_rng (z64 3) (z64 5)) cmp_obj 20 unit_bounds 6
      (f32_of_Z 1) (z64 1) 10 0 0) (fun r => snd r =? 10 + 6 - 1)) as [[[b s] c] [E H]].
  { vm_compute. reflexivity. }
  apply Nat.eqb_eq in H. exists b, s, c. auto.
Qed.
Print Assumptions C44_logging_is_transparent.
Print Assumptions C44_number_of_calls.

(** ** C45: NaN objective values *)

(** A start point in slot 0 that no comparison ever beats is the result. *)
Theorem C45_unbeaten_first_point_wins :
  forall (T F S : Type) (num : de_num T F) (rng : de_rng T F S) (N : nat) (bounds : array (T * T) N)
    size p w iters log start final best x0,
  run_history num rng bounds size p w iters log start final best ->
  nth_error start 0 = Some x0 ->
  (forall x b, In (x, x0, b) log -> b = false) ->
  best = x0.
Proof.
  intros T F S num rng N bounds size p w iters log start final best x0 Hh H0 Hb.
  destruct Hh as (log1 & log2 & -> & _ & _ & _ & Hev & Hko).
  eapply knockout_unbeaten; [exact Hko| |].
  - eapply evolves_unbeaten; [exact Hev|exact H0|]. intros x b Hin. apply (Hb x b).
    apply in_or_app; left; exact Hin.
  - intros x b Hin. apply (Hb x b). apply in_or_app; right; exact Hin.
Qed.

(** With the documented comparator, for every objective and every run: if the objective of
    the first start point is NaN, that point is returned, however good the others are. *)
Theorem C45_nan_wins_refuted :
  forall (prec emax : Z) (T F S : Type) (num : de_num T F) (rng : de_rng T F S) (N : nat)
    (f : array T N -> binary_float prec emax),
  index_in_range rng ->
  let cmp (c : unit) x y := Ok (Bltb (f x) (f y), c) in
  forall fuel bounds size p w iters s best s' c' log,
  de_optimize num rng (recorded cmp) fuel bounds size p w iters s (tt, []) = Ok (best, s', (c', log)) ->
  exists start final, run_history num rng bounds size p w iters log start final best /\
    forall x0, nth_error start 0 = Some x0 -> is_nan (f x0) = true -> best = x0.
Proof.
  intros prec emax T F S num rng N f Hr cmp fuel bounds size p w iters s best s' c' log H.
  destruct (optimize_history num rng cmp Hr _ _ _ _ _ _ _ _ _ _ _ _ H) as (start & final & Hh).
  exists start, final. split; [exact Hh|]. intros x0 H0 Hn.
  eapply (C45_unbeaten_first_point_wins T F S num rng N); [exact Hh|exact H0|].
  assert (Hd : decides cmp (fun x y => Bltb (f x) (f y))) by (intros c0 x y; exists c0; reflexivity).
  pose proof (recorded_optimize_truthful num rng cmp _ Hd _ _ _ _ _ _ _ _ _ _ _ _ H) as Ht.
  intros x b Hin. unfold truthful in Ht. rewrite Forall_forall in Ht. specialize (Ht _ Hin). simpl in Ht. rewrite Ht.
  apply ltb_nan_r; exact Hn.
Qed.

(** Such runs exist: the result has a NaN objective although a finite one was available. *)
Example C45_case :
  let f (x : array f64 1) : f64 := fl_div 53 1024 (z64 0) (ahd x) in
  let cmp (c : unit) x y := Ok (Bltb (f x) (f y), c) in
  exists best s' log x y b,
  de_optimize num64 (counter_rng (z64 0) (z64 5)) (recorded cmp) 20 unit_bounds 5
      (f32_of_Z 1) (z64 1) 7 0 (tt, []) = Ok (best, s', (tt, log)) /\
  is_nan (f best) = true /\ In (x, y, b) log /\ is_finite (f x) = true.
Proof.
  intros f cmp.
  edestruct (run_case (de_optimize num64 (counter_rng (z64 0) (z64 5)) (recorded cmp) 20 unit_bounds 5
      (f32_of_Z 1) (z64 1) 7 0 (tt, [])) (fun r => is_nan (f (fst (fst r))) &&
        match nth_error (snd (snd r)) 1 with Some (x, _, _) => is_finite (f x) | None => false end))
    as [[[b s] [[] log]] [E H]].
  { vm_compute. reflexivity. }
  apply andb_true_iff in H as [H1 H2]. cbn [fst snd] in H1, H2.
  destruct (nth_error log 1) as [[[x y] v]|] eqn:En; [|discriminate].
  exists b, s, log, x, y, v. repeat split; auto. eapply nth_error_In; exact En.
Qed.
Print Assumptions C45_unbeaten_first_point_wins.
Print Assumptions C45_nan_wins_refuted.
Print Assumptions C40_float_arguments.
