(** Properties C58-C60: how far differential evolution can get from the bounds, what its
    result depends on, and how it uses the generator. *)
From Coq Require Import List Arith ZArith Lia Lra Bool Reals.
From Flocq Require Import IEEE754.BinarySingleNaN.
From Verif Require Import Base.Outcome Base.Array Base.Wp Model.DiffEvo Model.Float Spec.DiffEvo Spec.DiffEvoMore
  Proofs.DiffEvoProofs Proofs.DiffEvoSim Proofs.DiffEvoMore Proofs.DiffEvoGrowth Props.DiffEvoProps.
Import ListNotations.
Open Scope nat_scope.

(** ** C58: reach *)

(** Any sets (one for each coordinate) that contain all start values and are closed under
    a + (b - c) * w contain every coordinate of the result and of every point that the
    comparator is shown. *)
Theorem C58_closed_sets :
  forall (T F S C : Type) (num : de_num T F) (rng : de_rng T F S) (N : nat)
    (cmp : C -> array T N -> array T N -> outcome (bool * C)),
  index_in_range rng ->
  forall fuel bounds size p w iters s c best s' c' log (P : nat -> T -> Prop),
  contains_start rng bounds P -> (forall n, one_step num w (P n) (P n)) ->
  de_optimize num rng (recorded cmp) fuel bounds size p w iters s (c, []) = Ok (best, s', (c', log)) ->
  all_coords P best /\
  forall x y b, In (x, y, b) log -> all_coords P x /\ all_coords P y.
Proof.
  intros T F S C num rng N cmp Hr fuel bounds size p w iters s c best s' c' log P H0 Hc H.
  destruct (optimize_history num rng cmp Hr _ _ _ _ _ _ _ _ _ _ _ _ H) as (start & final & Hh).
  destruct (history_graded num rng (fun _ => P) bounds size p w iters log start final best H0
     (fun _ _ _ h => h) (fun _ n => Hc n) Hh) as (G1 & G2 & G3).
  split; [exact G1|]. intros x y b Hin. apply In_nth_error in Hin as [i Hi].
  destruct (le_lt_dec iters i) as [Hle|Hlt].
  - destruct (G3 i x y b Hi Hle). auto.
  - destruct (G2 i x y b Hi Hlt). auto.
Qed.

Local Open Scope R_scope.

Lemma grow_step w D lo hi m a b c : 0 <= w -> 0 <= D -> hi = lo + D ->
  let g k := ((1 + 2 * w) ^ k - 1) / 2 in
  lo - D * g m <= a <= hi + D * g m -> lo - D * g m <= b <= hi + D * g m ->
  lo - D * g m <= c <= hi + D * g m ->
  lo - D * g (Datatypes.S m) <= a + (b - c) * w <= hi + D * g (Datatypes.S m).
Proof.
  intros Hw HD Hhi g Ha Hb Hc.
  assert (Hg : g (Datatypes.S m) = g m + w * (2 * g m + 1)) by (unfold g; simpl; field).
  rewrite Hg. set (G := g m) in *. subst hi.
  assert (Hbc : - (D * (2 * G + 1)) <= b - c <= D * (2 * G + 1)) by lra.
  assert ((b - c) * w <= D * (2 * G + 1) * w) by (apply Rmult_le_compat_r; lra).
  assert (- (D * (2 * G + 1)) * w <= (b - c) * w) by (apply Rmult_le_compat_r; lra).
  replace (D * (G + w * (2 * G + 1))) with (D * G + D * (2 * G + 1) * w) by ring. lra.
Qed.

(** In exact arithmetic a result can leave a range of width D by at most
    D * ((1 + 2w)^iters - 1) / 2 on either side. *)
Theorem C58_growth :
  forall (S C : Type) (rng : de_rng R R S) (N : nat)
    (cmp : C -> array R N -> array R N -> outcome (bool * C)),
  index_in_range rng ->
  (forall lo hi s v s', gen_value rng lo hi s = Ok (v, s') -> lo <= v <= hi) ->
  forall fuel (bounds : array (R * R) N) size p w iters s c best s' c',
  de_optimize real_de_num rng cmp fuel bounds size p w iters s c = Ok (best, s', c') ->
  forall n lo hi v, nth_error (entries bounds) n = Some (lo, hi) -> nth_error (entries best) n = Some v ->
  let excess := (hi - lo) * (((1 + 2 * w) ^ iters - 1) / 2) in
  lo - excess <= v <= hi + excess.
Proof.
  intros S C rng N cmp Hr Hv fuel bounds size p w iters s c best s' c' H n lo hi v Hb Hn excess.
  assert (Hw : 0 <= w).
  { unfold de_optimize in H. apply bind_Ok_inv in H as (u1 & _ & H). apply bind_Ok_inv in H as (u2 & _ & H).
    apply bind_Ok_inv in H as (u3 & H3 & _). simpl in H3. destruct (Rle_dec 0 w); [assumption|discriminate H3]. }
  destruct (orel_ok_r _ _ _ _ (recorded_optimize real_de_num rng cmp fuel bounds size p w iters s c) H)
    as [[[b0 s0] [c0 log]] [H' [E1 E2]]]. simpl in E1, E2. injection E1 as -> ->. subst c0.
  destruct (optimize_history _ rng cmp Hr _ _ _ _ _ _ _ _ _ _ _ _ H') as (start & final & Hh).
  set (g := fun k => ((1 + 2 * w) ^ k - 1) / 2).
  assert (Hg : forall k, 0 <= g k).
  { intros k. unfold g. pose proof (pow_R1_Rle (1 + 2 * w) k ltac:(lra)). lra. }
  set (P := fun (m n : nat) (v : R) => forall lo hi, nth_error (entries bounds) n = Some (lo, hi) ->
     lo <= hi -> lo - (hi - lo) * g m <= v <= hi + (hi - lo) * g m).
  assert (G : all_coords (P iters) best).
  { refine (proj1 (history_graded real_de_num rng P bounds size p w iters log start final best _ _ _ Hh)).
    - intros n0 lo0 hi0 s1 v1 s1' Hn0 Hg0 lo1 hi1 Hn1 Hle. rewrite Hn0 in Hn1. injection Hn1 as <- <-.
      apply Hv in Hg0. unfold g. simpl. replace ((1 - 1) / 2) with 0 by field. lra.
    - intros m n0 v1 Hm lo1 hi1 Hn1 Hle. specialize (Hm lo1 hi1 Hn1 Hle).
      assert (g m <= g (Datatypes.S m)).
      { replace (g (Datatypes.S m)) with (g m + w * (2 * g m + 1)) by (unfold g; simpl; field).
        pose proof (Hg m). assert (0 <= w * (2 * g m + 1)) by (apply Rmult_le_pos; lra). lra. }
      assert ((hi1 - lo1) * g m <= (hi1 - lo1) * g (Datatypes.S m)) by (apply Rmult_le_compat_l; lra). lra.
    - intros m n0 a b c0 d e v1 Ha Hb0 Hc E1 E2 E3 lo1 hi1 Hn1 Hle.
      injection E1 as <-. injection E2 as <-. injection E3 as <-.
      apply (grow_step w (hi1 - lo1) lo1 hi1 m a b c0); try lra; auto. }
  assert (Hle : lo <= hi).
  { (* the range was drawn from *)
    destruct Hh as (log1 & log2 & _ & Hsz & Hst & _ & _ & _).
    apply optimize_inv in H' as (Hsize & _). destruct start as [|x start]; [simpl in Hsz; lia|].
    apply Forall_inv in Hst. assert (Hlt : (n < N)%nat).
    { apply nth_error_Some_lt in Hb. rewrite entries_length in Hb. exact Hb. }
    destruct (Hst n Hlt) as (lo1 & hi1 & v1 & s1 & s1' & Hn1 & Hg1 & _).
    rewrite Hb in Hn1. injection Hn1 as <- <-. apply Hv in Hg1. lra. }
  exact (G n v Hn lo hi Hb Hle).
Qed.

(** With weight 0 nothing new is ever made: each coordinate of the result is a value that
    the generator can return for that coordinate, so the result is within the bounds. *)
Theorem C58_weight_zero :
  forall (S C : Type) (rng : de_rng R R S) (N : nat)
    (cmp : C -> array R N -> array R N -> outcome (bool * C)),
  index_in_range rng ->
  forall fuel (bounds : array (R * R) N) size p iters s c best s' c',
  de_optimize real_de_num rng cmp fuel bounds size p 0 iters s c = Ok (best, s', c') ->
  forall n v, nth_error (entries best) n = Some v ->
  exists lo hi s1 s2, nth_error (entries bounds) n = Some (lo, hi) /\ gen_value rng lo hi s1 = Ok (v, s2).
Proof.
  intros S C rng N cmp Hr fuel bounds size p iters s c best s' c' H n v Hn.
  destruct (orel_ok_r _ _ _ _ (recorded_optimize real_de_num rng cmp fuel bounds size p 0 iters s c) H)
    as [[[b0 s0] [c0 log]] [H' [E1 E2]]]. simpl in E1, E2. injection E1 as -> ->. subst c0.
  refine (proj1 (C58_closed_sets _ _ _ _ real_de_num rng N cmp Hr _ _ _ _ 0 _ _ _ _ _ _ _
    (fun n v => exists lo hi s1 s2, nth_error (entries bounds) n = Some (lo, hi) /\ gen_value rng lo hi s1 = Ok (v, s2))
    _ _ H') n v Hn).
  - intros n0 lo hi s1 v1 s1' Hb Hg. exists lo, hi, s1, s1'. auto.
  - intros n0 a b c0 d e v1 Ha _ _ E1 E2 E3. injection E1 as <-. injection E2 as <-. injection E3 as <-.
    replace (a + (b - c0) * 0) with a by ring. exact Ha.
Qed.

(** A generator over the reals whose start values are the ends of the ranges. *)
Definition real_rng : de_rng R R nat := {|
  gen_index := fun n s => if (n =? 0)%nat then Panic EmptyRange else Ok (s mod n, Datatypes.S s)%nat;
  gen_value := fun lo hi s => if Rle_dec lo hi then Ok (if Nat.even s then lo else hi, Datatypes.S s)
                              else Panic EmptyRange;
  gen_unit := fun s => Ok (0, Datatypes.S s)
|}.

(** A run over the reals (everything but the order of the reals computes): five points, one
    coordinate in [0, 1], weight 2, one iteration; the comparator says yes in its first call
    only.  The result is 2, outside the range. *)
Definition once (c : bool) (x y : array R 1) : outcome (bool * bool) := Ok (c, false).
Definition real_run : outcome (array R 1 * nat * bool) :=
  de_optimize real_de_num real_rng once 20 (acons (0, 1) anil) 5 1 2 1%nat 1%nat true.

Lemma Rle_true (x y : R) (H : x <= y) {A} (a b : A) : (if Rle_dec x y then a else b) = a.
Proof. destruct (Rle_dec x y); [reflexivity|contradiction]. Qed.

Example C58_case :
  index_in_range real_rng /\
  (forall lo hi s v s', gen_value real_rng lo hi s = Ok (v, s') -> lo <= v <= hi) /\
  exists best s' c', real_run = Ok (best, s', c') /\ exists v, entries best = [v] /\ v = 2.
Proof.
  split; [|split].
  - intros n s v s'. cbn [gen_index real_rng]. destruct (Nat.eqb_spec n 0) as [->|Hn]; [discriminate|].
    intros E. injection E as <- _. apply Nat.mod_upper_bound. exact Hn.
  - intros lo hi s v s'. cbn [gen_value real_rng]. destruct (Rle_dec lo hi); [|discriminate].
    intros E. injection E as <- _. destruct (Nat.even s); lra.
  - unfold real_run, de_optimize.
    cbn -[Rle_dec Rlt_dec Rplus Rmult Rminus].
    repeat (rewrite Rle_true by lra; cbn -[Rle_dec Rlt_dec Rplus Rmult Rminus]).
    eexists _, _, _. split; [reflexivity|]. eexists. split; [reflexivity|]. ring.
Qed.
Print Assumptions C58_closed_sets.
Print Assumptions C58_growth.
Print Assumptions C58_weight_zero.

(** ** C59: only the verdicts matter *)

Local Close Scope R_scope.

(** Two comparators that answer alike (whatever they remember and do besides) lead to the
    same end: the same result with the same final state of the generator, the same panic,
    or no end at all. *)
Theorem C59_only_verdicts :
  forall (T F S C1 C2 : Type) (num : de_num T F) (rng : de_rng T F S) (N : nat)
    (cmp1 : C1 -> array T N -> array T N -> outcome (bool * C1))
    (cmp2 : C2 -> array T N -> array T N -> outcome (bool * C2)) better,
  decides cmp1 better -> decides cmp2 better ->
  forall fuel bounds size p w iters s c1 c2,
  match de_optimize num rng cmp1 fuel bounds size p w iters s c1,
        de_optimize num rng cmp2 fuel bounds size p w iters s c2 with
  | Ok (best, s', _), Ok (best', s'', _) => best = best' /\ s' = s''
  | Panic e, Panic e' => e = e'
  | Diverge, Diverge => True
  | _, _ => False
  end.
Proof.
  intros T F S C1 C2 num rng N cmp1 cmp2 better H1 H2 fuel bounds size p w iters s c1 c2.
  pose proof (sim_optimize num rng cmp1 cmp2 (fun _ _ => True)) as W.
  assert (Hc : forall c1 c2 x y, True -> orel (same_verdict (fun _ _ => True)) (cmp1 c1 x y) (cmp2 c2 x y)).
  { intros d1 d2 x y _. destruct (H1 d1 x y) as [e1 ->]. destruct (H2 d2 x y) as [e2 ->]. split; auto. }
  specialize (W Hc fuel bounds size p w iters s c1 c2 I).
  destruct (de_optimize num rng cmp1 _ _ _ _ _ _ _ _) as [[[b s1] d1]|e|],
    (de_optimize num rng cmp2 _ _ _ _ _ _ _ _) as [[[b' s2] d2]|e'|]; simpl in W; try contradiction; auto.
  destruct W as [E _]. simpl in E. injection E as -> ->. auto.
Qed.

(** So a strictly increasing rescaling of the objective changes nothing. *)
Corollary C59_rescaled_objective :
  forall (T F S : Type) (num : de_num T F) (rng : de_rng T F S) (N : nat)
    (f : array T N -> R) (h : R -> R),
  (forall a b, (a < b)%R -> (h a < h b)%R) ->
  let minimise (f : array T N -> R) (c : unit) x y := Ok (if Rlt_dec (f x) (f y) then true else false, c) in
  forall fuel bounds size p w iters s,
  de_optimize num rng (minimise f) fuel bounds size p w iters s tt
  = de_optimize num rng (minimise (fun x => h (f x))) fuel bounds size p w iters s tt.
Proof.
  intros T F S num rng N f h Hh minimise fuel bounds size p w iters s.
  assert (D2 : decides (minimise (fun x => h (f x))) (fun x y => if Rlt_dec (f x) (f y) then true else false)).
  { intros c x y. exists c. unfold minimise. do 2 f_equal.
    destruct (Rlt_dec (h (f x)) (h (f y))) as [A|A], (Rlt_dec (f x) (f y)) as [B|B]; try reflexivity; exfalso.
    - destruct (Rtotal_order (f x) (f y)) as [?|[E|G]]; [contradiction| |].
      + rewrite E in A. exact (Rlt_irrefl _ A).
      + apply Hh in G. exact (Rlt_asym _ _ A G).
    - apply A, Hh, B. }
  assert (D1 : decides (minimise f) (fun x y => if Rlt_dec (f x) (f y) then true else false))
    by (intros c x y; exists c; reflexivity).
  pose proof (C59_only_verdicts _ _ _ _ _ num rng N _ _ _ D1 D2 fuel bounds size p w iters s tt tt) as W.
  destruct (de_optimize num rng (minimise f) _ _ _ _ _ _ _ _) as [[[b s1] []]|e|],
    (de_optimize num rng (minimise (fun x => h (f x))) _ _ _ _ _ _ _ _) as [[[b' s2] []]|e'|];
    try contradiction; try reflexivity.
  - destruct W as [-> ->]. reflexivity.
  - rewrite W. reflexivity.
Qed.

(** The run shows the comparator the same points in the same order, and asks the generator
    the same questions, for as long as the verdicts are the same: the logs are equal. *)
Theorem C59_same_calls :
  forall (T F S C1 C2 : Type) (num : de_num T F) (rng : de_rng T F S) (N : nat)
    (cmp1 : C1 -> array T N -> array T N -> outcome (bool * C1))
    (cmp2 : C2 -> array T N -> array T N -> outcome (bool * C2)) better,
  decides cmp1 better -> decides cmp2 better ->
  forall fuel bounds size p w iters s c1 c2 best s' c1' log,
  de_optimize num rng (recorded cmp1) fuel bounds size p w iters s (c1, []) = Ok (best, s', (c1', log)) ->
  exists c2', de_optimize num rng (recorded cmp2) fuel bounds size p w iters s (c2, []) = Ok (best, s', (c2', log)).
Proof.
  intros T F S C1 C2 num rng N cmp1 cmp2 better H1 H2 fuel bounds size p w iters s c1 c2 best s' c1' log H.
  pose proof (sim_optimize num rng (recorded cmp1) (recorded cmp2) (fun a b => snd a = snd b)) as W.
  assert (Hc : forall d1 d2 x y, snd d1 = snd d2 ->
     orel (same_verdict (fun (a : C1 * list (array T N * array T N * bool)) (b : C2 * list (array T N * array T N * bool)) => snd a = snd b))
       (recorded cmp1 d1 x y) (recorded cmp2 d2 x y)).
  { intros [d1 l1] [d2 l2] x y E. simpl in E. subst l2. unfold recorded.
    destruct (H1 d1 x y) as [e1 ->]. destruct (H2 d2 x y) as [e2 ->]. split; reflexivity. }
  specialize (W Hc fuel bounds size p w iters s (c1, []) (c2, []) eq_refl).
  destruct (orel_ok_l _ _ _ _ W H) as ([[b2 s2] [d2 l2]] & E & [E1 E2]). simpl in E1, E2.
  injection E1 as -> ->. subst l2. eauto.
Qed.

(** Two comparators with different memories: one counts its calls. *)
Example C59_case :
  decides cmp_larger larger /\
  decides (fun (c : nat) x y => Ok (larger x y, Datatypes.S c)) larger /\
  exists best s', example_run 10 = Ok (best, s', tt).
Proof.
  split; [intros c x y; eexists; reflexivity|]. split; [intros c x y; eexists; reflexivity|].
  edestruct (run_case (example_run 10) (fun _ => true)) as [[[b s] []] [E _]].
  { vm_compute. reflexivity. }
  eauto.
Qed.
Print Assumptions C59_only_verdicts.
Print Assumptions C59_rescaled_objective.
Print Assumptions C59_same_calls.

(** ** C60: use of the generator *)

(** The requests a run makes of the generator: for each start point one value of each range
    in order; then for each iteration at least three donor numbers below the population
    size, one coordinate number below N, and N - 1 unit numbers.  The knockout stage makes
    none.  (The log itself changes nothing: second part.) *)
Theorem C60_requests :
  forall (T F S C : Type) (num : de_num T F) (rng : de_rng T F S) (N : nat)
    (cmp : C -> array T N -> array T N -> outcome (bool * C)),
  index_in_range rng ->
  forall fuel bounds size p w iters s c best s' c',
  de_optimize num rng cmp fuel bounds size p w iters s c = Ok (best, s', c') ->
  exists blocks,
    de_optimize num (logged rng) cmp fuel bounds size p w iters (s, []) c
      = Ok (best, (s', concat (repeat (start_requests bounds) size) ++ concat blocks), c') /\
    length blocks = iters /\ Forall (iteration_requests size N) blocks.
Proof.
  intros T F S C num rng N cmp Hr fuel bounds size p w iters s c best s' c' H.
  destruct (orel_ok_r _ _ _ _ (optimize_faithful num rng cmp fuel bounds size p w iters s [] c) H)
    as ([[b [s1 l1]] c1] & E & E1 & E2 & E3). simpl in E1, E2, E3. subst b s1 c1.
  destruct (optimize_logged num rng cmp Hr _ _ _ _ _ _ _ _ _ _ _ _ E) as (bs & Hl & HF & ->).
  exists bs. auto.
Qed.

(** In numbers: exactly size * N values and iters * (N - 1) unit numbers, and at least
    4 * iters index numbers. *)
Definition asks_value {T} (r : request T) : bool := match r with AskValue _ _ => true | _ => false end.
Definition asks_unit {T} (r : request T) : bool := match r with AskUnit => true | _ => false end.
Definition asks_index {T} (r : request T) : bool := match r with AskIndex _ => true | _ => false end.
Definition how_many {A} (f : A -> bool) (l : list A) : nat := length (filter f l).

Lemma how_many_app {A} (f : A -> bool) l1 l2 : how_many f (l1 ++ l2) = how_many f l1 + how_many f l2.
Proof. unfold how_many. rewrite filter_app, app_length. reflexivity. Qed.
Lemma how_many_repeat {A} (f : A -> bool) x k : how_many f (repeat x k) = if f x then k else 0.
Proof.
  unfold how_many. induction k; simpl; [destruct (f x); reflexivity|].
  destruct (f x); simpl; congruence.
Qed.
Lemma how_many_concat {A} (f : A -> bool) k ls : (forall l, In l ls -> how_many f l = k) ->
  how_many f (concat ls) = length ls * k.
Proof.
  induction ls as [|l ls IH]; intros H; [reflexivity|]. simpl concat. rewrite how_many_app, IH.
  - rewrite (H l (or_introl eq_refl)). reflexivity.
  - intros l' Hl. apply H. right. exact Hl.
Qed.

Theorem C60_counts :
  forall (T F S C : Type) (num : de_num T F) (rng : de_rng T F S) (N : nat)
    (cmp : C -> array T N -> array T N -> outcome (bool * C)),
  index_in_range rng ->
  forall fuel bounds size p w iters s c best s' c' asked,
  de_optimize num (logged rng) cmp fuel bounds size p w iters (s, []) c = Ok (best, (s', asked), c') ->
  how_many asks_value asked = size * N /\
  how_many asks_unit asked = iters * (N - 1) /\
  4 * iters <= how_many asks_index asked.
Proof.
  intros T F S C num rng N cmp Hr fuel bounds size p w iters s c best s' c' asked H.
  destruct (optimize_logged num rng cmp Hr _ _ _ _ _ _ _ _ _ _ _ _ H) as (bs & <- & HF & ->).
  rewrite Forall_forall in HF. rewrite !how_many_app.
  assert (SV : how_many asks_value (start_requests bounds) = N /\ how_many asks_unit (start_requests bounds) = 0).
  { pose proof (entries_length bounds) as L. unfold start_requests. revert L. generalize (entries bounds). clear.
    intros l L. rewrite <- L. clear L. induction l as [|[lo hi] l [IH1 IH2]]; [split; reflexivity|].
    unfold how_many in *. simpl. auto. }
  destruct SV as [SV SU].
  assert (V0 : forall b, In b bs -> how_many asks_value b = 0).
  { intros b Hb. destruct (HF b Hb) as (k & _ & ->). rewrite !how_many_app, !how_many_repeat. reflexivity. }
  assert (U0 : forall b, In b bs -> how_many asks_unit b = N - 1).
  { intros b Hb. destruct (HF b Hb) as (k & _ & ->). rewrite !how_many_app, !how_many_repeat. reflexivity. }
  assert (I0 : 4 * length bs <= how_many asks_index (concat bs)).
  { clear -HF. induction bs as [|b bs IH]; [simpl; lia|]. simpl concat. rewrite how_many_app.
    specialize (IH (fun x h => HF x (or_intror h))).
    destruct (HF b (or_introl eq_refl)) as (k & Hk & ->). rewrite !how_many_app, !how_many_repeat.
    unfold how_many at 1. simpl. lia. }
  rewrite (how_many_concat asks_value 0 bs V0), (how_many_concat asks_unit (N - 1) bs U0).
  rewrite (how_many_concat asks_value N (repeat (start_requests bounds) size)),
    (how_many_concat asks_unit 0 (repeat (start_requests bounds) size)), repeat_length.
  - repeat split; lia.
  - intros l Hl. apply repeat_spec in Hl. subst l. exact SU.
  - intros l Hl. apply repeat_spec in Hl. subst l. exact SV.
Qed.


Example C60_case :
  index_in_range (counter_rng (z64 3) (z64 5)) /\
  exists best s' asked,
    de_optimize num64 (logged (counter_rng (z64 3) (z64 5))) cmp_larger 20 unit_bounds 5 (f32_of_Z 1) (z64 1) 7
      (0, []) tt = Ok (best, (s', asked), tt) /\ how_many asks_value asked = 5 /\ how_many asks_index asked = 34.
Proof.
  split; [apply counter_in_range|].
  edestruct (run_case (de_optimize num64 (logged (counter_rng (z64 3) (z64 5))) cmp_larger 20 unit_bounds 5
      (f32_of_Z 1) (z64 1) 7 (0, []) tt)
      (fun r => (how_many asks_value (snd (snd (fst r))) =? 5) && (how_many asks_index (snd (snd (fst r))) =? 34)))
    as [[[b [s l]] []] [E H]].
  { vm_compute. reflexivity. }
  apply andb_true_iff in H as [H1 H2]. apply Nat.eqb_eq in H1, H2. exists b, s, l. auto.
Qed.
Print Assumptions C60_requests.
Print Assumptions C60_counts.
