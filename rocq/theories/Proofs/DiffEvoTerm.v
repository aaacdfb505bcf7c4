(** Panic freedom, termination and non-termination of differential evolution. *)
From Coq Require Import List Arith Lia Bool.
From Verif Require Import Base.Outcome Base.Array Base.Wp Model.DiffEvo Spec.DiffEvo
  Proofs.DiffEvoProofs Proofs.DiffEvoSim Proofs.DiffEvoMore.
Import ListNotations.

Section Term.
Context {T F S C : Type} (num : de_num T F) (rng : de_rng T F S) {N : nat}.
Notation cand := (array T N).
Context (cmp : C -> cand -> cand -> outcome (bool * C)).
Notation FF := (fun _ : panic => False).
Context (bounds : array (T * T) N) (HW : well_behaved num rng bounds) (HN : 0 < N)
        (Hc : forall c x y, exists b c', cmp c x y = Ok (b, c')).

Section Any.
Context (D : Prop).
Lemma w_add x y : wp FF D (t_add num x y) (fun _ => True).
Proof. destruct (wb_add _ _ _ HW x y) as [z E]. rewrite E. exact I. Qed.
Lemma w_sub x y : wp FF D (t_sub num x y) (fun _ => True).
Proof. destruct (wb_sub _ _ _ HW x y) as [z E]. rewrite E. exact I. Qed.
Lemma w_mul x y : wp FF D (t_mul num x y) (fun _ => True).
Proof. destruct (wb_mul _ _ _ HW x y) as [z E]. rewrite E. exact I. Qed.
Lemma w_idx n s : 0 < n -> wp FF D (gen_index rng n s) (fun r => fst r < n).
Proof. intros Hn. destruct (wb_index _ _ _ HW n s Hn) as (v & s' & E & Hv). rewrite E. exact Hv. Qed.
Lemma w_val n lo hi s : nth_error (entries bounds) n = Some (lo, hi) ->
  wp FF D (gen_value rng lo hi s) (fun _ => True).
Proof. intros Hb. destruct (wb_value _ _ _ HW n lo hi s Hb) as (v & s' & E). rewrite E. exact I. Qed.
Lemma w_unit s : wp FF D (gen_unit rng s) (fun _ => True).
Proof. destruct (wb_unit _ _ _ HW s) as (v & s' & E). rewrite E. exact I. Qed.
Lemma w_cmp c x y : wp FF D (cmp c x y) (fun _ => True).
Proof. destruct (Hc c x y) as (b & c' & E). rewrite E. exact I. Qed.
End Any.

Lemma w_assert D (b : bool) : b = true -> wp FF D (de_assert b) (fun _ => True).
Proof. intros ->. exact I. Qed.

Lemma optimize_safe fuel size p w iters s c : valid_arguments num size p w ->
  forall q, de_optimize num rng cmp fuel bounds size p w iters s c <> Panic q.
Proof.
  intros (H1 & H2 & H3 & H4 & H5) q E.
  pose proof (wp_optimize FF True num rng cmp bounds (w_add True) (w_sub True) (w_mul True) (w_idx True)
    (fun s => w_idx True N s HN) (w_val True) (w_unit True) (w_cmp True) I fuel size p w iters s c
    (w_assert True _ (proj2 (Nat.leb_le 4 size) H1))
    (w_assert True _ (proj2 (andb_true_iff _ _) (conj H2 H3)))
    (w_assert True _ (proj2 (andb_true_iff _ _) (conj H4 H5)))) as W.
  pose proof (recorded_optimize num rng cmp fuel bounds size p w iters s c) as R.
  rewrite E in R. destruct (de_optimize num rng (recorded cmp) fuel bounds size p w iters s (c, []));
    simpl in *; contradiction.
Qed.

(** The state of the loop stays good. *)
Lemma iteration_length fuel p w i pop s c pop' s' c' :
  i < length pop ->
  de_iteration num rng cmp fuel p w i (pop, s, c) = Ok (pop', s', c') -> length pop' = length pop.
Proof.
  intros Hi. unfold de_iteration. intros H.
  apply bind_Ok_inv in H as ([j s1] & _ & H).
  apply bind_Ok_inv in H as ([k s2] & _ & H).
  apply bind_Ok_inv in H as ([l s3] & _ & H).
  apply bind_Ok_inv in H as ([r s4] & _ & H).
  apply bind_Ok_inv in H as ([x s5] & _ & H).
  apply bind_Ok_inv in H as (y & _ & H).
  apply bind_Ok_inv in H as ([b d] & _ & H).
  destruct b.
  - rewrite vset_ok in H by exact Hi. simpl in H. injection H as <- <- <-. apply list_upd_length.
  - injection H as <- <- <-. reflexivity.
Qed.

Lemma greedy_list_terminates (Hf : fair rng) p w l (pop : list cand) s c :
  4 <= length pop -> (forall i, In i l -> i < length pop) ->
  exists fuel, for_each (de_iteration num rng cmp fuel p w) l (pop, s, c) <> Diverge.
Proof.
  revert pop s c; induction l as [|i l IH]; intros pop s c Hlen Hl.
  - exists 0. discriminate.
  - destruct (iteration_terminates num rng cmp bounds HW HN Hf Hc p w i pop s c Hlen
               (Hl i (or_introl eq_refl))) as [f1 E1].
    destruct (de_iteration num rng cmp f1 p w i (pop, s, c)) as [[[pop1 s1] c1]|q|] eqn:Ei; [| |congruence].
    + pose proof (iteration_length _ _ _ _ _ _ _ _ _ _ (Hl i (or_introl eq_refl)) Ei) as Hlen1.
      destruct (IH pop1 s1 c1) as [f2 E2]; [lia|intros; rewrite Hlen1; apply Hl; right; assumption|].
      exists (f1 + f2). cbn [for_each]. rewrite iteration_more, Ei by congruence. cbn [bind].
      rewrite (Nat.add_comm f1 f2), greedy_list_more by exact E2. exact E2.
    + exists f1. cbn [for_each]. rewrite Ei. discriminate.
Qed.

Lemma optimize_terminates (Hf : fair rng) size p w iters s c : valid_arguments num size p w ->
  exists fuel0 r, forall fuel, fuel0 <= fuel ->
    de_optimize num rng cmp fuel bounds size p w iters s c = Ok r.
Proof.
  intros HV.
  assert (Hex : exists fuel, de_optimize num rng cmp fuel bounds size p w iters s c <> Diverge).
  { destruct HV as (H1 & H2 & H3 & H4 & H5). unfold de_optimize.
    rewrite (proj2 (Nat.leb_le 4 size) H1), H2, H3, H4, H5. cbn [de_assert andb bind].
    pose proof (wp_initial_population FF False rng bounds (w_val False) size s) as W.
    destruct (de_initial_population rng bounds size s) as [[pop s1]|q|]; cbn [bind]; try contradiction.
    destruct W as [Hl _]. cbn [fst] in Hl. unfold de_greedy. cbn [fst].
    rewrite cycle_take_targets by lia.
    destruct (greedy_list_terminates Hf p w (map (fun t => t mod length pop) (seq 0 iters)) pop s1 c) as [fuel E].
    - lia.
    - intros i Hi. apply in_map_iff in Hi as (t & <- & _). apply Nat.mod_upper_bound. lia.
    - exists fuel.
      pose proof (wp_greedy FF True num rng cmp (w_add True) (w_sub True) (w_mul True) (w_idx True)
         (fun s => w_idx True N s HN) (w_unit True) (w_cmp True) I fuel p w iters pop s1 c [] ltac:(lia)) as Wg.
      pose proof (sim_greedy num rng (recorded cmp) cmp (fun c1 c2 => fst c1 = c2)
        (fun c1 c2 x y H => recorded_sim cmp c1 c2 x y H) fuel p w iters (pop, s1, (c, [])) (pop, s1, c)
        (conj eq_refl eq_refl)) as Sg.
      unfold de_greedy in Wg, Sg. cbn [fst] in Wg, Sg. rewrite cycle_take_targets in Wg, Sg by lia.
      destruct (for_each (de_iteration num rng cmp fuel p w) (map (fun t => t mod length pop) (seq 0 iters)) (pop, s1, c))
        as [[[fin s2] c2]|q|]; cbn [bind]; [|discriminate|congruence].
      apply (orel_ok_r _ _ _ (fin, s2, c2)) in Sg; [|reflexivity].
      destruct Sg as ([[fin' s2'] [c2' log]] & E1 & [E2 E3]). simpl in E2, E3. injection E2 as -> ->. subst c2'.
      rewrite E1 in Wg. destruct Wg as (log1 & _ & _ & Ev). cbn [fst] in Ev.
      pose proof (evolves_length _ _ _ _ _ _ _ _ Ev) as Hfl.
      pose proof (wp_knockout FF False cmp (w_cmp False) (length fin) fin c2 [] ltac:(lia) (le_n _)) as Wk.
      pose proof (sim_knockout (recorded cmp) cmp (fun c1 c2 => fst c1 = c2)
        (fun c1 c2 x y H => recorded_sim cmp c1 c2 x y H) (length fin) fin (c2, []) c2 eq_refl) as Sk.
      destruct (de_knockout cmp (length fin) fin c2) as [[k c3]|q|]; cbn [bind].
      + unfold vget. destruct (nth_error k 0); discriminate.
      + discriminate.
      + destruct (de_knockout (recorded cmp) (length fin) fin (c2, [])); simpl in Sk, Wk; contradiction. }
  destruct Hex as [fuel0 E].
  destruct (de_optimize num rng cmp fuel0 bounds size p w iters s c) as [r|q|] eqn:EO; [|exfalso|congruence].
  - exists fuel0, r. intros fuel Hfu. replace fuel with (fuel0 + (fuel - fuel0)) by lia.
    rewrite optimize_more by congruence. exact EO.
  - eapply optimize_safe; eassumption.
Qed.

(** A generator that answers every [gen_range(0..n)] with one and the same number. *)
Lemma optimize_stuck (stuck : nat) fuel size p w iters s c :
  (forall s, exists s', gen_index rng size s = Ok (stuck, s')) ->
  0 < iters -> valid_arguments num size p w ->
  de_optimize num rng cmp fuel bounds size p w iters s c = Diverge.
Proof.
  clear HN Hc. intros Hst Hit (H1 & H2 & H3 & H4 & H5). unfold de_optimize.
  rewrite (proj2 (Nat.leb_le 4 size) H1), H2, H3, H4, H5. cbn [de_assert andb bind].
  pose proof (wp_initial_population FF False rng bounds (w_val False) size s) as W.
  destruct (de_initial_population rng bounds size s) as [[pop s1]|q|]; cbn [bind]; try contradiction.
  destruct W as [Hl _]. cbn [fst] in Hl. unfold de_greedy. cbn [fst].
  rewrite cycle_take_targets by lia. destruct iters as [|iters]; [lia|]. cbn [seq map for_each].
  rewrite Nat.mod_0_l by lia. rewrite <- Hl in Hst.
  assert (Hrej : forall fuel excl s, In stuck excl -> de_reject rng fuel (length pop) excl s = Diverge).
  { intros f excl s0 Hin. revert s0; induction f as [|f IH]; intros s0; simpl; [reflexivity|].
    destruct (Hst s0) as [s' E]. rewrite E. simpl.
    assert (Ht : existsb (Nat.eqb stuck) excl = true).
    { apply existsb_exists. exists stuck. split; [exact Hin|apply Nat.eqb_refl]. }
    rewrite Ht. apply IH. }
  unfold de_iteration at 1.
  destruct (Nat.eq_dec stuck 0) as [->|Hne].
  - rewrite Hrej by (left; reflexivity). reflexivity.
  - destruct fuel as [|fuel]; [reflexivity|].
    destruct (Hst s1) as [s2 E].
    assert (Hj : de_reject rng (Datatypes.S fuel) (length pop) [0] s1 = Ok (stuck, s2)).
    { simpl. rewrite E. simpl. destruct (Nat.eqb_spec stuck 0) as [E0|_]; [contradiction|reflexivity]. }
    rewrite Hj. cbn [bind]. rewrite Hrej by (right; left; reflexivity). reflexivity.
Qed.
End Term.

(** With at most three candidates the third rejection loop can never end. *)
Lemma reject_small {T F S} (rng : de_rng T F S) (Hr : index_in_range rng) fuel len excluded s :
  (forall v, v < len -> In v excluded) ->
  (forall n s, 0 < n -> exists v s', gen_index rng n s = Ok (v, s')) -> 0 < len ->
  de_reject rng fuel len excluded s = Diverge.
Proof.
  intros Hall Hg Hlen. revert s; induction fuel as [|fuel IH]; intros s; simpl; [reflexivity|].
  destruct (Hg len s Hlen) as (v & s' & E). rewrite E. simpl.
  assert (Ht : existsb (Nat.eqb v) excluded = true).
  { apply existsb_exists. exists v. split; [apply Hall; eapply Hr; exact E|apply Nat.eqb_refl]. }
  rewrite Ht. apply IH.
Qed.
