(** More iterations; termination and non-termination of differential evolution. *)
From Coq Require Import List Arith Lia Bool.
From Verif Require Import Base.Outcome Base.Array Base.Wp Model.DiffEvo Spec.DiffEvo
  Proofs.DiffEvoProofs Proofs.DiffEvoSim.
Import ListNotations.

Lemma optimize_inv {T F S C} (num : de_num T F) (rng : de_rng T F S) {N}
    (cmp : C -> array T N -> array T N -> outcome (bool * C)) fuel bounds size p w iters s c best s' c' :
  de_optimize num rng cmp fuel bounds size p w iters s c = Ok (best, s', c') ->
  4 <= size /\ exists start s1 final s2 c2 fin,
   de_initial_population rng bounds size s = Ok (start, s1) /\
   de_greedy num rng cmp fuel p w iters (start, s1, c) = Ok (final, s2, c2) /\
   de_knockout cmp (length final) final c2 = Ok (fin, c') /\ nth_error fin 0 = Some best /\ s' = s2.
Proof.
  unfold de_optimize. intros H.
  apply bind_Ok_inv in H as (u1 & H1 & H).
  apply bind_Ok_inv in H as (u2 & H2 & H).
  apply bind_Ok_inv in H as (u3 & H3 & H).
  apply bind_Ok_inv in H as ([start s1] & Hstart & H).
  apply bind_Ok_inv in H as ([[final s2] c2] & Hgreedy & H).
  apply bind_Ok_inv in H as ([fin c3] & Hko & H).
  apply bind_Ok_inv in H as (b & Hb & H). injection H as <- <- <-.
  split.
  - apply Nat.leb_le. destruct (4 <=? size); [reflexivity|discriminate H1].
  - exists start, s1, final, s2, c2, fin. repeat split; auto.
    unfold vget in Hb. destruct (nth_error fin 0); congruence.
Qed.

Section More.
Context {T F S C : Type} (num : de_num T F) (rng : de_rng T F S) {N : nat}.
Notation cand := (array T N).
Context (cmp : C -> cand -> cand -> outcome (bool * C)).
Notation logT := (list (cand * cand * bool)).
Notation TT := (fun _ : panic => True).

(** Partial correctness: nothing is assumed about what panics. *)
Lemma index_wp (Hr : index_in_range rng) n s : wp TT True (gen_index rng n s) (fun r => fst r < n).
Proof.
  destruct (gen_index rng n s) as [[v s']|p|] eqn:E; simpl; auto. eapply Hr; exact E.
Qed.

Lemma wp_top {A} (m : outcome A) : wp TT True m (fun _ => True).
Proof. apply wp_true. Qed.

Lemma optimize_history (Hr : index_in_range rng) fuel bounds size p w iters s c best s' c' log :
  de_optimize num rng (recorded cmp) fuel bounds size p w iters s (c, []) = Ok (best, s', (c', log)) ->
  exists start final, run_history num rng bounds size p w iters log start final best.
Proof.
  intros H.
  pose proof (wp_optimize TT True num rng cmp bounds
    (fun x y => wp_top _) (fun x y => wp_top _) (fun x y => wp_top _)
    (fun n s _ => index_wp Hr n s) (fun s => index_wp Hr N s)
    (fun _ _ _ _ _ => wp_top _) (fun _ => wp_top _) (fun _ _ _ => wp_top _)
    I fuel size p w iters s c (wp_top _) (wp_top _) (wp_top _)) as W.
  rewrite H in W. exact W.
Qed.

Lemma more_iterations (Hr : index_in_range rng) better (HO : strict_weak_order better)
    (Hd : decides cmp better) fuel bounds size p w iters more s c b1 s1' c1' b2 s2' c2' :
  de_optimize num rng cmp fuel bounds size p w iters s c = Ok (b1, s1', c1') ->
  de_optimize num rng cmp fuel bounds size p w (iters + more) s c = Ok (b2, s2', c2') ->
  better b1 b2 = false.
Proof.
  intros H1 H2.
  (* move to the recorded runs *)
  assert (G : forall it b s' c',
     de_optimize num rng cmp fuel bounds size p w it s c = Ok (b, s', c') ->
     exists log, de_optimize num rng (recorded cmp) fuel bounds size p w it s (c, []) = Ok (b, s', (c', log))).
  { intros it b s' c' H. destruct (orel_ok_r _ _ _ _ (recorded_optimize num rng cmp fuel bounds size p w it s c) H)
      as [[[b0 s0] [c0 log]] [H' [E1 E2]]]. simpl in E1, E2. injection E1 as -> ->. subst c0.
    exists log. exact H'. }
  apply G in H1 as [log1 H1]. apply G in H2 as [log2 H2].
  apply optimize_inv in H1 as (Hs & st1 & r1 & fin1 & q1 & d1 & k1 & A1 & A2 & A3 & A4 & _).
  apply optimize_inv in H2 as (_ & st2 & r2 & fin2 & q2 & d2 & k2 & B1 & B2 & B3 & B4 & _).
  rewrite A1 in B1. injection B1 as <- <-.
  pose proof (wp_initial_population TT True rng bounds (fun _ _ _ _ _ => wp_top _) size s) as W.
  rewrite A1 in W. destruct W as [Hl _]. cbn [fst] in Hl.
  assert (Hpos : 0 < length st1) by lia.
  (* the truth of all logs *)
  assert (Tr : forall it st (d : C * logT),
     de_greedy num rng (recorded cmp) fuel p w it (st1, r1, (c, [])) = Ok (st, d) -> truthful better (snd d)).
  { intros it st d H.
    pose proof (sim_greedy num rng (recorded cmp) (recorded cmp)
      (fun c1 c2 => c1 = c2 /\ truthful better (snd c1)) (fun c1 c2 x y => recorded_truthful cmp better Hd c1 c2 x y)
      fuel p w it (st1, r1, (c, [])) (st1, r1, (c, []))) as W. rewrite H in W. simpl in W.
    apply W. split; [reflexivity|split; [reflexivity|constructor]]. }
  assert (Kn : forall (fin k : list cand) (d e : C * logT) b, de_knockout (recorded cmp) (length fin) fin d = Ok (k, e) ->
     0 < length fin -> nth_error k 0 = Some b ->
     In b fin /\ forall x, In x fin -> better x b = false).
  { intros fin k d e b H Hf Hb.
    (* restart the log *)
    destruct d as [d0 dl].
    pose proof (sim_knockout (recorded cmp) (recorded cmp)
      (fun c1 c2 => fst c1 = fst c2 /\ truthful better (snd c2))) as W.
    assert (Hc : forall c1 c2 x y, fst c1 = fst c2 /\ truthful better (snd c2) ->
       orel (same_verdict (fun c1 c2 => fst c1 = fst c2 /\ truthful better (snd c2)))
            (recorded cmp c1 x y) (recorded cmp c2 x y)).
    { intros [e1 l1] [e2 l2] x y [E Ht]. simpl in E, Ht. subst e2. unfold recorded.
      destruct (Hd e1 x y) as [e' E]. rewrite E. simpl. repeat split. simpl.
      apply Forall_app. split; [exact Ht|repeat constructor]. }
    specialize (W Hc (length fin) fin (d0, dl) (d0, []) (conj eq_refl (Forall_nil _))).
    destruct (orel_ok_l _ _ _ _ W H) as ([k' [e' l']] & H' & [E1 [E2 E3]]). simpl in E1, E2, E3. subst k'.
    pose proof (wp_knockout TT True cmp (fun _ _ _ => wp_top _) (length fin) fin d0 [] Hf (le_n _)) as W2.
    rewrite H' in W2. destruct W2 as (bb & lg & Hk & Hlg & Hko). simpl in Hk, Hlg. subst k l'.
    simpl in Hb. injection Hb as <-.
    split; [apply (knockout_in _ _ _ Hko)|]. eapply knockout_best; eassumption. }
  (* first run's population *)
  pose proof (wp_greedy TT True num rng cmp
    (fun x y => wp_top _) (fun x y => wp_top _) (fun x y => wp_top _)
    (fun n s _ => index_wp Hr n s) (fun s => index_wp Hr N s)
    (fun _ => wp_top _) (fun _ _ _ => wp_top _)
    I fuel p w iters st1 r1 c [] Hpos) as W1.
  rewrite A2 in W1. destruct W1 as (lg1 & E1 & L1 & Ev1). cbn [fst snd] in Ev1.
  pose proof (evolves_length _ _ _ _ _ _ _ _ Ev1) as Hlen1.
  (* second run continues the first *)
  pose proof (Tr _ _ _ B2) as Tr2.
  unfold de_greedy in A2, B2. cbn [fst] in A2, B2. rewrite cycle_take_targets in A2, B2 by exact Hpos.
  rewrite seq_app, map_app, for_each_app, A2 in B2. cbn [bind] in B2. rewrite Nat.add_0_l in B2.
  rewrite <- Hlen1 in B2. destruct d1 as [d1 dl1].
  pose proof (wp_greedy_from TT True num rng cmp
    (fun x y => wp_top _) (fun x y => wp_top _) (fun x y => wp_top _)
    (fun n s _ => index_wp Hr n s) (fun s => index_wp Hr N s)
    (fun _ => wp_top _) (fun _ _ _ => wp_top _)
    I fuel p w iters more fin1 q1 d1 dl1 ltac:(lia)) as W2.
  rewrite B2 in W2. destruct W2 as (lg2 & E2 & L2 & Ev2). cbn [fst snd] in E2, Ev2.
  pose proof (evolves_length _ _ _ _ _ _ _ _ Ev2) as Hlen2.
  rewrite E2 in Tr2. apply Forall_app in Tr2 as [_ Tr2].
  destruct (Kn _ _ _ _ b1 A3 ltac:(lia) A4) as [In1 _].
  destruct (Kn _ _ _ _ b2 B3 ltac:(lia) B4) as [_ Best2].
  apply In_nth_error in In1 as [i Hi].
  destruct (evolves_slot num rng better p w HO _ _ _ _ Ev2 Tr2 i b1 Hi) as (y & Hy & Hor).
  apply nth_error_In in Hy. apply Best2 in Hy.
  destruct Hor as [->|Hor]; [exact Hy|].
  eapply not_better_trans; [exact HO| |exact Hy]. apply better_not_rev; assumption.
Qed.

(** The longer of two runs with the same random stream repeats the greedy stage of the
    shorter one and continues it. *)
Lemma longer_run_continues (Hr : index_in_range rng) fuel bounds size p w iters more s c
    b1 s1' c1' log1 b2 s2' c2' log2 :
  de_optimize num rng (recorded cmp) fuel bounds size p w iters s (c, []) = Ok (b1, s1', (c1', log1)) ->
  de_optimize num rng (recorded cmp) fuel bounds size p w (iters + more) s (c, []) = Ok (b2, s2', (c2', log2)) ->
  exists start mid final g1 g2 k1 k2,
    log1 = g1 ++ k1 /\ log2 = (g1 ++ g2) ++ k2 /\
    length start = size /\ Forall (drawn_from rng bounds) start /\
    length g1 = iters /\ length g2 = more /\
    evolves num rng p w 0 start g1 mid /\ evolves num rng p w iters mid g2 final /\
    knockout mid k1 b1 /\ knockout final k2 b2.
Proof.
  intros H1 H2.
  apply optimize_inv in H1 as (Hs & st1 & r1 & fin1 & q1 & d1 & e1 & A1 & A2 & A3 & A4 & _).
  apply optimize_inv in H2 as (_ & st2 & r2 & fin2 & q2 & d2 & e2 & B1 & B2 & B3 & B4 & _).
  rewrite A1 in B1. injection B1 as <- <-.
  pose proof (wp_initial_population TT True rng bounds (fun _ _ _ _ _ => wp_top _) size s) as W.
  rewrite A1 in W. destruct W as [Hl Hdr]. cbn [fst] in Hl, Hdr.
  assert (Hpos : 0 < length st1) by lia.
  pose proof (wp_greedy TT True num rng cmp
    (fun x y => wp_top _) (fun x y => wp_top _) (fun x y => wp_top _)
    (fun n s _ => index_wp Hr n s) (fun s => index_wp Hr N s)
    (fun _ => wp_top _) (fun _ _ _ => wp_top _)
    I fuel p w iters st1 r1 c [] Hpos) as W1.
  rewrite A2 in W1. destruct W1 as (g1 & E1 & L1 & Ev1). cbn [fst snd] in E1, Ev1.
  pose proof (evolves_length _ _ _ _ _ _ _ _ Ev1) as Hlen1.
  unfold de_greedy in A2, B2. cbn [fst] in A2, B2. rewrite cycle_take_targets in A2, B2 by exact Hpos.
  rewrite seq_app, map_app, for_each_app, A2 in B2. cbn [bind] in B2. rewrite Nat.add_0_l in B2.
  rewrite <- Hlen1 in B2. destruct d1 as [d1 dl1]. simpl in E1. subst dl1.
  pose proof (wp_greedy_from TT True num rng cmp
    (fun x y => wp_top _) (fun x y => wp_top _) (fun x y => wp_top _)
    (fun n s _ => index_wp Hr n s) (fun s => index_wp Hr N s)
    (fun _ => wp_top _) (fun _ _ _ => wp_top _)
    I fuel p w iters more fin1 q1 d1 g1 ltac:(lia)) as W2.
  rewrite B2 in W2. destruct W2 as (g2 & E2 & L2 & Ev2). cbn [fst snd] in E2, Ev2.
  pose proof (evolves_length _ _ _ _ _ _ _ _ Ev2) as Hlen2.
  destruct d2 as [d2 dl2]. simpl in E2. subst dl2.
  pose proof (wp_knockout TT True cmp (fun _ _ _ => wp_top _) (length fin1) fin1 d1 g1 ltac:(lia) (le_n _)) as K1.
  rewrite A3 in K1. destruct K1 as (bb1 & k1 & Hk1 & Hlg1 & Ko1). simpl in Hk1, Hlg1. subst e1 log1.
  simpl in A4. injection A4 as <-.
  pose proof (wp_knockout TT True cmp (fun _ _ _ => wp_top _) (length fin2) fin2 d2 (g1 ++ g2) ltac:(lia) (le_n _)) as K2.
  rewrite B3 in K2. destruct K2 as (bb2 & k2 & Hk2 & Hlg2 & Ko2). simpl in Hk2, Hlg2. subst e2 log2.
  simpl in B4. injection B4 as <-.
  exists st1, fin1, fin2, g1, g2, k1, k2. repeat split; auto.
Qed.

(** ** Fuel *)

Lemma reject_more fuel extra len excluded s :
  de_reject rng fuel len excluded s <> Diverge ->
  de_reject rng (fuel + extra) len excluded s = de_reject rng fuel len excluded s.
Proof.
  revert s; induction fuel as [|fuel IH]; intros s H; simpl in *; [congruence|].
  destruct (gen_index rng len s) as [[x s']|p|]; simpl in *; try reflexivity.
  destruct (existsb (Nat.eqb x) excluded); [apply IH; exact H|reflexivity].
Qed.

Lemma bind_diverge {A B} (m : outcome A) (k : A -> outcome B) : bind m k <> Diverge -> m <> Diverge.
Proof. destruct m; simpl; congruence. Qed.

Lemma iteration_more fuel extra p w i st :
  de_iteration num rng cmp fuel p w i st <> Diverge ->
  de_iteration num rng cmp (fuel + extra) p w i st = de_iteration num rng cmp fuel p w i st.
Proof.
  destruct st as [[pop s] c]. unfold de_iteration. intros H.
  rewrite (reject_more fuel extra) by (eapply bind_diverge; exact H).
  destruct (de_reject rng fuel (length pop) [i] s) as [[j s1]|q|]; simpl in *; try reflexivity.
  rewrite (reject_more fuel extra) by (eapply bind_diverge; exact H).
  destruct (de_reject rng fuel (length pop) [i; j] s1) as [[k s2]|q|]; simpl in *; try reflexivity.
  rewrite (reject_more fuel extra) by (eapply bind_diverge; exact H).
  reflexivity.
Qed.

Lemma greedy_list_more fuel extra p w l st :
  for_each (de_iteration num rng cmp fuel p w) l st <> Diverge ->
  for_each (de_iteration num rng cmp (fuel + extra) p w) l st
  = for_each (de_iteration num rng cmp fuel p w) l st.
Proof.
  revert st; induction l as [|i l IH]; intros st H; simpl in *; [reflexivity|].
  rewrite iteration_more by (eapply bind_diverge; exact H).
  destruct (de_iteration num rng cmp fuel p w i st) as [st'|q|]; simpl in *; try reflexivity.
  apply IH; exact H.
Qed.

Lemma optimize_more fuel extra bounds size p w iters s c :
  de_optimize num rng cmp fuel bounds size p w iters s c <> Diverge ->
  de_optimize num rng cmp (fuel + extra) bounds size p w iters s c
  = de_optimize num rng cmp fuel bounds size p w iters s c.
Proof.
  unfold de_optimize. intros H.
  destruct (de_assert (4 <=? size)); simpl in *; try reflexivity.
  destruct (de_assert (p_leb num (p_0 num) p && p_leb num p (p_1 num))); simpl in *; try reflexivity.
  destruct (de_assert (t_leb num (t_0 num) w && t_leb num w (t_2 num))); simpl in *; try reflexivity.
  destruct (de_initial_population rng bounds size s) as [[pop s1]|q|]; simpl in *; try reflexivity.
  unfold de_greedy in *. cbn [fst] in *.
  rewrite greedy_list_more by (eapply bind_diverge; exact H). reflexivity.
Qed.

Lemma reject_terminates (Hi : forall n s, 0 < n -> exists v s', gen_index rng n s = Ok (v, s') /\ v < n)
    len excluded v s :
  comes_up rng len v s -> v < len -> ~ In v excluded ->
  exists fuel, de_reject rng fuel len excluded s <> Diverge.
Proof.
  intros Hc Hv Hn. assert (Hno : existsb (Nat.eqb v) excluded = false).
  { destruct (existsb (Nat.eqb v) excluded) eqn:E; [|reflexivity].
    apply existsb_exists in E as (x & Hx & Ex). apply Nat.eqb_eq in Ex. congruence. }
  induction Hc as [s s' E|s u s' E Hc [fuel IH]].
  - exists 1. simpl. rewrite E. simpl. rewrite Hno. discriminate.
  - exists (Datatypes.S fuel). simpl. rewrite E. simpl.
    destruct (existsb (Nat.eqb u) excluded); [exact IH|discriminate].
Qed.

(** A number below [n] that is not among three given ones, when [n >= 4]. *)
Lemma fresh_index n l : length l < n -> exists v, v < n /\ ~ In v l.
Proof.
  intros H. destruct (forallb (fun v => existsb (Nat.eqb v) l) (seq 0 n)) eqn:E.
  - exfalso. assert (Hinc : incl (seq 0 n) l).
    { intros v Hv. rewrite forallb_forall in E. specialize (E v Hv).
      apply existsb_exists in E as (x & Hx & Ex). apply Nat.eqb_eq in Ex. subst x. exact Hx. }
    apply NoDup_incl_length in Hinc; [|apply seq_NoDup]. rewrite seq_length in Hinc. lia.
  - assert (Hex : exists v, In v (seq 0 n) /\ existsb (Nat.eqb v) l = false).
    { clear H. revert E. generalize (seq 0 n). induction l0 as [|v l0 IH]; simpl; [discriminate|].
      intros E. destruct (existsb (Nat.eqb v) l) eqn:Ev.
      - destruct (IH E) as (v' & Hv' & E'). eauto.
      - eauto. }
    destruct Hex as (v & Hv & Ev). exists v. apply in_seq in Hv. split; [lia|].
    intros Hin. assert (existsb (Nat.eqb v) l = true); [|congruence].
    apply existsb_exists. exists v. split; [exact Hin|apply Nat.eqb_refl].
Qed.

Lemma iteration_terminates (bounds : array (T * T) N) (HW : well_behaved num rng bounds) (HN : 0 < N)
    (Hf : fair rng) (Hc : forall c x y, exists b c', cmp c x y = Ok (b, c')) p w i (pop : list cand) s c :
  4 <= length pop -> i < length pop ->
  exists fuel, de_iteration num rng cmp fuel p w i (pop, s, c) <> Diverge.
Proof.
  intros Hlen Hi. unfold de_iteration.
  assert (Hrej : forall excl s, length excl < length pop ->
     exists fuel v s', de_reject rng fuel (length pop) excl s = Ok (v, s') /\ v < length pop /\ ~ In v excl).
  { intros excl s0 Hx. destruct (fresh_index _ _ Hx) as (v & Hv & Hn).
    destruct (reject_terminates (wb_index _ _ _ HW) (length pop) excl v s0 (Hf _ _ _ Hv) Hv Hn) as [fuel E].
    exists fuel.
    assert (Hidx : forall n s, 0 < n -> wp (fun _ => False) True (gen_index rng n s) (fun r => fst r < n)).
    { intros n s1 Hn1. destruct (wb_index _ _ _ HW n s1 Hn1) as (v1 & s2 & E1 & Hv1). rewrite E1. exact Hv1. }
    pose proof (wp_reject (fun _ => False) True rng Hidx I fuel (length pop) excl s0 ltac:(lia)) as W.
    destruct (de_reject rng fuel (length pop) excl s0) as [[v1 s1]|q|] eqn:ER; simpl in W; try contradiction.
    exists v1, s1. tauto. }
  destruct (Hrej [i] s) as (f1 & j & s1 & E1 & Hj & Hj'); [simpl; lia|].
  destruct (Hrej [i; j] s1) as (f2 & k & s2 & E2 & Hk & Hk'); [simpl; lia|].
  destruct (Hrej [i; j; k] s2) as (f3 & l & s3 & E3 & Hl & Hl'); [simpl; lia|].
  exists (f1 + (f2 + f3)).
  rewrite (reject_more f1 (f2 + f3)), E1 by congruence. cbn [bind].
  replace (f1 + (f2 + f3)) with (f2 + (f1 + f3)) by lia.
  rewrite (reject_more f2 (f1 + f3)), E2 by congruence. cbn [bind].
  replace (f2 + (f1 + f3)) with (f3 + (f1 + f2)) by lia.
  rewrite (reject_more f3 (f1 + f2)), E3 by congruence. cbn [bind].
  destruct (wb_index _ _ _ HW N s3 HN) as (r & s4 & E4 & Hr). rewrite E4. cbn [bind].
  pose proof (wp_trial (fun _ => True) False num rng
    (fun x y => match wb_add _ _ _ HW x y with ex_intro _ z E => wp_ok _ _ _ z _ E I end)
    (fun x y => match wb_sub _ _ _ HW x y with ex_intro _ z E => wp_ok _ _ _ z _ E I end)
    (fun x y => match wb_mul _ _ _ HW x y with ex_intro _ z E => wp_ok _ _ _ z _ E I end)
    (fun s => match wb_unit _ _ _ HW s with ex_intro _ u (ex_intro _ s' E) => wp_ok _ _ _ _ _ E I end)
    p w pop i j k l r s4) as W.
  destruct (de_trial num rng p w pop i j k l r s4) as [[x s5]|q|]; cbn [bind]; try discriminate.
  - unfold vget. destruct (nth_error pop i) as [y|]; cbn [bind]; [|discriminate].
    destruct (Hc c x y) as (b & c' & Ec). rewrite Ec. cbn [bind].
    destruct b; [|discriminate]. unfold vset. destruct (i <? length pop); discriminate.
  - intros _. simpl in W. apply W; try assumption.
    simpl in Hj', Hk', Hl'. repeat constructor; simpl; intuition congruence.
Qed.
End More.
