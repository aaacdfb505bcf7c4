(** Proofs about the model of differential evolution. *)
From Coq Require Import List Arith Lia Bool.
From Verif Require Import Base.Outcome Base.Array Base.Wp Model.DiffEvo Spec.DiffEvo.
Import ListNotations.

Lemma finite_choice {A} (d : A) (R : nat -> A -> Prop) n :
  (forall i, i < n -> exists a, R i a) -> exists f, forall i, i < n -> R i (f i).
Proof.
  induction n as [|n IH]; intros H.
  - exists (fun _ => d). intros i Hi; lia.
  - destruct IH as [f Hf]; [intros i Hi; apply H; lia|].
    destruct (H n) as [a Ha]; [lia|].
    exists (fun i => if i =? n then a else f i). intros i Hi.
    destruct (Nat.eqb_spec i n) as [->|Hn]; [exact Ha|]. apply Hf; lia.
Qed.

Section Wps.
Context (P : panic -> Prop) (D : Prop).

Lemma wp_array_from_fn {S T} n i0 (f : nat -> S -> outcome (T * S)) (Q : nat -> T -> Prop) s :
  (forall i s, i0 <= i < i0 + n -> wp P D (f i s) (fun r => Q i (fst r))) ->
  wp P D (array_from_fn n i0 f s)
    (fun r => forall m, m < n -> exists v, nth_error (entries (fst r)) m = Some v /\ Q (i0 + m) v).
Proof.
  revert i0 s; induction n as [|n IH]; intros i0 s H; simpl.
  - intros m Hm; lia.
  - apply wp_bind. eapply wp_mono; [apply H; lia|]. intros [x s'] _ Hx.
    apply wp_bind. eapply wp_mono; [apply IH; intros; apply H; lia|]. intros [xs s''] _ Hxs.
    simpl in *. intros [|m] Hm; simpl.
    + exists x. rewrite Nat.add_0_r. auto.
    + destruct (Hxs m) as (v & Hv & HQ); [lia|]. exists v.
      replace (i0 + Datatypes.S m) with (Datatypes.S i0 + m) by lia. auto.
Qed.

Section DE.
Context {T F S C : Type} (num : de_num T F) (rng : de_rng T F S) {N : nat}.
Notation cand := (array T N).
Context (cmp : C -> cand -> cand -> outcome (bool * C)).
Context (bounds : array (T * T) N).
Context (Hadd : forall x y, wp P D (t_add num x y) (fun _ => True))
        (Hsub : forall x y, wp P D (t_sub num x y) (fun _ => True))
        (Hmul : forall x y, wp P D (t_mul num x y) (fun _ => True))
        (Hidx : forall n s, 0 < n -> wp P D (gen_index rng n s) (fun r => fst r < n))
        (HidxN : forall s, wp P D (gen_index rng N s) (fun r => fst r < N))
        (Hval : forall n lo hi s, nth_error (entries bounds) n = Some (lo, hi) ->
                  wp P D (gen_value rng lo hi s) (fun _ => True))
        (Hunit : forall s, wp P D (gen_unit rng s) (fun _ => True))
        (Hcmp : forall c x y, wp P D (cmp c x y) (fun _ => True)).

(** ** Initial population *)

Lemma wp_initial_candidate s :
  wp P D (de_initial_candidate rng bounds s) (fun r => drawn_from rng bounds (fst r)).
Proof.
  unfold de_initial_candidate.
  eapply wp_mono; [apply (wp_array_from_fn N 0 _
    (fun n v => exists lo hi s s', nth_error (entries bounds) n = Some (lo, hi) /\
                 gen_value rng lo hi s = Ok (v, s')))|].
  - intros i s0 Hi. apply wp_bind. unfold array_get. apply wp_vget.
    + intros [lo hi] Hb. eapply wp_mono; [apply (Hval i); exact Hb|].
      intros [v s'] Hv _. simpl. exists lo, hi, s0, s'. auto.
    + rewrite entries_length; lia.
  - intros [x s'] _ Hx n Hn. destruct (Hx n Hn) as (v & Hv & lo & hi & s1 & s2 & Hb & Hg).
    exists lo, hi, v, s1, s2. auto.
Qed.

Lemma wp_initial_population size s :
  wp P D (de_initial_population rng bounds size s)
    (fun r => length (fst r) = size /\ Forall (drawn_from rng bounds) (fst r)).
Proof.
  revert s; induction size as [|k IH]; intros s; simpl; [auto|].
  apply wp_bind. eapply wp_mono; [apply wp_initial_candidate|]. intros [x s'] _ Hx.
  apply wp_bind. eapply wp_mono; [apply IH|]. intros [xs s''] _ [Hl Hxs].
  simpl in *. split; [lia|constructor; auto].
Qed.

(** ** One iteration *)

Lemma wp_reject (HD : D) fuel len excluded s : 0 < len ->
  wp P D (de_reject rng fuel len excluded s) (fun r => fst r < len /\ ~ In (fst r) excluded).
Proof.
  intros Hlen. revert s; induction fuel as [|fuel IH]; intros s; simpl; [exact HD|].
  apply wp_bind. eapply wp_mono; [apply Hidx; exact Hlen|]. intros [x s'] _ Hx.
  destruct (existsb (Nat.eqb x) excluded) eqn:E; [apply IH|].
  simpl in *. split; [exact Hx|]. intros Hin.
  assert (existsb (Nat.eqb x) excluded = true); [|congruence].
  apply existsb_exists. exists x. split; [exact Hin|apply Nat.eqb_refl].
Qed.

Lemma wp_pop_at (pop : list cand) j n : j < length pop -> n < N ->
  wp P D (pop_at pop j n) (fun v => coord pop j n v).
Proof.
  intros Hj Hn. unfold pop_at. apply wp_bind. apply wp_vget; [|exact Hj].
  intros x Hx. unfold array_get. apply wp_vget; [|rewrite entries_length; exact Hn].
  intros v Hv. exists x; auto.
Qed.

Lemma wp_trial p w (pop : list cand) i j k l r s :
  NoDup [i; j; k; l] ->
  i < length pop -> j < length pop -> k < length pop -> l < length pop -> r < N ->
  wp P D (de_trial num rng p w pop i j k l r s)
    (fun res => exists u, is_trial_with num rng p w pop i (fst res) j k l r u).
Proof.
  intros Hnd Hi Hj Hk Hl Hr. unfold de_trial.
  eapply wp_mono; [apply (wp_array_from_fn N 0 _ (fun n v => exists u,
     (n <> r -> drawn_unit rng u) /\
     if (n =? r) || p_ltb num u p then donor_value num w pop j k l n v else coord pop i n v))|].
  - intros n s0 Hn. simpl in Hn. apply wp_bind.
    assert (Hdon : forall s1, wp P D
      (a <- pop_at pop j n ;; b <- pop_at pop k n ;; c <- pop_at pop l n ;;
       d <- t_sub num b c ;; e <- t_mul num d w ;; v <- t_add num a e ;; Ok (v, s1))
      (fun r : T * S => donor_value num w pop j k l n (fst r))).
    { intros s1.
      apply wp_bind. eapply wp_mono; [apply wp_pop_at; lia|]. intros a _ Ha.
      apply wp_bind. eapply wp_mono; [apply wp_pop_at; lia|]. intros b _ Hb.
      apply wp_bind. eapply wp_mono; [apply wp_pop_at; lia|]. intros c _ Hc.
      apply wp_bind. eapply wp_mono; [apply Hsub|]. intros d Hd _.
      apply wp_bind. eapply wp_mono; [apply Hmul|]. intros e He _.
      apply wp_bind. eapply wp_mono; [apply Hadd|]. intros v Hv _.
      exists a, b, c, d, e. auto 10. }
    destruct (n =? r) eqn:Er.
    + simpl. eapply wp_mono; [apply Hdon|]. intros [v s'] _ Hv. exists (p_0 num).
      split; [|exact Hv]. apply Nat.eqb_eq in Er. congruence.
    + apply wp_bind. eapply wp_mono; [apply Hunit|]. intros [u s'] Hu _. simpl.
      destruct (p_ltb num u p) eqn:Eu.
      * eapply wp_mono; [apply Hdon|]. intros [v s''] _ Hv. exists u. rewrite Eu.
        split; [intros _; exists s0, s'; exact Hu|exact Hv].
      * apply wp_bind. eapply wp_mono; [apply wp_pop_at; lia|]. intros v _ Hv. simpl.
        exists u. rewrite Eu. split; [intros _; exists s0, s'; exact Hu|exact Hv].
  - intros [x s'] _ Hx. cbn [fst] in *.
    destruct (finite_choice (p_0 num) (fun n u => exists v, nth_error (entries x) n = Some v /\
      ((n <> r -> drawn_unit rng u) /\
       if (n =? r) || p_ltb num u p then donor_value num w pop j k l n v else coord pop i n v)) N)
      as [u Hu].
    { intros n Hn. destruct (Hx n Hn) as (v & Hv & u & Hu). exists u, v. auto. }
    exists u. unfold is_trial_with. repeat (split; [assumption|]). split.
    + intros n Hn Hnr. destruct (Hu n Hn) as (v & _ & Hd & _). auto.
    + intros n Hn. destruct (Hu n Hn) as (v & Hv & _ & Hb). exists v. auto.
Qed.

(** The log is extended by one entry per iteration. *)
Lemma wp_iteration (HD : D) fuel p w i (pop : list cand) s c (log : list (cand * cand * bool)) :
  i < length pop ->
  wp P D (de_iteration num rng (recorded cmp) fuel p w i (pop, s, (c, log)))
    (fun st => exists x y b s' c',
       nth_error pop i = Some y /\ is_trial num rng p w pop i x /\
       (st : list cand * S * (C * list (cand * cand * bool)))
         = (if b : bool then list_upd pop i x else pop, s', (c', log ++ [(x, y, b)]))).
Proof.
  intros Hi. unfold de_iteration. assert (Hlen : 0 < length pop) by lia.
  apply wp_bind. eapply wp_mono; [apply (wp_reject HD); exact Hlen|]. intros [j s1] _ [Hj Hj'].
  apply wp_bind. eapply wp_mono; [apply (wp_reject HD); exact Hlen|]. intros [k s2] _ [Hk Hk'].
  apply wp_bind. eapply wp_mono; [apply (wp_reject HD); exact Hlen|]. intros [l s3] _ [Hl Hl'].
  apply wp_bind. eapply wp_mono; [apply HidxN|]. intros [r s4] _ Hr.
  cbn [fst] in *.
  apply wp_bind. eapply wp_mono; [apply (wp_trial p w pop i j k l r s4); try assumption|].
  { simpl in Hj', Hk', Hl'. repeat constructor; simpl; intuition congruence. }
  intros [x s5] _ [u Hx].
  apply wp_bind. apply wp_vget; [|exact Hi]. intros y Hy.
  apply wp_bind. unfold recorded. apply wp_bind. eapply wp_mono; [apply Hcmp|].
  intros [b c'] _ _. cbn [wp bind]. destruct b.
  - apply wp_bind. apply wp_vset; [|exact Hi]. simpl.
    exists x, y, true, s5, c'. split; [exact Hy|]. split; [|reflexivity].
    exists j, k, l, r, u. exact Hx.
  - simpl. exists x, y, false, s5, c'. split; [exact Hy|]. split; [|reflexivity].
    exists j, k, l, r, u. exact Hx.
Qed.
End DE.
End Wps.

(** ** The sequence of target indices *)

Lemma cycle_take_seq m n t : 0 < m -> t <= m ->
  cycle_take (seq 0 m) (seq t (m - t)) n = map (fun q => (t + q) mod m) (seq 0 n).
Proof.
  intros Hm. revert t; induction n as [|n IH]; intros t Ht; [reflexivity|].
  destruct (Nat.eq_dec t m) as [->|Hne].
  - rewrite Nat.sub_diag. cbn [seq]. cbn [cycle_take].
    destruct m as [|m]; [lia|]. cbn [seq].
    specialize (IH 1 ltac:(lia)).
    replace (Datatypes.S m - 1) with m in IH by lia.
    cbn [seq] in IH. rewrite IH. cbn [map].
    f_equal.
    + rewrite Nat.add_0_r, Nat.mod_same by lia. reflexivity.
    + rewrite <- seq_shift, map_map. apply map_ext. intros q.
      replace (Datatypes.S m + Datatypes.S q) with ((1 + q) + 1 * Datatypes.S m) by lia.
      rewrite Nat.mod_add by lia. reflexivity.
  - replace (m - t) with (Datatypes.S (m - Datatypes.S t)) by lia.
    cbn [seq cycle_take map]. rewrite IH by lia. f_equal.
    + rewrite Nat.add_0_r, Nat.mod_small by lia. reflexivity.
    + rewrite <- seq_shift, map_map. apply map_ext. intros q. f_equal. lia.
Qed.

Lemma cycle_take_targets m n : 0 < m ->
  cycle_take (seq 0 m) (seq 0 m) n = map (fun t => t mod m) (seq 0 n).
Proof.
  intros Hm. pose proof (cycle_take_seq m n 0 Hm (Nat.le_0_l m)) as H.
  rewrite Nat.sub_0_r in H. exact H.
Qed.

Lemma evolves_length {T F S} (num : de_num T F) (rng : de_rng T F S) {N} p w t
    (pop : list (array T N)) log pop' :
  evolves num rng p w t pop log pop' -> length pop' = length pop.
Proof.
  induction 1 as [|t pop x y b log pop' Hy Hx Hev IH]; [reflexivity|].
  rewrite IH. destruct b; [apply list_upd_length|reflexivity].
Qed.

Lemma evolves_snoc {T F S} (num : de_num T F) (rng : de_rng T F S) {N} p w t
    (pop : list (array T N)) log pop' x y (b : bool) :
  evolves num rng p w t pop log pop' ->
  nth_error pop' ((t + length log) mod length pop') = Some y ->
  is_trial num rng p w pop' ((t + length log) mod length pop') x ->
  evolves num rng p w t pop (log ++ [(x, y, b)])
    (if b then list_upd pop' ((t + length log) mod length pop') x else pop').
Proof.
  induction 1 as [|t pop x0 y0 b0 log pop' Hy Hx Hev IH]; intros Hy' Hx'.
  - simpl in *. rewrite Nat.add_0_r in *. econstructor; eauto. constructor.
  - simpl in *. rewrite <- Nat.add_succ_comm in *. econstructor; eauto.
Qed.

Lemma evolves_app {T F S} (num : de_num T F) (rng : de_rng T F S) {N} p w t
    (pop : list (array T N)) log pop' log' pop'' :
  evolves num rng p w t pop log pop' -> evolves num rng p w (t + length log) pop' log' pop'' ->
  evolves num rng p w t pop (log ++ log') pop''.
Proof.
  induction 1 as [|t pop x0 y0 b0 log pop' Hy Hx Hev IH]; intros H'.
  - simpl in H'. rewrite Nat.add_0_r in H'. exact H'.
  - simpl in *. rewrite <- Nat.add_succ_comm in H'. econstructor; eauto.
Qed.

Section WpRun.
Context (P : panic -> Prop) (D : Prop).
Context {T F S C : Type} (num : de_num T F) (rng : de_rng T F S) {N : nat}.
Notation cand := (array T N).
Context (cmp : C -> cand -> cand -> outcome (bool * C)).
Context (bounds : array (T * T) N).
Context (Hadd : forall x y, wp P D (t_add num x y) (fun _ => True))
        (Hsub : forall x y, wp P D (t_sub num x y) (fun _ => True))
        (Hmul : forall x y, wp P D (t_mul num x y) (fun _ => True))
        (Hidx : forall n s, 0 < n -> wp P D (gen_index rng n s) (fun r => fst r < n))
        (HidxN : forall s, wp P D (gen_index rng N s) (fun r => fst r < N))
        (Hval : forall n lo hi s, nth_error (entries bounds) n = Some (lo, hi) ->
                  wp P D (gen_value rng lo hi s) (fun _ => True))
        (Hunit : forall s, wp P D (gen_unit rng s) (fun _ => True))
        (Hcmp : forall c x y, wp P D (cmp c x y) (fun _ => True)).
Notation logT := (list (cand * cand * bool)).

Lemma wp_greedy_from (HD : D) fuel p w t0 iters (pop : list cand) s c (log0 : logT) :
  0 < length pop ->
  wp P D (for_each (de_iteration num rng (recorded cmp) fuel p w)
            (map (fun t => t mod length pop) (seq t0 iters)) (pop, s, (c, log0)))
    (fun st => exists log1,
       snd (snd st) = log0 ++ log1 /\ length log1 = iters /\
       evolves num rng p w t0 pop log1 (fst (fst st))).
Proof.
  intros Hlen.
  eapply wp_mono; [apply (wp_for_each P D _ (fun pre (st : list cand * S * (C * logT)) =>
     exists log1, snd (snd st) = log0 ++ log1 /\ length log1 = length pre /\
       evolves num rng p w t0 pop log1 (fst (fst st))))|].
  - exists []. simpl. rewrite app_nil_r. repeat split. constructor.
  - intros pre i post [[pop1 s1] [c1 log]] Heq (log1 & Hlog & Hl & Hev). simpl in Hlog, Hev.
    pose proof (evolves_length _ _ _ _ _ _ _ _ Hev) as Hlen1.
    assert (Hi : i = (t0 + length pre) mod length pop).
    { assert (H : nth_error (map (fun t => t mod length pop) (seq t0 iters)) (length pre) = Some i).
      { rewrite Heq, nth_error_app2, Nat.sub_diag by lia. reflexivity. }
      assert (Hb : length pre < iters).
      { apply (f_equal (@length nat)) in Heq. rewrite map_length, seq_length, app_length in Heq.
        simpl in Heq. lia. }
      erewrite map_nth_error in H; [injection H as <-; reflexivity|].
      rewrite (nth_error_nth' _ 0) by (rewrite seq_length; exact Hb).
      rewrite seq_nth by exact Hb. reflexivity. }
    assert (Hilt : i < length pop1).
    { rewrite Hlen1, Hi. apply Nat.mod_upper_bound. lia. }
    eapply wp_mono; [apply (wp_iteration P D num rng cmp Hadd Hsub Hmul Hidx HidxN Hunit Hcmp HD); exact Hilt|].
    intros st _ (x & y & b & s2 & c2 & Hy & Hx & ->).
    exists (log1 ++ [(x, y, b)]). cbn [fst snd]. split; [rewrite Hlog, app_assoc; reflexivity|].
    split; [rewrite !app_length; simpl; lia|].
    assert (Hi' : i = (t0 + length log1) mod length pop1) by (rewrite Hlen1, Hl; exact Hi).
    rewrite Hi' in Hy, Hx |- *. apply evolves_snoc; assumption.
  - intros st _ (log1 & H1 & H2 & H3). exists log1. rewrite map_length, seq_length in H2. auto.
Qed.

Lemma wp_greedy (HD : D) fuel p w iters (pop : list cand) s c (log0 : logT) :
  0 < length pop ->
  wp P D (de_greedy num rng (recorded cmp) fuel p w iters (pop, s, (c, log0)))
    (fun st => exists log1,
       snd (snd st) = log0 ++ log1 /\ length log1 = iters /\
       evolves num rng p w 0 pop log1 (fst (fst st))).
Proof.
  intros Hlen. unfold de_greedy. cbn [fst]. rewrite cycle_take_targets by exact Hlen.
  apply wp_greedy_from; assumption.
Qed.

(** ** Knockout *)

Definition round_inv (pop : list cand) (log0 : logT) (k : nat)
    (st : list cand * (C * logT)) : Prop :=
  let half := length pop / 2 in
  let '(cur, (_, log)) := st in
  exists now, log = log0 ++ now /\ length now = k /\ length cur = length pop /\
   (forall i, i < k -> exists x y b,
       nth_error pop (half + i) = Some x /\ nth_error pop i = Some y /\
       nth_error now i = Some (x, y, b) /\ nth_error cur i = Some (if b : bool then x else y)) /\
   (length pop mod 2 = 1 -> 0 < k -> nth_error cur half = nth_error pop (length pop - 1)) /\
   (forall i, k <= i -> nth_error cur i = nth_error pop i
       \/ (i = half /\ length pop mod 2 = 1 /\ 0 < k)).

Lemma wp_round (pop : list cand) c log0 : 1 < length pop ->
  wp P D (de_knockout_round (recorded cmp) pop (c, log0)) (round_inv pop log0 (length pop / 2)).
Proof.
  intros Hlen. unfold de_knockout_round. set (half := length pop / 2).
  assert (Hhalf : 0 < half) by (apply Nat.div_str_pos; lia).
  assert (Hdiv : length pop = 2 * half + length pop mod 2) by (apply Nat.div_mod_eq).
  assert (Hmod : length pop mod 2 < 2) by (apply Nat.mod_upper_bound; lia).
  pose proof (wp_for_each P D (fun i '(population, c) =>
      x <- vget population (half + i) ;;
      y <- vget population i ;;
      ' (better, c) <- recorded cmp c x y ;;
      population <- (if (better : bool) then z <- vget population (half + i) ;; vset population i z
                     else Ok population) ;;
      population <- (if length pop mod 2 =? 1 then z <- vget population (length pop - 1) ;; vset population half z
                     else Ok population) ;;
      Ok (population, c)) (fun pre => round_inv pop log0 (length pre)) (seq 0 half) (pop, (c, log0))) as W.
  cbv beta in W. rewrite seq_length in W. apply W; clear W.
  - exists []. rewrite app_nil_r. repeat split; auto; intros; simpl in *; lia.
  - intros pre i post [cur [c1 log]] Heq (now & Hlog & Hnow & Hcl & Hdone & Hlast & Hrest).
    fold half in Hdone, Hlast, Hrest.
    assert (Hi : i = length pre /\ length pre < half).
    { assert (Hb : length pre < half).
      { apply (f_equal (@length nat)) in Heq. rewrite seq_length, app_length in Heq. simpl in Heq. lia. }
      assert (H : nth_error (seq 0 half) (length pre) = Some i).
      { rewrite Heq, nth_error_app2, Nat.sub_diag by lia. reflexivity. }
      rewrite (nth_error_nth' _ 0) in H by (rewrite seq_length; exact Hb).
      rewrite seq_nth in H by exact Hb. split; [simpl in H; congruence|exact Hb]. }
    destruct Hi as [-> Hilt]. set (k := length pre) in *.
    rewrite app_length. cbn [length]. replace (length pre + 1) with (Datatypes.S k) by (unfold k; lia).
    apply wp_bind. apply wp_vget; [|lia]. intros x Hx.
    apply wp_bind. apply wp_vget; [|lia]. intros y Hy.
    assert (Hx' : nth_error pop (half + k) = Some x).
    { destruct (Hrest (half + k)) as [E|(E1 & _ & E3)]; [lia|congruence|lia]. }
    assert (Hy' : nth_error pop k = Some y).
    { destruct (Hrest k) as [E|(E1 & _ & E3)]; [lia|congruence|lia]. }
    apply wp_bind. unfold recorded. apply wp_bind. eapply wp_mono; [apply Hcmp|].
    intros [b c'] _ _. cbn [wp bind].
    apply wp_bind.
    (* after the first assignment *)
    apply wp_mono with (Q := fun cur1 => length cur1 = length pop /\
       nth_error cur1 k = Some (if b then x else y) /\
       forall i, i <> k -> nth_error cur1 i = nth_error cur i).
    { destruct b.
      - apply wp_bind. apply wp_vget; [|lia]. intros z Hz.
        apply wp_vset; [|lia]. rewrite list_upd_length. split; [exact Hcl|]. split.
        + rewrite nth_error_list_upd, Nat.eqb_refl. simpl.
          replace (k <? length cur) with true by (symmetry; apply Nat.ltb_lt; lia). congruence.
        + intros i Hi. rewrite nth_error_list_upd. apply Nat.eqb_neq in Hi. rewrite Hi. reflexivity.
      - simpl. auto. }
    intros cur1 _ (Hl1 & Hk1 & Ho1). apply wp_bind.
    apply wp_mono with (Q := fun cur2 => length cur2 = length pop /\
       nth_error cur2 k = Some (if b then x else y) /\
       (length pop mod 2 = 1 -> nth_error cur2 half = nth_error pop (length pop - 1)) /\
       forall i, i <> k -> nth_error cur2 i = nth_error cur i \/ (i = half /\ length pop mod 2 = 1)).
    { destruct (length pop mod 2 =? 1) eqn:Eo.
      - apply Nat.eqb_eq in Eo. apply wp_bind. apply wp_vget; [|lia]. intros z Hz.
        assert (Hz' : nth_error pop (length pop - 1) = Some z).
        { rewrite Ho1 in Hz by lia. destruct (Hrest (length pop - 1)) as [E|(E1 & _ & E3)]; [lia|congruence|lia]. }
        apply wp_vset; [|lia]. rewrite list_upd_length. split; [exact Hl1|]. split; [|split].
        + rewrite nth_error_list_upd. replace (k =? half) with false by (symmetry; apply Nat.eqb_neq; lia).
          exact Hk1.
        + intros _. rewrite nth_error_list_upd, Nat.eqb_refl.
          replace (half <? length cur1) with true by (symmetry; apply Nat.ltb_lt; lia). simpl. congruence.
        + intros i Hi. rewrite nth_error_list_upd. destruct (Nat.eqb_spec i half) as [->|Hih]; [auto|].
          simpl. left. apply Ho1. exact Hi.
      - apply Nat.eqb_neq in Eo. cbn [wp]. split; [exact Hl1|]. split; [exact Hk1|]. split; [intros E; contradiction|auto]. }
    intros cur2 _ (Hl2 & Hk2 & Hlast2 & Ho2). cbn [wp].
    exists (now ++ [(x, y, b)]). split; [rewrite Hlog, app_assoc; reflexivity|].
    split; [rewrite app_length; simpl; lia|]. split; [exact Hl2|]. split; [|split].
    + intros i Hi. destruct (Nat.eq_dec i k) as [->|Hne].
      * exists x, y, b. repeat split; auto. rewrite nth_error_app2, Hnow, Nat.sub_diag by lia. reflexivity.
      * destruct (Hdone i) as (x1 & y1 & b1 & A1 & A2 & A3 & A4); [lia|].
        exists x1, y1, b1. repeat split; auto.
        -- rewrite nth_error_app1 by lia. exact A3.
        -- destruct (Ho2 i Hne) as [E|[E _]]; [congruence|]. fold half in E. lia.
    + intros Ho _. apply Hlast2; exact Ho.
    + intros i Hi. fold half. destruct (Ho2 i) as [E|[E1 E2]]; [lia| |].
      * destruct (Hrest i) as [E'|(E1 & E2 & E3)]; [lia|left; congruence|].
        right. repeat split; auto; lia.
      * right. repeat split; auto; lia.
Qed.

Lemma div2_up n : 1 < n -> 0 < (n + 1) / 2 < n.
Proof.
  intros H. pose proof (Nat.div_mod_eq (n + 1) 2). pose proof (Nat.mod_upper_bound (n+1) 2). lia.
Qed.

Lemma wp_knockout fuel (pop : list cand) c log0 :
  0 < length pop -> length pop <= fuel ->
  wp P D (de_knockout (recorded cmp) fuel pop (c, log0))
    (fun r => exists best log, fst r = [best] /\ snd (snd r) = log0 ++ log /\ knockout pop log best).
Proof.
  revert pop c log0; induction fuel as [|fuel IH]; intros pop c log0 Hlen Hf; [lia|].
  cbn [de_knockout]. destruct (Nat.ltb_spec 1 (length pop)) as [Hgt|Hle].
  - apply wp_bind. eapply wp_mono; [apply wp_round; exact Hgt|].
    intros [cur [c1 log]] _ (now & Hlog & Hnow & Hcl & Hdone & Hlast & _).
    set (half := length pop / 2) in *.
    assert (Hdiv : length pop = 2 * half + length pop mod 2) by (apply Nat.div_mod_eq).
    assert (Hmod : length pop mod 2 < 2) by (apply Nat.mod_upper_bound; lia).
    assert (Hhalf : 0 < half) by (apply Nat.div_str_pos; lia).
    assert (Hup : (length pop + 1) / 2 = half + length pop mod 2).
    { destruct (Nat.eq_dec (length pop mod 2) 1) as [E|E].
      - replace (length pop + 1) with ((half + 1) * 2) by lia. rewrite Nat.div_mul by lia. lia.
      - replace (length pop + 1) with (1 + half * 2) by lia. rewrite Nat.div_add by lia.
        change (1 / 2) with 0. lia. }
    pose proof (div2_up _ Hgt) as Hb.
    assert (Hfl : length (firstn ((length pop + 1) / 2) cur) = (length pop + 1) / 2).
    { rewrite firstn_length. lia. }
    assert (Hfn : forall i, i < (length pop + 1) / 2 ->
              nth_error (firstn ((length pop + 1) / 2) cur) i = nth_error cur i).
    { intros i Hi. rewrite <- (firstn_skipn ((length pop + 1) / 2) cur) at 2.
      rewrite nth_error_app1 by (rewrite Hfl; exact Hi). reflexivity. }
    eapply wp_mono; [apply IH; rewrite Hfl; lia|].
    intros [r1 [c2 log2]] _ (best & log3 & Hr & Hlog2 & Hko). cbn [fst snd] in *.
    exists best, (now ++ log3). split; [exact Hr|]. split; [rewrite Hlog2, Hlog, app_assoc; reflexivity|].
    eapply knockout_round; [exact Hgt|exact Hnow|exact Hfl| | |exact Hko].
    + intros i Hi. fold half in Hi. destruct (Hdone i Hi) as (x & y & b & A1 & A2 & A3 & A4).
      exists x, y, b. repeat split; auto. rewrite Hfn by lia. exact A4.
    + intros Ho. fold half. rewrite Hfn by lia. apply Hlast; [exact Ho|lia].
  - cbn [wp]. cbn [fst snd]. destruct pop as [|x [|x' pop]]; simpl in Hlen, Hle; try lia.
    exists x, []. rewrite app_nil_r. repeat split. constructor.
Qed.

(** ** The whole run *)

Lemma wp_optimize (HD : D) fuel size p w iters s c :
  wp P D (de_assert (4 <=? size)) (fun _ => True) ->
  wp P D (de_assert (p_leb num (p_0 num) p && p_leb num p (p_1 num))) (fun _ => True) ->
  wp P D (de_assert (t_leb num (t_0 num) w && t_leb num w (t_2 num))) (fun _ => True) ->
  wp P D (de_optimize num rng (recorded cmp) fuel bounds size p w iters s (c, []))
    (fun r => exists start final,
       run_history num rng bounds size p w iters (snd (snd r)) start final (fst (fst r))).
Proof.
  intros H1 H2 H3. unfold de_optimize.
  apply wp_bind. eapply wp_mono; [exact H1|]. intros u1 Hu1 _.
  assert (Hsize : 4 <= size).
  { apply Nat.leb_le. destruct (4 <=? size); [reflexivity|discriminate Hu1]. }
  apply wp_bind. eapply wp_mono; [exact H2|]. intros _ _ _.
  apply wp_bind. eapply wp_mono; [exact H3|]. intros _ _ _.
  apply wp_bind. eapply wp_mono; [apply (wp_initial_population P D rng bounds Hval)|].
  intros [start s1] _ [Hl Hd]. cbn [fst] in *.
  apply wp_bind. eapply wp_mono; [apply (wp_greedy HD); lia|].
  intros [[final s2] [c2 log1']] _ (log1 & Hlog1 & Hll & Hev). cbn [fst snd] in *. simpl in Hlog1. subst log1'.
  pose proof (evolves_length _ _ _ _ _ _ _ _ Hev) as Hfl.
  apply wp_bind. eapply wp_mono; [apply wp_knockout; lia|].
  intros [r [c3 log2']] _ (best & log2 & Hr & Hlog2 & Hko). cbn [fst snd] in *. subst r log2'.
  apply wp_bind. apply wp_vget; [|simpl; lia]. intros b Hb. simpl in Hb. injection Hb as <-.
  cbn [wp fst snd]. exists start, final, log1, log2. repeat split; auto.
Qed.
End WpRun.
