(** Two comparators that give the same verdicts drive differential evolution in the same way. *)
From Coq Require Import List Arith Lia Bool.
From Verif Require Import Base.Outcome Base.Array Base.Wp Model.DiffEvo Spec.DiffEvo Proofs.DiffEvoProofs.
Import ListNotations.

Section Sim.
Context {T F S C1 C2 : Type} (num : de_num T F) (rng : de_rng T F S) {N : nat}.
Notation cand := (array T N).
Context (cmp1 : C1 -> cand -> cand -> outcome (bool * C1))
        (cmp2 : C2 -> cand -> cand -> outcome (bool * C2)).
Context (R : C1 -> C2 -> Prop).
Definition same_verdict (a : bool * C1) (b : bool * C2) : Prop := fst a = fst b /\ R (snd a) (snd b).
Context (Hcmp : forall c1 c2 x y, R c1 c2 -> orel same_verdict (cmp1 c1 x y) (cmp2 c2 x y)).

Definition same_state {A} (a : A * C1) (b : A * C2) : Prop := fst a = fst b /\ R (snd a) (snd b).

Lemma sim_iteration fuel p w i st1 st2 : same_state st1 st2 ->
  orel same_state (de_iteration num rng cmp1 fuel p w i st1) (de_iteration num rng cmp2 fuel p w i st2).
Proof.
  destruct st1 as [[pop s] c1], st2 as [[pop' s'] c2]. intros [E Hc]. simpl in E, Hc.
  injection E as <- <-. unfold de_iteration.
  eapply orel_bind; [apply (orel_refl eq); reflexivity|]. intros [j s1] ? <-.
  eapply orel_bind; [apply (orel_refl eq); reflexivity|]. intros [k s2] ? <-.
  eapply orel_bind; [apply (orel_refl eq); reflexivity|]. intros [l s3] ? <-.
  eapply orel_bind; [apply (orel_refl eq); reflexivity|]. intros [r s4] ? <-.
  eapply orel_bind; [apply (orel_refl eq); reflexivity|]. intros [x s5] ? <-.
  eapply orel_bind; [apply (orel_refl eq); reflexivity|]. intros y ? <-.
  eapply orel_bind; [apply Hcmp; exact Hc|]. intros [b d1] [b' d2] [E Hd]. simpl in E, Hd. subst b'.
  destruct b.
  - eapply orel_bind; [apply (orel_refl eq); reflexivity|]. intros pop' ? <-. split; auto.
  - split; auto.
Qed.

Lemma sim_greedy fuel p w iters st1 st2 : same_state st1 st2 ->
  orel same_state (de_greedy num rng cmp1 fuel p w iters st1) (de_greedy num rng cmp2 fuel p w iters st2).
Proof.
  intros H. unfold de_greedy. assert (E : fst st1 = fst st2) by apply H. rewrite E.
  apply orel_for_each; [exact H|]. intros; apply sim_iteration; assumption.
Qed.

Lemma sim_round pop c1 c2 : R c1 c2 ->
  orel same_state (de_knockout_round cmp1 pop c1) (de_knockout_round cmp2 pop c2).
Proof.
  intros H. unfold de_knockout_round. apply orel_for_each; [split; auto|].
  intros i [q1 d1] [q2 d2] [E Hd]. simpl in E, Hd. subst q2.
  eapply orel_bind; [apply (orel_refl eq); reflexivity|]. intros x ? <-.
  eapply orel_bind; [apply (orel_refl eq); reflexivity|]. intros y ? <-.
  eapply orel_bind; [apply Hcmp; exact Hd|]. intros [b e1] [b' e2] [E He]. simpl in E, He. subst b'.
  eapply orel_bind; [apply (orel_refl eq); reflexivity|]. intros q ? <-.
  eapply orel_bind; [apply (orel_refl eq); reflexivity|]. intros q' ? <-.
  split; auto.
Qed.

Lemma sim_knockout fuel pop c1 c2 : R c1 c2 ->
  orel same_state (de_knockout cmp1 fuel pop c1) (de_knockout cmp2 fuel pop c2).
Proof.
  revert pop c1 c2; induction fuel as [|fuel IH]; intros pop c1 c2 H; simpl;
    destruct (1 <? length pop); try exact I; try (split; auto; fail).
  eapply orel_bind; [apply sim_round; exact H|]. intros [q1 d1] [q2 d2] [E Hd].
  simpl in E, Hd. subst q2. apply IH; exact Hd.
Qed.

Lemma sim_optimize fuel bounds size p w iters s c1 c2 : R c1 c2 ->
  orel same_state (de_optimize num rng cmp1 fuel bounds size p w iters s c1)
                  (de_optimize num rng cmp2 fuel bounds size p w iters s c2).
Proof.
  intros H. unfold de_optimize.
  eapply orel_bind; [apply (orel_refl eq); reflexivity|]. intros _ _ _.
  eapply orel_bind; [apply (orel_refl eq); reflexivity|]. intros _ _ _.
  eapply orel_bind; [apply (orel_refl eq); reflexivity|]. intros _ _ _.
  eapply orel_bind; [apply (orel_refl eq); reflexivity|]. intros [pop s1] ? <-.
  eapply orel_bind; [apply sim_greedy; split; [reflexivity|exact H]|].
  intros [[pop1 s2] d1] [[pop2 s3] d2] [E Hd]. simpl in E, Hd. injection E as <- <-.
  eapply orel_bind; [apply sim_knockout; exact Hd|].
  intros [q1 e1] [q2 e2] [E He]. simpl in E, He. subst q2.
  eapply orel_bind; [apply (orel_refl eq); reflexivity|]. intros b ? <-.
  split; auto.
Qed.
End Sim.

(** ** Logging *)
Section Log.
Context {T F S C : Type} (num : de_num T F) (rng : de_rng T F S) {N : nat}.
Notation cand := (array T N).
Context (cmp : C -> cand -> cand -> outcome (bool * C)).
Notation logT := (list (cand * cand * bool)).

Lemma recorded_ok c log x y b c' log' :
  recorded cmp (c, log) x y = Ok (b, (c', log')) <->
  cmp c x y = Ok (b, c') /\ log' = log ++ [(x, y, b)].
Proof.
  unfold recorded. destruct (cmp c x y) as [[b0 c0]|p|]; simpl; split;
    try discriminate; try (intros [H _]; discriminate H).
  - intros H. injection H as -> -> <-. auto.
  - intros [H ->]. injection H as -> ->. reflexivity.
Qed.

Lemma recorded_sim (c1 : C * logT) (c2 : C) x y : fst c1 = c2 ->
  orel (same_verdict (fun c1 c2 => fst c1 = c2)) (recorded cmp c1 x y) (cmp c2 x y).
Proof.
  destruct c1 as [c log]. simpl. intros <-. unfold recorded.
  destruct (cmp c x y) as [[b c']| |]; simpl; auto. split; auto.
Qed.

Lemma recorded_optimize fuel bounds size p w iters s c :
  orel (same_state (fun c1 c2 => fst c1 = c2))
    (de_optimize num rng (recorded cmp) fuel bounds size p w iters s (c, []))
    (de_optimize num rng cmp fuel bounds size p w iters s c).
Proof. apply sim_optimize; [|reflexivity]. intros; apply recorded_sim; assumption. Qed.

(** The log tells the truth. *)
Definition truthful (better : cand -> cand -> bool) (log : logT) : Prop :=
  Forall (fun e => snd e = better (fst (fst e)) (snd (fst e))) log.

Lemma recorded_truthful better (Hd : decides cmp better) (c1 c2 : C * logT) x y :
  c1 = c2 /\ truthful better (snd c1) ->
  orel (same_verdict (fun c1 c2 => c1 = c2 /\ truthful better (snd c1))) (recorded cmp c1 x y) (recorded cmp c2 x y).
Proof.
  intros [<- Ht]. destruct c1 as [c log]. destruct (Hd c x y) as [c' E].
  unfold recorded. rewrite E. simpl. split; [reflexivity|]. split; [reflexivity|].
  simpl in *. apply Forall_app. split; [exact Ht|]. repeat constructor.
Qed.

Lemma recorded_optimize_truthful better (Hd : decides cmp better) fuel bounds size p w iters s c best s' c' log :
  de_optimize num rng (recorded cmp) fuel bounds size p w iters s (c, []) = Ok (best, s', (c', log)) ->
  truthful better log.
Proof.
  intros H.
  pose proof (sim_optimize num rng (recorded cmp) (recorded cmp)
    (fun c1 c2 => c1 = c2 /\ truthful better (snd c1)) (fun c1 c2 x y => recorded_truthful better Hd c1 c2 x y)
    fuel bounds size p w iters s (c, []) (c, [])) as W.
  rewrite H in W. simpl in W. apply W. split; [reflexivity|constructor].
Qed.
End Log.

(** ** Consequences of histories *)
Section Consequences.
Context {T F S : Type} (num : de_num T F) (rng : de_rng T F S) {N : nat}.
Notation cand := (array T N).
Context (better : cand -> cand -> bool).

Lemma knockout_in (pop : list cand) log best : knockout pop log best ->
  In best pop /\ forall x y b, In (x, y, b) log -> In x pop /\ In y pop.
Proof.
  induction 1 as [x|pop pop' now later best Hgt Hnow Hlen Hall Hodd Hko [IH1 IH2]].
  - split; [left; reflexivity|intros x' y b []].
  - assert (Hdiv : length pop = 2 * (length pop / 2) + length pop mod 2) by (apply Nat.div_mod_eq).
    assert (Hmod : length pop mod 2 < 2) by (apply Nat.mod_upper_bound; lia).
    assert (Hsub : forall z, In z pop' -> In z pop).
    { intros z Hz. apply In_nth_error in Hz as [i Hi].
      assert (Hilt : i < length pop') by (apply nth_error_Some; congruence).
      destruct (Nat.lt_ge_cases i (length pop / 2)) as [Hl|Hg].
      - destruct (Hall i Hl) as (x & y & b & Hx & Hy & _ & Hp).
        rewrite Hp in Hi. injection Hi as <-. destruct b; eapply nth_error_In; eassumption.
      - assert (Hcase : i = length pop / 2 /\ length pop mod 2 = 1).
        { pose proof (Nat.div_mod_eq (length pop + 1) 2).
          assert (length pop mod 2 = 0 \/ length pop mod 2 = 1) as [E|E] by lia.
          - replace (length pop + 1) with (1 + (length pop / 2) * 2) in Hlen by lia.
            rewrite Nat.div_add in Hlen by lia. change (1 / 2) with 0 in Hlen. lia.
          - replace (length pop + 1) with ((length pop / 2 + 1) * 2) in Hlen by lia.
            rewrite Nat.div_mul in Hlen by lia. lia. }
        destruct Hcase as [-> Ho]. rewrite (Hodd Ho) in Hi. eapply nth_error_In; eassumption. }
    split; [apply Hsub; exact IH1|]. intros x y b Hin. apply in_app_iff in Hin as [Hin|Hin].
    + apply In_nth_error in Hin as [i Hi].
      assert (Hilt : i < length now) by (apply nth_error_Some; congruence).
      destruct (Hall i) as (x1 & y1 & b1 & Hx & Hy & Hn & _); [lia|].
      rewrite Hn in Hi. injection Hi as -> -> ->. split; eapply nth_error_In; eassumption.
    + destruct (IH2 x y b Hin). split; apply Hsub; assumption.
Qed.

Lemma knockout_calls (pop : list cand) log best : knockout pop log best -> length log + 1 = length pop.
Proof.
  induction 1 as [x|pop pop' now later best Hgt Hnow Hlen Hall Hodd Hko IH]; [reflexivity|].
  rewrite app_length, Hnow. rewrite Hlen in IH.
  assert (Hdiv : length pop = 2 * (length pop / 2) + length pop mod 2) by (apply Nat.div_mod_eq).
  assert (Hmod : length pop mod 2 < 2) by (apply Nat.mod_upper_bound; lia).
  assert (length pop mod 2 = 0 \/ length pop mod 2 = 1) as [E|E] by lia.
  - replace (length pop + 1) with (1 + (length pop / 2) * 2) in IH by lia.
    rewrite Nat.div_add in IH by lia. change (1 / 2) with 0 in IH. lia.
  - replace (length pop + 1) with ((length pop / 2 + 1) * 2) in IH by lia.
    rewrite Nat.div_mul in IH by lia. lia.
Qed.

(** "Not better than" is transitive for a strict weak order. *)
Lemma not_better_trans (HO : strict_weak_order better) x y z :
  better x y = false -> better y z = false -> better x z = false.
Proof.
  intros H1 H2. destruct (better x z) eqn:E; [|reflexivity].
  destruct (swo_cover _ HO x y z E); congruence.
Qed.

Lemma better_not_rev (HO : strict_weak_order better) x y : better x y = true -> better y x = false.
Proof.
  intros H. destruct (better y x) eqn:E; [|reflexivity].
  pose proof (swo_trans _ HO _ _ _ H E) as H'. rewrite (swo_irrefl _ HO) in H'. discriminate.
Qed.

Lemma knockout_best (HO : strict_weak_order better) (pop : list cand) log best :
  knockout pop log best -> truthful better log -> forall x, In x pop -> better x best = false.
Proof.
  induction 1 as [x|pop pop' now later best Hgt Hnow Hlen Hall Hodd Hko IH]; intros Ht z Hz.
  - destruct Hz as [<-|[]]. apply (swo_irrefl _ HO).
  - apply Forall_app in Ht as [Ht1 Ht2]. specialize (IH Ht2).
    assert (Hdiv : length pop = 2 * (length pop / 2) + length pop mod 2) by (apply Nat.div_mod_eq).
    assert (Hmod : length pop mod 2 < 2) by (apply Nat.mod_upper_bound; lia).
    apply In_nth_error in Hz as [i Hi].
    assert (Hilt : i < length pop) by (apply nth_error_Some; congruence).
    assert (Hmatch : forall q x y b, q < length pop / 2 ->
       nth_error now q = Some (x, y, b) -> nth_error pop' q = Some (if b : bool then x else y) ->
       better x best = false /\ better y best = false).
    { intros q x y b Hq Hn Hp.
      assert (Hb : b = better x y).
      { apply nth_error_In in Hn. rewrite Forall_forall in Ht1. apply (Ht1 _ Hn). }
      assert (Hw : better (if b then x else y) best = false).
      { apply IH. eapply nth_error_In; eassumption. }
      destruct b.
      - split; [exact Hw|]. eapply not_better_trans; [exact HO| |exact Hw].
        apply better_not_rev; auto.
      - split; [|exact Hw]. eapply not_better_trans; [exact HO| |exact Hw]. auto. }
    destruct (Nat.lt_ge_cases i (length pop / 2)) as [H1|H1].
    + destruct (Hall i H1) as (x & y & b & Hx & Hy & Hn & Hp).
      rewrite Hi in Hy. injection Hy as <-. apply (Hmatch i x z b); assumption.
    + destruct (Nat.lt_ge_cases i (2 * (length pop / 2))) as [H2|H2].
      * destruct (Hall (i - length pop / 2)) as (x & y & b & Hx & Hy & Hn & Hp); [lia|].
        replace (length pop / 2 + (i - length pop / 2)) with i in Hx by lia.
        rewrite Hi in Hx. injection Hx as <-.
        apply (Hmatch (i - length pop / 2) z y b); [lia|assumption|assumption].
      * assert (Ho : length pop mod 2 = 1) by lia. specialize (Hodd Ho).
        replace (length pop - 1) with i in Hodd by lia. rewrite Hi in Hodd.
        apply IH. eapply nth_error_In; eassumption.
Qed.

(** A player in slot 0 that is never beaten wins. *)
Lemma knockout_unbeaten (pop : list cand) log best x0 :
  knockout pop log best -> nth_error pop 0 = Some x0 ->
  (forall x b, In (x, x0, b) log -> b = false) -> best = x0.
Proof.
  induction 1 as [x|pop pop' now later best Hgt Hnow Hlen Hall Hodd Hko IH]; intros H0 Hb.
  - simpl in H0. congruence.
  - assert (Hhalf : 0 < length pop / 2) by (apply Nat.div_str_pos; lia).
    apply IH.
    + destruct (Hall 0 Hhalf) as (x & y & b & Hx & Hy & Hn & Hp).
      rewrite H0 in Hy. injection Hy as <-.
      rewrite (Hb x b) in Hp; [exact Hp|]. apply in_or_app. left. eapply nth_error_In; eassumption.
    + intros x b Hin. apply (Hb x b). apply in_or_app. right; exact Hin.
Qed.

Context (p : F) (w : T).

Lemma evolves_slot (HO : strict_weak_order better) t (pop : list cand) log pop' :
  evolves num rng p w t pop log pop' -> truthful better log ->
  forall i x, nth_error pop i = Some x ->
    exists y, nth_error pop' i = Some y /\ (y = x \/ better y x = true).
Proof.
  induction 1 as [t pop|t pop x y b log pop' Hy Hx Hev IH]; intros Ht i z Hz.
  - exists z. auto.
  - apply Forall_cons_iff in Ht as [Hb Ht]. simpl in Hb.
    destruct b.
    + destruct (Nat.eq_dec i (t mod length pop)) as [->|Hne].
      * assert (Hlt : t mod length pop < length pop) by (apply nth_error_Some; congruence).
        destruct (IH Ht (t mod length pop) x) as (y' & Hy' & Hor).
        { rewrite nth_error_list_upd, Nat.eqb_refl. apply Nat.ltb_lt in Hlt. rewrite Hlt. reflexivity. }
        exists y'. split; [exact Hy'|]. right. rewrite Hy in Hz. injection Hz as <-.
        destruct Hor as [->|Hor]; [auto|]. eapply (swo_trans _ HO); [exact Hor|auto].
      * apply (IH Ht). rewrite nth_error_list_upd. apply Nat.eqb_neq in Hne. rewrite Hne. exact Hz.
    + apply (IH Ht). exact Hz.
Qed.

Lemma evolves_log (HO : strict_weak_order better) t (pop : list cand) log pop' :
  evolves num rng p w t pop log pop' -> truthful better log ->
  forall x y b, In (x, y, b) log -> exists z, In z pop' /\ better x z = false /\ better y z = false.
Proof.
  induction 1 as [t pop|t pop x y b log pop' Hy Hx Hev IH]; intros Ht x1 y1 b1 Hin; [destruct Hin|].
  apply Forall_cons_iff in Ht as [Hb Ht]. simpl in Hb.
  destruct Hin as [E|Hin]; [|eapply IH; eassumption].
  injection E as <- <- <-.
  assert (Hlt : t mod length pop < length pop) by (apply nth_error_Some; congruence).
  destruct (evolves_slot HO _ _ _ _ Hev Ht (t mod length pop) (if b then x else y)) as (z & Hz & Hor).
  { destruct b; [|exact Hy].
    rewrite nth_error_list_upd, Nat.eqb_refl. apply Nat.ltb_lt in Hlt. rewrite Hlt. reflexivity. }
  exists z. split; [eapply nth_error_In; exact Hz|].
  assert (Hw : better (if b then x else y) z = false).
  { destruct Hor as [->|Hor]; [apply (swo_irrefl _ HO)|apply better_not_rev; auto]. }
  destruct b.
  - split; [exact Hw|]. eapply not_better_trans; [exact HO| |exact Hw]. apply better_not_rev; auto.
  - split; [|exact Hw]. eapply not_better_trans; [exact HO| |exact Hw]. auto.
Qed.

Lemma evolves_unbeaten t (pop : list cand) log pop' i x0 :
  evolves num rng p w t pop log pop' -> nth_error pop i = Some x0 ->
  (forall x b, In (x, x0, b) log -> b = false) -> nth_error pop' i = Some x0.
Proof.
  induction 1 as [t pop|t pop x y b log pop' Hy Hx Hev IH]; intros H0 Hb; [exact H0|].
  apply IH; [|intros; eapply Hb; right; eassumption].
  destruct b; [|exact H0].
  destruct (Nat.eq_dec i (t mod length pop)) as [->|Hne].
  - exfalso. assert (E : y = x0) by congruence. subst y.
    specialize (Hb x true (or_introl eq_refl)). discriminate.
  - rewrite nth_error_list_upd. apply Nat.eqb_neq in Hne. rewrite Hne. exact H0.
Qed.
End Consequences.
