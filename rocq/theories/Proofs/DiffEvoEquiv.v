(** Corresponding problems have corresponding runs. *)
From Coq Require Import List Arith Lia Bool.
From Verif Require Import Base.Outcome Base.Array Base.Wp Base.Sim Model.DiffEvo Spec.DiffEvo Spec.DiffEvoEquiv Proofs.DiffEvoProofs.
Import ListNotations.

Lemma orel_vget {A B} (R : A -> B -> Prop) l1 l2 i : Forall2 R l1 l2 -> orel R (vget l1 i) (vget l2 i).
Proof.
  intros H. pose proof (Forall2_nth_error R l1 l2 i H) as Hi. unfold vget.
  destruct (nth_error l1 i), (nth_error l2 i); try contradiction; [exact Hi|reflexivity].
Qed.
Lemma orel_vset {A B} (R : A -> B -> Prop) l1 l2 i x y : Forall2 R l1 l2 -> R x y -> orel (Forall2 R) (vset l1 i x) (vset l2 i y).
Proof.
  intros H Hxy. unfold vset. rewrite (Forall2_length _ _ _ H).
  destruct (i <? length l2); [simpl; apply Forall2_list_upd; assumption|reflexivity].
Qed.
Lemma Forall2_firstn {A B} (R : A -> B -> Prop) n l1 l2 : Forall2 R l1 l2 -> Forall2 R (firstn n l1) (firstn n l2).
Proof. intros H. revert n. induction H; intros [|n]; cbn [firstn]; constructor; auto. Qed.
Lemma orel_sym_eq {A} (m1 m2 : outcome A) : m1 = m2 -> orel eq m1 m2.
Proof. intros ->. apply orel_refl. reflexivity. Qed.

Section Equiv.
Context {T T' F S C C' : Type} {N : nat} (R : nat -> T -> T' -> Prop) (RC : C -> C' -> Prop)
    (num : de_num T F) (num' : de_num T' F) (rng : de_rng T F S) (rng' : de_rng T' F S)
    (cmp : C -> array T N -> array T N -> outcome (bool * C))
    (cmp' : C' -> array T' N -> array T' N -> outcome (bool * C'))
    (bounds : array (T * T) N) (bounds' : array (T' * T') N) (p : F) (w : T) (w' : T').
Context (H : corresponding R RC num num' rng rng' cmp cmp' bounds bounds' p w w').
Notation coords := (coords R).
Notation pops := (Forall2 coords).

Definition coords_from {n} (i0 : nat) (x : array T n) (x' : array T' n) : Prop :=
  forall k v v', nth_error (entries x) k = Some v -> nth_error (entries x') k = Some v' -> R (i0 + k) v v'.

Lemma equiv_from_fn n : forall i0 f f' s,
  (forall i s, i0 <= i < i0 + n -> orel (fun a b => R i (fst a) (fst b) /\ snd a = snd b) (f i s) (f' i s)) ->
  orel (fun a b => coords_from i0 (fst a) (fst b) /\ snd a = snd b)
    (array_from_fn (S := S) n i0 f s) (array_from_fn (S := S) n i0 f' s).
Proof.
  induction n as [|n IH]; intros i0 f f' s Hf; cbn [array_from_fn].
  - simpl. split; [|reflexivity]. intros k v v' E. destruct k; discriminate E.
  - eapply orel_bind; [apply Hf; lia|]. intros [v s1] [v' s1'] [Hv E]. cbn [fst snd] in *. subst s1'.
    eapply orel_bind; [apply IH; intros i t Hi; apply Hf; lia|]. intros [x s2] [x' s2'] [Hx E]. cbn [fst snd] in *. subst s2'.
    simpl. split; [|reflexivity]. intros [|k] a a' E1 E2; cbn in E1, E2.
    + injection E1 as <-. injection E2 as <-. rewrite Nat.add_0_r. exact Hv.
    + replace (i0 + Datatypes.S k) with (Datatypes.S i0 + k) by lia. apply (Hx k a a' E1 E2).
Qed.

Lemma equiv_start s : orel (fun a b => coords (fst a) (fst b) /\ snd a = snd b)
  (de_initial_candidate rng bounds s) (de_initial_candidate rng' bounds' s).
Proof.
  unfold de_initial_candidate. apply equiv_from_fn. intros i t Hi. unfold array_get, vget.
  destruct (nth_error (entries bounds) i) as [[lo hi]|] eqn:E1; [|apply nth_error_None in E1; rewrite entries_length in E1; lia].
  destruct (nth_error (entries bounds') i) as [[lo' hi']|] eqn:E2; [|apply nth_error_None in E2; rewrite entries_length in E2; lia].
  cbn [bind]. apply (co_value _ _ _ _ _ _ _ _ _ _ _ _ _ H); assumption.
Qed.
Lemma equiv_population k : forall s, orel (fun a b => pops (fst a) (fst b) /\ snd a = snd b)
  (de_initial_population rng bounds k s) (de_initial_population rng' bounds' k s).
Proof.
  induction k as [|k IH]; intros s; cbn [de_initial_population]; [simpl; auto|].
  eapply orel_bind; [apply equiv_start|]. intros [x s1] [x' s1'] [Hx E]. cbn [fst snd] in *. subst s1'.
  eapply orel_bind; [apply IH|]. intros [xs s2] [xs' s2'] [Hxs E]. cbn [fst snd] in *. subst s2'. simpl. auto.
Qed.

Lemma equiv_reject f len excl : forall s, de_reject rng' f len excl s = de_reject rng f len excl s.
Proof.
  induction f as [|f IH]; intros s; [reflexivity|]. cbn [de_reject]. rewrite (co_index _ _ _ _ _ _ _ _ _ _ _ _ _ H).
  apply bind_ext. intros [x s']. destruct (existsb _ _); [apply IH|reflexivity].
Qed.

Lemma equiv_pop_at (pop : list (array T N)) (pop' : list (array T' N)) i n : pops pop pop' -> orel (R n) (pop_at pop i n) (pop_at pop' i n).
Proof.
  intros HP. unfold pop_at. eapply orel_bind; [apply orel_vget, HP|]. intros x x' Hx. unfold array_get, vget.
  destruct (nth_error (entries x) n) as [v|] eqn:E1, (nth_error (entries x') n) as [v'|] eqn:E2; simpl.
  - apply (Hx n); assumption.
  - apply nth_error_None in E2. rewrite entries_length in E2. assert (n < length (entries x)) by (apply nth_error_Some; congruence). rewrite entries_length in *. lia.
  - apply nth_error_None in E1. rewrite entries_length in E1. assert (n < length (entries x')) by (apply nth_error_Some; congruence). rewrite entries_length in *. lia.
  - reflexivity.
Qed.

Lemma equiv_trial (pop : list (array T N)) (pop' : list (array T' N)) i j k l r s : pops pop pop' ->
  orel (fun a b => coords (fst a) (fst b) /\ snd a = snd b)
    (de_trial num rng p w pop i j k l r s) (de_trial num' rng' p w' pop' i j k l r s).
Proof.
  intros HP. unfold de_trial. apply equiv_from_fn. intros n t Hn.
  eapply (orel_bind eq).
  - apply orel_sym_eq. destruct (n =? r); [reflexivity|]. rewrite (co_unit _ _ _ _ _ _ _ _ _ _ _ _ _ H).
    apply bind_ext. intros [u t']. rewrite (co_below _ _ _ _ _ _ _ _ _ _ _ _ _ H). reflexivity.
  - intros [b t'] ? <-. destruct b.
    + eapply orel_bind; [apply equiv_pop_at, HP|]. intros va va' Ha. eapply orel_bind; [apply equiv_pop_at, HP|]. intros vb vb' Hb.
      eapply orel_bind; [apply equiv_pop_at, HP|]. intros vc vc' Hc.
      pose proof (co_step _ _ _ _ _ _ _ _ _ _ _ _ _ H n va vb vc va' vb' vc' ltac:(lia) Ha Hb Hc) as ST. unfold step in ST.
      change (orel (fun a b => R n (fst a) (fst b) /\ snd a = snd b)
        (d <- t_sub num vb vc ;; e <- t_mul num d w ;; v <- t_add num va e ;; Ok (v, t'))
        (d <- t_sub num' vb' vc' ;; e <- t_mul num' d w' ;; v <- t_add num' va' e ;; Ok (v, t'))).
      destruct (t_sub num vb vc) as [d| |], (t_sub num' vb' vc') as [d'| |]; cbn [bind orel] in *; try contradiction; try exact ST;
      try (destruct (t_mul num d w) as [e| |]; cbn [bind orel] in *; try contradiction; try exact ST;
           try (destruct (t_add num va e) as [v| |]; cbn [bind orel] in *; try contradiction; try exact ST));
      try (destruct (t_mul num' d' w') as [e'| |]; cbn [bind orel] in *; try contradiction; try exact ST;
           try (destruct (t_add num' va' e') as [v'| |]; cbn [bind orel] in *; try contradiction; try exact ST)).
      split; [exact ST|reflexivity].
    + eapply orel_bind; [apply equiv_pop_at, HP|]. intros v v' Hv. split; [exact Hv|reflexivity].
Qed.

Definition states (a : list (array T N) * S * C) (b : list (array T' N) * S * C') : Prop :=
  pops (fst (fst a)) (fst (fst b)) /\ snd (fst a) = snd (fst b) /\ RC (snd a) (snd b).

Lemma equiv_iteration fuel i a b : states a b ->
  orel states (de_iteration num rng cmp fuel p w i a) (de_iteration num' rng' cmp' fuel p w' i b).
Proof.
  destruct a as [[pop s] c], b as [[pop' s'] c']. intros (HP & E & HC). cbn [fst snd] in *. subst s'. unfold de_iteration.
  rewrite <- (Forall2_length _ _ _ HP). rewrite equiv_reject.
  eapply orel_bind; [apply (orel_refl eq); reflexivity|]. intros [j s1] ? <-. rewrite equiv_reject.
  eapply orel_bind; [apply (orel_refl eq); reflexivity|]. intros [k s2] ? <-. rewrite equiv_reject.
  eapply orel_bind; [apply (orel_refl eq); reflexivity|]. intros [l s3] ? <-. rewrite (co_index _ _ _ _ _ _ _ _ _ _ _ _ _ H).
  eapply orel_bind; [apply (orel_refl eq); reflexivity|]. intros [r s4] ? <-.
  eapply orel_bind; [apply equiv_trial, HP|]. intros [x s5] [x' s5'] [Hx E]. cbn [fst snd] in *. subst s5'.
  eapply orel_bind; [apply orel_vget, HP|]. intros y y' Hy.
  eapply orel_bind; [apply (co_compare _ _ _ _ _ _ _ _ _ _ _ _ _ H); assumption|]. intros [b1 d1] [b2 d2] [E Hd]. cbn [fst snd] in *. subst b2.
  destruct b1.
  - eapply orel_bind; [apply orel_vset; eassumption|]. intros q q' Hq. repeat split; assumption.
  - repeat split; assumption.
Qed.

Lemma equiv_greedy fuel iters a b : states a b ->
  orel states (de_greedy num rng cmp fuel p w iters a) (de_greedy num' rng' cmp' fuel p w' iters b).
Proof.
  intros HS. unfold de_greedy. rewrite <- (Forall2_length _ _ _ (proj1 HS)).
  apply orel_for_each; [exact HS|]. intros; apply equiv_iteration; assumption.
Qed.

Definition finals (a : list (array T N) * C) (b : list (array T' N) * C') : Prop := pops (fst a) (fst b) /\ RC (snd a) (snd b).
Lemma equiv_round (pop : list (array T N)) (pop' : list (array T' N)) c c' : pops pop pop' -> RC c c' ->
  orel finals (de_knockout_round cmp pop c) (de_knockout_round cmp' pop' c').
Proof.
  intros HP HC. unfold de_knockout_round. rewrite <- (Forall2_length _ _ _ HP). apply orel_for_each; [split; assumption|].
  intros i [q d] [q' d'] [Hq Hd]. cbn [fst snd] in *.
  eapply orel_bind; [apply orel_vget, Hq|]. intros x x' Hx.
  eapply orel_bind; [apply orel_vget, Hq|]. intros y y' Hy.
  eapply orel_bind; [apply (co_compare _ _ _ _ _ _ _ _ _ _ _ _ _ H); assumption|]. intros [b e] [b' e'] [E He]. cbn [fst snd] in *. subst b'.
  eapply (orel_bind (Forall2 coords)).
  - destruct b; [|exact Hq]. eapply orel_bind; [apply orel_vget, Hq|]. intros z z' Hz. apply orel_vset; assumption.
  - intros q1 q1' Hq1. eapply (orel_bind (Forall2 coords)).
    + destruct (_ =? 1); [|exact Hq1]. eapply orel_bind; [apply orel_vget, Hq1|]. intros z z' Hz. apply orel_vset; assumption.
    + intros q2 q2' Hq2. split; assumption.
Qed.
Lemma equiv_knockout fuel : forall pop pop' c c', pops pop pop' -> RC c c' ->
  orel finals (de_knockout cmp fuel pop c) (de_knockout cmp' fuel pop' c').
Proof.
  induction fuel as [|fuel IH]; intros pop pop' c c' HP HC; cbn [de_knockout]; rewrite <- (Forall2_length _ _ _ HP);
    destruct (1 <? length pop); try exact I; try (split; assumption).
  eapply orel_bind; [apply equiv_round; eassumption|]. intros [q d] [q' d'] [Hq Hd]. cbn [fst snd] in *.
  apply IH; [apply Forall2_firstn, Hq|exact Hd].
Qed.

Lemma equiv_optimize fuel size iters s c c' : RC c c' ->
  orel (fun a b => coords (fst (fst a)) (fst (fst b)) /\ snd (fst a) = snd (fst b) /\ RC (snd a) (snd b))
    (de_optimize num rng cmp fuel bounds size p w iters s c) (de_optimize num' rng' cmp' fuel bounds' size p w' iters s c').
Proof.
  intros HC. unfold de_optimize.
  rewrite (co_probability _ _ _ _ _ _ _ _ _ _ _ _ _ H), (co_weight _ _ _ _ _ _ _ _ _ _ _ _ _ H).
  eapply orel_bind; [apply (orel_refl eq); reflexivity|]. intros _ _ _.
  eapply orel_bind; [apply (orel_refl eq); reflexivity|]. intros _ _ _.
  eapply orel_bind; [apply (orel_refl eq); reflexivity|]. intros _ _ _.
  eapply orel_bind; [apply equiv_population|]. intros [pop s1] [pop' s1'] [HP E]. cbn [fst snd] in *. subst s1'.
  eapply orel_bind; [apply equiv_greedy; repeat split; assumption|].
  intros [[q s2] d] [[q' s2'] d'] (Hq & E & Hd). cbn [fst snd] in *. subst s2'. rewrite <- (Forall2_length _ _ _ Hq).
  eapply orel_bind; [apply equiv_knockout; assumption|]. intros [q1 e] [q1' e'] [Hq1 He]. cbn [fst snd] in *.
  eapply orel_bind; [apply orel_vget, Hq1|]. intros best best' Hb. repeat split; assumption.
Qed.
End Equiv.
