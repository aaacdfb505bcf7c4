(** The reach of differential evolution and its use of the generator. *)
From Coq Require Import List Arith Lia Bool.
From Verif Require Import Base.Outcome Base.Array Base.Wp Model.DiffEvo Spec.DiffEvo Spec.DiffEvoMore
  Proofs.DiffEvoProofs Proofs.DiffEvoSim Proofs.DiffEvoMore.
Import ListNotations.

Lemma nth_error_Some_lt {A} (l : list A) i x : nth_error l i = Some x -> i < length l.
Proof. intros H. apply nth_error_Some. congruence. Qed.

Section Growth.
Context {T F S : Type} (num : de_num T F) (rng : de_rng T F S) {N : nat}.
Notation cand := (array T N).

(** Sets that grow with the number of iterations. *)
Lemma evolves_graded (P : nat -> nat -> T -> Prop) p w :
  (forall m n v, P m n v -> P (Datatypes.S m) n v) ->
  (forall m n, one_step num w (P m n) (P (Datatypes.S m) n)) ->
  forall t (pop : list cand) log pop', evolves num rng p w t pop log pop' ->
  forall m, Forall (all_coords (P m)) pop ->
  Forall (all_coords (P (m + length log))) pop' /\
  forall i x y b, nth_error log i = Some (x, y, b) ->
    all_coords (P (m + i)) y /\ all_coords (P (Datatypes.S (m + i))) x.
Proof.
  intros Hmono Hstep. induction 1 as [t pop|t pop x y b log pop' Hy Hx Hev IH]; intros m Hpop.
  - simpl. rewrite Nat.add_0_r. split; [exact Hpop|]. intros [|i] x y b H; discriminate H.
  - assert (Hcoord : forall j n v, coord pop j n v -> P m n v).
    { intros j n v (z & Hz & Hv). rewrite Forall_forall in Hpop. apply nth_error_In in Hz.
      exact (Hpop z Hz n v Hv). }
    assert (HxP : all_coords (P (Datatypes.S m)) x).
    { intros n v Hv. destruct Hx as (j & k & l & r & u & _ & _ & _ & _ & _ & _ & _ & Hx).
      assert (Hn : n < N).
      { apply (nth_error_Some_lt) in Hv. rewrite entries_length in Hv. exact Hv. }
      destruct (Hx n Hn) as (v' & Hv' & Hb). rewrite Hv in Hv'. injection Hv' as <-.
      destruct ((n =? r) || p_ltb num (u n) p)%bool.
      - destruct Hb as (a & b0 & c & d & e & Ha & Hb & Hc & E1 & E2 & E3).
        exact (Hstep m n a b0 c d e v (Hcoord _ _ _ Ha) (Hcoord _ _ _ Hb) (Hcoord _ _ _ Hc) E1 E2 E3).
      - apply Hmono. eauto. }
    assert (Hpop' : Forall (all_coords (P (Datatypes.S m))) (if b then list_upd pop (t mod length pop) x else pop)).
    { assert (H0 : Forall (all_coords (P (Datatypes.S m))) pop).
      { eapply Forall_impl; [|exact Hpop]. intros z Hz n v Hv. apply Hmono, Hz, Hv. }
      destruct b; [|exact H0]. rewrite Forall_forall in H0 |- *. intros z Hz.
      apply In_nth_error in Hz as [i Hi]. rewrite nth_error_list_upd in Hi.
      destruct ((i =? t mod length pop) && (t mod length pop <? length pop)).
      - injection Hi as <-. exact HxP.
      - apply nth_error_In in Hi. auto. }
    destruct (IH (Datatypes.S m) Hpop') as [IH1 IH2]. cbn [length]. rewrite <- Nat.add_succ_comm.
    split; [exact IH1|]. intros [|i] x1 y1 b1 H.
    + simpl in H. injection H as <- <- <-. rewrite Nat.add_0_r. split; [|exact HxP].
      intros n v Hv. eapply Hcoord. exists y. eauto.
    + simpl in H. rewrite <- Nat.add_succ_comm. eauto.
Qed.

Lemma history_graded (P : nat -> nat -> T -> Prop) (bounds : array (T * T) N) size p w iters log start final best :
  contains_start rng bounds (P 0) ->
  (forall m n v, P m n v -> P (Datatypes.S m) n v) ->
  (forall m n, one_step num w (P m n) (P (Datatypes.S m) n)) ->
  run_history num rng bounds size p w iters log start final best ->
  all_coords (P iters) best /\
  (forall i x y b, nth_error log i = Some (x, y, b) -> i < iters ->
     all_coords (P i) y /\ all_coords (P (Datatypes.S i)) x) /\
  (forall i x y b, nth_error log i = Some (x, y, b) -> iters <= i ->
     all_coords (P iters) y /\ all_coords (P iters) x).
Proof.
  intros H0 Hmono Hstep (log1 & log2 & -> & Hl & Hst & <- & Hev & Hko).
  assert (Hs : Forall (all_coords (P 0)) start).
  { eapply Forall_impl; [|exact Hst]. intros x Hx n v Hv.
    assert (Hn : n < N) by (apply nth_error_Some_lt in Hv; rewrite entries_length in Hv; exact Hv).
    destruct (Hx n Hn) as (lo & hi & v' & s & s' & Hb & Hg & Hv'). rewrite Hv in Hv'. injection Hv' as <-.
    eapply H0; eassumption. }
  destruct (evolves_graded P p w Hmono Hstep _ _ _ _ Hev 0 Hs) as [G1 G2]. simpl in G1, G2.
  destruct (knockout_in _ _ _ Hko) as [K1 K2]. rewrite Forall_forall in G1.
  split; [apply G1, K1|]. split.
  - intros i x y b Hi Hlt. rewrite nth_error_app1 in Hi by exact Hlt. eapply G2, Hi.
  - intros i x y b Hi Hge. rewrite nth_error_app2 in Hi by exact Hge.
    apply nth_error_In in Hi. apply K2 in Hi as [Hx Hy]. auto.
Qed.
End Growth.

(** ** The requests *)

Section Requests.
Context {T F S C : Type} (num : de_num T F) (rng : de_rng T F S) {N : nat}.
Notation cand := (array T N).
Context (cmp : C -> cand -> cand -> outcome (bool * C)).
Notation req := (request T).

Lemma index_logged n s l v s' l' : gen_index (logged rng) n (s, l) = Ok (v, (s', l')) ->
  l' = l ++ [AskIndex n].
Proof. simpl. intros H. apply bind_Ok_inv in H as ([v0 s0] & _ & H). congruence. Qed.

Lemma value_logged lo hi s l v s' l' : gen_value (logged rng) lo hi (s, l) = Ok (v, (s', l')) ->
  l' = l ++ [AskValue lo hi].
Proof. simpl. intros H. apply bind_Ok_inv in H as ([v0 s0] & _ & H). congruence. Qed.

Lemma unit_logged s l v s' l' : gen_unit (logged rng) (s, l) = Ok (v, (s', l')) -> l' = l ++ [AskUnit].
Proof. simpl. intros H. apply bind_Ok_inv in H as ([v0 s0] & _ & H). congruence. Qed.

(** [array_from_fn] when call [i] adds [f i] to the log. *)
Lemma from_fn_logged {A} (f : nat -> list req) (body : nat -> S * list req -> outcome (A * (S * list req))) :
  forall m i0, (forall i s l v s' l', i0 <= i < i0 + m -> body i (s, l) = Ok (v, (s', l')) -> l' = l ++ f i) ->
  forall s l (xs : array A m) s' l', array_from_fn m i0 body (s, l) = Ok (xs, (s', l')) ->
  l' = l ++ concat (map f (seq i0 m)).
Proof.
  induction m as [|m IH]; intros i0 Hb s l xs s' l' H; simpl in H.
  - injection H as _ _ <-. simpl. rewrite app_nil_r. reflexivity.
  - apply bind_Ok_inv in H as ([v [s1 l1]] & H1 & H).
    apply bind_Ok_inv in H as ([ys [s2 l2]] & H2 & H). injection H as _ _ <-.
    apply Hb in H1; [|lia]. apply IH in H2; [|intros; eapply Hb; [lia|eassumption]].
    simpl. rewrite H2, H1, <- app_assoc. reflexivity.
Qed.

Lemma concat_singletons {A B} (f : A -> B) l : concat (map (fun x => [f x]) l) = map f l.
Proof. induction l; simpl; congruence. Qed.

Lemma initial_candidate_logged bounds s l x s' l' :
  de_initial_candidate (logged rng) (N := N) bounds (s, l) = Ok (x, (s', l')) ->
  l' = l ++ start_requests bounds.
Proof.
  unfold de_initial_candidate. intros H.
  set (f := fun i => match nth_error (entries bounds) i with
                     | Some (lo, hi) => [AskValue lo hi] | None => [] end).
  apply (from_fn_logged f) in H.
  - rewrite H. f_equal. unfold start_requests, f.
    assert (G : forall (L : list (T * T)) i0 b, (forall i, nth_error b (i0 + i) = nth_error L i) ->
       concat (map (fun i => match nth_error b i with Some (lo, hi) => [AskValue lo hi] | None => [] end)
                 (seq i0 (length L))) = map (fun '(lo, hi) => AskValue lo hi) L).
    { induction L as [|[lo hi] L IH]; intros i0 b Hb; [reflexivity|]. cbn [length seq map concat].
      pose proof (Hb 0) as H0. rewrite Nat.add_0_r in H0. rewrite H0. simpl. f_equal.
      apply IH. intros i. rewrite Nat.add_succ_comm. apply (Hb (Datatypes.S i)). }
    rewrite <- (G (entries bounds) 0 (entries bounds)) by reflexivity.
    rewrite entries_length. reflexivity.
  - intros i s0 l0 v s0' l0' Hi H0. apply bind_Ok_inv in H0 as ([lo hi] & Hg & H0).
    apply value_logged in H0. subst l0'. unfold f, array_get, vget in *.
    destruct (nth_error (entries bounds) i) as [[lo' hi']|]; [|discriminate Hg]. injection Hg as -> ->. reflexivity.
Qed.

Lemma initial_population_logged bounds size : forall s l pop s' l',
  de_initial_population (logged rng) (N := N) bounds size (s, l) = Ok (pop, (s', l')) ->
  l' = l ++ concat (repeat (start_requests bounds) size) /\ length pop = size.
Proof.
  induction size as [|size IH]; intros s l pop s' l' H; simpl in H.
  - injection H as <- _ <-. simpl. rewrite app_nil_r. auto.
  - apply bind_Ok_inv in H as ([x [s1 l1]] & H1 & H).
    apply bind_Ok_inv in H as ([xs [s2 l2]] & H2 & H). injection H as <- _ <-.
    apply initial_candidate_logged in H1. apply IH in H2 as [H2 H3].
    simpl. rewrite H2, H1, <- app_assoc. auto.
Qed.

Lemma reject_logged fuel len excl : forall s l v s' l',
  de_reject (logged rng) fuel len excl (s, l) = Ok (v, (s', l')) ->
  exists k, 1 <= k /\ l' = l ++ repeat (AskIndex len) k.
Proof.
  induction fuel as [|fuel IH]; intros s l v s' l' H; [discriminate H|].
  cbn [de_reject] in H. apply bind_Ok_inv in H as ([x [s1 l1]] & H1 & H). apply index_logged in H1.
  destruct (existsb (Nat.eqb x) excl).
  - apply IH in H as (k & Hk & ->). exists (Datatypes.S k). split; [lia|].
    rewrite H1, <- app_assoc. reflexivity.
  - injection H as _ _ <-. exists 1. auto.
Qed.

Lemma trial_logged p w (pop : list cand) i j k l0 r s l x s' l' : r < N ->
  de_trial num (logged rng) p w pop i j k l0 r (s, l) = Ok (x, (s', l')) ->
  l' = l ++ repeat AskUnit (N - 1).
Proof.
  intros Hr H. unfold de_trial in H.
  apply (from_fn_logged (fun n => if n =? r then [] else [AskUnit])) in H.
  - rewrite H. f_equal.
    assert (G : forall m i0, concat (map (fun n => if n =? r then [] else [AskUnit]) (seq i0 m))
       = repeat (@AskUnit T) (m - if (i0 <=? r) && (r <? i0 + m) then 1 else 0)).
    { clear. induction m as [|m IH]; intros i0; [reflexivity|].
      cbn [seq map concat]. rewrite IH.
      destruct (Nat.eqb_spec i0 r) as [->|Hne].
      - rewrite Nat.leb_refl. replace (r <? r + Datatypes.S m) with true by (symmetry; apply Nat.ltb_lt; lia).
        replace (Datatypes.S r <=? r) with false by (symmetry; apply Nat.leb_gt; lia). simpl.
        rewrite !Nat.sub_0_r. reflexivity.
      - destruct (Nat.leb_spec i0 r), (Nat.ltb_spec r (i0 + Datatypes.S m)),
          (Nat.leb_spec (Datatypes.S i0) r), (Nat.ltb_spec r (Datatypes.S i0 + m)); try lia;
          cbn [andb app]; rewrite ?Nat.sub_0_r; try reflexivity.
        destruct m; [lia|]. simpl. rewrite ?Nat.sub_0_r. reflexivity. }
    rewrite G. replace ((0 <=? r) && (r <? 0 + N)) with true; [reflexivity|].
    symmetry. apply andb_true_iff. split; [reflexivity|]. apply Nat.ltb_lt. exact Hr.
  - intros n s0 l1 v s0' l0' _ H0. apply bind_Ok_inv in H0 as ([take [s1 l2]] & H1 & H0).
    assert (E : l0' = l2).
    { destruct take.
      - repeat (apply bind_Ok_inv in H0 as (? & _ & H0)). congruence.
      - apply bind_Ok_inv in H0 as (? & _ & H0). congruence. }
    subst l0'. destruct (n =? r).
    + injection H1 as _ _ <-. rewrite app_nil_r. reflexivity.
    + apply bind_Ok_inv in H1 as ([u [s2 l3]] & H1 & H2). apply unit_logged in H1. congruence.
Qed.

Context (Hr : index_in_range rng).

Lemma iteration_logged fuel p w i (pop : list cand) s l c pop' s' l' c' :
  de_iteration num (logged rng) cmp fuel p w i (pop, (s, l), c) = Ok (pop', (s', l'), c') ->
  length pop' = length pop /\ exists b, iteration_requests (length pop) N b /\ l' = l ++ b.
Proof.
  unfold de_iteration. intros H.
  apply bind_Ok_inv in H as ([j [s1 l1]] & H1 & H). apply reject_logged in H1 as (k1 & K1 & ->).
  apply bind_Ok_inv in H as ([k [s2 l2]] & H2 & H). apply reject_logged in H2 as (k2 & K2 & ->).
  apply bind_Ok_inv in H as ([l0 [s3 l3]] & H3 & H). apply reject_logged in H3 as (k3 & K3 & ->).
  apply bind_Ok_inv in H as ([r [s4 l4]] & H4 & H). pose proof H4 as H4'. apply index_logged in H4 as ->.
  apply bind_Ok_inv in H as ([x [s5 l5]] & H5 & H). apply trial_logged in H5 as ->.
  2:{ simpl in H4'. apply bind_Ok_inv in H4' as ([v0 s0] & G & E). injection E as <- _. eapply Hr; exact G. }
  apply bind_Ok_inv in H as (y & H6 & H). apply bind_Ok_inv in H as ([b c0] & H7 & H).
  assert (E : length pop' = length pop /\ l' = (((((l ++ repeat (AskIndex (length pop)) k1) ++ repeat (AskIndex (length pop)) k2) ++
     repeat (AskIndex (length pop)) k3) ++ [AskIndex N]) ++ repeat AskUnit (N - 1))).
  { destruct b.
    - apply bind_Ok_inv in H as (pop1 & H8 & H). injection H as <- _ <- _. split; [|reflexivity].
      unfold vset in H8. destruct (i <? length pop); [|discriminate H8]. injection H8 as <-. apply list_upd_length.
    - injection H as <- _ <- _. auto. }
  destruct E as [E1 ->]. split; [exact E1|].
  exists (repeat (AskIndex (length pop)) (k1 + k2 + k3) ++ [AskIndex N] ++ repeat AskUnit (N - 1)). split.
  - exists (k1 + k2 + k3). split; [lia|reflexivity].
  - rewrite !repeat_app, <- !app_assoc. reflexivity.
Qed.

Lemma greedy_logged fuel p w idx : forall (pop : list cand) s l c pop' s' l' c',
  for_each (de_iteration num (logged rng) cmp fuel p w) idx (pop, (s, l), c) = Ok (pop', (s', l'), c') ->
  exists blocks, length blocks = length idx /\ Forall (iteration_requests (length pop) N) blocks /\
    l' = l ++ concat blocks.
Proof.
  induction idx as [|i idx IH]; intros pop s l c pop' s' l' c' H; cbn [for_each] in H.
  - injection H as _ _ <- _. exists []. rewrite app_nil_r. auto.
  - apply bind_Ok_inv in H as ([[pop1 [s1 l1]] c1] & H1 & H).
    apply iteration_logged in H1 as (E & b & Hb & ->).
    apply IH in H as (bs & Hbs & HF & ->). rewrite E in HF.
    exists (b :: bs). split; [simpl; congruence|]. split; [constructor; assumption|].
    simpl. rewrite app_assoc. reflexivity.
Qed.

Lemma optimize_logged fuel bounds size p w iters s c best s' l' c' :
  de_optimize num (logged rng) cmp fuel bounds size p w iters (s, []) c = Ok (best, (s', l'), c') ->
  exists blocks, length blocks = iters /\ Forall (iteration_requests size N) blocks /\
    l' = concat (repeat (start_requests bounds) size) ++ concat blocks.
Proof.
  intros H. apply optimize_inv in H as (Hs & start & [s1 l1] & final & [s2 l2] & c2 & fin & A1 & A2 & A3 & A4 & E).
  injection E as <- <-. apply initial_population_logged in A1 as [-> Hl].
  unfold de_greedy in A2. cbn [fst] in A2. rewrite cycle_take_targets in A2 by lia.
  apply greedy_logged in A2 as (bs & Hbs & HF & ->). rewrite map_length, seq_length in Hbs.
  exists bs. rewrite Hl in HF. auto.
Qed.

(** The log does not change anything. *)
Notation lrel := (fun (a : S * list req) (b : S) => fst a = b).
Definition lpair {A} (a : A * (S * list req)) (b : A * S) : Prop := fst a = fst b /\ fst (snd a) = snd b.

Lemma index_faithful n s l : orel lpair (gen_index (logged rng) n (s, l)) (gen_index rng n s).
Proof. simpl. destruct (gen_index rng n s) as [[v s']| |]; simpl; auto. split; reflexivity. Qed.
Lemma value_faithful lo hi s l : orel lpair (gen_value (logged rng) lo hi (s, l)) (gen_value rng lo hi s).
Proof. simpl. destruct (gen_value rng lo hi s) as [[v s']| |]; simpl; auto. split; reflexivity. Qed.
Lemma unit_faithful s l : orel lpair (gen_unit (logged rng) (s, l)) (gen_unit rng s).
Proof. simpl. destruct (gen_unit rng s) as [[v s']| |]; simpl; auto. split; reflexivity. Qed.

Lemma from_fn_faithful {A} b1 b2 :
  (forall i s l, orel (@lpair A) (b1 i (s, l)) (b2 i s)) ->
  forall m i0 s l, orel (@lpair (array A m)) (array_from_fn m i0 b1 (s, l)) (array_from_fn m i0 b2 s).
Proof.
  intros Hb. induction m as [|m IH]; intros i0 s l; simpl; [split; reflexivity|].
  eapply orel_bind; [apply Hb|]. intros [x [s1 l1]] [x' s1'] [E1 E2]. simpl in E1, E2. subst x' s1'.
  eapply orel_bind; [apply IH|]. intros [y [s2 l2]] [y' s2'] [E1 E2]. simpl in E1, E2. subst y' s2'.
  split; reflexivity.
Qed.

Lemma population_faithful bounds size : forall s l,
  orel lpair (de_initial_population (logged rng) (N := N) bounds size (s, l)) (de_initial_population rng bounds size s).
Proof.
  induction size as [|size IH]; intros s l; simpl; [split; reflexivity|].
  eapply orel_bind.
  { apply from_fn_faithful. intros i s0 l0. eapply orel_bind; [apply (orel_refl eq); reflexivity|].
    intros [lo hi] ? <-. apply value_faithful. }
  intros [x [s1 l1]] [x' s1'] [E1 E2]. simpl in E1, E2. subst x' s1'.
  eapply orel_bind; [apply IH|]. intros [y [s2 l2]] [y' s2'] [E1 E2]. simpl in E1, E2. subst y' s2'.
  split; reflexivity.
Qed.

Lemma reject_faithful fuel len excl : forall s l,
  orel lpair (de_reject (logged rng) fuel len excl (s, l)) (de_reject rng fuel len excl s).
Proof.
  induction fuel as [|fuel IH]; intros s l; cbn [de_reject]; [exact I|].
  eapply orel_bind; [apply index_faithful|]. intros [x [s1 l1]] [x' s1'] [E1 E2]. simpl in E1, E2. subst x' s1'.
  destruct (existsb (Nat.eqb x) excl); [apply IH|split; reflexivity].
Qed.

Definition lstate (a : list cand * (S * list req) * C) (b : list cand * S * C) : Prop :=
  fst (fst a) = fst (fst b) /\ fst (snd (fst a)) = snd (fst b) /\ snd a = snd b.

Lemma iteration_faithful fuel p w i a b : lstate a b ->
  orel lstate (de_iteration num (logged rng) cmp fuel p w i a) (de_iteration num rng cmp fuel p w i b).
Proof.
  destruct a as [[pop [s l]] c], b as [[pop' s'] c']. intros (E1 & E2 & E3). simpl in E1, E2, E3.
  subst pop' s' c'. unfold de_iteration.
  eapply orel_bind; [apply reject_faithful|]. intros [j [s1 l1]] [? ?] [E1 E2]. simpl in E1, E2. subst.
  eapply orel_bind; [apply reject_faithful|]. intros [k [s2 l2]] [? ?] [E1 E2]. simpl in E1, E2. subst.
  eapply orel_bind; [apply reject_faithful|]. intros [l0 [s3 l3]] [? ?] [E1 E2]. simpl in E1, E2. subst.
  eapply orel_bind; [apply index_faithful|]. intros [r [s4 l4]] [? ?] [E1 E2]. simpl in E1, E2. subst.
  eapply orel_bind.
  { apply from_fn_faithful. intros m s9 l9.
    eapply (orel_bind (@lpair bool)).
    { destruct (m =? _); [split; reflexivity|].
      eapply orel_bind; [apply unit_faithful|]. intros [u [s6 l6]] [? ?] [E1 E2]. simpl in E1, E2. subst.
      split; reflexivity. }
    intros [t [s6 l6]] [? ?] [E1 E2]. simpl in E1, E2. subst. destruct b.
    - do 6 (eapply orel_bind; [apply (orel_refl eq); reflexivity|]; intros ? ? <-). split; reflexivity.
    - eapply orel_bind; [apply (orel_refl eq); reflexivity|]; intros ? ? <-. split; reflexivity. }
  intros [x [s5 l5]] [? ?] [E1 E2]. simpl in E1, E2. subst.
  eapply orel_bind; [apply (orel_refl eq); reflexivity|]; intros y ? <-.
  eapply orel_bind; [apply (orel_refl eq); reflexivity|]; intros [b c0] ? <-.
  destruct b; [|repeat split].
  eapply orel_bind; [apply (orel_refl eq); reflexivity|]; intros pop1 ? <-. repeat split.
Qed.

Lemma optimize_faithful fuel bounds size p w iters s l c :
  orel (fun a b => fst (fst a) = fst (fst b) /\ fst (snd (fst a)) = snd (fst b) /\ snd a = snd b)
    (de_optimize num (logged rng) cmp fuel bounds size p w iters (s, l) c)
    (de_optimize num rng cmp fuel bounds size p w iters s c).
Proof.
  unfold de_optimize.
  do 3 (eapply orel_bind; [apply (orel_refl eq); reflexivity|]; intros _ _ _).
  eapply orel_bind; [apply population_faithful|]. intros [pop [s1 l1]] [? ?] [E1 E2]. simpl in E1, E2. subst.
  eapply (orel_bind lstate).
  { unfold de_greedy. cbn [fst]. apply orel_for_each; [repeat split|]. intros; apply iteration_faithful; assumption. }
  intros [[pop1 [s2 l2]] c1] [[? ?] ?] (E1 & E2 & E3). simpl in E1, E2, E3. subst.
  eapply orel_bind; [apply (orel_refl eq); reflexivity|]. intros [pop2 c2] ? <-.
  eapply orel_bind; [apply (orel_refl eq); reflexivity|]. intros best ? <-. repeat split.
Qed.
End Requests.
