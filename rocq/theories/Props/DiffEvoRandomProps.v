(** C76: differential evolution with an ideal source of randomness.  Probabilities are proportions of the
    K^m tapes of m words below K. *)
From Coq Require Import List Arith Lia Bool Reals Lra.
From Verif Require Import Base.Outcome Base.Array Base.Wp Model.DiffEvo Spec.DiffEvoRandom
  Proofs.DiffEvoRandom Proofs.DonorCount.
From Verif Require Import Model.Float Props.DiffEvoProps.
Import ListNotations.
Open Scope nat_scope.

(** With probability 1 the optimizer ends: it returns or panics.  Needed: arithmetic, sampling of values and
    the comparator end, and every index below the population size is the answer to some word. *)
Theorem C76_terminates_almost_surely (T F C : Type) (K : nat) (num : de_num T F) (idx : nat -> nat -> nat)
  (val : T -> T -> nat -> outcome T) (un : nat -> F) N (cmp : C -> array T N -> array T N -> outcome (bool * C))
  bounds size p w iters c :
  0 < K ->
  (forall a b, t_add num a b <> Diverge) -> (forall a b, t_sub num a b <> Diverge) -> (forall a b, t_mul num a b <> Diverge) ->
  (forall lo hi w, val lo hi w <> Diverge) -> (forall c x y, cmp c x y <> Diverge) ->
  (4 <= size -> forall x, x < size -> exists w, w < K /\ idx size w = x) ->
  ends_almost_surely K (fun t => de_optimize num (tape_rng idx val un) cmp (S (length t)) bounds size p w iters t c).
Proof. intros. apply optimize_ends; assumption. Qed.

(** What an iteration does with the tape: it draws the donors, then the forced coordinate, then the trial. *)
Theorem C76_iteration (T F C : Type) (num : de_num T F) (idx : nat -> nat -> nat)
  (val : T -> T -> nat -> outcome T) (un : nat -> F) N (cmp : C -> array T N -> array T N -> outcome (bool * C))
  (pop : list (array T N)) p w i t c :
  0 < length pop -> (forall x, idx (length pop) x = x) ->
  de_iteration num (tape_rng idx val un) cmp (S (length t)) p w i (pop, t, c) =
  (' (j, k, l, t1) <- donors (length pop) i t ;;
   ' (r, t2) <- gen_index (tape_rng (T := T) (F := F) idx val un) N t1 ;;
   ' (x, t3) <- de_trial num (tape_rng idx val un) p w pop i j k l r t2 ;;
   y <- vget pop i ;;
   ' (better, c') <- cmp c x y ;;
   if (better : bool) then pop' <- vset pop i x ;; Ok (pop', t3, c') else Ok (pop, t3, c'))%oc.
Proof.
  intros Hn Hid.
  assert (E : forall f excl t, de_reject (tape_rng (T := T) (F := F) idx val un) f (length pop) excl t =
     de_reject (tape_rng (T := unit) (F := unit) (fun _ w => w) (fun _ _ _ => Ok tt) (fun _ => tt)) f (length pop) excl t).
  { induction f as [|f IH]; intros excl u; [reflexivity|]. cbn [de_reject gen_index tape_rng].
    destruct (length pop =? 0); [reflexivity|]. destruct u as [|x u]; [reflexivity|]. cbn [bind]. rewrite Hid.
    destruct (existsb (Nat.eqb x) excl); [apply IH|reflexivity]. }
  unfold de_iteration, donors, draw_donors. cbv zeta. rewrite E.
  destruct (de_reject _ _ _ [i] t) as [[j t1]| |]; try reflexivity. cbn [bind]. rewrite E.
  destruct (de_reject _ _ _ [i; j] t1) as [[k t2]| |]; try reflexivity. cbn [bind]. rewrite E.
  destruct (de_reject _ _ _ [i; j; k] t2) as [[l t3]| |]; reflexivity.
Qed.

(** Every triple of donors that is allowed is equally likely: of the tapes that decide, each of the
    (n-1)(n-2)(n-3) triples gets the same number. *)
Theorem C76_donors_uniform n i j k l m : 4 <= n -> i < n -> distinct_donors n i j k l ->
  (n - 1) * (n - 2) * (n - 3) * count (donors_are n i j k l) (tapes n m) + count (undecided (donors n i)) (tapes n m) = n ^ m.
Proof.
  intros H4 Hi (Hj & Hk & Hl & HN). rewrite <- (sum1 n m) by lia. f_equal.
  - f_equal. rewrite <- (count_r1 n i j k l m).
    + apply count_ext. intros t _. pose proof (donors_view n i t ltac:(lia)) as V. unfold donors_are.
      destruct (donors n i t) as [[[[j' k'] l'] t']| |]; [rewrite V; reflexivity|contradiction|rewrite V; reflexivity].
    + repeat match goal with HH : NoDup (_ :: _) |- _ => inversion HH; clear HH; subst end. simpl in *. nodup.
    + intros x [<-|[<-|[<-|[<-|[]]]]]; assumption.
  - rewrite <- (count_u1 n i m Hi). apply count_ext. intros t _. pose proof (donors_view n i t ltac:(lia)) as V. unfold undecided.
    destruct (donors n i t) as [[[[j' k'] l'] t']| |]; [rewrite V; reflexivity|contradiction|rewrite V; reflexivity].
Qed.

(** No other triple is ever chosen. *)
Theorem C76_donors_only n i t j k l t' : 4 <= n -> (forall x, In x t -> x < n) ->
  donors n i t = Ok (j, k, l, t') -> distinct_donors n i j k l.
Proof.
  intros H4 Ht E. pose proof (donors_view n i t ltac:(lia)) as V. rewrite E in V. clear E t'.
  assert (RJ : forall excl u x u', rej excl u = Some (x, u') -> ~ In x excl /\ In x u /\ incl u' u).
  { intros excl u; induction u as [|a u IH]; intros x u'; simpl; [discriminate|]. destruct (existsb _ _) eqn:X.
    - intros H. apply IH in H as (A & B & D). split; [exact A|]. split; [right; exact B|]. intros y Hy. right. apply D, Hy.
    - intros H. injection H as <- <-. split; [|split; [left; reflexivity|intros y Hy; right; exact Hy]].
      intros Hin. assert (existsb (Nat.eqb a) excl = true); [|congruence]. apply existsb_exists. exists a. split; [exact Hin|apply Nat.eqb_refl]. }
  unfold d1, d2, d3 in V.
  destruct (rej [i] t) as [[j1 t1]|] eqn:E1; [|discriminate]. apply RJ in E1 as (A1 & B1 & D1).
  destruct (rej [i; j1] t1) as [[k1 t2]|] eqn:E2; [|discriminate]. apply RJ in E2 as (A2 & B2 & D2).
  destruct (rej [i; j1; k1] t2) as [[l1 t3]|] eqn:E3; [|discriminate]. apply RJ in E3 as (A3 & B3 & D3).
  simpl in V. injection V as -> -> ->. split; [|split; [|split]]; auto.
  simpl in *. nodup.
Qed.

(** How likely it is that [m] draws are not enough. *)
Theorem C76_donors_undecided n i m : 4 <= n -> i < n ->
  2 * count (undecided (donors n i)) (tapes n m) + 2 * ((n - 1) * (n - 3)) * 2 ^ m
  = (n - 1) * (n - 2) * 3 ^ m + (n - 2) * (n - 3).
Proof.
  intros H4 Hi. rewrite <- (u1_pow n m) by lia. do 2 f_equal. rewrite <- (count_u1 n i m Hi).
  apply count_ext. intros t _. pose proof (donors_view n i t ltac:(lia)) as V. unfold undecided.
  destruct (donors n i t) as [[[[j' k'] l'] t']| |]; [rewrite V; reflexivity|contradiction|rewrite V; reflexivity].
Qed.

(** The expected number of draws, the sum over m of the probability that m draws are not enough. *)
Theorem C76_expected_draws n i : 4 <= n -> i < n ->
  infinite_sum (fun m => (INR (count (undecided (donors n i)) (tapes n m)) / INR (n ^ m))%R)
    (INR n / INR (n - 1) + INR n / INR (n - 2) + INR n / INR (n - 3))%R.
Proof.
  intros H4 Hi.
  assert (Hn : (4 <= INR n)%R) by (apply (le_INR 4) in H4; simpl in H4; lra).
  assert (N1 : INR (n - 1) = (INR n - 1)%R) by (rewrite minus_INR by lia; reflexivity).
  assert (N2 : INR (n - 2) = (INR n - 2)%R) by (rewrite minus_INR by lia; simpl; ring).
  assert (N3 : INR (n - 3) = (INR n - 3)%R) by (rewrite minus_INR by lia; simpl; ring).
  set (x := INR n) in *.
  assert (G : forall q : R, (0 <= q < 4)%R -> infinite_sum (fun m => (q / x) ^ m)%R (x / (x - q))%R).
  { intros q Hq. replace (x / (x - q))%R with (/ (1 - q / x))%R by (field; lra).
    assert (HA : (Rabs (q / x) < 1)%R); [|
      intros eps He; destruct (GP_infinite (q / x)%R HA eps He) as [M HM]; exists M; intros k Hk;
      rewrite (sum_eq _ (fun m => 1 * (q / x) ^ m)%R) by (intros; ring); apply HM, Hk].
    rewrite Rabs_pos_eq; [apply Rmult_lt_reg_r with x; [lra|]; unfold Rdiv; rewrite Rmult_assoc, Rinv_l by lra; lra|].
    apply Rmult_le_pos; [lra|]. left. apply Rinv_0_lt_compat. lra. }
  set (a := ((x - 1) * (x - 2) / 2)%R). set (b := ((x - 1) * (x - 3))%R). set (e := ((x - 2) * (x - 3) / 2)%R).
  assert (E : forall m, (INR (count (undecided (donors n i)) (tapes n m)) / INR (n ^ m)
     = a * (3 / x) ^ m - b * (2 / x) ^ m + e * (1 / x) ^ m)%R).
  { intros m. pose proof (C76_donors_undecided n i m H4 Hi) as U. apply (f_equal INR) in U.
    rewrite !plus_INR, !mult_INR, !pow_INR, N1, N2, N3 in U. simpl (INR 2) in U. simpl (INR 3) in U.
    fold x in U. rewrite pow_INR. fold x. unfold Rdiv. rewrite !Rpow_mult_distr, pow1, !pow_inv.
    assert (x ^ m <> 0)%R by (apply pow_nonzero; lra).
    replace (INR (count (undecided (donors n i)) (tapes n m))) with (a * 3 ^ m - b * 2 ^ m + e)%R.
    - field. assumption.
    - unfold a, b, e. replace (1 + 1)%R with 2%R in U by ring. replace (2 + 1)%R with 3%R in U by ring. lra. }
  assert (L : infinite_sum (fun m => a * (3 / x) ^ m - b * (2 / x) ^ m + e * (1 / x) ^ m)%R
     (a * (x / (x - 3)) - b * (x / (x - 2)) + e * (x / (x - 1)))%R).
  { pose proof (G 3%R ltac:(lra)) as G3. pose proof (G 2%R ltac:(lra)) as G2. pose proof (G 1%R ltac:(lra)) as G1.
    assert (SC : forall (f : nat -> R) l q, infinite_sum f l -> Un_cv (fun N => q * sum_f_R0 f N)%R (q * l)%R).
    { intros f l q H. apply CV_mult; [|exact H]. intros eps He. exists 0. intros. unfold R_dist. rewrite Rminus_diag_eq, Rabs_R0 by reflexivity. exact He. }
    pose proof (CV_plus _ _ _ _ (CV_minus _ _ _ _ (SC _ _ a G3) (SC _ _ b G2)) (SC _ _ e G1)) as CV.
    intros eps He. destruct (CV eps He) as [M HM]. exists M. intros k Hk. specialize (HM k Hk).
    replace (sum_f_R0 (fun m => a * (3 / x) ^ m - b * (2 / x) ^ m + e * (1 / x) ^ m)%R k)
      with (a * sum_f_R0 (fun m => (3 / x) ^ m) k - b * sum_f_R0 (fun m => (2 / x) ^ m) k + e * sum_f_R0 (fun m => (1 / x) ^ m) k)%R; [exact HM|].
    clear. induction k as [|k IH]; [reflexivity|]. rewrite !tech5, <- IH. ring. }
  replace (x / INR (n - 1) + x / INR (n - 2) + x / INR (n - 3))%R with (a * (x / (x - 3)) - b * (x / (x - 2)) + e * (x / (x - 1)))%R.
  - intros eps He. destruct (L eps He) as [M HM]. exists M. intros k Hk. rewrite (sum_eq _ _ k (fun m _ => E m)). apply HM, Hk.
  - rewrite N1, N2, N3. unfold a, b, e. field. lra.
Qed.

(** A trial reads one word for every coordinate but the forced one, [r], and takes the mutant where the word
    falls below the crossover probability. *)
Theorem C76_crossover (T F : Type) (num : de_num T F) (idx : nat -> nat -> nat)
  (val : T -> T -> nat -> outcome T) (un : nat -> F) N (pop : list (array T N)) p w i j k l r t x t' :
  r < N -> de_trial num (tape_rng idx val un) p w pop i j k l r t = Ok (x, t') ->
  length t = N - 1 + length t' /\
  (forall n, n < N -> array_get x n =
     if nth n (picked (fun v => p_ltb num (un v) p) r N 0 t) false then mutant num w pop j k l n else kept pop i n).
Proof.
  intros Hr. unfold de_trial.
  set (take := fun v => p_ltb num (un v) p).
  set (f := fun n s => _).
  assert (G : forall M n0 u (y : array T M) u', array_from_fn M n0 f u = Ok (y, u') ->
     length u = M - (if (n0 <=? r) && (r <? n0 + M) then 1 else 0) + length u' /\
     forall n, n < M -> array_get y n = if nth n (picked take r M n0 u) false then mutant num w pop j k l (n0 + n) else kept pop i (n0 + n)).
  { induction M as [|M IH]; intros n0 u y u'; cbn [array_from_fn].
    - intros H. injection H as <- <-. split; [reflexivity|]. intros n Hn. lia.
    - intros H. apply bind_Ok_inv in H as ([v u1] & H1 & H). apply bind_Ok_inv in H as ([ys u2] & H2 & H). injection H as <- <-.
      apply IH in H2 as (HL & HV).
      assert (Hd : length u = (if n0 =? r then 0 else 1) + length u1 /\
                   picked take r (S M) n0 u = (if n0 =? r then true else take (nth 0 u 0)) :: picked take r M (S n0) u1 /\
                   Ok v = if (if n0 =? r then true else take (nth 0 u 0)) then mutant num w pop j k l n0 else kept pop i n0).
      { unfold f in H1. cbn [picked]. unfold mutant, kept.
        assert (P : forall u0, (a <- pop_at pop j n0;; b <- pop_at pop k n0;; c <- pop_at pop l n0;;
             d <- t_sub num b c;; e <- t_mul num d w;; v <- t_add num a e;; Ok (v, u0))%oc = Ok (v, u1) ->
            u0 = u1 /\ Ok v = mutant num w pop j k l n0).
        { intros u0 H. unfold pop_at in H. unfold mutant.
          apply bind_Ok_inv in H as (a & -> & H). apply bind_Ok_inv in H as (b & -> & H). apply bind_Ok_inv in H as (c & -> & H).
          apply bind_Ok_inv in H as (d & E1 & H). apply bind_Ok_inv in H as (e & E2 & H). apply bind_Ok_inv in H as (v' & E3 & H).
          injection H as <- <-. split; [reflexivity|]. cbn [bind]. rewrite E1. cbn [bind]. rewrite E2. cbn [bind]. symmetry. exact E3. }
        destruct (n0 =? r).
        - cbn [bind] in H1. apply P in H1 as [-> HV1]. split; [reflexivity|]. split; [reflexivity|]. exact HV1.
        - destruct u as [|w0 u]; [discriminate|]. cbn [gen_unit tape_rng bind] in H1. fold (take w0) in H1. cbn [nth length].
          destruct (take w0).
          + apply P in H1 as [-> HV1]. split; [reflexivity|]. split; [reflexivity|]. exact HV1.
          + unfold pop_at in H1. apply bind_Ok_inv in H1 as (v' & E & H). injection H as <- <-.
            split; [reflexivity|]. split; [reflexivity|]. symmetry. exact E. }
      destruct Hd as (D1 & D2 & D3). split.
      + destruct (Nat.eqb_spec n0 r) as [->|Hne].
        * rewrite Nat.leb_refl, (proj2 (Nat.ltb_lt r (r + S M))) by lia. rewrite (proj2 (Nat.leb_gt (S r) r)) in HL by lia. simpl in *. lia.
        * destruct (Nat.leb_spec n0 r); destruct (Nat.leb_spec (S n0) r); destruct (Nat.ltb_spec r (n0 + S M)); destruct (Nat.ltb_spec r (S n0 + M));
            simpl andb in *; cbv iota in *; lia.
      + intros n Hn. rewrite D2. destruct n as [|n].
        * cbn [nth]. rewrite Nat.add_0_r, <- D3. reflexivity.
        * cbn [nth]. replace (n0 + S n) with (S n0 + n) by lia. rewrite <- HV by lia. reflexivity. }
  intros H. apply G in H as (HL & HV). split; [|exact HV].
  rewrite (proj2 (Nat.leb_le 0 r)), (proj2 (Nat.ltb_lt r (0 + N))) in HL by lia. exact HL.
Qed.

(** The other coordinates are independent, each taken with the probability that a word falls below p: a set of
    a coordinates, with r among them, out of N has probability (q/K)^(a-1) (1 - q/K)^(N-a). *)
Theorem C76_crossover_probability (F : Type) (ltb : F -> F -> bool) (un : nat -> F) (p : F) K r mask :
  r < length mask -> nth r mask false = true ->
  count (fun t => same_mask (picked (fun v => ltb (un v) p) r (length mask) 0 t) mask) (tapes K (length mask - 1))
  = count (fun v => ltb (un v) p) (seq 0 K) ^ (count (fun b => b) mask - 1)
    * (K - count (fun v => ltb (un v) p) (seq 0 K)) ^ count negb mask.
Proof.
  intros Hr Hn. rewrite (picked_count _ K r mask 0).
  - apply chances_pow; [lia|]. rewrite Nat.sub_0_r. exact Hn.
  - rewrite (proj2 (Nat.leb_le 0 r)), (proj2 (Nat.ltb_lt r (0 + length mask))) by lia. reflexivity.
Qed.

(** Five candidates with f64 entries; words below 60 (a multiple of 5), reduced modulo the range. *)
Example C76_case :
  ends_almost_surely 60 (fun t => de_optimize num64 (tape_rng (fun n w => w mod n) (fun lo _ _ => Ok lo) (fun w => f32_of_Z (Z.of_nat w)))
      cmp_obj (S (length t)) unit_bounds 5 (f32_of_Z 1) (z64 1) 7 t 0) /\
  distinct_donors 5 2 4 0 1 /\
  donors 5 2 [2; 4; 4; 2; 0; 4; 0; 1; 3] = Ok (4, 0, 1, [3]) /\
  count (donors_are 5 2 4 0 1) (tapes 5 4) = 11 /\ count (undecided (donors 5 2)) (tapes 5 4) = 361 /\
  picked (fun v => v <? 3) 1 4 0 [5; 2; 0] = [false; true; true; true] /\
  count (fun t => same_mask (picked (fun v => v <? 3) 1 4 0 t) [false; true; true; true]) (tapes 10 3) = 63.
Proof.
  split; [|split; [|split; [reflexivity|split; [vm_compute; reflexivity|split; [vm_compute; reflexivity|split; vm_compute; reflexivity]]]]].
  - apply C76_terminates_almost_surely; try discriminate; try lia.
    intros _ x Hx. exists x. split; [lia|]. apply Nat.mod_small. exact Hx.
  - unfold distinct_donors. do 3 (split; [lia|]). nodup.
Qed.
Print Assumptions C76_terminates_almost_surely.
Print Assumptions C76_iteration.
Print Assumptions C76_donors_uniform.
Print Assumptions C76_donors_only.
Print Assumptions C76_donors_undecided.
Print Assumptions C76_expected_draws.
Print Assumptions C76_crossover.
Print Assumptions C76_crossover_probability.
