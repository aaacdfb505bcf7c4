(** C78: differential evolution does not depend on the coordinates in which the problem is written. *)
From Coq Require Import List Arith Lia Bool Reals Lra ZArith.
From Coq Require Vector.
From Flocq Require Import Core.Core IEEE754.BinarySingleNaN.
From Verif Require Import Base.Outcome Base.Array Base.Wp Model.DiffEvo Model.Float Spec.DiffEvoMore Spec.DiffEvoEquiv Spec.FloatErr
  Proofs.Paths Proofs.FloatComm Proofs.FloatSpecial Proofs.DiffEvoEquiv Props.DiffEvoProps.
Import ListNotations.
Open Scope nat_scope.

(** Corresponding problems end in the same way, after the same requests to the generator, with corresponding
    results. *)
Theorem C78_corresponding_runs (T T' F S C C' : Type) N (R : nat -> T -> T' -> Prop) (RC : C -> C' -> Prop)
  (num : de_num T F) (num' : de_num T' F) (rng : de_rng T F S) (rng' : de_rng T' F S)
  (cmp : C -> array T N -> array T N -> outcome (bool * C)) (cmp' : C' -> array T' N -> array T' N -> outcome (bool * C'))
  bounds bounds' p w w' :
  corresponding R RC num num' rng rng' cmp cmp' bounds bounds' p w w' ->
  forall fuel size iters s c c', RC c c' ->
  orel (fun r r' => let '(best, t, d) := r in let '(best', t', d') := r' in coords R best best' /\ t = t' /\ RC d d')
    (de_optimize num rng cmp fuel bounds size p w iters s c) (de_optimize num' rng' cmp' fuel bounds' size p w' iters s c').
Proof.
  intros H fuel size iters s c c' HC.
  eapply orel_mono; [exact (equiv_optimize R RC num num' rng rng' cmp cmp' bounds bounds' p w w' H fuel size iters s c c' HC)|].
  intros [[b t] d] [[b' t'] d'] HH. exact HH.
Qed.

Lemma mapped_from_nth {T T' n} (phi : nat -> T -> T') (x : array T n) : forall i0 k,
  nth_error (entries (mapped_from phi i0 x)) k = option_map (phi (i0 + k)) (nth_error (entries x) k).
Proof.
  induction x as [|v n x IH]; intros i0 k; [destruct k; reflexivity|]. destruct k as [|k]; cbn.
  - rewrite Nat.add_0_r. reflexivity.
  - rewrite Nat.add_succ_r. apply (IH (S i0) k).
Qed.
Lemma same_nths {A} (l : list A) : forall l', (forall k, nth_error l k = nth_error l' k) -> l = l'.
Proof.
  induction l as [|a l IH]; intros [|b l'] H; try reflexivity.
  - discriminate (H 0).
  - discriminate (H 0).
  - f_equal; [injection (H 0); auto|]. apply IH. intros k. exact (H (S k)).
Qed.
Lemma mapped_coords {T T' N} (phi : nat -> T -> T') (x : array T N) (x' : array T' N) :
  coords (fun n v v' => v' = phi n v) x x' <-> x' = mapped phi x.
Proof.
  split.
  - intros H. assert (E : entries x' = entries (mapped phi x)).
    { apply same_nths. intros k. unfold mapped. rewrite mapped_from_nth. cbn [Nat.add].
      destruct (nth_error (entries x) k) as [v|] eqn:E1, (nth_error (entries x') k) as [v'|] eqn:E2; cbn [option_map].
      - f_equal. apply (H k); assumption.
      - apply nth_error_None in E2. assert (k < length (entries x)) by (apply nth_error_Some; congruence). pose proof (entries_length x). pose proof (entries_length x'). lia.
      - apply nth_error_None in E1. assert (k < length (entries x')) by (apply nth_error_Some; congruence). pose proof (entries_length x). pose proof (entries_length x'). lia.
      - reflexivity. }
    apply entries_inj, E.
  - intros -> n v v' E1 E2. unfold mapped in E2. rewrite mapped_from_nth, E1 in E2. cbn in E2. congruence.
Qed.

(** For a change of variables: if the new variables turn steps into steps, the run in the new variables returns the
    old result in new variables. *)
Theorem C78_change_of_variables (T T' F S C : Type) N (phi : nat -> T -> T')
  (num : de_num T F) (num' : de_num T' F) (rng : de_rng T F S) (rng' : de_rng T' F S)
  (cmp : C -> array T N -> array T N -> outcome (bool * C)) (cmp' : C -> array T' N -> array T' N -> outcome (bool * C))
  bounds bounds' p w w' :
  (forall n s, gen_index rng' n s = gen_index rng n s) -> (forall s, gen_unit rng' s = gen_unit rng s) ->
  (forall n lo hi lo' hi' s, nth_error (entries bounds) n = Some (lo, hi) -> nth_error (entries bounds') n = Some (lo', hi') ->
     gen_value rng' lo' hi' s = value_in (phi n) (gen_value rng lo hi s)) ->
  (forall n a b c, n < N -> step num' w' (phi n a) (phi n b) (phi n c) = one_in (phi n) (step num w a b c)) ->
  t_leb num' (t_0 num') w' && t_leb num' w' (t_2 num') = t_leb num (t_0 num) w && t_leb num w (t_2 num) ->
  p_leb num' (p_0 num') p && p_leb num' p (p_1 num') = p_leb num (p_0 num) p && p_leb num p (p_1 num) ->
  (forall u, p_ltb num' u p = p_ltb num u p) ->
  (forall c x y, cmp' c (mapped phi x) (mapped phi y) = cmp c x y) ->
  forall fuel size iters s c,
  de_optimize num' rng' cmp' fuel bounds' size p w' iters s c
  = result_in phi (de_optimize num rng cmp fuel bounds size p w iters s c).
Proof.
  intros Hi Hu Hv Hs Hw Hp Hl Hc fuel size iters s c.
  assert (CO : corresponding (fun n v v' => v' = phi n v) eq num num' rng rng' cmp cmp' bounds bounds' p w w').
  { constructor; try assumption.
    - intros n lo hi lo' hi' t E E'. rewrite (Hv n lo hi lo' hi' t E E'). destruct (gen_value rng lo hi t) as [[v t']| |]; simpl; auto.
    - intros n a b d a' b' d' Hn -> -> ->. rewrite (Hs n a b d Hn). destruct (step num w a b d); simpl; auto.
    - intros d d' x y x' y' <- Hx Hy. apply mapped_coords in Hx, Hy. subst x' y'. rewrite Hc. apply orel_refl. auto. }
  pose proof (C78_corresponding_runs _ _ _ _ _ _ _ _ _ _ _ _ _ _ _ _ _ _ _ _ CO fuel size iters s c c eq_refl) as G.
  destruct (de_optimize num rng cmp fuel bounds size p w iters s c) as [[[b t] d]| |],
    (de_optimize num' rng' cmp' fuel bounds' size p w' iters s c) as [[[b' t'] d']| |]; cbn in G; try contradiction; cbn [result_in].
  - destruct G as (G & <- & <-). apply mapped_coords in G. subst b'. reflexivity.
  - congruence.
  - reflexivity.
Qed.

(** In exact arithmetic: scaling and shifting every coordinate. *)
Theorem C78_affine (S C : Type) N (alpha beta : nat -> R) (rng rng' : de_rng R R S)
  (cmp cmp' : C -> array R N -> array R N -> outcome (bool * C)) bounds bounds' p w :
  let phi := fun n v => (alpha n * v + beta n)%R in
  (forall n s, gen_index rng' n s = gen_index rng n s) -> (forall s, gen_unit rng' s = gen_unit rng s) ->
  (forall n lo hi lo' hi' s, nth_error (entries bounds) n = Some (lo, hi) -> nth_error (entries bounds') n = Some (lo', hi') ->
     gen_value rng' lo' hi' s = value_in (phi n) (gen_value rng lo hi s)) ->
  (forall c x y, cmp' c (mapped phi x) (mapped phi y) = cmp c x y) ->
  forall fuel size iters s c,
  de_optimize real_de_num rng' cmp' fuel bounds' size p w iters s c
  = result_in phi (de_optimize real_de_num rng cmp fuel bounds size p w iters s c).
Proof.
  intros phi Hi Hu Hv Hc. apply C78_change_of_variables; try assumption; try reflexivity.
  intros n a b c _. unfold step, phi. cbn. f_equal. ring.
Qed.

(** The usual generator, lo + (hi - lo) * u, meets the requirement when the bounds are transformed too. *)
Definition uniform_rng {S} (index : nat -> S -> outcome (nat * S)) (u : S -> outcome (R * S)) : de_rng R R S := {|
  gen_index := index;
  gen_value := fun lo hi s => ' (x, s') <- u s ;; Ok ((lo + (hi - lo) * x)%R, s');
  gen_unit := u
|}.
Definition moved_bounds {N} (phi : nat -> R -> R) (bounds : array (R * R) N) : array (R * R) N :=
  mapped (fun n b => (phi n (fst b), phi n (snd b))) bounds.
Theorem C78_affine_uniform (S C : Type) N (alpha beta : nat -> R) index u
  (cmp cmp' : C -> array R N -> array R N -> outcome (bool * C)) bounds p w :
  let phi := fun n v => (alpha n * v + beta n)%R in
  (forall c x y, cmp' c (mapped phi x) (mapped phi y) = cmp c x y) ->
  forall fuel size iters (s : S) c,
  de_optimize real_de_num (uniform_rng index u) cmp' fuel (moved_bounds phi bounds) size p w iters s c
  = result_in phi (de_optimize real_de_num (uniform_rng index u) cmp fuel bounds size p w iters s c).
Proof.
  intros phi Hc. apply C78_affine; try reflexivity; try assumption.
  intros n lo hi lo' hi' s E E'. unfold moved_bounds, mapped in E'. rewrite mapped_from_nth, E in E'. cbn in E'. injection E' as <- <-.
  cbn [gen_value uniform_rng]. destruct (u s) as [[x s']| |]; [|reflexivity|reflexivity]. cbn. unfold phi. do 2 f_equal. ring.
Qed.

(** In floating point: reversing the sign of every coordinate, up to the sign of zeros. *)
Section Fmt.
Context (prec emax : Z) {Hp : Prec_gt_0 prec} {He : Prec_lt_emax prec emax}.
Notation fl := (binary_float prec emax).
Definition mirrored (x x' : fl) : Prop := same_up_to_zero x' (Bopp x).
Lemma mirrored_step (w a b c a' b' c' : fl) : mirrored a a' -> mirrored b b' -> mirrored c c' ->
  orel mirrored (step (float_de_num prec emax) w a b c) (step (float_de_num prec emax) w a' b' c').
Proof.
  unfold mirrored. intros Ha Hb Hc. unfold step. cbn [t_sub t_mul t_add float_de_num bind orel].
  assert (D : same_up_to_zero (fl_sub prec emax b' c') (Bopp (fl_sub prec emax b c))).
  { rewrite !fl_sub_def. eapply same_trans; [apply add_same_l, Hb|]. eapply same_trans; [apply add_same_r, opp_same, Hc|].
    apply fl_add_opp. }
  eapply same_trans; [apply add_same_l, Ha|]. eapply same_trans; [apply add_same_r, mul_same_l, D|].
  rewrite fl_mul_opp_l. apply fl_add_opp.
Qed.
Theorem C78_mirror (S C C' : Type) N (RC : C -> C' -> Prop) (rng rng' : de_rng fl f32 S)
  (cmp : C -> array fl N -> array fl N -> outcome (bool * C)) (cmp' : C' -> array fl N -> array fl N -> outcome (bool * C'))
  bounds bounds' p w :
  (forall n s, gen_index rng' n s = gen_index rng n s) -> (forall s, gen_unit rng' s = gen_unit rng s) ->
  (forall n lo hi lo' hi' s, nth_error (entries bounds) n = Some (lo, hi) -> nth_error (entries bounds') n = Some (lo', hi') ->
     orel (fun a b => mirrored (fst a) (fst b) /\ snd a = snd b) (gen_value rng lo hi s) (gen_value rng' lo' hi' s)) ->
  (forall c c' x y x' y', RC c c' -> coords (fun _ => mirrored) x x' -> coords (fun _ => mirrored) y y' ->
     orel (fun a b => fst a = fst b /\ RC (snd a) (snd b)) (cmp c x y) (cmp' c' x' y')) ->
  forall fuel size iters s c c', RC c c' ->
  orel (fun r r' => let '(best, t, d) := r in let '(best', t', d') := r' in coords (fun _ => mirrored) best best' /\ t = t' /\ RC d d')
    (de_optimize (float_de_num prec emax) rng cmp fuel bounds size p w iters s c)
    (de_optimize (float_de_num prec emax) rng' cmp' fuel bounds' size p w iters s c').
Proof.
  intros Hi Hu Hv Hc. apply C78_corresponding_runs. constructor; try assumption; try reflexivity.
  intros n a b c a' b' c' _ Ha Hb Hd. apply mirrored_step; assumption.
Qed.
End Fmt.

(** Maximizing x over 0..8 and minimizing x over -8..0, in f64. *)
Definition cmp_smaller (c : unit) (x y : array f64 1) : outcome (bool * unit) := Ok (Bltb (ahd x) (ahd y), c).
Lemma Bltb_opp (a b : f64) : Bltb (Bopp a) (Bopp b) = Bltb b a.
Proof.
  unfold Bltb, SpecFloat.SFltb, B2SF, Bopp.
  destruct a as [sa|[]| |[] ma ea Ba], b as [sb|[]| |[] mb eb Bb]; try reflexivity.
  - cbn. rewrite (Z.compare_antisym eb ea), (Pos.compare_cont_antisym mb ma Eq). destruct (eb ?= ea)%Z; cbn; try reflexivity.
    all: change (CompOpp Eq) with Eq; destruct (Pos.compare_cont Eq mb ma); reflexivity.
  - cbn. rewrite (Z.compare_antisym eb ea), (Pos.compare_cont_antisym ma mb Eq). destruct (eb ?= ea)%Z; cbn; try reflexivity.
    all: change (CompOpp Eq) with Eq; destruct (Pos.compare_cont Eq mb ma); reflexivity.
Qed.
Lemma mirrored_larger a a' b b' : mirrored 53 1024 a a' -> mirrored 53 1024 b b' -> Bltb b a = Bltb (a' : f64) b'.
Proof.
  unfold mirrored. intros Ha Hb.
  assert (Z : forall u v : f64, same_up_to_zero u v -> forall z, Bltb u z = Bltb v z /\ Bltb z u = Bltb z v).
  { intros u v [->|(s & t & -> & ->)] z; [auto|]. unfold Bltb, SpecFloat.SFltb. destruct z; auto. }
  rewrite (proj1 (Z _ _ Ha b')), (proj2 (Z _ _ Hb (Bopp a))), Bltb_opp. reflexivity.
Qed.
Definition maximize : outcome (array f64 1 * nat * unit) :=
  de_optimize num64 (counter_rng (z64 3) (z64 5)) cmp_larger 20 unit_bounds 5 (f32_of_Z 1) (z64 1) 7 0 tt.
Definition minimize : outcome (array f64 1 * nat * unit) :=
  de_optimize num64 (counter_rng (z64 (-3)) (z64 (-5))) cmp_smaller 20 (acons (z64 (-8), z64 0) anil) 5 (f32_of_Z 1) (z64 1) 7 0 tt.
Example C78_case :
  orel (fun r r' => let '(best, t, d) := r in let '(best', t', d') := r' in coords (fun _ => mirrored 53 1024) best best' /\ t = t' /\ d = d')
    maximize minimize
  /\ (exists r, minimize = Ok r /\ Bltb (ahd (fst (fst r))) (z64 (-4)) = true)
  /\ (forall c x y, (fun (c : unit) x y => Ok (if Rlt_dec (ahd x) (ahd y) then true else false, c)) c
        (mapped (N := 1) (fun n v => (2 * v + 1)%R) x) (mapped (fun n v => (2 * v + 1)%R) y)
      = (fun (c : unit) (x y : array R 1) => Ok (if Rlt_dec (ahd x) (ahd y) then true else false, c)) c x y).
Proof.
  split; [|split].
  - unfold maximize, minimize.
    apply (C78_mirror 53 1024 nat unit unit 1 eq); [intros; reflexivity|intros; reflexivity| | |reflexivity].
    + intros n lo hi lo' hi' s _ _. cbn [gen_value counter_rng orel fst snd]. split; [|reflexivity].
      destruct (Nat.even s); unfold mirrored; left; apply B2SF_inj; vm_compute; reflexivity.
    + intros [] [] x y x' y' _ Hx Hy. unfold cmp_larger, cmp_smaller, orel, fst, snd. split; [|reflexivity].
      unfold larger. apply mirrored_larger.
      * rewrite (array_S x), (array_S x') in Hx. exact (Hx 0 _ _ eq_refl eq_refl).
      * rewrite (array_S y), (array_S y') in Hy. exact (Hy 0 _ _ eq_refl eq_refl).
  - apply run_case. vm_compute. reflexivity.
  - intros [] x y. rewrite (array_S x), (array_S y). cbn. destruct (Rlt_dec _ _), (Rlt_dec _ _); try reflexivity; exfalso; lra.
Qed.
Print Assumptions C78_corresponding_runs.
Print Assumptions C78_change_of_variables.
Print Assumptions C78_affine.
Print Assumptions C78_affine_uniform.
Print Assumptions C78_mirror.
