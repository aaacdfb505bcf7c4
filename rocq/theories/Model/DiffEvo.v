(** Model of src/optimize/differential_evolution.rs.

    The random number generator and the comparator are parameters: state-passing
    functions, so every generator (also a mock) and every [FnMut] comparator is covered.
    Simplification: values are immutable, [Copy] is the identity; the numeric type [T] and
    the type of the crossover probability (f32) are abstract, with possibly panicking
    arithmetic. *)
From Coq Require Import List Arith Bool.
From Verif Require Import Base.Outcome Base.Array.
Import ListNotations.

(** differential_evolution.rs lines 33-44: what the code requires of [T] and f32. *)
Record de_num (T F : Type) : Type := MkDeNum {
  t_add : T -> T -> outcome T;
  t_sub : T -> T -> outcome T;
  t_mul : T -> T -> outcome T;
  t_leb : T -> T -> bool;            (** PartialOrd [<=] *)
  t_0 : T;                           (** [0.into()] *)
  t_2 : T;                           (** [2.into()] *)
  p_leb : F -> F -> bool;            (** f32 [<=] *)
  p_ltb : F -> F -> bool;            (** f32 [<] *)
  p_0 : F;
  p_1 : F
}.
Arguments t_add {T F} _ _ _.
Arguments t_sub {T F} _ _ _.
Arguments t_mul {T F} _ _ _.
Arguments t_leb {T F} _ _ _.
Arguments t_0 {T F} _.
Arguments t_2 {T F} _.
Arguments p_leb {T F} _ _ _.
Arguments p_ltb {T F} _ _ _.
Arguments p_0 {T F} _.
Arguments p_1 {T F} _.

(** The methods of [rand::Rng] that are used: [gen_range(0..n)] on usize,
    [gen_range(lo..hi)] on [T], [gen::<f32>()] (lines 61, 70, 77, 84, 93, 95). *)
Record de_rng (T F S : Type) : Type := MkDeRng {
  gen_index : nat -> S -> outcome (nat * S);
  gen_value : T -> T -> S -> outcome (T * S);
  gen_unit : S -> outcome (F * S)
}.
Arguments gen_index {T F S} _ _ _.
Arguments gen_value {T F S} _ _ _ _.
Arguments gen_unit {T F S} _ _.

(** [std::array::from_fn] with a closure that owns the state [s]; index [i0] is the
    first (lines 61, 94). *)
Fixpoint array_from_fn {S T} (n : nat) (i0 : nat) (f : nat -> S -> outcome (T * S)) (s : S)
  : outcome (array T n * S) :=
  match n with
  | 0 => Ok (anil, s)
  | Datatypes.S n' =>
      ' (x, s') <- f i0 s ;;
      ' (xs, s'') <- array_from_fn n' (Datatypes.S i0) f s' ;;
      Ok (acons x xs, s'')
  end.

(** [orig.cycle().take(n)], where [cur] is what is left of the current pass
    (line 66). *)
Fixpoint cycle_take {A} (orig cur : list A) (n : nat) : list A :=
  match n with
  | 0 => []
  | S n' =>
      match cur with
      | x :: cur' => x :: cycle_take orig cur' n'
      | [] => match orig with
              | [] => []
              | x :: orig' => x :: cycle_take orig orig' n'
              end
      end
  end.

Section DE.
Context {T F S C : Type} (num : de_num T F) (rng : de_rng T F S) {N : nat}.
Notation cand := (array T N).
(** [compare_candidates: impl FnMut(&[T; N], &[T; N]) -> bool] with captured state [C]. *)
Context (compare_candidates : C -> cand -> cand -> outcome (bool * C)).

(** Lines 60-62 (and [bounds[i]]: an index below N, always in range). *)
Definition de_initial_candidate (bounds : array (T * T) N) (s : S) : outcome (cand * S) :=
  array_from_fn N 0 (fun i s => ' (lo, hi) <- array_get bounds i ;; gen_value rng lo hi s) s.

Fixpoint de_initial_population (bounds : array (T * T) N) (population_size : nat) (s : S)
  : outcome (list cand * S) :=
  match population_size with
  | 0 => Ok ([], s)
  | Datatypes.S k =>
      ' (x, s') <- de_initial_candidate bounds s ;;
      ' (xs, s'') <- de_initial_population bounds k s' ;;
      Ok (x :: xs, s'')
  end.

(** The rejection loops of lines 69-74, 76-81 and 83-88: draw from [0..len] until the
    number is not in [excluded].  [Diverge] when [fuel] draws did not suffice. *)
Fixpoint de_reject (fuel len : nat) (excluded : list nat) (s : S) : outcome (nat * S) :=
  match fuel with
  | 0 => Diverge
  | Datatypes.S fuel' =>
      ' (x, s') <- gen_index rng len s ;;
      if existsb (Nat.eqb x) excluded then de_reject fuel' len excluded s' else Ok (x, s')
  end.

(** Lines 96, 98: [population[j][n]]. *)
Definition pop_at (population : list cand) (j n : nat) : outcome T :=
  x <- vget population j ;; array_get x n.

(** Lines 94-100: the trial candidate. *)
Definition de_trial (crossover_probability : F) (differential_weight : T)
    (population : list cand) (i j k l r : nat) (s : S) : outcome (cand * S) :=
  array_from_fn N 0 (fun n s =>
    ' (take, s') <- (if n =? r then Ok (true, s)
                     else ' (u, s') <- gen_unit rng s ;; Ok (p_ltb num u crossover_probability, s')) ;;
    if (take : bool) then
      a <- pop_at population j n ;;
      b <- pop_at population k n ;;
      c <- pop_at population l n ;;
      d <- t_sub num b c ;;
      e <- t_mul num d differential_weight ;;
      v <- t_add num a e ;;
      Ok (v, s')
    else
      v <- pop_at population i n ;; Ok (v, s')) s.

(** Lines 67-105: one pass through the loop body. *)
Definition de_iteration (fuel : nat) (crossover_probability : F) (differential_weight : T)
    (i : nat) (st : list cand * S * C) : outcome (list cand * S * C) :=
  let '(population, s, c) := st in
  let len := length population in
  ' (j, s) <- de_reject fuel len [i] s ;;
  ' (k, s) <- de_reject fuel len [i; j] s ;;
  ' (l, s) <- de_reject fuel len [i; j; k] s ;;
  ' (r, s) <- gen_index rng N s ;;
  ' (x, s) <- de_trial crossover_probability differential_weight population i j k l r s ;;
  y <- vget population i ;;
  ' (better, c) <- compare_candidates c x y ;;
  if (better : bool) then
    population' <- vset population i x ;; Ok (population', s, c)
  else Ok (population, s, c).

(** Lines 65-106. *)
Definition de_greedy (fuel : nat) (crossover_probability : F) (differential_weight : T)
    (num_iters : nat) (st : list cand * S * C) : outcome (list cand * S * C) :=
  let index_range := seq 0 (length (fst (fst st))) in
  for_each (de_iteration fuel crossover_probability differential_weight)
           (cycle_take index_range index_range num_iters) st.

(** Lines 111-120: one knockout round. *)
Definition de_knockout_round (population : list cand) (c : C) : outcome (list cand * C) :=
  let pop_len := length population in
  let half_len := pop_len / 2 in
  for_each (fun i '(population, c) =>
      x <- vget population (half_len + i) ;;
      y <- vget population i ;;
      ' (better, c) <- compare_candidates c x y ;;
      population <- (if (better : bool) then z <- vget population (half_len + i) ;; vset population i z
                     else Ok population) ;;
      population <- (if pop_len mod 2 =? 1 then z <- vget population (pop_len - 1) ;; vset population half_len z
                     else Ok population) ;;
      Ok (population, c))
    (seq 0 half_len) (population, c).

(** Lines 109-122: the while loop; [Diverge] when [fuel] rounds did not suffice.  Simplification: lengths are
    unbounded naturals; [pop_len + 1] overflows only for a population of usize::MAX candidates, which can exist only
    for N = 0. *)
Fixpoint de_knockout (fuel : nat) (population : list cand) (c : C) : outcome (list cand * C) :=
  if 1 <? length population then
    match fuel with
    | 0 => Diverge
    | Datatypes.S fuel' =>
        ' (population', c') <- de_knockout_round population c ;;
        (* line 121: [&mut population[0..((pop_len + 1) / 2)]] *)
        de_knockout fuel' (firstn ((length population + 1) / 2) population') c'
    end
  else Ok (population, c).

(** [assert!], lines 46-57. *)
Definition de_assert (b : bool) : outcome unit := if b then Ok tt else Panic AssertFailed.

(** Lines 26-126.  The final states of the generator and the comparator are returned too. *)
Definition de_optimize (fuel : nat) (bounds : array (T * T) N) (population_size : nat)
    (crossover_probability : F) (differential_weight : T) (num_iters : nat) (s : S) (c : C)
  : outcome (cand * S * C) :=
  _ <- de_assert (4 <=? population_size) ;;
  _ <- de_assert (p_leb num (p_0 num) crossover_probability && p_leb num crossover_probability (p_1 num)) ;;
  _ <- de_assert (t_leb num (t_0 num) differential_weight && t_leb num differential_weight (t_2 num)) ;;
  ' (population, s) <- de_initial_population bounds population_size s ;;
  ' (population, s, c) <- de_greedy fuel crossover_probability differential_weight num_iters (population, s, c) ;;
  ' (population, c) <- de_knockout (length population) population c ;;
  (* line 125 *)
  best <- vget population 0 ;;
  Ok (best, s, c).
End DE.
