(** Two differential evolution problems that are the same up to a change of coordinates. *)
From Coq Require Import List Arith Bool.
From Coq Require Vector.
From Verif Require Import Base.Outcome Base.Array Base.Wp Model.DiffEvo.
Import ListNotations.

(** Coordinate [n] of [x] corresponds to coordinate [n] of [x']. *)
Definition coords {T T' N} (R : nat -> T -> T' -> Prop) (x : array T N) (x' : array T' N) : Prop :=
  forall n v v', nth_error (entries x) n = Some v -> nth_error (entries x') n = Some v' -> R n v v'.

(** a + (b - c) * w. *)
Definition step {T F} (num : de_num T F) (w a b c : T) : outcome T :=
  d <- t_sub num b c ;; e <- t_mul num d w ;; t_add num a e.

(** [R n v v']: value [v] of coordinate [n] in the first problem corresponds to [v'] in the second. *)
Record corresponding {T T' F S C C'} {N : nat} (R : nat -> T -> T' -> Prop) (RC : C -> C' -> Prop)
    (num : de_num T F) (num' : de_num T' F) (rng : de_rng T F S) (rng' : de_rng T' F S)
    (cmp : C -> array T N -> array T N -> outcome (bool * C))
    (cmp' : C' -> array T' N -> array T' N -> outcome (bool * C'))
    (bounds : array (T * T) N) (bounds' : array (T' * T') N) (p : F) (w : T) (w' : T') : Prop := {
  (** the generators give the same numbers *)
  co_index : forall n s, gen_index rng' n s = gen_index rng n s;
  co_unit : forall s, gen_unit rng' s = gen_unit rng s;
  (** and corresponding values for the ranges of the same coordinate *)
  co_value : forall n lo hi lo' hi' s, nth_error (entries bounds) n = Some (lo, hi) -> nth_error (entries bounds') n = Some (lo', hi') ->
    orel (fun a b => R n (fst a) (fst b) /\ snd a = snd b) (gen_value rng lo hi s) (gen_value rng' lo' hi' s);
  (** steps from corresponding points lead to corresponding points *)
  co_step : forall n a b c a' b' c', n < N -> R n a a' -> R n b b' -> R n c c' ->
    orel (R n) (step num w a b c) (step num' w' a' b' c');
  (** the parameters are accepted alike *)
  co_weight : t_leb num' (t_0 num') w' && t_leb num' w' (t_2 num') = t_leb num (t_0 num) w && t_leb num w (t_2 num);
  co_probability : p_leb num' (p_0 num') p && p_leb num' p (p_1 num') = p_leb num (p_0 num) p && p_leb num p (p_1 num);
  co_below : forall u, p_ltb num' u p = p_ltb num u p;
  (** corresponding candidates compare alike *)
  co_compare : forall c c' x y x' y', RC c c' -> coords R x x' -> coords R y y' ->
    orel (fun a b => fst a = fst b /\ RC (snd a) (snd b)) (cmp c x y) (cmp' c' x' y')
}.

(** The candidate with [phi n v] in coordinate [n] where [x] has [v]. *)
Fixpoint mapped_from {T T' n} (phi : nat -> T -> T') (i0 : nat) (x : Vector.t T n) : array T' n :=
  match x in Vector.t _ n return array T' n with
  | Vector.nil _ => anil
  | Vector.cons _ v _ x' => acons (phi i0 v) (mapped_from phi (S i0) x')
  end.
Definition mapped {T T' N} (phi : nat -> T -> T') (x : array T N) : array T' N := mapped_from phi 0 x.

(** What a run returns, in the new coordinates. *)
Definition result_in {T T' S C N} (phi : nat -> T -> T') (r : outcome (array T N * S * C)) : outcome (array T' N * S * C) :=
  match r with
  | Ok (best, s, c) => Ok (mapped phi best, s, c)
  | Panic q => Panic q
  | Diverge => Diverge
  end.
Definition value_in {T T' S} (f : T -> T') (r : outcome (T * S)) : outcome (T' * S) :=
  match r with
  | Ok (v, s) => Ok (f v, s)
  | Panic q => Panic q
  | Diverge => Diverge
  end.
Definition one_in {T T'} (f : T -> T') (r : outcome T) : outcome T' :=
  match r with Ok v => Ok (f v) | Panic q => Panic q | Diverge => Diverge end.
