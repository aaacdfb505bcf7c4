(** More about differential evolution: the reach of a run, and its use of the generator. *)
From Coq Require Import List Arith Bool Reals.
From Verif Require Import Base.Outcome Base.Array Model.DiffEvo.
Import ListNotations.

(** Every coordinate of [x] lies in the set given for that coordinate. *)
Definition all_coords {T N} (P : nat -> T -> Prop) (x : array T N) : Prop :=
  forall n v, nth_error (entries x) n = Some v -> P n v.

(** The set for coordinate [n] contains whatever the generator can return for the range of
    coordinate [n]. *)
Definition contains_start {T F S N} (rng : de_rng T F S) (bounds : array (T * T) N)
    (P : nat -> T -> Prop) : Prop :=
  forall n lo hi s v s', nth_error (entries bounds) n = Some (lo, hi) ->
    gen_value rng lo hi s = Ok (v, s') -> P n v.

(** [Q] contains what a + (b - c) * w can give for members of [P]. *)
Definition one_step {T F} (num : de_num T F) (w : T) (P Q : T -> Prop) : Prop :=
  forall a b c d e v, P a -> P b -> P c ->
    t_sub num b c = Ok d -> t_mul num d w = Ok e -> t_add num a e = Ok v -> Q v.

(** Exact arithmetic. *)
Definition real_de_num : de_num R R := {|
  t_add := fun x y => Ok (x + y)%R;
  t_sub := fun x y => Ok (x - y)%R;
  t_mul := fun x y => Ok (x * y)%R;
  t_leb := fun x y => if Rle_dec x y then true else false;
  t_0 := 0%R;
  t_2 := 2%R;
  p_leb := fun x y => if Rle_dec x y then true else false;
  p_ltb := fun x y => if Rlt_dec x y then true else false;
  p_0 := 0%R;
  p_1 := 1%R
|}.

(** What is asked of the generator. *)
Inductive request (T : Type) : Type :=
| AskIndex (n : nat)
| AskValue (lo hi : T)
| AskUnit.
Arguments AskIndex {T} n.
Arguments AskValue {T} lo hi.
Arguments AskUnit {T}.

(** The same generator with a log of the requests it was given. *)
Definition logged {T F S} (rng : de_rng T F S) : de_rng T F (S * list (request T)) := {|
  gen_index := fun n '(s, l) => ' (v, s') <- gen_index rng n s ;; Ok (v, (s', l ++ [AskIndex n]));
  gen_value := fun lo hi '(s, l) => ' (v, s') <- gen_value rng lo hi s ;; Ok (v, (s', l ++ [AskValue lo hi]));
  gen_unit := fun '(s, l) => ' (v, s') <- gen_unit rng s ;; Ok (v, (s', l ++ [AskUnit]))
|}.

(** The requests of one start point: one value for each range, in order. *)
Definition start_requests {T N} (bounds : array (T * T) N) : list (request T) :=
  map (fun '(lo, hi) => AskValue lo hi) (entries bounds).

(** The requests of one iteration: at least three donor numbers, the forced coordinate,
    and one number for each other coordinate. *)
Definition iteration_requests {T} (size N : nat) (l : list (request T)) : Prop :=
  exists draws, 3 <= draws /\
    l = repeat (AskIndex size) draws ++ [AskIndex N] ++ repeat AskUnit (N - 1).
