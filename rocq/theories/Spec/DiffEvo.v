(** What differential evolution promises, independently of how the code does it. *)
From Coq Require Import List Arith Bool.
From Verif Require Import Base.Outcome Base.Array Model.DiffEvo.
Import ListNotations.

(** [better x y = true]: x is better than y. *)
Record strict_weak_order {A} (better : A -> A -> bool) : Prop := MkSwo {
  swo_irrefl : forall x, better x x = false;
  swo_trans : forall x y z, better x y = true -> better y z = true -> better x z = true;
  swo_cover : forall x y z, better x z = true -> better x y = true \/ better y z = true
}.

(** The user's comparator (with any internal state) always returns, and its verdict is [better]. *)
Definition decides {C A} (cmp : C -> A -> A -> outcome (bool * C)) (better : A -> A -> bool) : Prop :=
  forall c x y, exists c', cmp c x y = Ok (better x y, c').

(** The same comparator with a log of its calls: first argument, second argument, verdict. *)
Definition recorded {C A} (cmp : C -> A -> A -> outcome (bool * C))
  : C * list (A * A * bool) -> A -> A -> outcome (bool * (C * list (A * A * bool))) :=
  fun '(c, log) x y => ' (b, c') <- cmp c x y ;; Ok (b, (c', log ++ [(x, y, b)])).

(** What [rand] guarantees about a generator's answers when it answers. *)
Definition index_in_range {T F S} (rng : de_rng T F S) : Prop :=
  forall n s v s', gen_index rng n s = Ok (v, s') -> v < n.

Section Spec.
Context {T F S : Type} (num : de_num T F) (rng : de_rng T F S) {N : nat}.
Notation cand := (array T N).

Definition coord (pop : list cand) (j n : nat) (v : T) : Prop :=
  exists x, nth_error pop j = Some x /\ nth_error (entries x) n = Some v.

(** [u] is something the generator can return as a random f32. *)
Definition drawn_unit (u : F) : Prop := exists s s', gen_unit rng s = Ok (u, s').

(** [v] is x_j + (x_k - x_l) * w in coordinate [n]. *)
Definition donor_value (w : T) (pop : list cand) (j k l n : nat) (v : T) : Prop :=
  exists a b c d e,
    coord pop j n a /\ coord pop k n b /\ coord pop l n c /\
    t_sub num b c = Ok d /\ t_mul num d w = Ok e /\ t_add num a e = Ok v.

(** The trial point [x] made for slot [i]: [r] is the coordinate that is always taken from
    the donors and [u n] the number drawn for coordinate [n]. *)
Definition is_trial_with (p : F) (w : T) (pop : list cand) (i : nat) (x : cand)
    (j k l r : nat) (u : nat -> F) : Prop :=
  NoDup [i; j; k; l] /\
  i < length pop /\ j < length pop /\ k < length pop /\ l < length pop /\ r < N /\
  (forall n, n < N -> n <> r -> drawn_unit (u n)) /\
  forall n, n < N -> exists v, nth_error (entries x) n = Some v /\
    if ((n =? r) || p_ltb num (u n) p)%bool
    then donor_value w pop j k l n v
    else coord pop i n v.

Definition is_trial (p : F) (w : T) (pop : list cand) (i : nat) (x : cand) : Prop :=
  exists j k l r u, is_trial_with p w pop i x j k l r u.

(** A history of the improvement phase, started in iteration [t] with population [pop]:
    the comparator is asked about a trial for slot [t mod size] against the point in that
    slot, and the trial replaces the point iff the verdict is true. *)
Inductive evolves (p : F) (w : T) : nat -> list cand -> list (cand * cand * bool) -> list cand -> Prop :=
| evolves_done t pop : evolves p w t pop [] pop
| evolves_step t pop x y (b : bool) log pop' :
    nth_error pop (t mod length pop) = Some y ->
    is_trial p w pop (t mod length pop) x ->
    evolves p w (Datatypes.S t) (if b then list_upd pop (t mod length pop) x else pop) log pop' ->
    evolves p w t pop ((x, y, b) :: log) pop'.

(** The history of a knockout tournament: in each round slot [half + i] challenges slot [i],
    with an odd number of players the last one gets through unchallenged. *)
Inductive knockout : list cand -> list (cand * cand * bool) -> cand -> Prop :=
| knockout_done x : knockout [x] [] x
| knockout_round pop pop' now later best :
    1 < length pop ->
    length now = length pop / 2 ->
    length pop' = (length pop + 1) / 2 ->
    (forall i, i < length pop / 2 -> exists x y b,
       nth_error pop (length pop / 2 + i) = Some x /\ nth_error pop i = Some y /\
       nth_error now i = Some (x, y, b) /\ nth_error pop' i = Some (if b : bool then x else y)) ->
    (length pop mod 2 = 1 -> nth_error pop' (length pop / 2) = nth_error pop (length pop - 1)) ->
    knockout pop' later best ->
    knockout pop (now ++ later) best.

(** Every coordinate of a start point was drawn for the range given for that coordinate. *)
Definition drawn_from (bounds : array (T * T) N) (x : cand) : Prop :=
  forall n, n < N -> exists lo hi v s s',
    nth_error (entries bounds) n = Some (lo, hi) /\
    gen_value rng lo hi s = Ok (v, s') /\ nth_error (entries x) n = Some v.

(** The whole history of a run that returns [best]. *)
Definition run_history (bounds : array (T * T) N) (size : nat) (p : F) (w : T) (iters : nat)
    (log : list (cand * cand * bool)) (start final : list cand) (best : cand) : Prop :=
  exists log1 log2, log = log1 ++ log2 /\
  length start = size /\ Forall (drawn_from bounds) start /\
  length log1 = iters /\ evolves p w 0 start log1 final /\
  knockout final log2 best.

(** The arguments the documentation of the assertions asks for. *)
Definition valid_arguments (size : nat) (p : F) (w : T) : Prop :=
  4 <= size /\ p_leb num (p_0 num) p = true /\ p_leb num p (p_1 num) = true /\
  t_leb num (t_0 num) w = true /\ t_leb num w (t_2 num) = true.

(** What is required of the other arguments so that nothing the code calls panics. *)
Record well_behaved (bounds : array (T * T) N) : Prop := MkWellBehaved {
  wb_add : forall x y, exists z, t_add num x y = Ok z;
  wb_sub : forall x y, exists z, t_sub num x y = Ok z;
  wb_mul : forall x y, exists z, t_mul num x y = Ok z;
  wb_index : forall n s, 0 < n -> exists v s', gen_index rng n s = Ok (v, s') /\ v < n;
  wb_value : forall n lo hi s, nth_error (entries bounds) n = Some (lo, hi) ->
               exists v s', gen_value rng lo hi s = Ok (v, s');
  wb_unit : forall s, exists u s', gen_unit rng s = Ok (u, s')
}.

(** [v] comes up among the numbers drawn from [0..n] when the generator is in state [s]. *)
Inductive comes_up (n v : nat) : S -> Prop :=
| comes_up_now s s' : gen_index rng n s = Ok (v, s') -> comes_up n v s
| comes_up_later s u s' : gen_index rng n s = Ok (u, s') -> comes_up n v s' -> comes_up n v s.

(** Every number keeps coming up, whatever happened before. *)
Definition fair : Prop := forall n v s, v < n -> comes_up n v s.
End Spec.
