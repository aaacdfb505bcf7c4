(** An ideal source of randomness for differential evolution: a tape of independent, uniform words.
    Probabilities are counted: of the K^m tapes of m words below K. *)
From Coq Require Import List Arith Bool.
From Verif Require Import Base.Outcome Base.Array Model.DiffEvo.
Import ListNotations.

(** All tapes of [m] words below [K]. *)
Fixpoint tapes (K m : nat) : list (list nat) :=
  match m with
  | 0 => [[]]
  | S m' => flat_map (fun w => map (cons w) (tapes K m')) (seq 0 K)
  end.

Definition count {A} (f : A -> bool) (l : list A) : nat := length (filter f l).

(** A generator that reads one word per request.  [idx n w], [val lo hi w] and [unit w] say what the
    answer is; at the end of the tape the run is undecided. *)
Definition tape_rng {T F} (idx : nat -> nat -> nat) (val : T -> T -> nat -> outcome T) (unit : nat -> F)
  : de_rng T F (list nat) := {|
  gen_index := fun n t =>
    if n =? 0 then Panic EmptyRange
    else match t with [] => Diverge | w :: t' => Ok (idx n w, t') end;
  gen_value := fun lo hi t =>
    match t with [] => Diverge | w :: t' => v <- val lo hi w ;; Ok (v, t') end;
  gen_unit := fun t => match t with [] => Diverge | w :: t' => Ok (unit w, t') end
|}.

(** The run needs more words than are on the tape. *)
Definition undecided {A} (run : list nat -> outcome A) (t : list nat) : bool :=
  match run t with Diverge => true | _ => false end.

(** The probability that the run is still undecided after [m] words tends to 0. *)
Definition ends_almost_surely {A} (K : nat) (run : list nat -> outcome A) : Prop :=
  forall d, exists M, forall m, M <= m -> d * count (undecided run) (tapes K m) <= K ^ m.

(** Three numbers below [n], different from each other and from [i]. *)
Definition distinct_donors (n i j k l : nat) : Prop := j < n /\ k < n /\ l < n /\ NoDup [i; j; k; l].

(** The donor numbers chosen for slot [i] of a population of [n], read off a tape whose words are
    uniform below [n] (lines 67-90 of the code: three rejection loops, one after the other). *)
Definition draw_donors {T F S} (rng : de_rng T F S) (fuel n i : nat) (s : S) : outcome (nat * nat * nat * S) :=
  ' (j, s) <- de_reject rng fuel n [i] s ;;
  ' (k, s) <- de_reject rng fuel n [i; j] s ;;
  ' (l, s) <- de_reject rng fuel n [i; j; k] s ;;
  Ok (j, k, l, s).
Definition donors (n i : nat) (t : list nat) : outcome (nat * nat * nat * list nat) :=
  draw_donors (tape_rng (T := unit) (F := unit) (fun _ w => w) (fun _ _ _ => Ok tt) (fun _ => tt)) (S (length t)) n i t.
Definition donors_are (n i j k l : nat) (t : list nat) : bool :=
  match donors n i t with Ok (j', k', l', _) => (j' =? j) && (k' =? k) && (l' =? l) | _ => false end.

(** Which coordinates, from [i0] on, a trial takes from the donors: always [r], and each other one if
    the word read for it says so. *)
Fixpoint picked (take : nat -> bool) (r n i0 : nat) (t : list nat) : list bool :=
  match n with
  | 0 => []
  | S n' =>
      if i0 =? r then true :: picked take r n' (S i0) t
      else match t with
           | [] => []
           | w :: t' => take w :: picked take r n' (S i0) t'
           end
  end.
Definition same_mask (a b : list bool) : bool := if list_eq_dec Bool.bool_dec a b then true else false.

(** The value a trial has in coordinate [n]: the mutant of donors [j], [k], [l], or the entry of the
    parent [i]. *)
Definition mutant {T F N} (num : de_num T F) (weight : T) (population : list (array T N)) (j k l n : nat) : outcome T :=
  a <- (x <- vget population j ;; array_get x n) ;;
  b <- (x <- vget population k ;; array_get x n) ;;
  c <- (x <- vget population l ;; array_get x n) ;;
  d <- t_sub num b c ;;
  e <- t_mul num d weight ;;
  t_add num a e.
Definition kept {T N} (population : list (array T N)) (i n : nat) : outcome T :=
  x <- vget population i ;; array_get x n.
