(** The formula behind every sum of products: which operations are done, in which order.  No laws
    of the element type are used and its operations may panic. *)
From Coq Require Import List Arith.
From Verif Require Import Base.Outcome Model.Traits.
Import ListNotations.

(** acc + x_1*y_1 + x_2*y_2 + ..., from left to right; each product just before it is added. *)
Fixpoint plus_products {T} (O : RingOps T) (acc : T) (pairs : list (T * T)) : outcome T :=
  match pairs with
  | [] => Ok acc
  | (x, y) :: rest =>
      prod <- r_mul O x y ;;
      acc' <- r_add O acc prod ;;
      plus_products O acc' rest
  end.

(** x_1*y_1 + x_2*y_2 + ..., without a zero in front. *)
Definition sum_products {T} (O : RingOps T) (pairs : list (T * T)) : outcome T :=
  match pairs with
  | [] => Panic IndexOOB
  | (x, y) :: rest => first <- r_mul O x y ;; plus_products O first rest
  end.

(** The pairs (f m, g m), m = 0, 1, ..., n-1, where both are defined. *)
Definition pairs_of {T} (f g : nat -> option T) (n : nat) : list (T * T) :=
  flat_map (fun m => match f m, g m with Some x, Some y => [(x, y)] | _, _ => [] end) (seq 0 n).

(** The coefficients p_i, q_(k-i) for i = 0, 1, ..., k, as far as they exist. *)
Definition coefficient_pairs {T} (p q : list T) (k : nat) : list (T * T) :=
  pairs_of (fun i => nth_error p i) (fun i => if i <=? k then nth_error q (k - i) else None) (S k).

(** The k-th result of an operation on two lists of coefficients: [both] where both have one. *)
Definition meet {T} (both : T -> T -> outcome T) (left right : T -> outcome T) (p q : list T) (k : nat) : outcome T :=
  match nth_error p k, nth_error q k with
  | Some x, Some y => both x y
  | Some x, None => left x
  | None, Some y => right y
  | None, None => Panic IndexOOB
  end.

(** Horner's rule: ((0*x + a_n)*x + ...)*x + a_0. *)
Fixpoint horner_steps {T} (O : RingOps T) (p : list T) (x : T) : outcome T :=
  match p with
  | [] => Ok (r_zero O)
  | a :: p' =>
      y <- horner_steps O p' x ;;
      yx <- r_mul O y x ;;
      r_add O yx a
  end.
