(** Histories of operations on one DMatrix, and what its entries are afterwards. *)
From Coq Require Import List NArith.
From Verif Require Import Base.Outcome Model.DMatrix.
Import ListNotations.

(** The operations a user can apply to a [DMatrix] variable [a]. *)
Inductive dm_step (T : Type) : Type :=
| Write (r c : N) (x : T)                                        (* a[[r, c]] = x *)
| OpAssign (op : T -> T -> outcome T) (e : mexpr T).             (* a += e, a -= e *)
Arguments Write {T} _ _ _.
Arguments OpAssign {T} _ _.

(** A step that is in range and whose right-hand side is fully computable: the values of
    [e] are [g] and the entry operation is the total function [f]. *)
Inductive fine_step {T} (rows cols : N) : dm_step T -> (N -> N -> T -> T) -> Prop :=
| FineWrite r c x : (r < rows)%N -> (c < cols)%N ->
    fine_step rows cols (Write r c x) (fun r' c' old => if ((r' =? r) && (c' =? c))%N%bool then x else old)
| FineAssign op f e g : m_rows e = rows -> m_cols e = cols ->
    (forall x y, op x y = Ok (f x y)) ->
    (forall r c, (r < rows)%N -> (c < cols)%N -> m_entry e r c = Ok (g r c)) ->
    fine_step rows cols (OpAssign op e) (fun r c old => f old (g r c)).

(** The entry at [r, c] after a list of such changes. *)
Definition after_steps {T} (changes : list (N -> N -> T -> T)) (r c : N) (x0 : T) : T :=
  fold_left (fun x ch => ch r c x) changes x0.
