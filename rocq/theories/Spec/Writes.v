(** Histories of writes to indexed slots. *)
From Coq Require Import List Arith.
Import ListNotations.

(** The content of slot [j] after the writes [ws] (oldest first), if it held [x0] before. *)
Fixpoint after_writes {T} (ws : list (nat * T)) (x0 : T) (j : nat) : T :=
  match ws with
  | [] => x0
  | (i, x) :: ws' => after_writes ws' (if j =? i then x else x0) j
  end.
