(** Histories of writes to slots indexed by machine indices. *)
From Coq Require Import List NArith.
Import ListNotations.

(** The content of slot [j] after the writes [ws] (oldest first), if it held [x0] before. *)
Fixpoint after_writes_N {T} (ws : list (N * T)) (x0 : T) (j : N) : T :=
  match ws with
  | [] => x0
  | (i, x) :: ws' => after_writes_N ws' (if (j =? i)%N then x else x0) j
  end.
