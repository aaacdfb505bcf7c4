(** Model of src/linalg/svector.rs. *)
From Coq Require Import List Arith Bool.
From Verif Require Import Base.Outcome Base.Array Model.Traits.
Import ListNotations.

(** svector.rs lines 5-6: [struct SVector<T, const DIM: usize>(pub [T; DIM])]. *)
Definition svector (T : Type) (dim : nat) : Type := array T dim.

Section SVector.
Context {T : Type} (O : RingOps T) {n : nat}.

(** svector.rs lines 18-20. *)
Definition svector_zero : outcome (svector T n) :=
  array_gen n (fun _ : unit => Ok (r_zero O, tt)) tt.

(** svector.rs lines 31-33. *)
Definition svector_from (s : array T n) : svector T n := s.

(** svector.rs lines 113-117: [AddAssign<&Self>]. *)
Definition svector_add_assign_ref (self other : svector T n) : outcome (svector T n) :=
  array_zip_mut (r_add O) self other.
(** svector.rs lines 94-96. *)
Definition svector_add_assign (self other : svector T n) : outcome (svector T n) :=
  svector_add_assign_ref self other.
(** svector.rs lines 74-77. *)
Definition svector_add_ref (self other : svector T n) : outcome (svector T n) :=
  svector_add_assign_ref self other.
(** svector.rs lines 52-55. *)
Definition svector_add (self other : svector T n) : outcome (svector T n) :=
  svector_add_assign_ref self other.

(** svector.rs lines 197-201: [SubAssign<&Self>]. *)
Definition svector_sub_assign_ref (self other : svector T n) : outcome (svector T n) :=
  array_zip_mut (r_sub O) self other.
(** svector.rs lines 178-180. *)
Definition svector_sub_assign (self other : svector T n) : outcome (svector T n) :=
  svector_sub_assign_ref self other.
(** svector.rs lines 158-161. *)
Definition svector_sub_ref (self other : svector T n) : outcome (svector T n) :=
  svector_sub_assign_ref self other.
(** svector.rs lines 136-139. *)
Definition svector_sub (self other : svector T n) : outcome (svector T n) :=
  svector_sub_assign_ref self other.

(** svector.rs lines 242-249: dot product by reference. *)
Definition svector_dot_ref (self other : svector T n) : outcome T :=
  for_each (fun '(l, r) sum => prod <- r_mul O l r ;; r_add O sum prod)
           (combine (entries self) (entries other)) (r_zero O).
(** svector.rs lines 220-222. *)
Definition svector_dot (self other : svector T n) : outcome T := svector_dot_ref self other.

(** svector.rs lines 324-329: [MulAssign<&T>]. *)
Definition svector_scale_assign_ref (self : svector T n) (other : T) : outcome (svector T n) :=
  array_map (fun x => r_mul O x other) self.
(** svector.rs lines 306-308. *)
Definition svector_scale_assign (self : svector T n) (other : T) : outcome (svector T n) :=
  svector_scale_assign_ref self other.
(** svector.rs lines 287-290. *)
Definition svector_scale_ref (self : svector T n) (other : T) : outcome (svector T n) :=
  svector_scale_assign_ref self other.
(** svector.rs lines 267-269. *)
Definition svector_scale (self : svector T n) (other : T) : outcome (svector T n) :=
  svector_scale_ref self other.

(** svector.rs lines 332-357: the three [IntoIterator]s yield the entries in index order. *)
Definition svector_into_iter (self : svector T n) : list T := entries self.

(** svector.rs lines 362-364. *)
Definition svector_index (self : svector T n) (index : nat) : outcome T := array_get self index.
(** svector.rs lines 375-377, used as [self[index] = value]. *)
Definition svector_index_set (self : svector T n) (index : nat) (value : T) : outcome (svector T n) :=
  array_set self index value.

(** svector.rs line 5: derived PartialEq. *)
Definition svector_eqb (self other : svector T n) : bool := array_eqb (r_eqb O) self other.
End SVector.
