(** Model of src/linalg/smatrix.rs. *)
From Coq Require Import List Arith Bool.
From Verif Require Import Base.Outcome Base.Array Model.Traits Model.SVector.
Import ListNotations.

(** smatrix.rs lines 15-16: [struct SMatrix<T, NUM_ROWS, NUM_COLS>([[T; NUM_COLS]; NUM_ROWS])]. *)
Definition smatrix (T : Type) (rows cols : nat) : Type := array (array T cols) rows.

Section SMatrix.
Context {T : Type} (O : RingOps T).

(** smatrix.rs lines 31-33. *)
Definition smatrix_zero (m n : nat) : outcome (smatrix T m n) :=
  array_gen m (fun _ : unit =>
    row <- array_gen n (fun _ : unit => Ok (r_zero O, tt)) tt ;; Ok (row, tt)) tt.

(** smatrix.rs lines 49-61: the closures count [m] and [n] upwards. *)
Definition smatrix_one (rows cols : nat) : outcome (smatrix T rows cols) :=
  array_gen rows (fun m =>
    row <- array_gen cols (fun n =>
             let x := if m =? n then r_one O else r_zero O in
             Ok (x, n + 1)) 0 ;;
    Ok (row, m + 1)) 0.

(** smatrix.rs lines 74-76. *)
Definition smatrix_from {m n} (coefficients : array (array T n) m) : smatrix T m n := coefficients.

(** smatrix.rs lines 158-164: [AddAssign<&Self>]. *)
Definition smatrix_add_assign_ref {m n} (self other : smatrix T m n) : outcome (smatrix T m n) :=
  array_zip_mut (fun lo ro => array_zip_mut (r_add O) lo ro) self other.
(** smatrix.rs lines 138-140. *)
Definition smatrix_add_assign {m n} (self other : smatrix T m n) : outcome (smatrix T m n) :=
  smatrix_add_assign_ref self other.
(** smatrix.rs lines 117-120. *)
Definition smatrix_add_ref {m n} (self other : smatrix T m n) : outcome (smatrix T m n) :=
  smatrix_add_assign_ref self other.
(** smatrix.rs lines 95-98. *)
Definition smatrix_add {m n} (self other : smatrix T m n) : outcome (smatrix T m n) :=
  smatrix_add_assign_ref self other.

(** smatrix.rs lines 246-252: [SubAssign<&Self>]. *)
Definition smatrix_sub_assign_ref {m n} (self other : smatrix T m n) : outcome (smatrix T m n) :=
  array_zip_mut (fun lo ro => array_zip_mut (r_sub O) lo ro) self other.
(** smatrix.rs lines 226-228. *)
Definition smatrix_sub_assign {m n} (self other : smatrix T m n) : outcome (smatrix T m n) :=
  smatrix_sub_assign_ref self other.
(** smatrix.rs lines 205-208. *)
Definition smatrix_sub_ref {m n} (self other : smatrix T m n) : outcome (smatrix T m n) :=
  smatrix_sub_assign_ref self other.
(** smatrix.rs lines 183-186. *)
Definition smatrix_sub {m n} (self other : smatrix T m n) : outcome (smatrix T m n) :=
  smatrix_sub_assign_ref self other.

(** smatrix.rs lines 272-288: [&self * &other], with the bounds-checked accesses
    [self.0[l][m]] and [other.0[m][n]]. *)
Definition smatrix_mul_refs {L M N} (self : smatrix T L M) (other : smatrix T M N)
  : outcome (smatrix T L N) :=
  array_gen L (fun l =>
    row <- array_gen N (fun n =>
      sum <- for_range 0 M (fun m sum =>
               srow <- array_get self l ;; x <- array_get srow m ;;
               orow <- array_get other m ;; y <- array_get orow n ;;
               prod <- r_mul O x y ;;
               r_add O sum prod) (r_zero O) ;;
      Ok (sum, n + 1)) 0 ;;
    Ok (row, l + 1)) 0.

(** smatrix.rs lines 307-309. *)
Definition smatrix_mul {L M N} (self : smatrix T L M) (other : smatrix T M N)
  : outcome (smatrix T L N) := smatrix_mul_refs self other.

(** smatrix.rs lines 326-330. *)
Definition smatrix_mul_assign_ref {M N} (self : smatrix T M N) (other : smatrix T N N)
  : outcome (smatrix T M N) := smatrix_mul_refs self other.
(** smatrix.rs lines 347-351. *)
Definition smatrix_mul_assign {M N} (self : smatrix T M N) (other : smatrix T N N)
  : outcome (smatrix T M N) := smatrix_mul_refs self other.

(** smatrix.rs lines 371-382: matrix times vector. *)
Definition smatrix_mul_vec {M N} (self : smatrix T M N) (vec : svector T N)
  : outcome (svector T M) :=
  array_gen M (fun i =>
    row <- array_get self i ;;
    sum <- for_each (fun '(m, v) sum => prod <- r_mul O m v ;; r_add O sum prod)
             (combine (entries row) (svector_into_iter vec)) (r_zero O) ;;
    Ok (sum, i + 1)) 0.

(** smatrix.rs lines 394-396. *)
Definition smatrix_neg {M N} (self : smatrix T M N) : outcome (smatrix T M N) :=
  array_map (fun row => array_map (r_neg O) row) self.

(** smatrix.rs lines 402-404; [conj] is the Conj implementation of the element type. *)
Definition smatrix_conj {M N} (conj : T -> outcome T) (self : smatrix T M N)
  : outcome (smatrix T M N) :=
  array_map (fun row => array_map conj row) self.

(** smatrix.rs line 15: derived PartialEq. *)
Definition smatrix_eqb {M N} (self other : smatrix T M N) : bool :=
  array_eqb (fun r s => array_eqb (r_eqb O) r s) self other.

(** smatrix.rs line 399: [impl Ring for SMatrix<T, N, N>]; [MulRefs] is the blanket
    implementation src/algebra/ops_with_ref.rs via [&self * &other].
    [zero()] and [one()] cannot panic; the fallback of [unwrap] is never used
    (lemmas smatrix_zero_total, smatrix_one_total in Proofs/SMatrixProofs.v). *)
Definition smatrix_ops (N : nat) : RingOps (smatrix T N N) := {|
  r_zero := unwrap (tab N (fun _ => tab N (fun _ => r_zero O))) (smatrix_zero N N);
  r_one := unwrap (tab N (fun _ => tab N (fun _ => r_zero O))) (smatrix_one N N);
  r_add := smatrix_add_assign_ref;
  r_sub := smatrix_sub_assign_ref;
  r_mul := smatrix_mul_refs;
  r_neg := smatrix_neg;
  r_eqb := smatrix_eqb
|}.
End SMatrix.
