(** Exactness of computations on integer data as long as the numbers stay small.

    [rep x z]: the element [x] stands for the integer [z].  [exact_while_small O rep B] lists,
    for the operations of the crate, a condition on the *inputs* (a sum of absolute values is
    at most [B]) under which the operation returns exactly the integer result. *)
From Coq Require Import List ZArith NArith.
From Verif Require Import Base.Outcome Base.Usize Base.Array Model.Traits Model.Polynomial Model.Complex
  Model.SVector Model.SMatrix Model.DVector Model.DMatrix Spec.Int Spec.DExpr.
Import ListNotations.
Local Open Scope Z_scope.

(** Exact integer arithmetic that gives up (as an overflow) as soon as a result exceeds [B] in
    absolute value. *)
Definition bounded (B z : Z) : outcome Z := if Z.abs z <=? B then Ok z else Panic ArithOverflow.

Definition bounded_ops (B : Z) : RingOps Z := {|
  r_zero := 0; r_one := 1;
  r_add := fun x y => bounded B (x + y);
  r_sub := fun x y => bounded B (x - y);
  r_mul := fun x y => bounded B (x * y);
  r_neg := fun x => bounded B (- x);
  r_eqb := Z.eqb
|}.

(** Integer data: coefficient [i] of a list, entry (i,j) of a list of rows, entry (r,c) of flat
    row-major data with [cols] columns. *)
Notation zc l i := (nth i l 0).
Notation ze rows i j := (nth j (nth i rows []) 0).
Notation zf data cols r c := (nth (N.to_nat (r * cols + c)) data 0).

Record exact_while_small {T} (O : RingOps T) (rep : T -> Z -> Prop) (B : Z) : Prop := {
  ew_eval : forall p x pz xz, Forall2 rep p pz -> rep x xz ->
    zsum (length pz) (fun i => Z.abs (zc pz i) * Z.max 1 (Z.abs xz) ^ Z.of_nat i) <= B ->
    exists y, poly_eval O p x = Ok y /\ rep y (zsum (length pz) (fun i => zc pz i * xz ^ Z.of_nat i));

  ew_poly_add : forall p q pz qz, Forall2 rep p pz -> Forall2 rep q qz ->
    (forall k, Z.abs (zc pz k + zc qz k) <= B) ->
    exists r, poly_add O p q = Ok r /\ forall k, rep (nth k r (r_zero O)) (zc pz k + zc qz k);

  ew_poly_sub : forall p q pz qz, Forall2 rep p pz -> Forall2 rep q qz ->
    (forall k, Z.abs (zc pz k) <= B /\ Z.abs (zc qz k) <= B /\ Z.abs (zc pz k - zc qz k) <= B) ->
    exists r, poly_sub O p q = Ok r /\ forall k, rep (nth k r (r_zero O)) (zc pz k - zc qz k);

  ew_poly_mul : forall p q pz qz, Forall2 rep p pz -> Forall2 rep q qz ->
    (forall k, zsum (S k) (fun i => Z.abs (zc pz i) * Z.abs (zc qz (k - i)%nat)) <= B) ->
    exists r, poly_mul O p q = Ok r
      /\ forall k, rep (nth k r (r_zero O)) (zsum (S k) (fun i => zc pz i * zc qz (k - i)%nat));

  ew_complex_mul : forall z w a b c d, rep (re z) a -> rep (im z) b -> rep (re w) c -> rep (im w) d ->
    Z.abs (a * c) + Z.abs (b * d) <= B -> Z.abs (a * d) + Z.abs (b * c) <= B ->
    exists r, complex_mul O z w = Ok r /\ rep (re r) (a * c - b * d) /\ rep (im r) (a * d + b * c);

  ew_complex_sqr_norm : forall z a b, rep (re z) a -> rep (im z) b -> a ^ 2 + b ^ 2 <= B ->
    exists r, complex_sqr_norm O z = Ok r /\ rep r (a ^ 2 + b ^ 2);

  ew_svector_dot : forall n (u v : svector T n) uz vz, Forall2 rep (entries u) uz -> Forall2 rep (entries v) vz ->
    zsum n (fun i => Z.abs (zc uz i * zc vz i)) <= B ->
    exists d, svector_dot O u v = Ok d /\ rep d (zsum n (fun i => zc uz i * zc vz i));

  ew_dvector_dot : forall (u v : dvector T) uz vz, Forall2 rep u uz -> Forall2 rep v vz -> length u = length v ->
    zsum (length uz) (fun i => Z.abs (zc uz i * zc vz i)) <= B ->
    exists d, dvector_dot (r_zero O) (r_add O) (r_mul O) (fun x => Ok x) u v = Ok d
      /\ rep d (zsum (length uz) (fun i => zc uz i * zc vz i));

  ew_smatrix_mul : forall l m n (a : smatrix T l m) (b : smatrix T m n) az bz,
    Forall2 (fun row rz => Forall2 rep (entries row) rz) (entries a) az ->
    Forall2 (fun row rz => Forall2 rep (entries row) rz) (entries b) bz ->
    (forall i j, (i < l)%nat -> (j < n)%nat -> zsum m (fun k => Z.abs (ze az i k * ze bz k j)) <= B) ->
    exists r rz, smatrix_mul O a b = Ok r
      /\ Forall2 (fun row rz => Forall2 rep (entries row) rz) (entries r) rz
      /\ forall i j, (i < l)%nat -> (j < n)%nat -> ze rz i j = zsum m (fun k => ze az i k * ze bz k j);

  ew_smatrix_mul_vec : forall m n (a : smatrix T m n) (v : svector T n) az vz,
    Forall2 (fun row rz => Forall2 rep (entries row) rz) (entries a) az ->
    Forall2 rep (entries v) vz ->
    (forall i, (i < m)%nat -> zsum n (fun j => Z.abs (ze az i j * zc vz j)) <= B) ->
    exists r rz, smatrix_mul_vec O a v = Ok r /\ Forall2 rep (entries r) rz
      /\ forall i, (i < m)%nat -> zc rz i = zsum n (fun j => ze az i j * zc vz j);

  ew_dmatrix_mul : forall md (a b : dmatrix T) az bz,
    dm_wf md a -> dm_wf md b ->
    dm_cols a = dm_rows b -> (1 <= dm_cols a)%N ->
    Forall2 rep (dm_data a) az -> Forall2 rep (dm_data b) bz ->
    (forall r c, (r < dm_rows a)%N -> (c < dm_cols b)%N ->
       zsum (N.to_nat (dm_cols a)) (fun k => Z.abs (zf az (dm_cols a) r (N.of_nat k) * zf bz (dm_cols b) (N.of_nat k) c)) <= B) ->
    exists r rz, (e <- dmatrix_mul md (r_mul O) (r_add O) a b ;; m_eval e) = Ok r
      /\ dm_rows r = dm_rows a /\ dm_cols r = dm_cols b /\ Forall2 rep (dm_data r) rz
      /\ forall i j, (i < dm_rows a)%N -> (j < dm_cols b)%N ->
         zf rz (dm_cols b) i j
         = zsum (N.to_nat (dm_cols a)) (fun k => zf az (dm_cols a) i (N.of_nat k) * zf bz (dm_cols b) (N.of_nat k) j)
}.
