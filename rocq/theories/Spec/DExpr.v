(** The mathematical meaning of dynamic vector and matrix expressions: their shape,
    whether shapes match, and the value of each entry.  Independent of how the
    code builds and evaluates expression objects. *)
From Coq Require Import List Arith NArith Bool.
From Verif Require Import Base.Outcome Base.Usize Model.DVector Model.DMatrix Model.DExpr.
Import ListNotations.

(** Entry of a stored matrix in row-major order. *)
Definition row_major_at {T} (m : dmatrix T) (r c : N) : option T :=
  nth_error (dm_data m) (N.to_nat (r * dm_cols m + c)).

(** A stored matrix has exactly rows*cols entries, which the address space of the target can hold. *)
Definition dm_wf (md : target) {T} (m : dmatrix T) : Prop :=
  ulen (dm_data m) = (dm_rows m * dm_cols m)%N /\ (dm_rows m * dm_cols m < usize_bound md)%N.

(** A nested array is rectangular. *)
Definition array2_wf {T} (cols : N) (rows : list (list T)) : Prop :=
  Forall (fun r => ulen r = cols) rows.

Definition some_ok {T} (o : option T) : outcome T :=
  match o with Some x => Ok x | None => Panic IndexOOB end.

(** ** Shapes *)
Fixpoint vshape {T} (e : vx T) : N :=
  match e with
  | VSlice s => ulen s
  | VVec v | VVecRef v => ulen v
  | VMake len _ | VSame len _ => len
  | VMap _ e => vshape e
  | VZip e1 _ => vshape e1
  | VBin _ e1 _ => vshape e1
  | VElem _ e1 _ => vshape e1
  | VConj _ e => vshape e
  | VDiagOf e => let '(r, c) := mshape e in N.min r c
  end
with mshape {T} (e : mx T) : N * N :=
  match e with
  | MArr cols rows => (ulen rows, cols)
  | MMat m | MMatRef m => (dm_rows m, dm_cols m)
  | MMake r c _ | MSame r c _ => (r, c)
  | MEye _ _ n => (n, n)
  | MMap _ e => mshape e
  | MZip e1 _ => mshape e1
  | MBin _ e1 _ => mshape e1
  | MElem _ e1 _ => mshape e1
  | MTr e => let '(r, c) := mshape e in (c, r)
  | MHerm _ e => let '(r, c) := mshape e in (c, r)
  | MDiagMat _ e => (vshape e, vshape e)
  | MMul _ _ a b => (dm_rows a, dm_cols b)
  end.

Definition same_shape (s1 s2 : N * N) : bool := (fst s1 =? fst s2)%N && (snd s1 =? snd s2)%N.

(** ** All operand shapes match *)
Fixpoint vmatch {T} (e : vx T) : bool :=
  match e with
  | VSlice _ | VVec _ | VVecRef _ | VMake _ _ | VSame _ _ => true
  | VMap _ e => vmatch e
  | VZip e1 e2 => vmatch e1 && vmatch e2 && (vshape e1 =? vshape e2)%N
  | VBin _ e1 e2 => vmatch e1 && vmatch e2 && (vshape e1 =? vshape e2)%N
  | VElem _ e1 e2 => vmatch e1 && vmatch e2 && (vshape e1 =? vshape e2)%N
  | VConj _ e => vmatch e
  | VDiagOf e => mmatch e
  end
with mmatch {T} (e : mx T) : bool :=
  match e with
  | MArr _ _ | MMat _ | MMatRef _ | MMake _ _ _ | MSame _ _ _ | MEye _ _ _ => true
  | MMap _ e => mmatch e
  | MZip e1 e2 => mmatch e1 && mmatch e2 && same_shape (mshape e1) (mshape e2)
  | MBin _ e1 e2 => mmatch e1 && mmatch e2 && same_shape (mshape e1) (mshape e2)
  | MElem _ e1 e2 => mmatch e1 && mmatch e2 && same_shape (mshape e1) (mshape e2)
  | MTr e => mmatch e
  | MHerm _ e => mmatch e
  | MDiagMat _ e => vmatch e
  | MMul _ _ a b => (dm_cols a =? dm_rows b)%N
  end.

(** ** Entries.  An entry operation of the element type may itself panic. *)
Definition fold_products {B} (add : B -> B -> outcome B) (p : N -> outcome B) (n : N) : outcome B :=
  (** p 0 + p 1 + ... + p (n-1), left to right *)
  x0 <- p 0%N ;; for_each (fun i s => x <- p i ;; add s x) (urange_from 1 n) x0.

Fixpoint vmean {T} (e : vx T) (i : N) : outcome T :=
  match e in vx T return outcome T with
  | VSlice s => some_ok (nth_error s (N.to_nat i))
  | VVec v | VVecRef v => some_ok (nth_error v (N.to_nat i))
  | VMake _ f => f i
  | VSame _ x => Ok x
  | VMap f e => x <- vmean e i ;; f x
  | VZip e1 e2 => x <- vmean e1 i ;; y <- vmean e2 i ;; Ok (x, y)
  | VBin op e1 e2 => x <- vmean e1 i ;; y <- vmean e2 i ;; op x y
  | VElem op e1 e2 => x <- vmean e1 i ;; y <- vmean e2 i ;; op x y
  | VConj cj e => x <- vmean e i ;; cj x
  | VDiagOf e => mmean e i i
  end
with mmean {T} (e : mx T) (r c : N) : outcome T :=
  match e in mx T return outcome T with
  | MArr _ rows => some_ok (nth_error (nth (N.to_nat r) rows []) (N.to_nat c))
  | MMat m | MMatRef m => some_ok (row_major_at m r c)
  | MMake _ _ f => f r c
  | MSame _ _ x => Ok x
  | MEye zero one _ => Ok (if (r =? c)%N then one else zero)
  | MMap f e => x <- mmean e r c ;; f x
  | MZip e1 e2 => x <- mmean e1 r c ;; y <- mmean e2 r c ;; Ok (x, y)
  | MBin op e1 e2 => x <- mmean e1 r c ;; y <- mmean e2 r c ;; op x y
  | MElem op e1 e2 => x <- mmean e1 r c ;; y <- mmean e2 r c ;; op x y
  | MTr e => mmean e c r
  | MHerm cj e => x <- mmean e c r ;; cj x
  | MDiagMat zero e => if (r =? c)%N then vmean e r else Ok zero
  | MMul mul add a b =>
      fold_products add (fun i => x <- some_ok (row_major_at a r i) ;;
                                  y <- some_ok (row_major_at b i c) ;; mul x y) (dm_cols a)
  end.

(** ** Well-formed leaves: stored matrices and nested arrays are proper, and products
    have a non-empty inner dimension (the case of an empty one is C34). *)
Fixpoint vproper (md : target) {T} (e : vx T) : Prop :=
  match e with
  | VSlice _ | VVec _ | VVecRef _ | VMake _ _ | VSame _ _ => True
  | VMap _ e => vproper md e
  | VZip e1 e2 => vproper md e1 /\ vproper md e2
  | VBin _ e1 e2 => vproper md e1 /\ vproper md e2
  | VElem _ e1 e2 => vproper md e1 /\ vproper md e2
  | VConj _ e => vproper md e
  | VDiagOf e => mproper md e
  end
with mproper (md : target) {T} (e : mx T) : Prop :=
  match e with
  | MArr cols rows => array2_wf cols rows
  | MMat m | MMatRef m => dm_wf md m
  | MMake _ _ _ | MSame _ _ _ | MEye _ _ _ => True
  | MMap _ e => mproper md e
  | MZip e1 e2 => mproper md e1 /\ mproper md e2
  | MBin _ e1 e2 => mproper md e1 /\ mproper md e2
  | MElem _ e1 e2 => mproper md e1 /\ mproper md e2
  | MTr e => mproper md e
  | MHerm _ e => mproper md e
  | MDiagMat _ e => vproper md e
  | MMul _ _ a b => dm_wf md a /\ dm_wf md b /\ (1 <= dm_cols a)%N
  end.
