(** Which closure calls evaluating a vector or matrix expression makes, and in which order. *)
From Coq Require Import List Arith NArith Bool.
From Verif Require Import Base.Outcome Base.Usize Model.DVector Model.DMatrix Model.DExpr Model.DEffect Spec.DExpr.
Import ListNotations.

(** A node of an expression tree: the way to it from the root, innermost step first
    (0 is the first or only operand, 1 the second). *)
Definition path := list nat.

(** A call of a user closure. *)
Inductive call : Type :=
| Entry1 (p : path) (i : N)          (* the closure of the make_vector_expr at [p], called with [i] *)
| Entry2 (p : path) (r c : N)        (* the closure of the make_matrix_expr at [p], called with [r], [c] *)
| Apply (p : path).                  (* the closure of the map at [p] *)
Definition is_entry (c : call) : bool := match c with Apply _ => false | _ => true end.

(** The calls made for one entry: operands from left to right, then the closure itself. *)
Fixpoint vcalls {T} (p : path) (e : vx T) (i : N) : list call :=
  match e with
  | VSlice _ | VVec _ | VVecRef _ | VSame _ _ => []
  | VMake _ _ => [Entry1 p i]
  | VMap _ e => vcalls (0 :: p) e i ++ [Apply p]
  | VZip e1 e2 => vcalls (0 :: p) e1 i ++ vcalls (1 :: p) e2 i
  | VBin _ e1 e2 => vcalls (0 :: p) e1 i ++ vcalls (1 :: p) e2 i
  | VElem _ e1 e2 => vcalls (0 :: p) e1 i ++ vcalls (1 :: p) e2 i
  | VConj _ e => vcalls (0 :: p) e i
  | VDiagOf e => mcalls (0 :: p) e i i
  end
with mcalls {T} (p : path) (e : mx T) (r c : N) : list call :=
  match e with
  | MArr _ _ | MMat _ | MMatRef _ | MSame _ _ _ | MEye _ _ _ | MMul _ _ _ _ => []
  | MMake _ _ _ => [Entry2 p r c]
  | MMap _ e => mcalls (0 :: p) e r c ++ [Apply p]
  | MZip e1 e2 => mcalls (0 :: p) e1 r c ++ mcalls (1 :: p) e2 r c
  | MBin _ e1 e2 => mcalls (0 :: p) e1 r c ++ mcalls (1 :: p) e2 r c
  | MElem _ e1 e2 => mcalls (0 :: p) e1 r c ++ mcalls (1 :: p) e2 r c
  | MTr e => mcalls (0 :: p) e c r
  | MHerm _ e => mcalls (0 :: p) e c r
  | MDiagMat _ e => if (r =? c)%N then vcalls (0 :: p) e r else []
  end.

(** The calls of a whole evaluation: entry by entry, matrices row by row. *)
Definition rows_then_cols (rows cols : N) : list (N * N) :=
  flat_map (fun r => map (fun c => (r, c)) (urange cols)) (urange rows).
Definition vrun {T} (e : vx T) : list call := flat_map (vcalls [] e) (urange (vshape e)).
Definition mrun {T} (e : mx T) : list call :=
  flat_map (fun '(r, c) => mcalls [] e r c) (rows_then_cols (fst (mshape e)) (snd (mshape e))).

(** The same expression with every closure first updating a state. *)
Section Watch.
Context {St : Type} (md : target) (step : call -> St -> St).

Definition watched {A} (c : call) (o : outcome A) : eff St A := fun s => (step c s, o).

Fixpoint vwatch {T} (p : path) (e : vx T) : evx St T :=
  match e with
  | VSlice s => EVStored (vexpr_wrap (slice_expr s))
  | VVec v => EVStored (dvector_expr v)
  | VVecRef v => EVStored (vexpr_wrap (dvector_expr v))
  | VSame len x => EVStored (dvector_same len x)
  | VMake len f => EVMake len (fun i => watched (Entry1 p i) (f i))
  | VMap f e => EVMap (fun x => watched (Apply p) (f x)) (vwatch (0 :: p) e)
  | VZip e1 e2 => EVZip (vwatch (0 :: p) e1) (vwatch (1 :: p) e2)
  | VBin op e1 e2 => EVBin op (vwatch (0 :: p) e1) (vwatch (1 :: p) e2)
  | VElem op e1 e2 => EVElem op (vwatch (0 :: p) e1) (vwatch (1 :: p) e2)
  | VConj cj e => EVConj cj (vwatch (0 :: p) e)
  | VDiagOf e => EVDiagOf (mwatch (0 :: p) e)
  end
with mwatch {T} (p : path) (e : mx T) : emx St T :=
  match e with
  | MArr cols rows => EMStored (Ok (mexpr_wrap (array2_expr cols rows)))
  | MMat m => EMStored (Ok (dmatrix_expr md m))
  | MMatRef m => EMStored (Ok (mexpr_wrap (dmatrix_expr md m)))
  | MSame rows cols x => EMStored (Ok (dmatrix_same rows cols x))
  | MEye zero one n => EMStored (Ok (dmatrix_eye zero one n))
  | MMul mul add a b => EMStored (dmatrix_mul md mul add a b)
  | MMake rows cols f => EMMake rows cols (fun r c => watched (Entry2 p r c) (f r c))
  | MMap f e => EMMap (fun x => watched (Apply p) (f x)) (mwatch (0 :: p) e)
  | MZip e1 e2 => EMZip (mwatch (0 :: p) e1) (mwatch (1 :: p) e2)
  | MBin op e1 e2 => EMBin op (mwatch (0 :: p) e1) (mwatch (1 :: p) e2)
  | MElem op e1 e2 => EMElem op (mwatch (0 :: p) e1) (mwatch (1 :: p) e2)
  | MTr e => EMTr (mwatch (0 :: p) e)
  | MHerm cj e => EMHerm cj (mwatch (0 :: p) e)
  | MDiagMat zero e => EMDiagMat zero (vwatch (0 :: p) e)
  end.

(** The state after a sequence of calls. *)
Definition after (l : list call) (s : St) : St := fold_left (fun s c => step c s) l s.
End Watch.

(** Every closure of the expression with every index of its own shape. *)
Fixpoint vevery {T} (p : path) (e : vx T) : list call :=
  match e with
  | VSlice _ | VVec _ | VVecRef _ | VSame _ _ => []
  | VMake len _ => map (Entry1 p) (urange len)
  | VMap _ e => vevery (0 :: p) e
  | VZip e1 e2 => vevery (0 :: p) e1 ++ vevery (1 :: p) e2
  | VBin _ e1 e2 => vevery (0 :: p) e1 ++ vevery (1 :: p) e2
  | VElem _ e1 e2 => vevery (0 :: p) e1 ++ vevery (1 :: p) e2
  | VConj _ e => vevery (0 :: p) e
  | VDiagOf e => mevery (0 :: p) e
  end
with mevery {T} (p : path) (e : mx T) : list call :=
  match e with
  | MArr _ _ | MMat _ | MMatRef _ | MSame _ _ _ | MEye _ _ _ | MMul _ _ _ _ => []
  | MMake rows cols _ => map (fun '(r, c) => Entry2 p r c) (rows_then_cols rows cols)
  | MMap _ e => mevery (0 :: p) e
  | MZip e1 e2 => mevery (0 :: p) e1 ++ mevery (1 :: p) e2
  | MBin _ e1 e2 => mevery (0 :: p) e1 ++ mevery (1 :: p) e2
  | MElem _ e1 e2 => mevery (0 :: p) e1 ++ mevery (1 :: p) e2
  | MTr e => mevery (0 :: p) e
  | MHerm _ e => mevery (0 :: p) e
  | MDiagMat _ e => vevery (0 :: p) e
  end.

(** The expression takes no diagonal of a matrix (which drops the other entries). *)
Fixpoint vfull {T} (e : vx T) : bool :=
  match e with
  | VSlice _ | VVec _ | VVecRef _ | VSame _ _ | VMake _ _ => true
  | VMap _ e => vfull e
  | VZip e1 e2 => vfull e1 && vfull e2
  | VBin _ e1 e2 => vfull e1 && vfull e2
  | VElem _ e1 e2 => vfull e1 && vfull e2
  | VConj _ e => vfull e
  | VDiagOf _ => false
  end.
Fixpoint mfull {T} (e : mx T) : bool :=
  match e with
  | MArr _ _ | MMat _ | MMatRef _ | MSame _ _ _ | MEye _ _ _ | MMul _ _ _ _ | MMake _ _ _ => true
  | MMap _ e => mfull e
  | MZip e1 e2 => mfull e1 && mfull e2
  | MBin _ e1 e2 => mfull e1 && mfull e2
  | MElem _ e1 e2 => mfull e1 && mfull e2
  | MTr e => mfull e
  | MHerm _ e => mfull e
  | MDiagMat _ e => vfull e
  end.
