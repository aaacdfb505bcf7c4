(** All vector/matrix expressions a user can write with the API of
    src/linalg/dvector.rs and src/linalg/dmatrix.rs, as syntax trees, and how the code
    builds the corresponding expression object.  [vbuild]/[mbuild] only call the model
    functions of Model/DVector.v and Model/DMatrix.v. *)
From Coq Require Import List Arith NArith Bool.
From Verif Require Import Base.Outcome Base.Usize Model.DVector Model.DMatrix.
Import ListNotations.

Inductive vx : Type -> Type :=
| VSlice {T} (s : list T) : vx T                                   (* [a, b, ..] *)
| VVec {T} (v : dvector T) : vx T                                  (* a DVector, moved *)
| VVecRef {T} (v : dvector T) : vx T                               (* &DVector *)
| VMake {T} (len : N) (f : N -> outcome T) : vx T                  (* make_vector_expr *)
| VSame {T} (len : N) (val : T) : vx T                             (* zeros, ones, same *)
| VMap {A B} (f : A -> outcome B) (e : vx A) : vx B                (* .map(f) *)
| VZip {A B} (e1 : vx A) (e2 : vx B) : vx (A * B)                  (* .zip(e2) *)
| VBin {A B C} (op : A -> B -> outcome C) (e1 : vx A) (e2 : vx B) : vx C   (* e1 + e2, e1 - e2 *)
| VElem {A B C} (op : A -> B -> outcome C) (e1 : vx A) (e2 : vx B) : vx C  (* mul_/div_elemwise *)
| VConj {T} (conj : T -> outcome T) (e : vx T) : vx T              (* .conj() *)
| VDiagOf {T} (e : mx T) : vx T                                    (* matrix .diag() *)
with mx : Type -> Type :=
| MArr {T} (cols : N) (rows : list (list T)) : mx T                (* [[a, ..], ..] *)
| MMat {T} (m : dmatrix T) : mx T                                  (* a DMatrix, moved *)
| MMatRef {T} (m : dmatrix T) : mx T                               (* &DMatrix *)
| MMake {T} (rows cols : N) (f : N -> N -> outcome T) : mx T       (* make_matrix_expr *)
| MSame {T} (rows cols : N) (val : T) : mx T                       (* zeros, ones, same *)
| MEye {T} (zero one : T) (n : N) : mx T                           (* eye *)
| MMap {A B} (f : A -> outcome B) (e : mx A) : mx B
| MZip {A B} (e1 : mx A) (e2 : mx B) : mx (A * B)
| MBin {A B C} (op : A -> B -> outcome C) (e1 : mx A) (e2 : mx B) : mx C
| MElem {A B C} (op : A -> B -> outcome C) (e1 : mx A) (e2 : mx B) : mx C
| MTr {T} (e : mx T) : mx T                                        (* .t() *)
| MHerm {T} (conj : T -> outcome T) (e : mx T) : mx T              (* .h() *)
| MDiagMat {T} (zero : T) (e : vx T) : mx T                        (* vector .diag() *)
| MMul {A B} (mul : A -> A -> outcome B) (add : B -> B -> outcome B)
       (a b : dmatrix A) : mx B.                                   (* &a * &b *)

Fixpoint vbuild (md : target) {T} (e : vx T) : outcome (vexpr T) :=
  match e with
  | VSlice s => Ok (vexpr_wrap (slice_expr s))
  | VVec v => Ok (dvector_expr v)
  | VVecRef v => Ok (vexpr_wrap (dvector_expr v))
  | VMake len f => Ok (make_vector_expr len f)
  | VSame len val => Ok (dvector_same len val)
  | VMap f e => b <- vbuild md e ;; Ok (vexpr_map b f)
  | VZip e1 e2 => b1 <- vbuild md e1 ;; b2 <- vbuild md e2 ;; vexpr_zip b1 b2
  | VBin op e1 e2 => b1 <- vbuild md e1 ;; b2 <- vbuild md e2 ;; vexpr_binop op b1 b2
  | VElem op e1 e2 => b1 <- vbuild md e1 ;; b2 <- vbuild md e2 ;; vexpr_op_elemwise op b1 b2
  | VConj cj e => b <- vbuild md e ;; Ok (vexpr_conj cj b)
  | VDiagOf e => b <- mbuild md e ;; Ok (mexpr_diag b)
  end
with mbuild (md : target) {T} (e : mx T) : outcome (mexpr T) :=
  match e with
  | MArr cols rows => Ok (mexpr_wrap (array2_expr cols rows))
  | MMat m => Ok (dmatrix_expr md m)
  | MMatRef m => Ok (mexpr_wrap (dmatrix_expr md m))
  | MMake rows cols f => Ok (make_matrix_expr rows cols f)
  | MSame rows cols val => Ok (dmatrix_same rows cols val)
  | MEye zero one n => Ok (dmatrix_eye zero one n)
  | MMap f e => b <- mbuild md e ;; Ok (mexpr_map b f)
  | MZip e1 e2 => b1 <- mbuild md e1 ;; b2 <- mbuild md e2 ;; mexpr_zip b1 b2
  | MBin op e1 e2 => b1 <- mbuild md e1 ;; b2 <- mbuild md e2 ;; mexpr_binop op b1 b2
  | MElem op e1 e2 => b1 <- mbuild md e1 ;; b2 <- mbuild md e2 ;; mexpr_op_elemwise op b1 b2
  | MTr e => b <- mbuild md e ;; Ok (mexpr_t b)
  | MHerm cj e => b <- mbuild md e ;; Ok (mexpr_h cj b)
  | MDiagMat zero e => b <- vbuild md e ;; Ok (vexpr_diag zero b)
  | MMul mul add a b => dmatrix_mul md mul add a b
  end.

(** Evaluating an expression: build it, then call [eval]. *)
Definition veval (md : target) {T} (e : vx T) : outcome (dvector T) :=
  b <- vbuild md e ;; v_eval b.
Definition meval (md : target) {T} (e : mx T) : outcome (dmatrix T) :=
  b <- mbuild md e ;; m_eval b.
