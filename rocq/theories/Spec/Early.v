(** "Evaluating some subexpressions early": [vearly md e e'] says that [e'] is [e]
    with any number of subexpressions (also nested, also [e] itself) replaced by
    their already computed values, moved or borrowed. *)
From Coq Require Import List NArith.
From Verif Require Import Base.Outcome Base.Usize Model.DVector Model.DMatrix Model.DExpr Spec.DExpr.

Inductive vearly (md : target) : forall T, vx T -> vx T -> Prop :=
| VE_refl T (e : vx T) : vearly md T e e
| VE_now T (e : vx T) v : veval md e = Ok v -> vearly md T e (VVec v)
| VE_now_ref T (e : vx T) v : veval md e = Ok v -> vearly md T e (VVecRef v)
| VE_trans T (e1 e2 e3 : vx T) : vearly md T e1 e2 -> vearly md T e2 e3 -> vearly md T e1 e3
| VE_map A B (f : A -> outcome B) e e' : vearly md A e e' -> vearly md B (VMap f e) (VMap f e')
| VE_zip A B e1 e1' e2 e2' : vearly md A e1 e1' -> vearly md B e2 e2' ->
    vearly md (A * B) (VZip e1 e2) (VZip e1' e2')
| VE_bin A B C (op : A -> B -> outcome C) e1 e1' e2 e2' : vearly md A e1 e1' -> vearly md B e2 e2' ->
    vearly md C (VBin op e1 e2) (VBin op e1' e2')
| VE_elem A B C (op : A -> B -> outcome C) e1 e1' e2 e2' : vearly md A e1 e1' -> vearly md B e2 e2' ->
    vearly md C (VElem op e1 e2) (VElem op e1' e2')
| VE_conj T cj e e' : vearly md T e e' -> vearly md T (VConj cj e) (VConj cj e')
| VE_diag T e e' : mearly md T e e' -> vearly md T (VDiagOf e) (VDiagOf e')
with mearly (md : target) : forall T, mx T -> mx T -> Prop :=
| ME_refl T (e : mx T) : mearly md T e e
(** the computed matrix is a real object: its storage fits into memory *)
| ME_now T (e : mx T) m : meval md e = Ok m ->
    (dm_rows m * dm_cols m < usize_bound md)%N -> mearly md T e (MMat m)
| ME_now_ref T (e : mx T) m : meval md e = Ok m ->
    (dm_rows m * dm_cols m < usize_bound md)%N -> mearly md T e (MMatRef m)
| ME_trans T (e1 e2 e3 : mx T) : mearly md T e1 e2 -> mearly md T e2 e3 -> mearly md T e1 e3
| ME_map A B (f : A -> outcome B) e e' : mearly md A e e' -> mearly md B (MMap f e) (MMap f e')
| ME_zip A B e1 e1' e2 e2' : mearly md A e1 e1' -> mearly md B e2 e2' ->
    mearly md (A * B) (MZip e1 e2) (MZip e1' e2')
| ME_bin A B C (op : A -> B -> outcome C) e1 e1' e2 e2' : mearly md A e1 e1' -> mearly md B e2 e2' ->
    mearly md C (MBin op e1 e2) (MBin op e1' e2')
| ME_elem A B C (op : A -> B -> outcome C) e1 e1' e2 e2' : mearly md A e1 e1' -> mearly md B e2 e2' ->
    mearly md C (MElem op e1 e2) (MElem op e1' e2')
| ME_tr T e e' : mearly md T e e' -> mearly md T (MTr e) (MTr e')
| ME_herm T cj e e' : mearly md T e e' -> mearly md T (MHerm cj e) (MHerm cj e')
| ME_diag T zero e e' : vearly md T e e' -> mearly md T (MDiagMat zero e) (MDiagMat zero e').

Arguments vearly md {T} _ _.
Arguments mearly md {T} _ _.
