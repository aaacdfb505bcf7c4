(** src/linalg/dvector.rs and src/linalg/dmatrix.rs once more, now with closures that have side
    effects: an [Fn] closure may read and write a state (a [Cell], a [RefCell], a random number
    generator behind one), so how often and in which order it is called is observable.

    Model/DVector.v and Model/DMatrix.v are the special case of closures without side effects
    (theorem C75_pure_closures).  Simplification: all closures of one expression share one state
    [St]; the entry operators ([+], [*], conj, ...) may panic but have no side effects. *)
From Coq Require Import List Arith NArith Bool.
From Verif Require Import Base.Outcome Base.Usize Model.DVector Model.DMatrix.
Import ListNotations.

(** A computation with side effects; the state left behind by a panic is kept. *)
Definition eff (St A : Type) : Type := St -> St * outcome A.
Definition lift {St A} (o : outcome A) : eff St A := fun s => (s, o).
Definition ebind {St A B} (m : eff St A) (k : A -> eff St B) : eff St B := fun s =>
  match m s with
  | (s', Ok a) => k a s'
  | (s', Panic p) => (s', Panic p)
  | (s', Diverge) => (s', Diverge)
  end.
Declare Scope eff_scope.
Delimit Scope eff_scope with eff.
Notation "x <~ m ;; k" := (ebind m (fun x => k))
  (at level 61, m at next level, right associativity) : eff_scope.
Open Scope eff_scope.

(** [iter.map(f).collect()]. *)
Fixpoint emapM {St A B} (f : A -> eff St B) (l : list A) : eff St (list B) :=
  match l with
  | [] => lift (Ok [])
  | x :: l' => y <~ f x ;; ys <~ emapM f l' ;; lift (Ok (y :: ys))
  end.

(** dvector.rs lines 8-32: trait VectorExpr. *)
Record evexpr (St T : Type) : Type := MkEV {
  ev_len : N;
  ev_entry : N -> eff St T;
  ev_eval : eff St (dvector T)
}.
Arguments MkEV {St T} _ _ _.
Arguments ev_len {St T} _.
Arguments ev_entry {St T} _ _.
Arguments ev_eval {St T} _.

(** dmatrix.rs lines 8-38: trait MatrixExpr. *)
Record emexpr (St T : Type) : Type := MkEM {
  em_rows : N;
  em_cols : N;
  em_entry : N -> N -> eff St T;
  em_eval : eff St (dmatrix T)
}.
Arguments MkEM {St T} _ _ _ _.
Arguments em_rows {St T} _.
Arguments em_cols {St T} _.
Arguments em_entry {St T} _ _ _.
Arguments em_eval {St T} _.

Section Exprs.
Context {St : Type}.

(** dvector.rs lines 24-26 and 73-97: default [eval], [make_vector_expr]. *)
Definition ev_default_eval {T} (len : N) (entry : N -> eff St T) : eff St (dvector T) :=
  emapM entry (urange len).
Definition ev_make {T} (len : N) (f : N -> eff St T) : evexpr St T := MkEV len f (ev_default_eval len f).
(** dvector.rs lines 126-131. *)
Definition ev_map {A B} (self : evexpr St A) (f : A -> eff St B) : evexpr St B :=
  ev_make (ev_len self) (fun index => x <~ ev_entry self index ;; f x).
(** dvector.rs lines 167-178. *)
Definition ev_zip {A B} (self : evexpr St A) (rhs : evexpr St B) : outcome (evexpr St (A * B)) :=
  (_ <- assert_eq_usize (ev_len self) (ev_len rhs) ;;
   Ok (ev_make (ev_len self) (fun index =>
         x <~ ev_entry self index ;; y <~ ev_entry rhs index ;; lift (Ok (x, y)))))%oc.
(** dvector.rs lines 200-203 and 215-232; 242-245 and 257-274. *)
Definition ev_binop {A B C} (op : A -> B -> outcome C) (self : evexpr St A) (rhs : evexpr St B)
  : outcome (evexpr St C) :=
  (_ <- assert_eq_usize (ev_len self) (ev_len rhs) ;;
   Ok (ev_make (ev_len self) (fun index =>
         x <~ ev_entry self index ;; y <~ ev_entry rhs index ;; lift (op x y))))%oc.
(** dvector.rs lines 301-309 and 345-353. *)
Definition ev_op_elemwise {A B C} (op : A -> B -> outcome C) (self : evexpr St A) (rhs : evexpr St B)
  : outcome (evexpr St C) :=
  (z <- ev_zip self rhs ;; Ok (ev_map z (fun '(x, y) => lift (op x y))))%oc.
(** dvector.rs lines 366-371. *)
Definition ev_conj {T} (conj : T -> outcome T) (self : evexpr St T) : evexpr St T :=
  ev_map self (fun x => lift (conj x)).
(** An expression that owns or borrows its entries: dvector.rs lines 436-466, 792-806. *)
Definition ev_stored {T} (e : vexpr T) : evexpr St T :=
  MkEV (v_len e) (fun i => lift (v_entry e i)) (lift (v_eval e)).

(** dmatrix.rs lines 22-32 and 102-134. *)
Definition em_default_eval {T} (rows cols : N) (entry : N -> N -> eff St T) : eff St (dmatrix T) :=
  data <~ emapM (fun '(r, c) => entry r c) (index_pairs rows cols) ;;
  lift (Ok (MkDM data rows cols)).
Definition em_make {T} (rows cols : N) (f : N -> N -> eff St T) : emexpr St T :=
  MkEM rows cols f (em_default_eval rows cols f).
(** dmatrix.rs lines 163-170. *)
Definition em_map {A B} (self : emexpr St A) (f : A -> eff St B) : emexpr St B :=
  em_make (em_rows self) (em_cols self) (fun row col => x <~ em_entry self row col ;; f x).
(** dmatrix.rs lines 206-218. *)
Definition em_zip {A B} (self : emexpr St A) (rhs : emexpr St B) : outcome (emexpr St (A * B)) :=
  (_ <- assert_eq_usize (em_rows self) (em_rows rhs) ;;
   _ <- assert_eq_usize (em_cols self) (em_cols rhs) ;;
   Ok (em_make (em_rows self) (em_cols self) (fun row col =>
         x <~ em_entry self row col ;; y <~ em_entry rhs row col ;; lift (Ok (x, y)))))%oc.
(** dmatrix.rs lines 240-244 and 258-277; 287-291 and 305-324. *)
Definition em_binop {A B C} (op : A -> B -> outcome C) (self : emexpr St A) (rhs : emexpr St B)
  : outcome (emexpr St C) :=
  (_ <- assert_eq_usize (em_rows self) (em_rows rhs) ;;
   _ <- assert_eq_usize (em_cols self) (em_cols rhs) ;;
   Ok (em_make (em_rows self) (em_cols self) (fun row col =>
         x <~ em_entry self row col ;; y <~ em_entry rhs row col ;; lift (op x y))))%oc.
(** dmatrix.rs lines 351-359 and 396-404. *)
Definition em_op_elemwise {A B C} (op : A -> B -> outcome C) (self : emexpr St A) (rhs : emexpr St B)
  : outcome (emexpr St C) :=
  (z <- em_zip self rhs ;; Ok (em_map z (fun '(x, y) => lift (op x y))))%oc.
(** dmatrix.rs lines 425-429. *)
Definition em_t {T} (self : emexpr St T) : emexpr St T :=
  em_make (em_cols self) (em_rows self) (fun r c => em_entry self c r).
(** dmatrix.rs lines 451-455. *)
Definition em_h {T} (conj : T -> outcome T) (self : emexpr St T) : emexpr St T :=
  em_make (em_cols self) (em_rows self) (fun r c => x <~ em_entry self c r ;; lift (conj x)).
(** dmatrix.rs lines 502-506. *)
Definition em_diag {T} (self : emexpr St T) : evexpr St T :=
  ev_make (N.min (em_rows self) (em_cols self)) (fun index => em_entry self index index).
(** dvector.rs lines 414-422. *)
Definition ev_diag {T} (zero : T) (self : evexpr St T) : emexpr St T :=
  em_make (ev_len self) (ev_len self) (fun r c => if (r =? c)%N then ev_entry self r else lift (Ok zero)).
(** Stored matrices, nested arrays and the product of two stored matrices:
    dmatrix.rs lines 523-567, 950-974, 786-821. *)
Definition em_stored {T} (e : mexpr T) : emexpr St T :=
  MkEM (m_rows e) (m_cols e) (fun r c => lift (m_entry e r c)) (lift (m_eval e)).

(** A [for] loop over a [&mut] receiver whose body has side effects: the state, and the receiver left
    behind together with the outcome. *)
Fixpoint efor_each_mut {A S} (body : A -> S -> St -> St * mres S) (l : list A) (d : S) (s : St) : St * mres S :=
  match l with
  | [] => (s, (d, Ok tt))
  | x :: l' =>
      match body x d s with
      | (s', (d', Ok _)) => efor_each_mut body l' d' s'
      | (s', (d', o)) => (s', (d', o))
      end
  end.

(** dvector.rs lines 599-603 and 637-641: [v += rhs], [v -= rhs] with an expression whose entries
    have side effects.  The left operand is evaluated first (the entry type is generic, so [+=] is a
    method call). *)
Definition ev_op_assign {A B} (op : A -> B -> outcome A) (self : dvector A) (rhs : evexpr St B) (s : St)
  : St * mres (dvector A) :=
  efor_each_mut (fun index data s =>
      match (x <~ lift (sget data index) ;; y <~ ev_entry rhs index ;; z <~ lift (op x y) ;;
             lift (sset data index z)) s with
      | (s', Ok data') => (s', (data', Ok tt))
      | (s', Panic p) => (s', (data, Panic p))
      | (s', Diverge) => (s', (data, Diverge))
      end)
    (urange (ulen self)) self s.

(** dmatrix.rs lines 715-722 and 758-765: [m += rhs], [m -= rhs]. *)
Definition em_op_assign (md : target) {A B} (op : A -> B -> outcome A) (self : dmatrix A) (rhs : emexpr St B) (s : St)
  : St * mres (dmatrix A) :=
  let num_cols := dm_cols self in
  efor_each_mut (fun row =>
    efor_each_mut (fun col m s =>
      match (i <~ lift (dm_offset md num_cols row col) ;;
             x <~ lift (sget (dm_data m) i) ;;
             y <~ em_entry rhs row col ;;
             z <~ lift (op x y) ;;
             lift (sset (dm_data m) i z)) s with
      | (s', Ok data') => (s', (MkDM data' (dm_rows m) (dm_cols m), Ok tt))
      | (s', Panic p) => (s', (m, Panic p))
      | (s', Diverge) => (s', (m, Diverge))
      end) (urange num_cols))
    (urange (dm_rows self)) self s.
End Exprs.

(** ** Expressions as syntax trees, as in Model/DExpr.v, with effectful closures *)
Inductive evx (St : Type) : Type -> Type :=
| EVStored {T} (e : vexpr T) : evx St T                                (* slice, DVector, &DVector *)
| EVMake {T} (len : N) (f : N -> eff St T) : evx St T                  (* make_vector_expr *)
| EVMap {A B} (f : A -> eff St B) (e : evx St A) : evx St B            (* .map(f) *)
| EVZip {A B} (e1 : evx St A) (e2 : evx St B) : evx St (A * B)
| EVBin {A B C} (op : A -> B -> outcome C) (e1 : evx St A) (e2 : evx St B) : evx St C
| EVElem {A B C} (op : A -> B -> outcome C) (e1 : evx St A) (e2 : evx St B) : evx St C
| EVConj {T} (conj : T -> outcome T) (e : evx St T) : evx St T
| EVDiagOf {T} (e : emx St T) : evx St T
with emx (St : Type) : Type -> Type :=
| EMStored {T} (e : outcome (mexpr T)) : emx St T                      (* nested array, DMatrix, &DMatrix, &a * &b
                                                                          (whose shape check may fail) *)
| EMMake {T} (rows cols : N) (f : N -> N -> eff St T) : emx St T       (* make_matrix_expr *)
| EMMap {A B} (f : A -> eff St B) (e : emx St A) : emx St B
| EMZip {A B} (e1 : emx St A) (e2 : emx St B) : emx St (A * B)
| EMBin {A B C} (op : A -> B -> outcome C) (e1 : emx St A) (e2 : emx St B) : emx St C
| EMElem {A B C} (op : A -> B -> outcome C) (e1 : emx St A) (e2 : emx St B) : emx St C
| EMTr {T} (e : emx St T) : emx St T
| EMHerm {T} (conj : T -> outcome T) (e : emx St T) : emx St T
| EMDiagMat {T} (zero : T) (e : evx St T) : emx St T.
Arguments EVStored {St T} _. Arguments EVMake {St T} _ _. Arguments EVMap {St A B} _ _. Arguments EVZip {St A B} _ _.
Arguments EVBin {St A B C} _ _ _. Arguments EVElem {St A B C} _ _ _. Arguments EVConj {St T} _ _. Arguments EVDiagOf {St T} _.
Arguments EMStored {St T} _. Arguments EMMake {St T} _ _ _. Arguments EMMap {St A B} _ _. Arguments EMZip {St A B} _ _.
Arguments EMBin {St A B C} _ _ _. Arguments EMElem {St A B C} _ _ _. Arguments EMTr {St T} _. Arguments EMHerm {St T} _ _.
Arguments EMDiagMat {St T} _ _.

(** How the code builds the expression objects. *)
Fixpoint evbuild {St T} (e : evx St T) : outcome (evexpr St T) :=
  (match e with
  | EVStored e => Ok (ev_stored e)
  | EVMake len f => Ok (ev_make len f)
  | EVMap f e => b <- evbuild e ;; Ok (ev_map b f)
  | EVZip e1 e2 => b1 <- evbuild e1 ;; b2 <- evbuild e2 ;; ev_zip b1 b2
  | EVBin op e1 e2 => b1 <- evbuild e1 ;; b2 <- evbuild e2 ;; ev_binop op b1 b2
  | EVElem op e1 e2 => b1 <- evbuild e1 ;; b2 <- evbuild e2 ;; ev_op_elemwise op b1 b2
  | EVConj cj e => b <- evbuild e ;; Ok (ev_conj cj b)
  | EVDiagOf e => b <- embuild e ;; Ok (em_diag b)
  end)%oc
with embuild {St T} (e : emx St T) : outcome (emexpr St T) :=
  (match e with
  | EMStored e => b <- e ;; Ok (em_stored b)
  | EMMake rows cols f => Ok (em_make rows cols f)
  | EMMap f e => b <- embuild e ;; Ok (em_map b f)
  | EMZip e1 e2 => b1 <- embuild e1 ;; b2 <- embuild e2 ;; em_zip b1 b2
  | EMBin op e1 e2 => b1 <- embuild e1 ;; b2 <- embuild e2 ;; em_binop op b1 b2
  | EMElem op e1 e2 => b1 <- embuild e1 ;; b2 <- embuild e2 ;; em_op_elemwise op b1 b2
  | EMTr e => b <- embuild e ;; Ok (em_t b)
  | EMHerm cj e => b <- embuild e ;; Ok (em_h cj b)
  | EMDiagMat zero e => b <- evbuild e ;; Ok (ev_diag zero b)
  end)%oc.

(** Build the expression, then call [eval]. *)
Definition eveval {St T} (e : evx St T) : eff St (dvector T) := b <~ lift (evbuild e) ;; ev_eval b.
Definition emeval {St T} (e : emx St T) : eff St (dmatrix T) := b <~ lift (embuild e) ;; em_eval b.
