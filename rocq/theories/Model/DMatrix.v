(** Model of src/linalg/dmatrix.rs (and of [diag] of src/linalg/dvector.rs, which builds a
    matrix expression).  Conventions as in Model/DVector.v. *)
From Coq Require Import List Arith NArith Bool.
From Verif Require Import Base.Outcome Base.Usize Model.DVector.
Import ListNotations.

(** dmatrix.rs lines 516-521: [struct DMatrix<T> { data: Box<[T]>, num_rows, num_cols }]. *)
Record dmatrix (T : Type) : Type := MkDM {
  dm_data : list T;
  dm_rows : N;
  dm_cols : N
}.
Arguments MkDM {T} _ _ _.
Arguments dm_data {T} _.
Arguments dm_rows {T} _.
Arguments dm_cols {T} _.

(** dmatrix.rs lines 8-38: trait MatrixExpr. *)
Record mexpr (T : Type) : Type := MkM {
  m_rows : N;
  m_cols : N;
  m_entry : N -> N -> outcome T;
  m_eval : outcome (dmatrix T)
}.
Arguments MkM {T} _ _ _ _.
Arguments m_rows {T} _.
Arguments m_cols {T} _.
Arguments m_entry {T} _ _ _.
Arguments m_eval {T} _.

(** The index pairs of dmatrix.rs lines 23-24, row by row. *)
Definition index_pairs (rows cols : N) : list (N * N) :=
  flat_map (fun r => map (fun c => (r, c)) (urange cols)) (urange rows).

(** dmatrix.rs lines 22-32: default [eval]. *)
Definition mexpr_default_eval {T} (rows cols : N) (entry : N -> N -> outcome T)
  : outcome (dmatrix T) :=
  data <- mapM (fun '(r, c) => entry r c) (index_pairs rows cols) ;;
  Ok (MkDM data rows cols).

(** dmatrix.rs lines 35-37 and 67-85. *)
Definition mexpr_wrap {T} (e : mexpr T) : mexpr T :=
  MkM (m_rows e) (m_cols e) (m_entry e) (m_eval e).

(** dmatrix.rs lines 102-134. *)
Definition make_matrix_expr {T} (rows cols : N) (f : N -> N -> outcome T) : mexpr T :=
  mexpr_wrap (MkM rows cols f (mexpr_default_eval rows cols f)).

(** dmatrix.rs lines 163-170. *)
Definition mexpr_map {A B} (self : mexpr A) (f : A -> outcome B) : mexpr B :=
  make_matrix_expr (m_rows self) (m_cols self)
    (fun row col => x <- m_entry self row col ;; f x).

(** dmatrix.rs lines 206-218. *)
Definition mexpr_zip {A B} (self : mexpr A) (rhs : mexpr B) : outcome (mexpr (A * B)) :=
  _ <- assert_eq_usize (m_rows self) (m_rows rhs) ;;
  _ <- assert_eq_usize (m_cols self) (m_cols rhs) ;;
  Ok (make_matrix_expr (m_rows self) (m_cols self) (fun row col =>
        x <- m_entry self row col ;; y <- m_entry rhs row col ;; Ok (x, y))).

(** dmatrix.rs lines 240-244 and 258-277 ([AddExpr]); lines 287-291 and 305-324
    ([SubExpr]) with [op] being [-]. *)
Definition mexpr_binop {A B C} (op : A -> B -> outcome C) (self : mexpr A) (rhs : mexpr B)
  : outcome (mexpr C) :=
  _ <- assert_eq_usize (m_rows self) (m_rows rhs) ;;
  _ <- assert_eq_usize (m_cols self) (m_cols rhs) ;;
  let entry := fun row col => x <- m_entry self row col ;; y <- m_entry rhs row col ;; op x y in
  Ok (mexpr_wrap (MkM (m_rows self) (m_cols self) entry
        (mexpr_default_eval (m_rows self) (m_cols self) entry))).

(** dmatrix.rs lines 351-359 ([op] is [*]) and 396-404 ([/]). *)
Definition mexpr_op_elemwise {A B C} (op : A -> B -> outcome C) (self : mexpr A) (rhs : mexpr B)
  : outcome (mexpr C) :=
  z <- mexpr_zip self rhs ;; Ok (mexpr_map z (fun '(x, y) => op x y)).

(** dmatrix.rs lines 425-429. *)
Definition mexpr_t {T} (self : mexpr T) : mexpr T :=
  make_matrix_expr (m_cols self) (m_rows self) (fun r c => m_entry self c r).

(** dmatrix.rs lines 451-455. *)
Definition mexpr_h {T} (conj : T -> outcome T) (self : mexpr T) : mexpr T :=
  make_matrix_expr (m_cols self) (m_rows self) (fun r c => x <- m_entry self c r ;; conj x).

(** dmatrix.rs lines 502-506. *)
Definition mexpr_diag {T} (self : mexpr T) : vexpr T :=
  make_vector_expr (N.min (m_rows self) (m_cols self)) (fun index => m_entry self index index).

(** dvector.rs lines 414-422: the diagonal matrix of a vector expression. *)
Definition vexpr_diag {T} (zero : T) (self : vexpr T) : mexpr T :=
  make_matrix_expr (v_len self) (v_len self)
    (fun r c => if (r =? c)%N then v_entry self r else Ok zero).
(** dvector.rs lines 787-789. *)
Definition dvector_diag {T} (zero : T) (self : dvector T) : mexpr T :=
  vexpr_diag zero (vexpr_wrap (dvector_expr self)).

Section Storage.
(** Whether usize arithmetic is overflow-checked. *)
Context (md : target).

(** The flat offset [row * num_cols + col] of dmatrix.rs lines 530, 553, 656, 671, 719, 762. *)
Definition dm_offset (cols row col : N) : outcome N :=
  p <- u_mul md row cols ;; u_add md p col.

(** dmatrix.rs lines 529-531 and 552-554. *)
Definition dmatrix_entry {T} (self : dmatrix T) (row col : N) : outcome T :=
  i <- dm_offset (dm_cols self) row col ;; sget (dm_data self) i.

(** dmatrix.rs lines 523-544 (DMatrix) and 546-567 (&DMatrix). *)
Definition dmatrix_expr {T} (self : dmatrix T) : mexpr T :=
  MkM (dm_rows self) (dm_cols self) (dmatrix_entry self) (Ok self).

(** dmatrix.rs lines 655-657. *)
Definition dmatrix_index {T} (self : dmatrix T) (row col : N) : outcome T :=
  i <- dm_offset (dm_cols self) row col ;; sget (dm_data self) i.

(** dmatrix.rs lines 670-672, used as [self[[row, col]] = x]. *)
Definition dmatrix_index_set {T} (self : dmatrix T) (row col : N) (x : T) : outcome (dmatrix T) :=
  i <- dm_offset (dm_cols self) row col ;;
  data <- sset (dm_data self) i x ;;
  Ok (MkDM data (dm_rows self) (dm_cols self)).

(** dmatrix.rs lines 696-698 and 739-741: [&a + rhs], [&a - rhs]. *)
Definition dmatrix_binop {A B C} (op : A -> B -> outcome C) (self : dmatrix A) (rhs : mexpr B)
  : outcome (mexpr C) := mexpr_binop op (mexpr_wrap (dmatrix_expr self)) rhs.

(** dmatrix.rs lines 715-722 ([op] is the entry's [+=]) and 758-765 ([-=]). *)
Definition dmatrix_op_assign {A B} (op : A -> B -> outcome A) (self : dmatrix A) (rhs : mexpr B)
  : mres (dmatrix A) :=
  let num_cols := dm_cols self in
  for_each_mut (fun row =>
    for_each_mut (fun col m =>
      match (i <- dm_offset num_cols row col ;;
             x <- sget (dm_data m) i ;;
             y <- m_entry rhs row col ;;
             z <- op x y ;;
             sset (dm_data m) i z) with
      | Ok data' => (MkDM data' (dm_rows m) (dm_cols m), Ok tt)
      | Panic p => (m, Panic p)
      | Diverge => (m, Diverge)
      end) (urange num_cols))
    (urange (dm_rows self)) self.

(** dmatrix.rs lines 793-799: [MulDMatrix::entry]. *)
Definition mul_dmatrix_entry {A B} (mul : A -> A -> outcome B) (add_assign : B -> B -> outcome B)
    (lhs rhs : dmatrix A) (row col : N) : outcome B :=
  x0 <- dmatrix_entry lhs row 0 ;; y0 <- dmatrix_entry rhs 0 col ;;
  sum <- mul x0 y0 ;;
  for_each (fun i sum =>
      x <- dmatrix_entry lhs row i ;; y <- dmatrix_entry rhs i col ;;
      p <- mul x y ;; add_assign sum p)
    (urange_from 1 (dm_cols lhs)) sum.

(** dmatrix.rs lines 817-821 and 786-808: [&lhs * &rhs]. *)
Definition dmatrix_mul {A B} (mul : A -> A -> outcome B) (add_assign : B -> B -> outcome B)
    (lhs rhs : dmatrix A) : outcome (mexpr B) :=
  _ <- assert_eq_usize (dm_cols lhs) (dm_rows rhs) ;;
  let entry := mul_dmatrix_entry mul add_assign lhs rhs in
  Ok (MkM (dm_rows lhs) (dm_cols rhs) entry
        (mexpr_default_eval (dm_rows lhs) (dm_cols rhs) entry)).

(** dmatrix.rs lines 845-854 and 869-878. *)
Definition dmatrix_op_elemwise {A B C} (op : A -> B -> outcome C) (self : dmatrix A) (rhs : mexpr B)
  : outcome (mexpr C) := mexpr_op_elemwise op (mexpr_wrap (dmatrix_expr self)) rhs.
(** dmatrix.rs lines 887-889. *)
Definition dmatrix_t {T} (self : dmatrix T) : mexpr T := mexpr_t (mexpr_wrap (dmatrix_expr self)).
(** dmatrix.rs lines 905-907. *)
Definition dmatrix_h {T} (conj : T -> outcome T) (self : dmatrix T) : mexpr T :=
  mexpr_h conj (mexpr_wrap (dmatrix_expr self)).
(** dmatrix.rs lines 945-947. *)
Definition dmatrix_diag {T} (self : dmatrix T) : vexpr T :=
  mexpr_diag (mexpr_wrap (dmatrix_expr self)).
End Storage.

(** dmatrix.rs lines 576-578. *)
Definition dmatrix_eye {T} (zero one : T) (n : N) : mexpr T :=
  make_matrix_expr n n (fun r c => Ok (if (r =? c)%N then one else zero)).
(** dmatrix.rs lines 596-601, 617-619, 635-641: zeros, ones, same. *)
Definition dmatrix_zeros {T} (zero : T) (rows cols : N) : mexpr T :=
  make_matrix_expr rows cols (fun _ _ => Ok zero).
Definition dmatrix_ones {T} (one : T) (rows cols : N) : mexpr T :=
  make_matrix_expr rows cols (fun _ _ => Ok one).
Definition dmatrix_same {T} (rows cols : N) (val : T) : mexpr T :=
  make_matrix_expr rows cols (fun _ _ => Ok val).

(** dmatrix.rs lines 950-974: nested arrays [[[T; COLS]; ROWS]].  The array is given as
    the list of its rows together with COLS (every row has COLS entries, see
    [array2_wf] in Spec/DMatrix.v); [eval] flattens it. *)
Definition array2_expr {T} (cols : N) (rows : list (list T)) : mexpr T :=
  MkM (ulen rows) cols
      (fun row col => x <- sget rows row ;; sget x col)
      (Ok (MkDM (concat rows) (ulen rows) cols)).

(** dmatrix.rs line 516: derived PartialEq (fields in order). *)
Definition dmatrix_eqb {T} (eqb : T -> T -> bool) (a b : dmatrix T) : bool :=
  list_eqb eqb (dm_data a) (dm_data b) && (dm_rows a =? dm_rows b)%N && (dm_cols a =? dm_cols b)%N.
