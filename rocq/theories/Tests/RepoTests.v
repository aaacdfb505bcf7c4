(** The unit tests and doc examples of the crate, run in the model.

    These are not proofs of any property.  They check the model against the only executable
    expectations the repository contains: each [Example] transcribes one test of /repo (name and
    place in the comment), with the element types the test uses (i32 literals: overflow-checked
    32-bit integers, f32/f64: IEEE 754), and [assert_eq!] is the modelled [PartialEq].
    Left out: tests of libm functions, tests with random inputs, and the optimizer's test. *)
From Coq Require Import List ZArith NArith Bool.
From Flocq Require Import IEEE754.BinarySingleNaN.
From Verif Require Import Base.Outcome Base.Usize Base.Array Model.Traits Model.Int Model.Float
  Model.Complex Model.Polynomial Model.SVector Model.SMatrix Model.DVector Model.DMatrix.
Import ListNotations.
Local Open Scope Z_scope.

(** A test passes if it ends without a panic and its assertion holds. *)
Definition passes (t : outcome bool) : Prop := t = Ok true.

Notation i32 := (int I32).
Notation i8 := (int I8).
Notation ci32 := (complex i32).
Definition O32 : RingOps i32 := int_ops Debug I32.
Definition O8 : RingOps i8 := int_ops Debug I8.
Definition i (z : Z) : i32 := int_wrapped I32 z.
Definition j (z : Z) : i8 := int_wrapped I8 z.
Definition C32 : RingOps ci32 := complex_ops O32.
Definition C8 : RingOps (complex i8) := complex_ops O8.
Definition c (a b : Z) : ci32 := complex_new (i a) (i b).
Definition c8 (a b : Z) : complex i8 := complex_new (j a) (j b).
Definition is_ (l : list Z) : list i32 := map i l.
Definition add := r_add O32.
Definition sub := r_sub O32.
Definition mul := r_mul O32.
(** [/] of i32: panics on a zero divisor (and on overflow), truncates. *)
Definition div (x y : i32) : outcome i32 :=
  if (ival y =? 0)%Z then Panic DomainError else int_result Debug I32 (Z.quot (ival x) (ival y)).
Definition eq32 := r_eqb O32.
Definition f (z : Z) : f32 := f32_of_Z z.
Definition d (z : Z) : f64 := f64_of_Z z.
Ltac run := vm_compute; reflexivity.

(** ** src/algebra/polynomial.rs *)
Definition P (l : list Z) : poly i32 := poly_from_coefficients (is_ l).
Definition peq (m : outcome (poly i32)) (l : list Z) : outcome bool := r <- m ;; Ok (poly_eqb O32 r (P l)).
Definition ieq (m : outcome i32) (z : Z) : outcome bool := r <- m ;; Ok (eq32 r (i z)).

Example doc_eval_ref : passes (ieq (poly_eval_ref O32 (P [1; 2; 3]) (i 2)) (1 + 2 * 2 + 3 * 2 * 2)). Proof. run. Qed. (* line 42 *)
Example doc_eval : passes (ieq (poly_eval O32 (P [1; 2; 3]) (i 2)) (1 + 2 * 2 + 3 * 4)). Proof. run. Qed. (* line 61 *)
Example test_zero_polynomial_for_ints : passes (ieq (poly_eval O32 poly_zero (i 5)) 0). Proof. run. Qed.
Example test_one_polynomial_for_ints : passes (ieq (poly_eval O32 (poly_one O32) (i 5)) 1). Proof. run. Qed.
Example test_add_polynomials_for_ints : passes (peq (poly_add O32 (P [1; 2; 3]) (P [2; 3; 4])) [3; 5; 7]). Proof. run. Qed.
Example test_add_assign_for_polynomials_of_ints : passes (peq (poly_add_assign O32 (P [1; 2; 3]) (P [2; 3; 4])) [3; 5; 7]). Proof. run. Qed.
Example test_add_assign_for_ref_polynomials_of_ints : passes (peq (poly_add_assign_ref O32 (P [1; 2; 3]) (P [2; 3; 4])) [3; 5; 7]). Proof. run. Qed.
Example test_sub_for_polynomials_of_int : passes (peq (poly_sub O32 (P [1; 2; 3]) (P [2; 3; 5])) [-1; -1; -2]). Proof. run. Qed.
Example test_sub_assign_for_polynomials_of_ints : passes (peq (poly_sub_assign O32 (P [1; 2; 3]) (P [2; 3; 5])) [-1; -1; -2]). Proof. run. Qed.
Example test_sub_assign_for_ref_polynomials_of_ints : passes (peq (poly_sub_assign_ref O32 (P [1; 2; 3]) (P [2; 3; 5])) [-1; -1; -2]). Proof. run. Qed.
Example test_mul_for_polynomials_of_ints : passes (peq (poly_mul O32 (P [1; 2; 3]) (P [0; 1])) [0; 1; 2; 3]). Proof. run. Qed.
Example test_mul_assign_for_polynomials_of_ints : passes (peq (poly_mul_assign O32 (P [1; 2; 3]) (P [0; 1])) [0; 1; 2; 3]). Proof. run. Qed.
Example test_mul_for_ref_polynomials_of_ints : passes (peq (poly_mul_ref O32 (P [1; 2; 3]) (P [0; 1])) [0; 1; 2; 3]). Proof. run. Qed.
Example test_neg_for_polynomials_of_ints : passes (peq (poly_neg O32 (P [1; 2; 3])) [-1; -2; -3]). Proof. run. Qed.

(** ** src/algebra/complex.rs *)
Definition ceq (m : outcome ci32) (a b : Z) : outcome bool := r <- m ;; Ok (complex_eqb O32 r (c a b)).
Definition libm32 : FunOps f32 := MkFunOps f32 (@Ok _) (@Ok _) (@Ok _) (@Ok _) (@Ok _) (@Ok _)
  (fun x _ => Ok x) (@Ok _) (@Ok _) (fun _ _ => false) (fun _ _ => false). (* never called below *)
Definition E32 : FunOps f32 := float_fun 24 128 libm32.
Definition F32 : FieldOps f32 := float_field 24 128.
Definition F64 : FieldOps f64 := float_field 53 1024.
Definition feq (m : outcome f32) (x : f32) : outcome bool := r <- m ;; Ok (Beqb r x).
Definition cfeq (m : outcome (complex f32)) (z : complex f32) : outcome bool := r <- m ;; Ok (complex_eqb f32_ring r z).
Definition cf (a b : Z) : complex f32 := complex_new (f a) (f b).

Example doc_new : passes (Ok (Beqb (re (complex_new (d 1) (d 2))) (d 1) && Beqb (im (complex_new (d 1) (d 2))) (d 2))). Proof. run. Qed.
Example doc_conj : passes (r <- complex_conj (r_neg f64_ring) (complex_new (d 1) (d 2)) ;; Ok (complex_eqb f64_ring r (complex_new (d 1) (d (-2))))). Proof. run. Qed.
Example doc_sqr_norm : passes (ieq (complex_sqr_norm O32 (c 1 2)) 5). Proof. run. Qed.
Example test_abs_complex_f32 : passes (feq (complex_abs F32 E32 (cf 3 4)) (f 5))
  /\ passes (feq (complex_abs F32 E32 (cf 1 (-1))) (Bsqrt mode_NE (f 2))). Proof. split; run. Qed.
Example test_abs_ref_complex_f32 : passes (feq (complex_abs_ref F32 E32 (cf 3 4)) (f 5))
  /\ passes (feq (complex_abs_ref F32 E32 (cf 1 (-1))) (Bsqrt mode_NE (f 2))). Proof. split; run. Qed.
Example test_complex_zero_for_f32 : passes (Ok (Beqb (re (complex_zero f32_ring)) (f 0) && Beqb (im (complex_zero f32_ring)) (f 0))). Proof. run. Qed.
Example test_complex_one_for_i32 : passes (Ok (eq32 (re (complex_one O32)) (i 1) && eq32 (im (complex_one O32)) (i 0))). Proof. run. Qed.
Example test_complex_add_ints : passes (ceq (complex_add add (c 1 2) (c 3 4)) 4 6). Proof. run. Qed.
Example test_complex_add_assign_ints : passes (ceq (complex_add_assign add (c 1 2) (c 3 4)) 4 6). Proof. run. Qed.
Example test_add_assign_ref_complex_ints : passes (ceq (complex_add_assign_ref O32 (c 1 2) (c 3 4)) 4 6). Proof. run. Qed.
Example test_sub_for_complex_ints : passes (ceq (complex_sub sub (c 1 2) (c 3 4)) (-2) (-2)). Proof. run. Qed.
Example test_sub_assign_for_complex_ints : passes (ceq (complex_sub_assign sub (c 1 2) (c 3 4)) (-2) (-2)). Proof. run. Qed.
Example test_sub_assign_for_ref_complex_ints : passes (ceq (complex_sub_assign_ref O32 (c 1 2) (c 3 4)) (-2) (-2)). Proof. run. Qed.
Example test_mul_for_complex_ints : passes (ceq (complex_mul O32 (c 1 2) (c 1 2)) (-3) 4). Proof. run. Qed.
Example test_mul_assign_for_complex_ints : passes (ceq (complex_mul_assign O32 (c 1 2) (c 1 2)) (-3) 4). Proof. run. Qed.
Example test_mul_for_ref_complex_int : passes (ceq (complex_mul_ref O32 (c 1 2) (c 1 2)) (-3) 4). Proof. run. Qed.
Example test_div_for_ref_complex_f32 : passes (cfeq (p <- complex_mul f32_ring (cf 1 2) (cf 1 1) ;; complex_div_ref F32 p (cf 1 1)) (cf 1 2)). Proof. run. Qed.
Example test_div_complex_f32 : passes (cfeq (p <- complex_mul f32_ring (cf 1 2) (cf 1 1) ;; complex_div F32 p (cf 1 1)) (cf 1 2)). Proof. run. Qed.
(** 0.75 and 1.25. *)
Definition quarters (a b : Z) : complex f32 := complex_new (fl_div 24 128 (f a) (f 4)) (fl_div 24 128 (f b) (f 4)).
Example test_div_ref_complex_f32_ref_f32 : passes (cfeq (complex_div_scalar (f_div F32) (cf 3 5) (f 4)) (quarters 3 5)). Proof. run. Qed.
Example test_neg_for_complex_ints : passes (ceq (complex_neg (r_neg O32) (c 1 2)) (-1) (-2)). Proof. run. Qed.

(** ** src/algebra/{conj,ring}.rs, src/functions/{abs,sqrt}.rs *)
Example test_conj_for_i16 : forall a : int I16, prim_conj a = Ok a. Proof. reflexivity. Qed.
Example test_zero_for_i64 : ival (r_zero (int_ops Debug I64)) = 0%Z. Proof. run. Qed.
Example test_one_for_f32 : Beqb (r_one f32_ring) (f 1) = true. Proof. run. Qed.
Definition inf32 : f32 := B754_infinity false.
Definition ninf32 : f32 := B754_infinity true.
Example test_abs_f32 : Forall (fun '(x, y) => passes (feq (fn_abs E32 x) y))
  [(f 0, f 0); (f 1, f 1); (f 5, f 5); (inf32, inf32); (f (-2), f 2); (ninf32, inf32)].
Proof. repeat constructor; run. Qed.
Example test_sqrt_f32_on_positive_inputs : Forall (fun '(x, y) => passes (feq (fn_sqrt E32 x) y)) [(f 1, f 1); (f 4, f 2); (f 9, f 3)].
Proof. repeat constructor; run. Qed.
Example test_sqrt_f32_on_zero_inputs : passes (feq (fn_sqrt E32 (f 0)) (f 0)) /\ passes (feq (fn_sqrt E32 (Bopp (f 0))) (f 0)).
Proof. split; run. Qed.
Definition nan_result (m : outcome f32) : outcome bool := r <- m ;; Ok (is_nan r).
Example test_sqrt_f32_on_negative_inputs : passes (nan_result (fn_sqrt E32 (f (-1)))) /\ passes (nan_result (fn_sqrt E32 (f (-50)))).
Proof. split; run. Qed.
Example test_sqrt_f32_on_infinite_inputs : passes (feq (fn_sqrt E32 inf32) inf32) /\ passes (nan_result (fn_sqrt E32 ninf32)).
Proof. split; run. Qed.
Example test_sqrt_f32_on_nan_inputs : passes (nan_result (fn_sqrt E32 B754_nan)). Proof. run. Qed.

(** ** src/linalg/svector.rs *)
Definition s2 (a b : Z) : svector i32 2 := svector_from (acons (i a) (acons (i b) anil)).
Definition seq2 (m : outcome (svector i32 2)) (a b : Z) : outcome bool := r <- m ;; Ok (svector_eqb O32 r (s2 a b)).
Example doc_svector_zero : passes (r <- svector_zero O32 ;; Ok (svector_eqb O32 r (svector_from (acons (i 0) (acons (i 0) (acons (i 0) anil)))))). Proof. run. Qed.
Example doc_svector_add : passes (seq2 (svector_add O32 (s2 1 2) (s2 3 4)) 4 6). Proof. run. Qed.
Example doc_svector_add_ref : passes (seq2 (svector_add_ref O32 (s2 1 2) (s2 3 4)) 4 6). Proof. run. Qed.
Example doc_svector_add_assign : passes (seq2 (svector_add_assign O32 (s2 1 2) (s2 3 4)) 4 6). Proof. run. Qed.
Example doc_svector_add_assign_ref : passes (seq2 (svector_add_assign_ref O32 (s2 1 2) (s2 3 4)) 4 6). Proof. run. Qed.
Example doc_svector_sub : passes (seq2 (svector_sub O32 (s2 4 6) (s2 3 4)) 1 2). Proof. run. Qed.
Example doc_svector_sub_ref : passes (seq2 (svector_sub_ref O32 (s2 4 6) (s2 3 4)) 1 2). Proof. run. Qed.
Example doc_svector_sub_assign : passes (seq2 (svector_sub_assign O32 (s2 4 6) (s2 3 4)) 1 2). Proof. run. Qed.
Example doc_svector_sub_assign_ref : passes (seq2 (svector_sub_assign_ref O32 (s2 4 6) (s2 3 4)) 1 2). Proof. run. Qed.
Example doc_svector_dot : passes (ieq (svector_dot O32 (s2 1 2) (s2 3 4)) (1 * 3 + 2 * 4)). Proof. run. Qed.
Example doc_svector_dot_ref : passes (ieq (svector_dot_ref O32 (s2 1 2) (s2 3 4)) (1 * 3 + 2 * 4)). Proof. run. Qed.
Example doc_svector_scale : passes (seq2 (svector_scale O32 (s2 1 2) (i 2)) 2 4). Proof. run. Qed.
Example doc_svector_scale_ref : passes (seq2 (svector_scale_ref O32 (s2 1 2) (i 2)) 2 4). Proof. run. Qed.
Example doc_svector_scale_assign : passes (seq2 (svector_scale_assign O32 (s2 1 2) (i 2)) 2 4). Proof. run. Qed.
Example doc_svector_scale_assign_ref : passes (seq2 (svector_scale_assign_ref O32 (s2 1 2) (i 2)) 2 4). Proof. run. Qed.
Definition sf2 (a b : Z) : svector f32 2 := svector_from (acons (f a) (acons (f b) anil)).
Example test_svector_index : passes (feq (svector_index (sf2 42 43) 0) (f 42)) /\ passes (feq (svector_index (sf2 42 43) 1) (f 43)). Proof. split; run. Qed.
Example test_svector_index_mut : passes (v <- svector_index_set (sf2 0 0) 0 (f 42) ;; v <- svector_index_set v 1 (f 43) ;; Ok (svector_eqb f32_ring v (sf2 42 43))). Proof. run. Qed.

(** ** src/linalg/smatrix.rs *)
Definition v2 {A} (x y : A) : array A 2 := acons x (acons y anil).
Definition v3 {A} (x y z : A) : array A 3 := acons x (acons y (acons z anil)).
Definition m23 (a b c d e g : Z) : smatrix i32 2 3 := smatrix_from (v2 (v3 (i a) (i b) (i c)) (v3 (i d) (i e) (i g))).
Definition m32 (a b c d e g : Z) : smatrix i32 3 2 := smatrix_from (v3 (v2 (i a) (i b)) (v2 (i c) (i d)) (v2 (i e) (i g))).
Definition m22 (a b c d : Z) : smatrix i32 2 2 := smatrix_from (v2 (v2 (i a) (i b)) (v2 (i c) (i d))).
Definition meq {m n} (r : outcome (smatrix i32 m n)) (e : smatrix i32 m n) : outcome bool := x <- r ;; Ok (smatrix_eqb O32 x e).
Definition sA := m23 0 1 2 3 4 5.
Definition sB := m23 1 1 1 1 1 1.
Definition sC := m23 1 2 3 4 5 6.
Example doc_smatrix_zero : passes (meq (smatrix_zero O32 3 2) (m32 0 0 0 0 0 0)). Proof. run. Qed.
Example doc_smatrix_one : passes (meq (smatrix_one O32 3 2) (m32 1 0 0 1 0 0)). Proof. run. Qed.
Example doc_smatrix_add : passes (meq (smatrix_add O32 sA sB) sC). Proof. run. Qed.
Example doc_smatrix_add_ref : passes (meq (smatrix_add_ref O32 sA sB) sC). Proof. run. Qed.
Example doc_smatrix_add_assign : passes (meq (smatrix_add_assign O32 sA sB) sC). Proof. run. Qed.
Example doc_smatrix_add_assign_ref : passes (meq (smatrix_add_assign_ref O32 sA sB) sC). Proof. run. Qed.
Example doc_smatrix_sub : passes (meq (smatrix_sub O32 sC sB) sA). Proof. run. Qed.
Example doc_smatrix_sub_ref : passes (meq (smatrix_sub_ref O32 sC sB) sA). Proof. run. Qed.
Example doc_smatrix_sub_assign : passes (meq (smatrix_sub_assign O32 sC sB) sA). Proof. run. Qed.
Example doc_smatrix_sub_assign_ref : passes (meq (smatrix_sub_assign_ref O32 sC sB) sA). Proof. run. Qed.
Example doc_smatrix_mul_refs : passes (meq (smatrix_mul_refs O32 sA (m32 0 1 2 3 4 5)) (m22 10 13 28 40)). Proof. run. Qed.
Example doc_smatrix_mul : passes (meq (smatrix_mul O32 sA (m32 0 1 2 3 4 5)) (m22 10 13 28 40)). Proof. run. Qed.
Example doc_smatrix_mul_assign_ref : passes (meq (smatrix_mul_assign_ref O32 (m32 0 1 2 3 4 5) (m22 4 5 6 7)) (m32 6 7 26 31 46 55)). Proof. run. Qed.
Example doc_smatrix_mul_assign : passes (meq (smatrix_mul_assign O32 (m32 0 1 2 3 4 5) (m22 4 5 6 7)) (m32 6 7 26 31 46 55)). Proof. run. Qed.
Example doc_smatrix_mul_vec : passes (seq2 (smatrix_mul_vec O32 (m22 1 2 3 4) (s2 1 2)) (1 * 1 + 2 * 2) (1 * 3 + 2 * 4)). Proof. run. Qed.
Example doc_smatrix_neg : passes (meq (smatrix_neg O32 sC) (m23 (-1) (-2) (-3) (-4) (-5) (-6))). Proof. run. Qed.
Definition j22 (a b c d : Z) : smatrix i8 2 2 := smatrix_from (v2 (v2 (j a) (j b)) (v2 (j c) (j d))).
Example test_conj_assign_on_i8_smatrix : passes (x <- smatrix_conj prim_conj (j22 1 2 3 4) ;; Ok (smatrix_eqb O8 x (j22 1 2 3 4))). Proof. run. Qed.
Definition cj22 (s : Z) : smatrix (complex i8) 2 2 := smatrix_from (v2 (v2 (c8 1 (s * 1)) (c8 2 (s * 2))) (v2 (c8 3 (s * 3)) (c8 4 (s * 4)))).
Example test_conj_assign_on_complex_i8_smatrix :
  passes (x <- smatrix_conj (complex_conj (r_neg O8)) (cj22 1) ;; Ok (smatrix_eqb C8 x (cj22 (-1)))). Proof. run. Qed.

(** ** src/linalg/dvector.rs *)
Definition sl (l : list Z) : vexpr i32 := slice_expr (is_ l).               (* [a, b, ..] *)
Definition w (l : list Z) : vexpr i32 := vexpr_wrap (sl l).                 (* [a, b, ..].wrap() *)
Definition ev {T} (m : outcome (vexpr T)) : outcome (dvector T) := e <- m ;; v_eval e.
Definition vassert (a b : outcome (dvector i32)) : outcome bool := x <- a ;; y <- b ;; Ok (dvector_eqb eq32 x y).
Definition lit (l : list Z) : outcome (dvector i32) := v_eval (sl l).       (* [a, b, ..].eval() *)
Definition usz (l : list N) : outcome (dvector N) := v_eval (slice_expr l).
Example test_make_vector_expr :
  passes (a <- v_eval (make_vector_expr 5 (fun k => u_mul Debug k k)) ;; b <- usz [0; 1; 4; 9; 16]%N ;; Ok (dvector_eqb N.eqb b a)). Proof. run. Qed.
Example test_map_vector_expr : passes (vassert (v_eval (vexpr_map (w [1; 5; 3; 2; 4]) (fun x => mul x x))) (lit [1; 25; 9; 4; 16])). Proof. run. Qed.
Definition pair_eqb (p q : i32 * i32) : bool := eq32 (fst p) (fst q) && eq32 (snd p) (snd q).
Example test_zip_vector_expr :
  passes (u <- lit [1; 2; 3; 4; 5; 6] ;; v <- lit [7; 8; 9; 10; 11; 12] ;;
          a <- ev (vexpr_zip (vexpr_wrap (dvector_expr u)) (dvector_expr v)) ;;
          Ok (dvector_eqb pair_eqb a (combine (is_ [1; 2; 3; 4; 5; 6]) (is_ [7; 8; 9; 10; 11; 12])))). Proof. run. Qed.
Example test_add_expr_wrapper : passes (vassert (ev (vexpr_binop add (w [1; 2; 3; 4; 5; 6]) (w [2; 2; 2; 3; 3; 3]))) (v_eval (w [3; 4; 5; 7; 8; 9]))). Proof. run. Qed.
Example test_sub_expr_wrapper : passes (vassert (ev (vexpr_binop sub (w [1; 2; 3; 4; 5; 6]) (w [2; 2; 2; 3; 3; 3]))) (v_eval (w [-1; 0; 1; 1; 2; 3]))). Proof. run. Qed.
Example test_mul_elemwise_vector_expr_wrapper : passes (vassert (lit [0; 2; 6; 12; 20]) (ev (vexpr_op_elemwise mul (w [1; 2; 3; 4; 5]) (w [0; 1; 2; 3; 4])))). Proof. run. Qed.
Example test_div_elemwise_vector_expr_wrapper : passes (vassert (lit [0; 1; 2; 3; 4]) (ev (vexpr_op_elemwise div (w [0; 2; 6; 12; 20]) (w [1; 2; 3; 4; 5])))). Proof. run. Qed.
Definition cconj := complex_conj (r_neg O32).
Definition ceqb := complex_eqb O32.
Example test_conjugate_vector_expr_wrapper :
  passes (v <- v_eval (vexpr_conj cconj (vexpr_wrap (slice_expr [c 1 2; c 3 4; c 5 6]))) ;;
          e <- v_eval (slice_expr [c 1 (-2); c 3 (-4); c 5 (-6)]) ;; Ok (dvector_eqb ceqb e v)). Proof. run. Qed.
Definition arr (cols : N) (l : list (list Z)) : mexpr i32 := array2_expr cols (map is_ l).  (* [[..], ..] *)
Definition wm (cols : N) (l : list (list Z)) : mexpr i32 := mexpr_wrap (arr cols l).
Definition mlit (cols : N) (l : list (list Z)) : outcome (dmatrix i32) := m_eval (arr cols l).
Definition evm {T} (m : outcome (mexpr T)) : outcome (dmatrix T) := e <- m ;; m_eval e.
Definition massert (a b : outcome (dmatrix i32)) : outcome bool := x <- a ;; y <- b ;; Ok (dmatrix_eqb eq32 x y).
Example test_diag_vector_expr_wrapper : passes (massert (m_eval (vexpr_diag (i 0) (w [1; 2; 5]))) (mlit 3 [[1; 0; 0]; [0; 2; 0]; [0; 0; 5]])). Proof. run. Qed.
Example test_dvector_entry : Forall (fun '(k, z) => passes (v <- lit [1; 2; 4] ;; ieq (v_entry (dvector_expr v) k) z)) [(0, 1%Z); (1, 2%Z); (2, 4%Z)]%N.
Proof. repeat constructor; run. Qed.
Example test_dvector_len : passes (v <- lit [1; 2; 4] ;; Ok (v_len (dvector_expr v) =? 3)%N). Proof. run. Qed.
Example test_dvector_eval : passes (vassert (lit [1; 2; 4]) (v <- lit [1; 2; 4] ;; v_eval (dvector_expr v))). Proof. run. Qed.
Example test_dvector_zeros : passes (vassert (v_eval (dvector_zeros (r_zero O32) 5)) (lit [0; 0; 0; 0; 0])). Proof. run. Qed.
Example test_vector_ones : passes (vassert (v_eval (dvector_ones (r_one O32) 5)) (lit [1; 1; 1; 1; 1])). Proof. run. Qed.
Example test_vector_same : passes (vassert (v_eval (dvector_same 5 (i 42))) (lit [42; 42; 42; 42; 42])). Proof. run. Qed.
Example test_index_dvector :
  Forall (fun '(k, z) => passes (a <- lit [1; 2; 3; 7; 8] ;; ieq (dvector_index a k) z)) [(0, 1%Z); (1, 2%Z); (2, 3%Z); (3, 7%Z); (4, 8%Z)]%N.
Proof. repeat constructor; run. Qed.
Example test_index_mut_dvector :
  let m := (a <- lit [0; 0; 0; 0; 0] ;; a <- dvector_index_set a 0 (i 1) ;; a <- dvector_index_set a 1 (i 2) ;;
            a <- dvector_index_set a 2 (i 3) ;; a <- dvector_index_set a 3 (i 7) ;; dvector_index_set a 4 (i 8)) in
  passes (vassert m (lit [1; 2; 3; 7; 8])) /\ passes (vassert (a <- m ;; dvector_index_set a 2 (i 42)) (lit [1; 2; 42; 7; 8])).
Proof. split; run. Qed.
Example test_dvec_add : passes (vassert (a <- lit [1; 2; 3] ;; ev (dvector_binop add a (w [2; 2; 2]))) (lit [3; 4; 5])). Proof. run. Qed.
Definition assigned {T} (r : mres T) : outcome T := _ <- snd r ;; Ok (fst r).
Example test_add_assign_dvector : passes (vassert (a <- lit [1; 2; 3; 4; 5] ;; assigned (dvector_op_assign add a (w [2; 2; 2; 2; 2]))) (lit [3; 4; 5; 6; 7])). Proof. run. Qed.
Example test_dvector_mul : passes (u <- lit [1; 2; 3] ;; v <- lit [2; 3; 4] ;; ieq (dvector_dot (i 0) add mul prim_conj u v) (1 * 2 + 2 * 3 + 3 * 4)). Proof. run. Qed.
Example test_ref_dvector_mul : passes (u <- lit [1; 2; 3] ;; v <- lit [2; 3; 4] ;; ieq (dvector_dot_ref (i 0) add mul prim_conj u v) (1 * 2 + 2 * 3 + 3 * 4)). Proof. run. Qed.
Example doc_dvector_mul_elemwise : passes (vassert (a <- lit [1; 2; 3] ;; ev (dvector_op_elemwise mul a (w [0; 1; 2]))) (lit [0; 2; 6])). Proof. run. Qed.
Example doc_dvector_div_elemwise : passes (vassert (a <- lit [1; 4; 15] ;; ev (dvector_op_elemwise div a (w [1; 2; 3]))) (lit [1; 2; 5])). Proof. run. Qed.
Example test_dvector_conjugate :
  passes (a <- v_eval (slice_expr [c 1 2; c 3 4; c 5 6]) ;; v <- v_eval (dvector_conj cconj a) ;;
          b <- v_eval (slice_expr [c 1 (-2); c 3 (-4); c 5 (-6)]) ;; Ok (dvector_eqb ceqb v b)). Proof. run. Qed.
Example doc_dvector_diag : passes (massert (a <- lit [1; 2; 5] ;; m_eval (dvector_diag (i 0) a)) (mlit 3 [[1; 0; 0]; [0; 2; 0]; [0; 0; 5]])). Proof. run. Qed.

(** ** src/linalg/dmatrix.rs *)
Example test_make_matrix_expr :
  passes (a <- m_eval (make_matrix_expr 2 3 (fun x y => u_add Debug x y)) ;;
          b <- m_eval (array2_expr 3 [[0; 1; 2]; [1; 2; 3]]%N) ;; Ok (dmatrix_eqb N.eqb a b)). Proof. run. Qed.
Definition A123 : list (list Z) := [[1; 2; 3]; [4; 5; 6]]%Z.
Example test_map_matrix_expr :
  passes (massert (m_eval (mexpr_map (wm 3 A123) (fun a => p <- mul (i 2) a ;; add p (i 1)))) (mlit 3 [[3; 5; 7]; [9; 11; 13]])). Proof. run. Qed.
Example test_zip_matrix_expr :
  passes (u <- mlit 3 A123 ;; v <- mlit 3 [[7; 8; 9]; [10; 11; 12]] ;;
          a <- evm (mexpr_zip (mexpr_wrap (dmatrix_expr Debug u)) (dmatrix_expr Debug v)) ;;
          Ok (dmatrix_eqb pair_eqb a (MkDM (combine (is_ [1; 2; 3; 4; 5; 6]) (is_ [7; 8; 9; 10; 11; 12])) 2 3))). Proof. run. Qed.
Example test_add_expr_wrapper_m : passes (massert (evm (mexpr_binop add (wm 3 A123) (wm 3 [[2; 2; 2]; [3; 3; 3]]))) (m_eval (wm 3 [[3; 4; 5]; [7; 8; 9]]))). Proof. run. Qed.
Example test_sub_expr_wrapper_m : passes (massert (evm (mexpr_binop sub (wm 3 A123) (wm 3 [[2; 2; 2]; [3; 3; 3]]))) (m_eval (wm 3 [[-1; 0; 1]; [1; 2; 3]]))). Proof. run. Qed.
Example test_mul_elemwise_matrix_expr : passes (massert (evm (mexpr_op_elemwise mul (wm 3 A123) (wm 3 [[0; 1; 2]; [3; 4; 5]]))) (mlit 3 [[0; 2; 6]; [12; 20; 30]])). Proof. run. Qed.
Example test_div_elemwise_matrix_expr : passes (massert (evm (mexpr_op_elemwise div (wm 3 [[0; 2; 6]; [12; 20; 30]]) (wm 3 A123))) (mlit 3 [[0; 1; 2]; [3; 4; 5]])). Proof. run. Qed.
Example test_expr_wrapper_transpose : passes (massert (m_eval (mexpr_t (wm 3 A123))) (m_eval (wm 2 [[1; 4]; [2; 5]; [3; 6]]))). Proof. run. Qed.
Definition H0 : list (list ci32) := [[c 0 1; c 2 3; c 4 5]; [c 6 7; c 8 9; c 10 11]].
Definition H1 : list (list ci32) := [[c 0 (-1); c 6 (-7)]; [c 2 (-3); c 8 (-9)]; [c 4 (-5); c 10 (-11)]].
Example test_expr_wrapper_conjugate_transpose :
  passes (a <- m_eval (mexpr_h cconj (mexpr_wrap (array2_expr 3 H0))) ;; b <- m_eval (mexpr_wrap (array2_expr 2 H1)) ;; Ok (dmatrix_eqb ceqb a b)). Proof. run. Qed.
Example test_diag_expr_wrapper : passes (vassert (lit [1; 5]) (v_eval (mexpr_diag (wm 3 A123)))). Proof. run. Qed.
Example test_dmatrix_eye :
  passes (massert (m_eval (dmatrix_eye (i 0) (i 1) 1)) (mlit 1 [[1]]))
  /\ passes (massert (m_eval (dmatrix_eye (i 0) (i 1) 2)) (mlit 2 [[1; 0]; [0; 1]]))
  /\ passes (massert (m_eval (dmatrix_eye (i 0) (i 1) 3)) (mlit 3 [[1; 0; 0]; [0; 1; 0]; [0; 0; 1]])).
Proof. split; [|split]; run. Qed.
Example test_dmatrix_zeros : passes (massert (m_eval (dmatrix_zeros (r_zero O32) 2 3)) (mlit 3 [[0; 0; 0]; [0; 0; 0]])). Proof. run. Qed.
Example test_dmatrix_ones : passes (massert (m_eval (dmatrix_ones (r_one O32) 2 3)) (mlit 3 [[1; 1; 1]; [1; 1; 1]])). Proof. run. Qed.
Example test_dmatrix_same : passes (massert (m_eval (dmatrix_same 2 3 (i 42))) (mlit 3 [[42; 42; 42]; [42; 42; 42]])). Proof. run. Qed.
Example test_index_dmatrix :
  Forall (fun '(r, k, z) => passes (a <- mlit 2 [[1; 2]; [3; 4]] ;; ieq (dmatrix_index Debug a r k) z))
    [(0, 0, 1%Z); (0, 1, 2%Z); (1, 0, 3%Z); (1, 1, 4%Z)]%N.
Proof. repeat constructor; run. Qed.
Example test_index_mut_dmatrix :
  Forall (fun '(r, k, z) => passes (a <- mlit 2 [[0; 0]; [0; 0]] ;; a <- dmatrix_index_set Debug a 0 0 (i 1) ;; a <- dmatrix_index_set Debug a 0 1 (i 2) ;;
      a <- dmatrix_index_set Debug a 1 0 (i 3) ;; a <- dmatrix_index_set Debug a 1 1 (i 4) ;; ieq (dmatrix_index Debug a r k) z))
    [(0, 0, 1%Z); (0, 1, 2%Z); (1, 0, 3%Z); (1, 1, 4%Z)]%N.
Proof. repeat constructor; run. Qed.
Definition B123 : outcome (dmatrix i32) := mlit 2 [[1; 2]; [3; 4]; [5; 6]].
Definition threes : outcome (dmatrix i32) := mlit 2 [[3; 3]; [3; 3]; [3; 3]].
Example test_add_dmatrix : passes (massert (a <- B123 ;; b <- threes ;; evm (dmatrix_binop Debug add a (mexpr_wrap (dmatrix_expr Debug b)))) (mlit 2 [[4; 5]; [6; 7]; [8; 9]])). Proof. run. Qed.
Example test_sub_dmatrix : passes (massert (a <- B123 ;; b <- threes ;; evm (dmatrix_binop Debug sub a (mexpr_wrap (dmatrix_expr Debug b)))) (mlit 2 [[-2; -1]; [0; 1]; [2; 3]])). Proof. run. Qed.
Example test_add_assign_dmatrix : passes (massert (a <- mlit 2 [[1; 2]; [3; 4]] ;; assigned (dmatrix_op_assign Debug add a (arr 2 [[2; 2]; [2; 2]]))) (mlit 2 [[3; 4]; [5; 6]])). Proof. run. Qed.
Example test_sub_assign_dmatrix : passes (massert (a <- mlit 2 [[1; 2]; [3; 4]] ;; assigned (dmatrix_op_assign Debug sub a (arr 2 [[2; 2]; [2; 2]]))) (mlit 2 [[-1; 0]; [1; 2]])). Proof. run. Qed.
Example test_mul_dmatrix :
  passes (massert (a <- mlit 3 [[-1; 0; 1]; [2; 3; 4]] ;; b <- mlit 2 [[0; 1]; [2; 3]; [4; 5]] ;; evm (dmatrix_mul Debug mul add a b)) (mlit 2 [[4; 4]; [22; 31]])). Proof. run. Qed.
Example doc_dmatrix_mul_elemwise : passes (massert (a <- mlit 3 A123 ;; evm (dmatrix_op_elemwise Debug mul a (arr 3 [[0; 1; 2]; [3; 4; 5]]))) (mlit 3 [[0; 2; 6]; [12; 20; 30]])). Proof. run. Qed.
Example doc_dmatrix_div_elemwise : passes (massert (a <- mlit 3 [[1; 4; 9]; [16; 25; 36]] ;; evm (dmatrix_op_elemwise Debug div a (arr 3 A123))) (mlit 3 A123)). Proof. run. Qed.
Example test_dmatrix_transpose : passes (massert (a <- mlit 3 A123 ;; m_eval (dmatrix_t Debug a)) (mlit 2 [[1; 4]; [2; 5]; [3; 6]])). Proof. run. Qed.
Example test_dmatrix_conjugate_transpose :
  passes (a <- m_eval (array2_expr 3 H0) ;; a <- m_eval (dmatrix_h Debug cconj a) ;; b <- m_eval (array2_expr 2 H1) ;; Ok (dmatrix_eqb ceqb a b)). Proof. run. Qed.
Example doc_dmatrix_diag : passes (vassert (lit [1; 5]) (a <- mlit 3 A123 ;; v_eval (dmatrix_diag Debug a))). Proof. run. Qed.
