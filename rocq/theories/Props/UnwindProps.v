(** Property C62: what compound assignments leave behind when the element type panics.

    The [.._mut] models (Model/Unwind.v) return the value of [self] after the operation,
    whether it returned or panicked, together with how it ended; [add], [sub] are the
    element's own [+=], [-=] and may leave anything behind when they panic.
    [interrupted_at], [interrupted_at_cell] (Spec/Unwind.v): everything before the element
    that panicked has its new value, everything after it the old one. *)
From Coq Require Import List Arith ZArith Lia Bool.
From Verif Require Import Base.Outcome Base.Usize Base.Array Model.Traits Model.Int Model.Polynomial Model.Complex
  Model.SVector Model.SMatrix Model.Unwind Spec.Unwind Proofs.Unwind.
Import ListNotations.

Section Unwind.
Context {T : Type} (O : RingOps T) (add sub : T -> T -> mres T).

(** ** The models describe the same operations as those without the final state *)
Theorem C62_same_operations :
  (forall x y, finish (add x y) = r_add O x y) -> (forall x y, finish (sub x y) = r_sub O x y) ->
  (forall p q, finish (poly_op_assign_ref_mut O add p q) = poly_add_assign_ref O p q
    /\ finish (poly_op_assign_ref_mut O sub p q) = poly_sub_assign_ref O p q
    /\ finish (poly_add_assign_mut add p q) = poly_add_assign O p q
    /\ finish (poly_sub_assign_mut O add p q) = poly_sub_assign O p q
    /\ finish (poly_mul_assign_mut O p q) = poly_mul_assign O p q)
  /\ (forall z w, finish (complex_op_assign_ref_mut add z w) = complex_add_assign_ref O z w
    /\ finish (complex_op_assign_ref_mut sub z w) = complex_sub_assign_ref O z w
    /\ finish (complex_mul_assign_mut O z w) = complex_mul_assign O z w)
  /\ (forall n (u v : svector T n) c,
       finish (svector_op_assign_ref_mut add u v) = svector_add_assign_ref O u v
    /\ finish (svector_op_assign_ref_mut sub u v) = svector_sub_assign_ref O u v
    /\ finish (svector_scale_assign_ref_mut O u c) = svector_scale_assign_ref O u c)
  /\ (forall m n (a b : smatrix T m n) (c : smatrix T n n),
       finish (smatrix_op_assign_ref_mut add a b) = smatrix_add_assign_ref O a b
    /\ finish (smatrix_op_assign_ref_mut sub a b) = smatrix_sub_assign_ref O a b
    /\ finish (smatrix_mul_assign_ref_mut O a c) = smatrix_mul_assign_ref O a c).
Proof.
  intros Ha Hs. split; [|split; [|split]].
  - intros p q. repeat split.
    + apply finish_poly_add_assign_ref; exact Ha.
    + apply finish_poly_sub_assign_ref; exact Hs.
    + apply finish_poly_add_assign; exact Ha.
    + apply finish_poly_sub_assign; exact Ha.
    + apply finish_assign.
  - intros z w. repeat split.
    + apply finish_complex_add_assign; exact Ha.
    + apply finish_complex_sub_assign; exact Hs.
    + apply finish_assign.
  - intros n u v c. repeat split.
    + apply finish_zip; exact Ha.
    + apply finish_zip; exact Hs.
    + unfold svector_scale_assign_ref_mut.
      rewrite (finish_zip _ (fun x c => r_mul O x c)) by (intros; apply finish_assign). apply zip_map.
  - intros m n a b c. repeat split.
    + apply finish_zip. intros x y. apply finish_zip; exact Ha.
    + apply finish_zip. intros x y. apply finish_zip; exact Hs.
    + apply finish_assign.
Qed.

(** ** Polynomials *)
(** [p += &q] ([op] is the element's [+=]) and [p -= &q] ([-=]): [p] has been extended with
    zeros, and coefficient [k] was interrupted. *)
Theorem C62_polynomial_add_sub_ref :
  forall op (p q left : poly T) e,
  poly_op_assign_ref_mut O op p q = (left, Panic e) ->
  exists k, k < length q /\ interrupted_at op (p ++ repeat (r_zero O) (length q - length p)) q k e left.
Proof.
  intros op p q left e H. rewrite op_assign_ref_walk in H.
  apply walk_interrupted in H; [|intros; discriminate]. destruct H as [k Hk]. exists k. split; [|exact Hk].
  destruct Hk as (_ & _ & (a & b & c & _ & Hb & _) & _). apply nth_error_Some. congruence.
Qed.

(** [p += q]: the interruption happens before anything is appended. *)
Theorem C62_polynomial_add_value :
  forall (p q left : poly T) e,
  poly_add_assign_mut add p q = (left, Panic e) ->
  exists k, k < length p /\ k < length q /\ interrupted_at add p q k e left.
Proof.
  intros p q left e H. rewrite add_assign_walk in H.
  apply walk_interrupted in H; [|intros; discriminate]. destruct H as [k Hk]. exists k.
  destruct Hk as (H1 & H2 & (a & b & c & Ha & Hb & H3) & H4).
  split; [apply nth_error_Some; congruence|]. split; [apply nth_error_Some; congruence|].
  split; [exact H1|]. split; [exact H2|]. split; [|exact H4]. exists a, b, c. auto.
Qed.

(** [p -= q]: if negating [q] panics, [p] is untouched. *)
Theorem C62_polynomial_sub_value :
  forall (p q left : poly T) e,
  poly_sub_assign_mut O add p q = (left, Panic e) ->
  (poly_neg O q = Panic e /\ left = p)
  \/ (exists n k, poly_neg O q = Ok n /\ k < length p /\ k < length q /\ interrupted_at add p n k e left).
Proof.
  intros p q left e H. unfold poly_sub_assign_mut in H. destruct (poly_neg O q) as [n|e'|] eqn:E.
  - right. destruct (C62_polynomial_add_value p n left e H) as (k & H1 & H2 & H3).
    exists n, k. split; [reflexivity|]. split; [exact H1|]. split; [|exact H3].
    apply mapM_length in E. lia.
  - left. injection H as <- ->. auto.
  - discriminate H.
Qed.

(** ** Multiplication: all or nothing *)
Theorem C62_mul_assign_all_or_nothing :
  (forall (p q left : poly T) e, poly_mul_assign_mut O p q = (left, Panic e) -> left = p)
  /\ (forall (z w left : complex T) e, complex_mul_assign_mut O z w = (left, Panic e) -> left = z)
  /\ (forall m n (a left : smatrix T m n) (b : smatrix T n n) e,
        smatrix_mul_assign_ref_mut O a b = (left, Panic e) -> left = a).
Proof.
  assert (G : forall A (s : A) x left e, assign_mut s x = (left, Panic e) -> left = s).
  { intros A s [y|p|] left e H; simpl in H; congruence. }
  repeat split; intros; eapply G; eassumption.
Qed.

(** ** Complex numbers: the real part first *)
Theorem C62_complex_add_sub :
  forall op (z w left : complex T) e,
  complex_op_assign_ref_mut op z w = (left, Panic e) ->
  (op (re z) (re w) = (re left, Panic e) /\ im left = im z)
  \/ (op (re z) (re w) = (re left, Ok tt) /\ op (im z) (im w) = (im left, Panic e)).
Proof.
  intros op z w left e H. unfold complex_op_assign_ref_mut in H.
  destruct (op (re z) (re w)) as [r [[]|p|]] eqn:E; [|left|discriminate H].
  - right. destruct (op (im z) (im w)) as [i o] eqn:E2. injection H as <- ->. auto.
  - injection H as <- ->. auto.
Qed.

(** ** Vectors and matrices *)
Theorem C62_svector :
  (forall op n (u v left : svector T n) e,
     svector_op_assign_ref_mut op u v = (left, Panic e) ->
     exists k, k < n /\ interrupted_at op (entries u) (entries v) k e (entries left))
  /\ (forall n (u left : svector T n) c e,
     svector_scale_assign_ref_mut O u c = (left, Panic e) ->
     exists k, k < n
       /\ (forall i a, i < k -> nth_error (entries u) i = Some a ->
             exists b, r_mul O a c = Ok b /\ nth_error (entries left) i = Some b)
       /\ (exists a, nth_error (entries u) k = Some a /\ r_mul O a c = Panic e)
       /\ (forall i, k <= i -> nth_error (entries left) i = nth_error (entries u) i)).
Proof.
  split.
  - intros op n u v left e H. apply zip_interrupted. exact H.
  - intros n u left c e H. apply zip_interrupted in H.
    destruct H as (k & Hk & _ & H2 & (a & b & x & Ha & Hb & Hx & Hl) & H4). exists k. split; [exact Hk|].
    assert (Hc : forall i b, nth_error (entries (tab n (fun _ => c))) i = Some b -> b = c).
    { intros i b0 Hi. rewrite entries_tab in Hi. apply nth_error_In, in_map_iff in Hi. destruct Hi as (? & <- & _). reflexivity. }
    assert (Hn : forall i, i < n -> nth_error (entries (tab n (fun _ => c))) i = Some c).
    { intros i Hi. destruct (nth_error (entries (tab n (fun _ => c))) i) as [b0|] eqn:E.
      - rewrite (Hc i b0 E). reflexivity.
      - apply nth_error_None in E. rewrite entries_length in E. lia. }
    split; [|split].
    + intros i a0 Hi Ha0. destruct (H2 i a0 c Hi Ha0 (Hn i ltac:(lia))) as (y & Hy & Hyl).
      unfold assign_mut in Hy. destruct (r_mul O a0 c) as [y'|p|]; try discriminate Hy. exists y'.
      split; [reflexivity|]. congruence.
    + exists a. split; [exact Ha|]. apply Hc in Hb. subst b. unfold assign_mut in Hx.
      destruct (r_mul O a c); try discriminate Hx. congruence.
    + intros i Hi. destruct (Nat.eq_dec i k) as [->|Hne]; [|apply H4; lia].
      rewrite Hl, Ha. unfold assign_mut in Hx. destruct (r_mul O a b); try discriminate Hx. congruence.
Qed.

Theorem C62_smatrix :
  forall op m n (a b left : smatrix T m n) e,
  smatrix_op_assign_ref_mut op a b = (left, Panic e) ->
  exists r c, r < m /\ c < n /\ interrupted_at_cell op a b r c e left.
Proof. intros op m n a b left e H. apply zip2_interrupted. exact H. Qed.
End Unwind.

(** With an element operation that itself is all or nothing, every element of what is left
    is either the old or the new one, never anything else. *)
Theorem C62_old_or_new :
  forall A B (op : A -> B -> mres A) old args k e left,
  all_or_nothing op -> interrupted_at op old args k e left ->
  forall i a, nth_error old i = Some a ->
  nth_error left i = Some a
  \/ (exists b c, nth_error args i = Some b /\ op a b = (c, Ok tt) /\ nth_error left i = Some c).
Proof.
  intros A B op old args k e left Hop (H1 & H2 & (a0 & b0 & c0 & Ha & Hb & Hc & Hl) & H4) i a Hi.
  destruct (lt_eq_lt_dec i k) as [[Hik| ->]|Hik].
  - right. destruct (nth_error args i) as [b|] eqn:E.
    + destruct (H2 i a b Hik Hi E) as (c & H & H'). exists b, c. auto.
    + exfalso. apply nth_error_None in E. assert (k < length args) by (apply nth_error_Some; congruence). lia.
  - left. rewrite Ha in Hi. injection Hi as <-. rewrite Hl. f_equal. exact (Hop _ _ _ _ Hc).
  - left. rewrite H4 by exact Hik. exact Hi.
Qed.

(** Overflow-checked i8: [+=] either adds or panics and leaves the number alone. *)
Definition i8 (z : Z) (H : (-128 <= z <= 127)%Z) : int I8 := int_lit I8 z H.
Definition i8_add (x y : int I8) : mres (int I8) := assign_mut x (r_add (int_ops Debug I8) x y).

Example C62_i8_all_or_nothing : all_or_nothing i8_add.
Proof. intros a b c e H. unfold i8_add, assign_mut in H. destruct (r_add _ a b); congruence. Qed.

(** (1, 100, 3) += (1, 100, 3) as polynomials: 2, then the overflow, then the old 3. *)
Example C62_case :
  exists left, poly_add_assign_mut i8_add
      [i8 1 ltac:(lia); i8 100 ltac:(lia); i8 3 ltac:(lia)]
      [i8 1 ltac:(lia); i8 100 ltac:(lia); i8 3 ltac:(lia); i8 7 ltac:(lia)] = (left, Panic ArithOverflow)
    /\ map ival left = [2; 100; 3]%Z.
Proof. eexists. split; [vm_compute; reflexivity|]. vm_compute. reflexivity. Qed.

(** [+= &q] has already grown the polynomial with zeros when the overflow happens. *)
Example C62_case_ref :
  exists left, poly_op_assign_ref_mut (int_ops Debug I8) i8_add
      [i8 1 ltac:(lia); i8 100 ltac:(lia)]
      [i8 1 ltac:(lia); i8 100 ltac:(lia); i8 3 ltac:(lia); i8 7 ltac:(lia)] = (left, Panic ArithOverflow)
    /\ map ival left = [2; 100; 0; 0]%Z.
Proof. eexists. split; [vm_compute; reflexivity|]. vm_compute. reflexivity. Qed.

(** Finding: [a += &b; ] after a caught panic is not a retryable operation: repeating it
    adds the prefix twice. *)
Example C62_matrix_case :
  exists left, smatrix_op_assign_ref_mut i8_add
      (acons (acons (i8 1 ltac:(lia)) (acons (i8 2 ltac:(lia)) anil)) (acons (acons (i8 100 ltac:(lia)) (acons (i8 4 ltac:(lia)) anil)) anil))
      (acons (acons (i8 1 ltac:(lia)) (acons (i8 2 ltac:(lia)) anil)) (acons (acons (i8 100 ltac:(lia)) (acons (i8 4 ltac:(lia)) anil)) anil))
      = (left, Panic ArithOverflow)
    /\ map (fun r => map ival (entries r)) (entries left) = [[2; 4]; [100; 4]]%Z.
Proof. eexists. split; [vm_compute; reflexivity|]. vm_compute. reflexivity. Qed.

Print Assumptions C62_same_operations.
Print Assumptions C62_polynomial_add_sub_ref.
Print Assumptions C62_polynomial_add_value.
Print Assumptions C62_polynomial_sub_value.
Print Assumptions C62_mul_assign_all_or_nothing.
Print Assumptions C62_complex_add_sub.
Print Assumptions C62_svector.
Print Assumptions C62_smatrix.
Print Assumptions C62_old_or_new.
