(** Properties C56 and C57: exact results on integer data that stays small.

    [exact_while_small O rep B] (Spec/Bounded.v) lists the operations (evaluation, sum,
    difference and product of polynomials, complex product and squared norm, dot products,
    matrix and matrix-vector products), each with a condition on the inputs only: the sum of
    the absolute values of the terms is at most [B]. *)
From Coq Require Import List Arith ZArith NArith Reals Lia Bool.
From Flocq Require Import Core.Core IEEE754.BinarySingleNaN.
From Verif Require Import Base.Outcome Base.Usize Base.Array Base.Sim Model.Traits Model.Int Model.Float Model.Polynomial
  Model.Complex Model.SVector Model.SMatrix Model.DVector Model.DMatrix
  Spec.Int Spec.DExpr Spec.Bounded Spec.Nest
  Proofs.RingSim Proofs.IntProofs Proofs.FloatInt Proofs.Bounded Proofs.Exact Props.NestProps.
Import ListNotations.
Local Open Scope Z_scope.

(** ** C56: machine integers, with and without overflow checks. *)
Lemma bounded_int_sim md t : ring_sim overflow (fun z (a : int t) => ival a = z) (bounded_ops (int_max t)) (int_ops md t).
Proof.
  assert (H : forall z z', z = z' -> sim overflow (fun z (a : int t) => ival a = z) (bounded (int_max t) z) (int_result md t z')).
  { intros z z' <-. unfold bounded. destruct (Z.leb_spec (Z.abs z) (int_max t)) as [L|L]; [|left; reflexivity].
    assert (I : in_range t z = true) by (apply in_range_iff; unfold int_min, int_max in *; lia).
    unfold int_result. destruct (bool_dec (in_range t z) true) as [J|J]; [|contradiction].
    eexists; split; reflexivity. }
  constructor; cbn [int_ops bounded_ops r_zero r_one r_add r_sub r_mul r_neg int_lit ival]; intros; subst;
    try reflexivity; apply H; reflexivity.
Qed.

Theorem C56_machine_integers_exact_while_small :
  forall (md : build_mode) (t : int_type),
  exact_while_small (int_ops md t) (fun a z => ival a = z) (int_max t).
Proof. intros md t. apply exact_small. apply bounded_int_sim. Qed.

(** ** C57: floats holding integers. *)
(** [x] is a finite float whose value is the integer [z]. *)
Definition exactly {prec emax} (x : binary_float prec emax) (z : Z) : Prop :=
  is_finite x = true /\ B2R x = IZR z.

Section Fmt.
Context (prec emax : Z) {Hp : Prec_gt_0 prec} {He : Prec_lt_emax prec emax}.
Notation fl := (binary_float prec emax).
Notation FO := (float_ring prec emax).

Lemma bounded_float_sim : ring_sim overflow (fun z (x : fl) => exactly x z) (bounded_ops (2 ^ prec)) FO.
Proof.
  pose proof Hp as P. unfold Prec_gt_0 in P.
  assert (P1 : 1 <= 2 ^ prec) by (change 1 with (2 ^ 0); apply Z.pow_le_mono_r; lia).
  assert (H : forall z (x : fl), (Z.abs z <= 2 ^ prec -> exactly x z) ->
    sim overflow (fun z (x : fl) => exactly x z) (bounded (2 ^ prec) z) (Ok x)).
  { intros z x Hx. unfold bounded. destruct (Z.leb_spec (Z.abs z) (2 ^ prec)) as [L|L]; [|left; reflexivity].
    apply sim_ok, Hx, L. }
  constructor; cbn [float_ring bounded_ops r_zero r_one r_add r_sub r_mul r_neg].
  - apply fl_int_exact. lia.
  - apply fl_int_exact. lia.
  - intros x1 x2 y1 y2 Hx Hy. apply H. intros L. apply add_exact; assumption.
  - intros x1 x2 y1 y2 Hx Hy. apply H. intros L. apply sub_exact; assumption.
  - intros x1 x2 y1 y2 Hx Hy. apply H. intros L. apply mul_exact; assumption.
  - intros x1 x2 Hx. apply H. intros L. apply opp_exact; assumption.
Qed.

Theorem C57_float_integers_exact_while_small :
  exact_while_small FO exactly (2 ^ prec).
Proof. apply exact_small. apply bounded_float_sim. Qed.

(** The same for every element type nested over floats: if the operation on the integer data
    can be carried out without ever exceeding 2^prec in absolute value, the floats give exactly
    its result. *)
Theorem C57_every_nesting :
  forall (t : nest) (x y : nval fl t) (xz yz : nval Z t),
  let holds := nest_rel (fun z (a : fl) => exactly a z) t in
  let I := nest_ops (bounded_ops (2 ^ prec)) t in
  let F := nest_ops FO t in
  holds xz x -> holds yz y ->
  (forall rz, r_add I xz yz = Ok rz -> exists r, r_add F x y = Ok r /\ holds rz r)
  /\ (forall rz, r_sub I xz yz = Ok rz -> exists r, r_sub F x y = Ok r /\ holds rz r)
  /\ (forall rz, r_mul I xz yz = Ok rz -> exists r, r_mul F x y = Ok r /\ holds rz r)
  /\ (forall rz, r_neg I xz = Ok rz -> exists r, r_neg F x = Ok r /\ holds rz r).
Proof.
  intros t x y xz yz holds I F Hx Hy.
  pose proof (nest_ring_sim overflow _ _ _ bounded_float_sim t) as HS.
  split; [|split; [|split]]; intros rz E.
  - pose proof (rs_add _ _ _ _ HS _ _ _ _ Hx Hy) as S. unfold I in E. rewrite E in S. exact S.
  - pose proof (rs_sub _ _ _ _ HS _ _ _ _ Hx Hy) as S. unfold I in E. rewrite E in S. exact S.
  - pose proof (rs_mul _ _ _ _ HS _ _ _ _ Hx Hy) as S. unfold I in E. rewrite E in S. exact S.
  - pose proof (rs_neg _ _ _ _ HS _ _ Hx) as S. unfold I in E. rewrite E in S. exact S.
Qed.
End Fmt.

(** For f64 the bound is 2^53. *)
Corollary C57_f64 : exact_while_small f64_ring exactly 9007199254740992.
Proof. exact (C57_float_integers_exact_while_small 53 1024). Qed.

(** ** Concrete cases *)
(** [3,4] . [5,-6] = -9 with i8: 15 + 24 <= 127. *)
Example C56_case : exists d, svector_dot (int_ops Debug I8)
    (acons (@MkInt I8 3 eq_refl) (acons (@MkInt I8 4 eq_refl) anil))
    (acons (@MkInt I8 5 eq_refl) (acons (@MkInt I8 (-6) eq_refl) anil)) = Ok d /\ ival d = -9.
Proof.
  refine (ew_svector_dot _ _ _ (C56_machine_integers_exact_while_small Debug I8) 2 _ _ [3;4] [5;-6] _ _ _);
    [repeat constructor..|cbv; discriminate].
Qed.
(** The condition cannot be relaxed: 64 + 64 overflows. *)
Example C56_limit : svector_dot (int_ops Debug I8)
    (acons (@MkInt I8 64 eq_refl) (acons (@MkInt I8 64 eq_refl) anil))
    (acons (@MkInt I8 1 eq_refl) (acons (@MkInt I8 1 eq_refl) anil)) = Panic ArithOverflow.
Proof. vm_compute. reflexivity. Qed.

(** (1 + 2x + 3x^2)(4 - 5x) over f64 has the coefficient 12 - 10 = 2 of x^2. *)
Lemma small_f64 l : Forall (fun z => Z.abs z <= 100) l -> Forall2 exactly (map f64_of_Z l) l.
Proof.
  induction 1 as [|z l Hz H IH]; cbn [map]; constructor; [|exact IH].
  apply fl_int_exact. change (2 ^ 53) with 9007199254740992. lia.
Qed.

Example C57_case : exists r, poly_mul f64_ring (map f64_of_Z [1;2;3]) (map f64_of_Z [4;-5]) = Ok r
  /\ exactly (nth 2 r (r_zero f64_ring)) 2.
Proof.
  destruct (ew_poly_mul _ _ _ C57_f64 _ _ _ _ (small_f64 [1;2;3] ltac:(repeat constructor; discriminate))
     (small_f64 [4;-5] ltac:(repeat constructor; discriminate))) as (r & E & H).
  - intros k. destruct k as [|[|[|[|k]]]]; [vm_compute; discriminate..|].
    rewrite (zsum_ext _ _ (fun _ => 0)); [generalize (S (S (S (S (S k))))) as m; induction m; simpl zsum; lia|].
    intros i Hi. destruct i as [|[|[|i]]].
    + rewrite (nth_overflow [4;-5]) by (simpl; lia). reflexivity.
    + rewrite (nth_overflow [4;-5]) by (simpl; lia). reflexivity.
    + rewrite (nth_overflow [4;-5]) by (simpl; lia). reflexivity.
    + rewrite (nth_overflow [1;2;3]) by (simpl; lia). reflexivity.
  - exists r. split; [exact E|]. specialize (H 2%nat).
    replace 2 with (zsum 3 (fun i => zc [1;2;3] i * zc [4;-5] (2 - i)%nat)) by reflexivity. exact H.
Qed.

Print Assumptions C56_machine_integers_exact_while_small.
Print Assumptions C57_float_integers_exact_while_small.
Print Assumptions C57_every_nesting.
Print Assumptions C57_f64.
