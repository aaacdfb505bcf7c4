(** Property C91: error bars for every computation, and the ring laws up to rounding.
    [rexpr], [run], [base_at], [bars], [error_bar], [bars_ops]: Spec/ErrorBars.v. *)
From Coq Require Import List Arith ZArith NArith Reals Bool Lia Lra.
From Flocq Require Import Core.Core IEEE754.BinarySingleNaN.
From Verif Require Import Base.Outcome Base.Usize Base.Array Base.Sim Model.Traits Model.Float Model.RealInstance Model.Polynomial Model.Complex
  Model.SVector Model.SMatrix Model.DVector Model.DMatrix
  Spec.Ring Spec.Sums Spec.Agree Spec.Matrix Spec.DMatrix Spec.FloatErr Spec.Nest Spec.ErrorBars
  Proofs.FloatErr Proofs.RealRing Proofs.RingSim Proofs.IntProofs Proofs.SMatrixProofs Proofs.ErrorBars Props.NestProps Props.FloatProps.
Import ListNotations.
Local Open Scope R_scope.

(** An identity of (commutative) rings: both sides agree in every (commutative) ring. *)
Definition ring_identity (e1 e2 : rexpr) : Prop :=
  forall (T : Type) (O : RingOps T) (E : T -> T -> Prop), is_ring O E -> forall v, agree E (run O v e1) (run O v e2).
Definition comm_ring_identity (e1 e2 : rexpr) : Prop :=
  forall (T : Type) (O : RingOps T) (E : T -> T -> Prop), is_comm_ring O E -> forall v, agree E (run O v e1) (run O v e2).

Lemma rsum_plus n f g : rsum n (fun i => f i + g i) = rsum n f + rsum n g.
Proof. induction n; simpl; [ring|]. rewrite IHn. ring. Qed.
Lemma rsum_const n c : rsum n (fun _ => c) = INR n * c.
Proof. induction n; [simpl; ring|]. cbn [rsum]. rewrite IHn, S_INR. ring. Qed.
Lemma rsum_swap n m f : rsum n (fun i => rsum m (fun j => f i j)) = rsum m (fun j => rsum n (fun i => f i j)).
Proof.
  induction n; simpl.
  - rewrite rsum_const. ring.
  - rewrite IHn, <- rsum_plus. reflexivity.
Qed.
Lemma sum_n_ext_lt {T} (R : ring_sig T) n f g : (forall i, (i < n)%nat -> f i = g i) -> sum_n R n f = sum_n R n g.
Proof. induction n; intros H; simpl; [reflexivity|]. rewrite IHn, H by (intros; try apply H; lia). reflexivity. Qed.

Section Fmt.
Context (prec emax : Z) {Hp : Prec_gt_0 prec} {He : Prec_lt_emax prec emax}.
Notation fl := (binary_float prec emax).
Notation FO := (float_ring prec emax).
Notation BO := (bars_ops prec emax).
Notation u := (unit_roundoff prec).
Notation eta := (underflow_unit prec emax).
Notation zero := (fl_int prec emax 0).
(** The inputs with (zero) error bars. *)
Notation inputs t v := (fun i : nat => nest_image (bars_of prec emax) t (v i)).
Notation bar t place b := (error_bar prec (base_at bars_zero t place b)).

(** ** Any expression over any nested type *)
Lemma run_real t e (v : nat -> nval R t) : exists r, run (nest_ops real_ring t) v e = Ok r.
Proof.
  assert (HR : is_ring real_ring (@eq R)) by (exists real_sig; split; [exact real_implements|split; [exact real_laws|intros; reflexivity]]).
  destruct (C50_every_nesting_is_a_ring R real_ring eq HR t) as (S & HI & _).
  induction e as [i| | |a [x Hx] b [y Hy]|a [x Hx] b [y Hy]|a [x Hx] b [y Hy]|a [x Hx]]; cbn [run]; try (eexists; reflexivity);
    rewrite Hx; cbn [bind]; try (rewrite Hy; cbn [bind]).
  - rewrite (impl_add _ _ HI). eauto.
  - rewrite (impl_sub _ _ HI). eauto.
  - rewrite (impl_mul _ _ HI). eauto.
  - rewrite (impl_neg _ _ HI). eauto.
Qed.

Lemma total_sim {A B} (OA : RingOps A) (OB : RingOps B) :
  (forall x y, exists r, r_add OA x y = Ok r) -> (forall x y, exists r, r_sub OA x y = Ok r) ->
  (forall x y, exists r, r_mul OA x y = Ok r) -> (forall x, exists r, r_neg OA x = Ok r) ->
  (forall x y, exists r, r_add OB x y = Ok r) -> (forall x y, exists r, r_sub OB x y = Ok r) ->
  (forall x y, exists r, r_mul OB x y = Ok r) -> (forall x, exists r, r_neg OB x = Ok r) ->
  ring_sim never (fun _ _ => True) OA OB.
Proof.
  intros A1 A2 A3 A4 B1 B2 B3 B4. constructor; auto; intros; unfold sim.
  - destruct (A1 x1 y1) as [r ->], (B1 x2 y2) as [s ->]. eauto.
  - destruct (A2 x1 y1) as [r ->], (B2 x2 y2) as [s ->]. eauto.
  - destruct (A3 x1 y1) as [r ->], (B3 x2 y2) as [s ->]. eauto.
  - destruct (A4 x1) as [r ->], (B4 x2) as [s ->]. eauto.
Qed.

Lemma run_float t e (v : nat -> nval fl t) : exists r, run (nest_ops FO t) v e = Ok r.
Proof.
  destruct (run_real t e (fun i => nest_image (fun x : fl => B2R x) t (v i))) as [r Hr].
  assert (S : ring_sim never (fun (_ : R) (_ : fl) => True) real_ring FO)
    by (apply total_sim; intros; eexists; reflexivity).
  pose proof (run_sim never _ _ _ (nest_ring_sim never _ _ _ S t) (fun i => nest_image (fun x : fl => B2R x) t (v i)) v) as G.
  specialize (G) with (e := e). rewrite Hr in G. destruct G as (s & Hs & _); [|exists s; exact Hs].
  intros i. generalize (v i). clear -Hp He. intros x.
  assert (K : nest_rel (fun (_ : fl) (_ : R) => True) t x (nest_image (fun x : fl => B2R x) t x))
    by (apply (nest_rel_image _ _ zero); auto).
  revert K. generalize (nest_image (fun x : fl => B2R x) t x). revert x.
  induction t as [|t IH|t IH|n t IH]; simpl; intros x y H; [exact I| | |].
  - induction H; constructor; auto.
  - destruct H; split; auto.
  - unfold arel in *. induction H as [|r s l m H1 H2 IH2]; constructor; [|exact IH2].
    unfold arel in *. induction H1; constructor; auto.
Qed.

(** The result over floats, the result with error bars and the exact result, base value by base
    value.  If the inputs are finite and no intermediate magnitude reaches 2^emax, all is finite. *)
Theorem C91_error_bars :
  forall (t : nest) (e : rexpr) (v : nat -> nval fl t), exists r b x,
  run (nest_ops FO t) v e = Ok r
  /\ run (nest_ops BO t) (inputs t v) e = Ok b
  /\ run (nest_ops real_ring t) (fun i => nest_image (fun a : fl => B2R a) t (v i)) e = Ok x
  /\ forall place,
     exact (base_at bars_zero t place b) = base_at 0 t place x
     /\ (is_finite (base_at zero t place r) = true ->
         Rabs (B2R (base_at zero t place r) - base_at 0 t place x) <= bar t place b)
     /\ ((forall i at_, is_finite (base_at zero t at_ (v i)) = true) ->
         peak (base_at bars_zero t place b) < bpow radix2 emax ->
         is_finite (base_at zero t place r) = true).
Proof.
  intros t e v. destruct (run_float t e v) as [r Hr].
  set (F := forall i at_, is_finite (base_at zero t at_ (v i)) = true).
  assert (Hv : forall i, nest_rel (inside prec emax F) t (v i) (nest_image (bars_of prec emax) t (v i))).
  { intros i. apply (nest_rel_image _ _ zero). intros place. apply inside_input. intros HF. apply HF. }
  pose proof (run_sim never _ _ _ (nest_ring_sim never _ _ _ (bars_sim prec emax F) t) v (inputs t v) Hv e) as G.
  rewrite Hr in G. destruct G as (b & Hb & Hrel).
  pose proof (run_hom (nest_image exact t) _ _ (C55_nested_homomorphisms _ _ _ _ _ (exact_hom prec emax) t) (inputs t v) e) as X.
  rewrite Hb in X. cbn [omap] in X.
  assert (EX : run (nest_ops real_ring t) (fun i => nest_image (fun a : fl => B2R a) t (v i)) e = Ok (nest_image exact t b)).
  { rewrite <- X. clear X.
    assert (K : forall x : nval fl t, nest_image exact t (nest_image (bars_of prec emax) t x) = nest_image (fun a : fl => B2R a) t x).
    { intros x. symmetry. apply nest_rel_images. 
      pose proof (nest_rel_image (fun (a : fl) (c : bars) => B2R a = exact c) (bars_of prec emax) zero t x) as Q. apply Q. reflexivity. }
    assert (K2 : forall e, run (nest_ops real_ring t) (fun i => nest_image (fun a : fl => B2R a) t (v i)) e
               = run (nest_ops real_ring t) (fun i => nest_image exact t (nest_image (bars_of prec emax) t (v i))) e).
    { clear e r Hr b Hb Hrel. induction e as [i| | |a Ha b Hb|a Ha b Hb|a Ha b Hb|a Ha]; cbn [run]; try reflexivity;
        try (rewrite Ha; try rewrite Hb; reflexivity). rewrite K. reflexivity. }
    apply K2. }
  exists r, b, (nest_image exact t b). split; [exact Hr|]. split; [exact Hb|]. split; [exact EX|].
  intros place.
  assert (E0 : base_at 0 t place (nest_image exact t b) = exact (base_at bars_zero t place b))
    by (apply (base_at_image exact bars_zero)).
  destruct (base_at_rel (inside prec emax F) zero bars_zero (inside_zero prec emax F) t place r b Hrel) as (_ & W & G).
  rewrite E0. split; [reflexivity|]. split; [exact W|exact G].
Qed.

(** ** The ring laws hold up to the error bars of both sides *)
Lemma real_ring_is : is_ring real_ring (@eq R).
Proof. exists real_sig; split; [exact real_implements|split; [exact real_laws|intros; reflexivity]]. Qed.
Lemma real_comm_ring_is : is_comm_ring real_ring (@eq R).
Proof. exists real_sig; split; [exact real_implements|split; [exact real_laws|split; [exact real_comm|intros; reflexivity]]]. Qed.

Lemma up_to_bars (t : nest) e1 e2 (v : nat -> nval fl t) :
  (forall w, agree (nest_same real_ring eq t) (run (nest_ops real_ring t) w e1) (run (nest_ops real_ring t) w e2)) ->
  exists r1 r2 b1 b2,
  run (nest_ops FO t) v e1 = Ok r1 /\ run (nest_ops FO t) v e2 = Ok r2
  /\ run (nest_ops BO t) (inputs t v) e1 = Ok b1 /\ run (nest_ops BO t) (inputs t v) e2 = Ok b2
  /\ forall place, let x := base_at zero t place r1 in let y := base_at zero t place r2 in
     is_finite x = true -> is_finite y = true -> Rabs (B2R x - B2R y) <= bar t place b1 + bar t place b2.
Proof.
  intros H. destruct (C91_error_bars t e1 v) as (r1 & b1 & x1 & R1 & B1 & X1 & G1).
  destruct (C91_error_bars t e2 v) as (r2 & b2 & x2 & R2 & B2 & X2 & G2).
  exists r1, r2, b1, b2. repeat (split; [assumption|]). intros place x y Fx Fy.
  destruct (H (fun i => nest_image (fun a : fl => B2R a) t (v i))) as (y1 & y2 & Y1 & Y2 & E).
  rewrite X1 in Y1. rewrite X2 in Y2. injection Y1 as <-. injection Y2 as <-.
  pose proof (base_at_same real_ring t place x1 x2 E) as S. change (r_zero real_ring) with 0 in S.
  destruct (G1 place) as (_ & W1 & _). destruct (G2 place) as (_ & W2 & _).
  specialize (W1 Fx). specialize (W2 Fy). rewrite S in W1. fold x in W1. fold y in W2.
  replace (B2R x - B2R y) with (B2R x - base_at 0 t place x2 + - (B2R y - base_at 0 t place x2)) by ring.
  eapply Rle_trans; [apply Rabs_triang|]. rewrite Rabs_Ropp. lra.
Qed.

Theorem C91_ring_identities :
  forall (e1 e2 : rexpr), ring_identity e1 e2 ->
  forall (t : nest) (v : nat -> nval fl t), exists r1 r2 b1 b2,
  run (nest_ops FO t) v e1 = Ok r1 /\ run (nest_ops FO t) v e2 = Ok r2
  /\ run (nest_ops BO t) (inputs t v) e1 = Ok b1 /\ run (nest_ops BO t) (inputs t v) e2 = Ok b2
  /\ forall place, let x := base_at zero t place r1 in let y := base_at zero t place r2 in
     is_finite x = true -> is_finite y = true -> Rabs (B2R x - B2R y) <= bar t place b1 + bar t place b2.
Proof.
  intros e1 e2 H t v. apply up_to_bars. intros w. apply H. apply C50_every_nesting_is_a_ring, real_ring_is.
Qed.

Theorem C91_commutative_identities :
  forall (e1 e2 : rexpr), comm_ring_identity e1 e2 ->
  forall (t : nest), no_big_matrix t -> forall (v : nat -> nval fl t), exists r1 r2 b1 b2,
  run (nest_ops FO t) v e1 = Ok r1 /\ run (nest_ops FO t) v e2 = Ok r2
  /\ run (nest_ops BO t) (inputs t v) e1 = Ok b1 /\ run (nest_ops BO t) (inputs t v) e2 = Ok b2
  /\ forall place, let x := base_at zero t place r1 in let y := base_at zero t place r2 in
     is_finite x = true -> is_finite y = true -> Rabs (B2R x - B2R y) <= bar t place b1 + bar t place b2.
Proof.
  intros e1 e2 H t Ht v. apply up_to_bars. intros w. apply H. apply C50_commutative_nestings; [apply real_comm_ring_is|exact Ht].
Qed.

(** ** Every operation, so that error bars can be followed through any program *)
(** If the first computation returns, so does the second, and the results are related. *)
Definition followed {A B} (R : A -> B -> Prop) (m1 : outcome A) (m2 : outcome B) : Prop :=
  forall a, m1 = Ok a -> exists b, m2 = Ok b /\ R a b.
Lemma sim_followed {A B} (R : A -> B -> Prop) m1 m2 : sim never R m1 m2 -> followed R m1 m2.
Proof. intros H a E. rewrite E in H. exact H. Qed.

Section Ops.
Context (F : Prop).
Notation In := (inside prec emax F).
Definition InV {n} (v : svector fl n) (v' : svector bars n) : Prop := Forall2 In (entries v) (entries v').
Definition InC (z : complex fl) (z' : complex bars) : Prop := In (re z) (re z') /\ In (im z) (im z').
Definition InM {m n} (a : smatrix fl m n) (a' : smatrix bars m n) : Prop :=
  Forall2 (fun r r' => Forall2 In (entries r) (entries r')) (entries a) (entries a').
Definition InD (a : dmatrix fl) (a' : dmatrix bars) : Prop :=
  Forall2 In (dm_data a) (dm_data a') /\ dm_rows a = dm_rows a' /\ dm_cols a = dm_cols a'.

Theorem C91_operations :
  (* polynomials *)
  (forall p p' x x', Forall2 In p p' -> In x x' -> followed In (poly_eval FO p x) (poly_eval BO p' x'))
  /\ (forall p p' q q', Forall2 In p p' -> Forall2 In q q' ->
        followed (Forall2 In) (poly_add FO p q) (poly_add BO p' q')
        /\ followed (Forall2 In) (poly_sub FO p q) (poly_sub BO p' q')
        /\ followed (Forall2 In) (poly_mul FO p q) (poly_mul BO p' q')
        /\ followed (Forall2 In) (poly_neg FO p) (poly_neg BO p'))
  (* complex numbers *)
  /\ (forall z z' w w', InC z z' -> InC w w' ->
        followed InC (complex_mul FO z w) (complex_mul BO z' w')
        /\ followed InC (complex_conj (r_neg FO) z) (complex_conj (r_neg BO) z')
        /\ followed In (complex_sqr_norm FO z) (complex_sqr_norm BO z'))
  (* vectors *)
  /\ (forall n (a b : svector fl n) a' b' x x', InV a a' -> InV b b' -> In x x' ->
        followed InV (svector_add FO a b) (svector_add BO a' b')
        /\ followed InV (svector_sub FO a b) (svector_sub BO a' b')
        /\ followed InV (svector_scale FO a x) (svector_scale BO a' x')
        /\ followed In (svector_dot FO a b) (svector_dot BO a' b'))
  /\ (forall a b a' b', Forall2 In a a' -> Forall2 In b b' ->
        followed In (dvector_dot (r_zero FO) (r_add FO) (r_mul FO) prim_conj a b)
                    (dvector_dot (r_zero BO) (r_add BO) (r_mul BO) prim_conj a' b'))
  (* matrices *)
  /\ (forall m n (a b : smatrix fl m n) a' b', InM a a' -> InM b b' ->
        followed InM (smatrix_add FO a b) (smatrix_add BO a' b')
        /\ followed InM (smatrix_sub FO a b) (smatrix_sub BO a' b')
        /\ followed InM (smatrix_neg FO a) (smatrix_neg BO a'))
  /\ (forall l m n (a : smatrix fl l m) (b : smatrix fl m n) a' b', InM a a' -> InM b b' ->
        followed InM (smatrix_mul FO a b) (smatrix_mul BO a' b'))
  /\ (forall m n (a : smatrix fl m n) (v : svector fl n) a' v', InM a a' -> InV v v' ->
        followed InV (smatrix_mul_vec FO a v) (smatrix_mul_vec BO a' v'))
  /\ (forall (md : target) a b a' b', InD a a' -> InD b b' ->
        followed InD (e <- dmatrix_mul md (r_mul FO) (r_add FO) a b ;; m_eval e)
                     (e <- dmatrix_mul md (r_mul BO) (r_add BO) a' b' ;; m_eval e)).
Proof.
  pose proof (bars_sim prec emax F) as HS.
  repeat match goal with |- _ /\ _ => split end; intros; repeat match goal with |- _ /\ _ => split end; apply sim_followed.
  - apply (sim_poly_eval never _ _ _ HS); assumption.
  - apply (sim_poly_add never _ _ _ HS); assumption.
  - apply (sim_poly_sub never _ _ _ HS); assumption.
  - apply (sim_poly_mul never _ _ _ HS); assumption.
  - apply (sim_poly_neg never _ _ _ HS); assumption.
  - apply (sim_complex_mul never _ _ _ HS); assumption.
  - apply (sim_complex_conj never _ _ _ HS); assumption.
  - apply (sim_complex_sqr_norm never _ _ _ HS); assumption.
  - apply (sim_svector_add never _ _ _ HS); assumption.
  - apply (sim_svector_sub never _ _ _ HS); assumption.
  - apply (sim_svector_scale never _ _ _ HS); assumption.
  - apply (sim_svector_dot never _ _ _ HS); assumption.
  - apply (sim_dvector_dot never _ _ _ HS); try assumption. intros x1 x2 Hx. apply (sim_ok never). exact Hx.
  - apply (sim_smatrix_add never _ _ _ HS); assumption.
  - apply (sim_smatrix_sub never _ _ _ HS); assumption.
  - apply (sim_smatrix_neg never _ _ _ HS); assumption.
  - apply (sim_smatrix_mul never _ _ _ HS); assumption.
  - apply (sim_smatrix_mul_vec never _ _ _ HS); assumption.
  - apply (sim_dmatrix_product never _ _ _ HS); assumption.
Qed.
End Ops.

(** ** Some laws with explicit bounds *)
Notation add := (fl_add prec emax).
Notation mul := (fl_mul prec emax).
Notation abs x := (Rabs (B2R x)).

Lemma inside_pair x b y c e : inside prec emax False x b -> inside prec emax False y c -> exact b = exact c ->
  is_finite x = true -> is_finite y = true -> error_bar prec b + error_bar prec c <= e -> Rabs (B2R x - B2R y) <= e.
Proof.
  intros (_ & Wx & _) (_ & Wy & _) E Fx Fy H. specialize (Wx Fx). specialize (Wy Fy). rewrite E in Wx.
  replace (B2R x - B2R y) with (B2R x - exact c + - (B2R y - exact c)) by ring.
  eapply Rle_trans; [apply Rabs_triang|]. rewrite Rabs_Ropp. lra.
Qed.
Lemma input x : inside prec emax False x (bars_of prec emax x).
Proof. apply inside_input. tauto. Qed.

Theorem C91_scalar_laws :
  forall a b c : fl,
  (let x := add (add a b) c in let y := add a (add b c) in is_finite x = true -> is_finite y = true ->
     Rabs (B2R x - B2R y) <= 2 * ((1 + u) ^ 2 - 1) * (abs a + abs b + abs c))
  /\ (let x := mul (mul a b) c in let y := mul a (mul b c) in is_finite x = true -> is_finite y = true ->
     Rabs (B2R x - B2R y) <= 2 * ((1 + u) ^ 2 - 1) * (abs a * abs b * abs c) + (1 + u) ^ 2 * (abs a + abs c + 2) * eta)
  /\ (let x := mul a (add b c) in let y := add (mul a b) (mul a c) in is_finite x = true -> is_finite y = true ->
     Rabs (B2R x - B2R y) <= 2 * ((1 + u) ^ 2 - 1) * (abs a * (abs b + abs c)) + 3 * (1 + u) ^ 2 * eta).
Proof.
  intros a b c. repeat split; intros x y Fx Fy.
  - eapply (inside_pair x _ y); [apply inside_add; [apply inside_add|]; apply input|apply inside_add; [|apply inside_add]; apply input| | | |]; auto.
    + cbn. ring.
    + unfold error_bar, bars_add, bars_of; cbn [exact size padded depth blank max andb orb Nat.add]. apply Req_le. ring.
  - eapply (inside_pair x _ y); [apply inside_mul; [apply inside_mul|]; apply input|apply inside_mul; [|apply inside_mul]; apply input| | | |]; auto.
    + cbn. ring.
    + unfold error_bar, bars_mul, bars_of; cbn [exact size padded depth blank max andb orb Nat.add]. apply Req_le. ring.
  - eapply (inside_pair x _ y); [apply inside_mul; [|apply inside_add]; apply input|apply inside_add; apply inside_mul; apply input| | | |]; auto.
    + cbn. ring.
    + unfold error_bar, bars_mul, bars_add, bars_of; cbn [exact size padded depth blank max andb orb Nat.add]. apply Req_le. ring.
Qed.

(** *** Matrices *)
Fixpoint bsum (n : nat) (f : nat -> bars) : bars :=
  match n with O => bars_zero | S m => bars_add prec (bsum m f) (f m) end.
Lemma bsum_exact n f : exact (bsum n f) = rsum n (fun i => exact (f i)).
Proof. induction n; simpl; [reflexivity|]. rewrite IHn. reflexivity. Qed.
Lemma bsum_size n f : size (bsum n f) = rsum n (fun i => size (f i)).
Proof. induction n; simpl; [reflexivity|]. rewrite IHn. reflexivity. Qed.
Lemma bsum_padded n f : padded (bsum n f) = rsum n (fun i => padded (f i)).
Proof. induction n; simpl; [reflexivity|]. rewrite IHn. reflexivity. Qed.
Lemma bsum_depth n f D : (forall i, (i < n)%nat -> (depth (f i) <= D)%nat) -> (depth (bsum n f) <= D + (n - 1))%nat.
Proof.
  induction n as [|n IH]; intros H; simpl; [lia|].
  assert (I1 : (depth (bsum n f) <= D + (n - 1))%nat) by (apply IH; intros; apply H; lia).
  assert (I2 : (depth (f n) <= D)%nat) by (apply H; lia).
  destruct n as [|n]; [simpl; lia|].
  destruct (blank (bsum (S n) f)); [lia|]. destruct (blank (f (S n))); lia.
Qed.
Lemma bsum_blank n f : (forall i, (i < n)%nat -> blank (f i) = true) -> (forall i, (i < n)%nat -> depth (f i) = 0%nat) ->
  blank (bsum n f) = true /\ depth (bsum n f) = 0%nat.
Proof.
  induction n as [|n IH]; intros H1 H2; simpl; [auto|].
  destruct IH as [E1 E2]; [intros; apply H1; lia|intros; apply H2; lia|].
  rewrite E1, H1, H2 by lia. auto.
Qed.
Lemma inside_bsum n (f : nat -> fl) g : (forall i, (i < n)%nat -> inside prec emax False (f i) (g i)) ->
  inside prec emax False (sum_n (float_sig prec emax) n f) (bsum n g).
Proof.
  induction n as [|n IH]; intros H; simpl; [apply (inside_zero prec emax)|]. apply inside_add; [apply IH; intros; apply H; lia|apply H; lia].
Qed.

Notation sig := (float_sig prec emax).
Notation aR a i j := (Rabs (smat_R a i j)).
Lemma mat_at_R m n (a : smatrix fl m n) i j : B2R (mat_at sig a i j) = smat_R a i j.
Proof. apply entry_nth. reflexivity. Qed.
Lemma product_entry L M N (a : smatrix fl L M) (b : smatrix fl M N) :
  exists r, smatrix_mul FO a b = Ok r
  /\ (forall i j, (i < L)%nat -> (j < N)%nat -> mat_at sig r i j = sum_n sig M (fun m => mul (mat_at sig a i m) (mat_at sig b m j)))
  /\ (forall i j x, nth_error (nth i (map entries (entries r)) []) j = Some x -> mat_at sig r i j = x).
Proof.
  unfold smatrix_mul. rewrite (smatrix_mul_total FO _ (float_implements prec emax)).
  eexists; split; [reflexivity|]. split.
  - intros i j Hi Hj. apply (mat_at_tab sig); assumption.
  - intros i j x Hx. unfold mat_at. apply (nth_error_nth _ _ _ Hx).
Qed.

Notation bof x := (bars_of prec emax x).
Lemma bmul_padded a b : 0 <= padded a -> 0 <= padded b -> padded (bars_mul prec emax a b) <= padded a * padded b + eta.
Proof.
  intros Ha Hb. unfold bars_mul; cbn [padded]. destruct (blank a || blank b); [|lra].
  pose proof (eta_pos prec emax). pose proof (Rmult_le_pos _ _ Ha Hb). lra.
Qed.
Lemma bmul_depth a b : (depth (bars_mul prec emax a b) <= S (depth a + depth b))%nat.
Proof. unfold bars_mul; cbn [depth]. destruct (blank a || blank b); lia. Qed.
Lemma bar_le b D P S : (depth b <= D)%nat -> 0 <= padded b <= P -> size b = S -> error_bar prec b <= (1 + u) ^ D * P - S.
Proof.
  intros HD [H0 HP] HS. unfold error_bar. rewrite HS. pose proof (u_pos prec).
  pose proof (pow_mono (1 + u) (depth b) D ltac:(lra) HD). pose proof (pow_ge_1 (1 + u) (depth b) ltac:(lra)).
  pose proof (Rmult_le_compat ((1 + u) ^ depth b) ((1 + u) ^ D) (padded b) P ltac:(lra) H0 ltac:(assumption) HP). lra.
Qed.

(** *** The bars of a product of three matrices, either way *)
Section Triple.
Context (L M N K : nat) (a : smatrix fl L M) (b : smatrix fl M N) (c : smatrix fl N K) (i l : nat).
Let A m := mat_at sig a i m.
Let B m n := mat_at sig b m n.
Let C n := mat_at sig c n l.
Let inner1 n := bsum M (fun m => bars_mul prec emax (bof (A m)) (bof (B m n))).
Let left := bsum N (fun n => bars_mul prec emax (inner1 n) (bof (C n))).
Let inner2 m := bsum N (fun n => bars_mul prec emax (bof (B m n)) (bof (C n))).
Let right := bsum M (fun m => bars_mul prec emax (bof (A m)) (inner2 m)).
Let S3 := rsum N (fun n => rsum M (fun m => abs (A m) * abs (B m n) * abs (C n))).

Lemma triple_exact : exact left = exact right.
Proof.
  unfold left, right. rewrite !bsum_exact. cbn [exact bars_mul].
  transitivity (rsum N (fun n => rsum M (fun m => B2R (A m) * B2R (B m n) * B2R (C n)))).
  - apply rsum_ext. intros n _. unfold inner1. rewrite bsum_exact. cbn [exact bars_mul bars_of].
    rewrite Rmult_comm, <- rsum_scal. apply rsum_ext. intros m _. ring.
  - rewrite rsum_swap. apply rsum_ext. intros m _. unfold inner2. rewrite bsum_exact. cbn [exact bars_mul bars_of].
    rewrite <- rsum_scal. apply rsum_ext. intros n _. ring.
Qed.
Lemma triple_size : size left = S3 /\ size right = S3.
Proof.
  unfold left, right, S3. rewrite !bsum_size. cbn [size bars_mul]. split.
  - apply rsum_ext. intros n _. unfold inner1. rewrite bsum_size. cbn [size bars_mul bars_of].
    rewrite Rmult_comm, <- rsum_scal. apply rsum_ext. intros m _. ring.
  - rewrite rsum_swap. apply rsum_ext. intros m _. unfold inner2. rewrite bsum_size. cbn [size bars_mul bars_of].
    rewrite <- rsum_scal. apply rsum_ext. intros n _. ring.
Qed.
Lemma padded_of x : padded (bof x) = abs x. Proof. reflexivity. Qed.
Lemma bmul_nonneg x y : 0 <= padded x -> 0 <= padded y -> 0 <= padded (bars_mul prec emax x y).
Proof.
  intros Hx Hy. unfold bars_mul; cbn [padded]. destruct (blank x || blank y); [lra|].
  pose proof (eta_pos prec emax). pose proof (Rmult_le_pos _ _ Hx Hy). lra.
Qed.
Lemma inner1_padded n : 0 <= padded (inner1 n) <= rsum M (fun m => abs (A m) * abs (B m n)) + INR M * eta.
Proof.
  unfold inner1. rewrite bsum_padded. split.
  - apply rsum_nonneg. intros m _. apply bmul_nonneg; apply Rabs_pos.
  - rewrite <- rsum_const, <- rsum_plus. apply rsum_le. intros m _. apply bmul_padded; apply Rabs_pos.
Qed.
Lemma inner2_padded m : 0 <= padded (inner2 m) <= rsum N (fun n => abs (B m n) * abs (C n)) + INR N * eta.
Proof.
  unfold inner2. rewrite bsum_padded. split.
  - apply rsum_nonneg. intros n _. apply bmul_nonneg; apply Rabs_pos.
  - rewrite <- rsum_const, <- rsum_plus. apply rsum_le. intros n _. apply bmul_padded; apply Rabs_pos.
Qed.
Lemma left_padded : 0 <= padded left <= S3 + INR M * eta * rsum N (fun n => abs (C n)) + INR N * eta.
Proof.
  unfold left. rewrite bsum_padded. split.
  - apply rsum_nonneg. intros n _. apply bmul_nonneg; [apply inner1_padded|apply Rabs_pos].
  - unfold S3. rewrite <- rsum_scal, <- (rsum_const N eta), <- !rsum_plus. apply rsum_le. intros n _.
    eapply Rle_trans; [apply bmul_padded; [apply inner1_padded|apply Rabs_pos]|]. rewrite padded_of.
    apply Rplus_le_compat_r.
    replace (rsum M (fun m => abs (A m) * abs (B m n) * abs (C n)) + INR M * eta * abs (C n))
      with ((rsum M (fun m => abs (A m) * abs (B m n)) + INR M * eta) * abs (C n)).
    + apply Rmult_le_compat_r; [apply Rabs_pos|apply inner1_padded].
    + rewrite Rmult_plus_distr_r. f_equal. rewrite Rmult_comm, <- rsum_scal. apply rsum_ext. intros m _. ring.
Qed.
Lemma right_padded : 0 <= padded right <= S3 + INR N * eta * rsum M (fun m => abs (A m)) + INR M * eta.
Proof.
  unfold right. rewrite bsum_padded. split.
  - apply rsum_nonneg. intros m _. apply bmul_nonneg; [apply Rabs_pos|apply inner2_padded].
  - unfold S3. rewrite rsum_swap. rewrite <- rsum_scal, <- (rsum_const M eta), <- !rsum_plus. apply rsum_le. intros m _.
    eapply Rle_trans; [apply bmul_padded; [apply Rabs_pos|apply inner2_padded]|]. rewrite padded_of.
    apply Rplus_le_compat_r.
    replace (rsum N (fun n => abs (A m) * abs (B m n) * abs (C n)) + INR N * eta * abs (A m))
      with (abs (A m) * (rsum N (fun n => abs (B m n) * abs (C n)) + INR N * eta)).
    + apply Rmult_le_compat_l; [apply Rabs_pos|apply inner2_padded].
    + rewrite Rmult_plus_distr_l. f_equal; [|ring]. rewrite <- rsum_scal. apply rsum_ext. intros n _. ring.
Qed.
Lemma left_depth : (depth left <= M + N)%nat.
Proof.
  unfold left. destruct (Nat.eq_dec M 0) as [E|E].
  - destruct (bsum_blank N (fun n => bars_mul prec emax (inner1 n) (bof (C n)))) as [_ Q];
      [intros n _; unfold inner1; rewrite E; reflexivity|intros n _; unfold inner1; rewrite E; reflexivity|].
    rewrite Q. lia.
  - destruct (Nat.eq_dec N 0) as [E'|E']; [rewrite E'; simpl; lia|].
    eapply Nat.le_trans; [apply (bsum_depth N _ (S M))|lia]. intros n _.
    eapply Nat.le_trans; [apply bmul_depth|]. change (depth (bof (C n))) with 0%nat. unfold inner1.
    pose proof (bsum_depth M (fun m => bars_mul prec emax (bof (A m)) (bof (B m n))) 1) as Q.
    assert (H : forall m, (m < M)%nat -> (depth (bars_mul prec emax (bof (A m)) (bof (B m n))) <= 1)%nat) by (intros; apply bmul_depth).
    specialize (Q H). lia.
Qed.
Lemma right_depth : (depth right <= M + N)%nat.
Proof.
  unfold right. destruct (Nat.eq_dec N 0) as [E|E].
  - destruct (bsum_blank M (fun m => bars_mul prec emax (bof (A m)) (inner2 m))) as [_ Q];
      [intros m _; unfold inner2; rewrite E; reflexivity|intros m _; unfold inner2; rewrite E; reflexivity|].
    rewrite Q. lia.
  - destruct (Nat.eq_dec M 0) as [E'|E']; [rewrite E'; simpl; lia|].
    eapply Nat.le_trans; [apply (bsum_depth M _ (S N))|lia]. intros m _.
    eapply Nat.le_trans; [apply bmul_depth|]. change (depth (bof (A m))) with 0%nat. unfold inner2.
    pose proof (bsum_depth N (fun n => bars_mul prec emax (bof (B m n)) (bof (C n))) 1) as Q.
    assert (H : forall n, (n < N)%nat -> (depth (bars_mul prec emax (bof (B m n)) (bof (C n))) <= 1)%nat) by (intros; apply bmul_depth).
    specialize (Q H). lia.
Qed.
Lemma triple_bars (x y : fl) :
  x = sum_n sig N (fun n => mul (sum_n sig M (fun m => mul (A m) (B m n))) (C n)) ->
  y = sum_n sig M (fun m => mul (A m) (sum_n sig N (fun n => mul (B m n) (C n)))) ->
  is_finite x = true -> is_finite y = true ->
  Rabs (B2R x - B2R y) <= 2 * ((1 + u) ^ (M + N) - 1) * S3
    + (1 + u) ^ (M + N) * (INR M * rsum N (fun n => abs (C n)) + INR N * rsum M (fun m => abs (A m)) + INR M + INR N) * eta.
Proof.
  intros Ex Ey Fx Fy.
  apply (inside_pair x left y right); auto.
  - rewrite Ex. apply inside_bsum. intros n _. apply inside_mul; [|apply input].
    apply inside_bsum. intros m _. apply inside_mul; apply input.
  - rewrite Ey. apply inside_bsum. intros m _. apply inside_mul; [apply input|].
    apply inside_bsum. intros n _. apply inside_mul; apply input.
  - apply triple_exact.
  - destruct triple_size as [Z1 Z2].
    pose proof (bar_le left _ _ _ left_depth left_padded Z1). pose proof (bar_le right _ _ _ right_depth right_padded Z2).
    eapply Rle_trans; [apply Rplus_le_compat; eassumption|]. apply Req_le. ring.
Qed.
End Triple.

(** (AB)C and A(BC) agree within ((1 + u)^(M+N) - 1) |A||B||C| each, plus underflow. *)
Theorem C91_matrix_associative :
  forall (L M N K : nat) (a : smatrix fl L M) (b : smatrix fl M N) (c : smatrix fl N K),
  exists ab ab_c bc a_bc,
  smatrix_mul FO a b = Ok ab /\ smatrix_mul FO ab c = Ok ab_c
  /\ smatrix_mul FO b c = Ok bc /\ smatrix_mul FO a bc = Ok a_bc
  /\ forall i l x y, (i < L)%nat -> (l < K)%nat ->
     nth_error (nth i (map entries (entries ab_c)) []) l = Some x ->
     nth_error (nth i (map entries (entries a_bc)) []) l = Some y ->
     is_finite x = true -> is_finite y = true ->
     Rabs (B2R x - B2R y)
     <= 2 * ((1 + u) ^ (M + N) - 1) * rsum N (fun n => rsum M (fun m => aR a i m * aR b m n * aR c n l))
        + (1 + u) ^ (M + N) * (INR M * (rsum N (fun n => aR c n l)) + INR N * (rsum M (fun m => aR a i m)) + INR M + INR N) * eta.
Proof.
  intros L M N K a b c.
  destruct (product_entry L M N a b) as (ab & E1 & G1 & _). destruct (product_entry L N K ab c) as (ab_c & E2 & G2 & Q2).
  destruct (product_entry M N K b c) as (bc & E3 & G3 & _). destruct (product_entry L M K a bc) as (a_bc & E4 & G4 & Q4).
  exists ab, ab_c, bc, a_bc. repeat (split; [assumption|]). intros i l x y Hi Hl Hx Hy Fx Fy.
  apply Q2 in Hx. apply Q4 in Hy. rewrite G2 in Hx by assumption. rewrite G4 in Hy by assumption.
  assert (Ex : x = sum_n sig N (fun n => mul (sum_n sig M (fun m => mul (mat_at sig a i m) (mat_at sig b m n))) (mat_at sig c n l))).
  { rewrite <- Hx. apply sum_n_ext_lt. intros n Hn. rewrite G1 by assumption. reflexivity. }
  assert (Ey : y = sum_n sig M (fun m => mul (mat_at sig a i m) (sum_n sig N (fun n => mul (mat_at sig b m n) (mat_at sig c n l))))).
  { rewrite <- Hy. apply sum_n_ext_lt. intros m Hm. rewrite G3 by assumption. reflexivity. }
  pose proof (triple_bars L M N K a b c i l x y Ex Ey Fx Fy) as G.
  rewrite (rsum_ext N (fun n => rsum M _) (fun n => rsum M (fun m => aR a i m * aR b m n * aR c n l))) in G.
  2: { intros n _. apply rsum_ext. intros m _. rewrite !mat_at_R. reflexivity. }
  rewrite (rsum_ext N (fun n => abs (mat_at sig c n l)) (fun n => aR c n l)) in G by (intros; rewrite mat_at_R; reflexivity).
  rewrite (rsum_ext M (fun m => abs (mat_at sig a i m)) (fun m => aR a i m)) in G by (intros; rewrite mat_at_R; reflexivity).
  exact G.
Qed.

Section Distr.
Context (L M N : nat) (a : smatrix fl L M) (b c : smatrix fl M N) (i j : nat).
Let A m := mat_at sig a i m.
Let B m := mat_at sig b m j.
Let C m := mat_at sig c m j.
Let left := bsum M (fun m => bars_mul prec emax (bof (A m)) (bars_add prec (bof (B m)) (bof (C m)))).
Let half1 := bsum M (fun m => bars_mul prec emax (bof (A m)) (bof (B m))).
Let half2 := bsum M (fun m => bars_mul prec emax (bof (A m)) (bof (C m))).
Let S2 := rsum M (fun m => abs (A m) * (abs (B m) + abs (C m))).
Lemma distr_bars (x y : fl) :
  x = sum_n sig M (fun m => mul (A m) (add (B m) (C m))) ->
  y = add (sum_n sig M (fun m => mul (A m) (B m))) (sum_n sig M (fun m => mul (A m) (C m))) ->
  is_finite x = true -> is_finite y = true ->
  Rabs (B2R x - B2R y) <= 2 * ((1 + u) ^ (M + 1) - 1) * S2 + (1 + u) ^ (M + 1) * (3 * INR M) * eta.
Proof.
  intros Ex Ey Fx Fy.
  apply (inside_pair x left y (bars_add prec half1 half2)); auto.
  - rewrite Ex. apply inside_bsum. intros m _. apply inside_mul; [apply input|]. apply inside_add; apply input.
  - rewrite Ey. apply inside_add; apply inside_bsum; intros m _; apply inside_mul; apply input.
  - unfold left, half1, half2. cbn [exact bars_add]. rewrite !bsum_exact, <- rsum_plus. apply rsum_ext. intros m _. cbn [exact bars_mul bars_add bars_of]. ring.
  - assert (Z1 : size left = S2) by (unfold left; rewrite bsum_size; apply rsum_ext; intros; reflexivity).
    assert (Z2 : size (bars_add prec half1 half2) = S2).
    { unfold half1, half2. cbn [size bars_add]. rewrite !bsum_size, <- rsum_plus. apply rsum_ext. intros m _. cbn [size bars_mul bars_add bars_of]. ring. }
    assert (P1 : 0 <= padded left <= S2 + INR M * eta).
    { unfold left. rewrite bsum_padded. split.
      - apply rsum_nonneg. intros m _. apply bmul_nonneg; cbn [padded bars_add bars_of]; pose proof (Rabs_pos (B2R (A m))); pose proof (Rabs_pos (B2R (B m))); pose proof (Rabs_pos (B2R (C m))); lra.
      - unfold S2. rewrite <- (rsum_const M eta), <- rsum_plus. apply rsum_le. intros m _.
        apply bmul_padded; cbn [padded bars_add bars_of]; pose proof (Rabs_pos (B2R (A m))); pose proof (Rabs_pos (B2R (B m))); pose proof (Rabs_pos (B2R (C m))); lra. }
    assert (P2 : 0 <= padded (bars_add prec half1 half2) <= S2 + 2 * INR M * eta).
    { unfold half1, half2. cbn [padded bars_add]. rewrite !bsum_padded, <- rsum_plus. split.
      - apply rsum_nonneg. intros m _. pose proof (bmul_nonneg (bof (A m)) (bof (B m)) (Rabs_pos _) (Rabs_pos _)).
        pose proof (bmul_nonneg (bof (A m)) (bof (C m)) (Rabs_pos _) (Rabs_pos _)). lra.
      - replace (2 * INR M * eta) with (INR M * (2 * eta)) by ring. unfold S2. rewrite <- (rsum_const M (2 * eta)), <- rsum_plus. apply rsum_le. intros m _.
        pose proof (bmul_padded (bof (A m)) (bof (B m)) (Rabs_pos _) (Rabs_pos _)) as Q1.
        pose proof (bmul_padded (bof (A m)) (bof (C m)) (Rabs_pos _) (Rabs_pos _)) as Q2.
        rewrite !padded_of in Q1, Q2. rewrite Rmult_plus_distr_l. lra. }
    assert (D1 : (depth left <= M + 1)%nat).
    { unfold left. destruct (Nat.eq_dec M 0) as [E|E]; [rewrite E; simpl; lia|].
      eapply Nat.le_trans; [apply (bsum_depth M _ 2)|lia]. intros m _. eapply Nat.le_trans; [apply bmul_depth|]. reflexivity. }
    assert (D2 : (depth (bars_add prec half1 half2) <= M + 1)%nat).
    { pose proof (bsum_depth M (fun m => bars_mul prec emax (bof (A m)) (bof (B m))) 1 ltac:(intros; apply bmul_depth)) as Q1.
      pose proof (bsum_depth M (fun m => bars_mul prec emax (bof (A m)) (bof (C m))) 1 ltac:(intros; apply bmul_depth)) as Q2.
      fold half1 in Q1. fold half2 in Q2.
      cbn [depth bars_add]. destruct (Nat.eq_dec M 0) as [E|E].
      - unfold half1, half2. rewrite E. simpl. lia.
      - destruct (blank half1); [lia|]. destruct (blank half2); lia. }
    pose proof (bar_le left _ _ _ D1 P1 Z1). pose proof (bar_le (bars_add prec half1 half2) _ _ _ D2 P2 Z2).
    eapply Rle_trans; [apply Rplus_le_compat; eassumption|]. apply Req_le. ring.
Qed.
End Distr.

Lemma sum_entry M N (b c : smatrix fl M N) :
  exists r, smatrix_add FO b c = Ok r
  /\ (forall i j, (i < M)%nat -> (j < N)%nat -> mat_at sig r i j = add (mat_at sig b i j) (mat_at sig c i j))
  /\ (forall i j x, nth_error (nth i (map entries (entries r)) []) j = Some x -> mat_at sig r i j = x).
Proof.
  unfold smatrix_add. rewrite (smatrix_add_total FO _ (float_implements prec emax)).
  eexists; split; [reflexivity|]. split.
  - intros i j Hi Hj. apply (mat_at_tab sig); assumption.
  - intros i j x Hx. unfold mat_at. apply (nth_error_nth _ _ _ Hx).
Qed.

(** A(B+C) and AB+AC agree within ((1 + u)^(M+1) - 1) |A|(|B|+|C|) each, plus underflow. *)
Theorem C91_matrix_distributive :
  forall (L M N : nat) (a : smatrix fl L M) (b c : smatrix fl M N),
  exists b_c l ab ac r,
  smatrix_add FO b c = Ok b_c /\ smatrix_mul FO a b_c = Ok l
  /\ smatrix_mul FO a b = Ok ab /\ smatrix_mul FO a c = Ok ac /\ smatrix_add FO ab ac = Ok r
  /\ forall i j x y, (i < L)%nat -> (j < N)%nat ->
     nth_error (nth i (map entries (entries l)) []) j = Some x ->
     nth_error (nth i (map entries (entries r)) []) j = Some y ->
     is_finite x = true -> is_finite y = true ->
     Rabs (B2R x - B2R y)
     <= 2 * ((1 + u) ^ (M + 1) - 1) * rsum M (fun m => aR a i m * (aR b m j + aR c m j))
        + (1 + u) ^ (M + 1) * (3 * INR M) * eta.
Proof.
  intros L M N a b c.
  destruct (sum_entry M N b c) as (b_c & E1 & G1 & _). destruct (product_entry L M N a b_c) as (l & E2 & G2 & Q2).
  destruct (product_entry L M N a b) as (ab & E3 & G3 & _). destruct (product_entry L M N a c) as (ac & E4 & G4 & _).
  destruct (sum_entry L N ab ac) as (r & E5 & G5 & Q5).
  exists b_c, l, ab, ac, r. repeat (split; [assumption|]). intros i j x y Hi Hj Hx Hy Fx Fy.
  apply Q2 in Hx. apply Q5 in Hy. rewrite G2 in Hx by assumption. rewrite G5, G3, G4 in Hy by assumption.
  assert (Ex : x = sum_n sig M (fun m => mul (mat_at sig a i m) (add (mat_at sig b m j) (mat_at sig c m j)))).
  { rewrite <- Hx. apply sum_n_ext_lt. intros m Hm. rewrite G1 by assumption. reflexivity. }
  pose proof (distr_bars L M N a b c i j x y Ex (eq_sym Hy) Fx Fy) as G.
  rewrite (rsum_ext M _ (fun m => aR a i m * (aR b m j + aR c m j))) in G; [exact G|].
  intros m _. rewrite !mat_at_R. reflexivity.
Qed.
End Fmt.

(** ** Cases *)
(** Associativity, distributivity and the binomial formula are such identities ... *)
Example C91_case_identities :
  let x := EVar 0 in let y := EVar 1 in let z := EVar 2 in
  ring_identity (EMul (EMul x y) z) (EMul x (EMul y z))
  /\ ring_identity (EMul x (EAdd y z)) (EAdd (EMul x y) (EMul x z))
  /\ ring_identity (EAdd (EAdd x y) z) (EAdd x (EAdd y z))
  /\ ring_identity (ESub x x) EZero
  /\ comm_ring_identity (EMul x y) (EMul y x)
  /\ comm_ring_identity (EMul (EAdd x y) (EAdd x y)) (EAdd (EAdd (EMul x x) (EAdd (EMul x y) (EMul x y))) (EMul y y)).
Proof.
  repeat split; intros T O E HE v;
    [destruct HE as (S & HI & HR & HE)|destruct HE as (S & HI & HR & HE)|destruct HE as (S & HI & HR & HE)|destruct HE as (S & HI & HR & HE)
    |destruct HE as (S & HI & HR & HC & HE)|destruct HE as (S & HI & HR & HC & HE)];
    cbn [run bind]; repeat (rewrite ?(impl_mul _ _ HI), ?(impl_add _ _ HI), ?(impl_sub _ _ HI); cbn [bind]);
    try rewrite (impl_zero _ _ HI);
    (eexists; eexists; split; [reflexivity|split; [reflexivity|]]); apply HE.
  - apply (law_mul_assoc _ HR).
  - apply (law_distr_l _ HR).
  - apply (law_add_assoc _ HR).
  - eapply (law_trans _ HR); [apply (law_sub_def _ HR)|apply (law_add_neg _ HR)].
  - apply HC.
  - eapply (law_trans _ HR); [apply (law_distr_r _ HR)|].
    eapply (law_trans _ HR); [apply (law_add_cong _ HR); apply (law_distr_l _ HR)|].
    eapply (law_trans _ HR); [apply (law_add_assoc _ HR)|].
    eapply (law_trans _ HR); [|apply (law_sym _ HR), (law_add_assoc _ HR)].
    apply (law_add_cong _ HR); [apply (law_refl _ HR)|].
    eapply (law_trans _ HR); [|apply (law_sym _ HR), (law_add_assoc _ HR)].
    apply (law_add_cong _ HR); [apply (law_refl _ HR)|].
    apply (law_add_cong _ HR); [apply HC|apply (law_refl _ HR)].
Qed.
(** ... and they are not exact in f64: products of three f64 numbers and of three matrices of
    complex f64 numbers are finite and depend on the order. *)
Definition bars_case (k : nat) : f64 := match k with 0%nat => third | 1%nat => f64_of_Z 7 | _ => fl_div 53 1024 (f64_of_Z 1) (f64_of_Z 10) end.
Definition bars_matrix (k : nat) : nval f64 (NMat 2 (NComplex NBase)) :=
  acons (acons (Cx third (bars_case k)) (acons (Cx (f64_of_Z 1) third) anil))
        (acons (acons (Cx (bars_case k) third) (acons (Cx third (f64_of_Z 3)) anil)) anil).
Example C91_case :
  let l := EMul (EMul (EVar 0) (EVar 1)) (EVar 2) in
  let r := EMul (EVar 0) (EMul (EVar 1) (EVar 2)) in
  on_ok (run f64_ring bars_case l) (fun x => on_ok (run f64_ring bars_case r) (fun y => is_finite x && is_finite y && negb (Beqb x y))) = true
  /\ (let t := NMat 2 (NComplex NBase) in
      on_ok (run (nest_ops f64_ring t) bars_matrix l) (fun x => on_ok (run (nest_ops f64_ring t) bars_matrix r) (fun y =>
        is_finite (base_at (f64_of_Z 0) t [0; 0; 0]%nat x) && is_finite (base_at (f64_of_Z 0) t [0; 0; 0]%nat y)
        && negb (Beqb (base_at (f64_of_Z 0) t [0; 0; 0]%nat x) (base_at (f64_of_Z 0) t [0; 0; 0]%nat y)))) = true).
Proof. split; vm_compute; reflexivity. Qed.
(** The error bar of 1*1 + 1: two roundings, size 2. *)
Example C91_case_bar :
  exists b, run (bars_ops 53 1024) (fun _ => bars_one) (EAdd (EMul (EVar 0) (EVar 1)) (EVar 2)) = Ok b
  /\ exact b = 2 /\ size b = 2 /\ depth b = 2%nat /\ peak b < bpow radix2 1024.
Proof.
  eexists. split; [reflexivity|]. cbn [exact size depth bars_add bars_mul bars_one blank orb max Nat.add].
  split; [ring|]. split; [ring|]. split; [reflexivity|].
  unfold bars_add, bars_mul, bars_one. cbn [peak padded depth blank orb andb Nat.max Nat.add]. unfold unit_roundoff, underflow_unit.
  assert (B1 : bpow radix2 (- 53) <= 1) by (apply (bpow_le radix2 (-53) 0); lia).
  assert (B2 : bpow radix2 (2 - 1024 - 53) <= 1) by (apply (bpow_le radix2 (2 - 1024 - 53) 0); lia).
  assert (B3 : 64 <= bpow radix2 1024) by (apply (bpow_le radix2 6 1024); lia).
  pose proof (bpow_gt_0 radix2 (-53)). pose proof (bpow_gt_0 radix2 (2 - 1024 - 53)).
  change (- (53))%Z with (-53)%Z. set (w := bpow radix2 (-53)) in *. set (h := bpow radix2 (2 - 1024 - 53)) in *.
  assert (W1 : 0 <= (1 + w) <= 2) by lra. assert (H1 : 0 <= 1 * 1 + h <= 2) by lra.
  pose proof (Rmult_le_compat (1 + w) 2 (1 * 1 + h) 2 ltac:(lra) ltac:(lra) ltac:(lra) ltac:(lra)).
  pose proof (Rmult_le_compat (1 + w) 2 (1 + w) 2 ltac:(lra) ltac:(lra) ltac:(lra) ltac:(lra)) as Q2.
  pose proof (Rmult_le_compat ((1 + w) * (1 + w)) 4 (1 * 1 + h + 1) 3 ltac:(nra) ltac:(lra) ltac:(lra) ltac:(lra)).
  repeat apply Rmax_lub_lt; try lra.
Qed.
Print Assumptions C91_error_bars.
Print Assumptions C91_ring_identities.
Print Assumptions C91_commutative_identities.
Print Assumptions C91_operations.
Print Assumptions C91_scalar_laws.
Print Assumptions C91_matrix_associative.
Print Assumptions C91_matrix_distributive.
