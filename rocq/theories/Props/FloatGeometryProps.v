(** Property C101: lengths, Cauchy-Schwarz and the triangle inequality for float vectors and
    complex floats, up to stated rounding errors. *)
From Coq Require Import List Arith ZArith NArith Reals Bool Lia Lra.
From Flocq Require Import Core.Core IEEE754.BinarySingleNaN.
From Verif Require Import Base.Outcome Base.Usize Base.Array Model.Traits Model.Float Model.Complex
  Model.SVector Model.DVector
  Spec.Ring Spec.Sums Spec.Matrix Spec.FloatErr
  Proofs.FloatErr Proofs.FloatInt Proofs.FloatRange Proofs.FloatSpecial Proofs.Geometry Proofs.SMatrixProofs Proofs.DVectorProofs
  Props.FloatProps.
Import ListNotations.
Local Open Scope R_scope.

(** ** Real sums *)
(** sqrt (x_0^2 + ... + x_(n-1)^2). *)
Definition length_R (n : nat) (x : nat -> R) : R := sqrt (rsum n (fun i => x i * x i)).

Lemma rs_rsum n f : rs n f = rsum n f.
Proof. induction n as [|n IH]; [reflexivity|]. rewrite rs_S, IH. reflexivity. Qed.
Lemma squares_nonneg n x : 0 <= rsum n (fun i => x i * x i).
Proof. apply rsum_nonneg. intros i _. apply Rle_0_sqr. Qed.
Lemma length_sq n x : length_R n x * length_R n x = rsum n (fun i => x i * x i).
Proof. apply sqrt_sqrt, squares_nonneg. Qed.
Lemma length_nonneg n x : 0 <= length_R n x.
Proof. apply sqrt_pos. Qed.
Lemma length_abs n x : length_R n (fun i => Rabs (x i)) = length_R n x.
Proof. unfold length_R. f_equal. apply rsum_ext. intros i _. rewrite <- Rabs_mult. apply Rabs_pos_eq, Rle_0_sqr. Qed.
Lemma cs_abs n x y : rsum n (fun i => Rabs (x i) * Rabs (y i)) <= length_R n x * length_R n y.
Proof.
  rewrite <- (length_abs n x), <- (length_abs n y). pose proof (cs_real n (fun i => Rabs (x i)) (fun i => Rabs (y i))) as H.
  rewrite !rs_rsum in H. unfold length_R. rewrite <- sqrt_mult by apply (squares_nonneg n (fun i => Rabs _)).
  rewrite <- (sqrt_square (rsum n (fun i => Rabs (x i) * Rabs (y i)))); [apply sqrt_le_1_alt, H|].
  apply rsum_nonneg. intros. apply Rmult_le_pos; apply Rabs_pos.
Qed.
Lemma length_triangle n x y : length_R n (fun i => x i + y i) <= length_R n x + length_R n y.
Proof.
  unfold length_R. apply (sqrt_triangle _ _ _ (rsum n (fun i => x i * y i))); try apply squares_nonneg.
  - pose proof (rs_plus n (fun i => x i * x i + y i * y i) (fun i => 2 * (x i * y i))) as H1.
    rewrite (rs_plus n (fun i => x i * x i) (fun i => y i * y i)), (rs_scal n 2 (fun i => x i * y i)) in H1.
    rewrite (rs_rsum n (fun i => x i * x i)), (rs_rsum n (fun i => y i * y i)), (rs_rsum n (fun i => x i * y i)), rs_rsum in H1.
    rewrite <- H1. apply rsum_ext. intros; ring.
  - pose proof (cs_real n x y) as H. rewrite !rs_rsum in H. exact H.
Qed.
Lemma length_mono n x y c : 0 <= c -> (forall i, (i < n)%nat -> Rabs (x i) <= c * Rabs (y i)) -> length_R n x <= c * length_R n y.
Proof.
  intros Hc H. unfold length_R. rewrite <- (sqrt_square c) by exact Hc. rewrite <- sqrt_mult by (try apply squares_nonneg; nra).
  apply sqrt_le_1_alt. rewrite <- rsum_scal. apply rsum_le. intros i Hi. specialize (H i Hi).
  replace (x i * x i) with (Rabs (x i) * Rabs (x i)) by (rewrite <- Rabs_mult; apply Rabs_pos_eq, Rle_0_sqr).
  replace (c * c * (y i * y i)) with ((c * Rabs (y i)) * (c * Rabs (y i))).
  - apply Rmult_le_compat; try apply Rabs_pos; exact H.
  - replace (y i * y i) with (Rabs (y i) * Rabs (y i)) by (rewrite <- Rabs_mult; apply Rabs_pos_eq, Rle_0_sqr). ring.
Qed.

(** From squares to roots. *)
Lemma root_close v N g t : 0 <= v -> 0 <= N -> 0 <= g -> 0 <= t -> Rabs (v - N) <= g * N + t ->
  Rabs (sqrt v - sqrt N) <= g * sqrt N + sqrt t.
Proof.
  intros Hv HN Hg Ht H. pose proof (sqrt_sqrt v Hv) as Ev. pose proof (sqrt_sqrt N HN) as EN. pose proof (sqrt_sqrt t Ht) as Et.
  pose proof (sqrt_pos v) as Pv. pose proof (sqrt_pos N) as PN. pose proof (sqrt_pos t) as Pt.
  set (a := sqrt v) in *. set (b := sqrt N) in *. set (s := sqrt t) in *. rewrite <- Ev, <- EN, <- Et in H.
  assert (G0 : 0 <= g * b) by (apply Rmult_le_pos; assumption).
  apply Rabs_le_inv in H. apply Rabs_le. split.
  - apply Rnot_lt_le. intros C. (* a < b - g b - s *)
    assert (b - a > g * b + s) by lra. assert (0 <= g * b + s) by lra.
    assert ((b - a) * (b + a) > g * (b * b) + s * s); [|nra].
    destruct (Rle_lt_dec b s) as [L|L]; [lra|].
    assert ((b - a) * (b + a) >= (b - a) * b) by nra. assert ((b - a) * b > (g * b + s) * b) by nra. nra.
  - apply Rnot_lt_le. intros C. assert (a - b > g * b + s) by lra.
    assert ((a - b) * (a + b) > g * (b * b) + s * s); [|nra].
    assert (a + b >= b + s) by lra. assert ((a - b) * (a + b) >= (a - b) * (b + s)) by nra.
    assert (0 < b + s \/ b + s = 0) as [B|B] by lra; [|nra].
    assert ((a - b) * (b + s) > (g * b + s) * (b + s)) by nra. nra.
Qed.

Section Fmt.
Context (prec emax : Z) {Hp : Prec_gt_0 prec} {He : Prec_lt_emax prec emax}.
Notation fl := (binary_float prec emax).
Notation FO := (float_ring prec emax).
Notation FF := (float_field prec emax).
Notation u := (unit_roundoff prec).
Notation eta := (underflow_unit prec emax).
Notation sig := (float_sig prec emax).
(** What underflow can add to an inner product of length n. *)
Definition tiny (n : nat) : R := INR n * (1 + u) ^ (n - 1) * eta.
Notation ddot a b := (dvector_dot (r_zero FO) (r_add FO) (r_mul FO) prim_conj a b).

Lemma tiny_nonneg n : 0 <= tiny n.
Proof.
  pose proof (u_pos prec). pose proof (eta_pos prec emax). unfold tiny. apply Rmult_le_pos; [|lra].
  apply Rmult_le_pos; [apply pos_INR|apply pow_le; lra].
Qed.
Lemma g_nonneg n : 0 <= (1 + u) ^ n - 1.
Proof. assert (1 <= (1 + u) ^ n) by (apply pow_R1_Rle; pose proof (u_pos prec); lra). lra. Qed.

(** The rounded root of a computed sum of squares. *)
Lemma root_of_squares (r : fl) n x : is_finite r = true -> 0 <= B2R r ->
  Rabs (B2R r - rsum n (fun i => x i * x i)) <= ((1 + u) ^ n - 1) * rsum n (fun i => x i * x i) + tiny n ->
  is_finite (Bsqrt mode_NE r) = true
  /\ Rabs (B2R (Bsqrt mode_NE r) - length_R n x) <= ((1 + u) ^ S n - 1) * length_R n x + (1 + u) * sqrt (tiny n).
Proof.
  intros F P H. destruct (sqrt_rel prec emax r F P) as (Fs & e & He' & ->). split; [exact Fs|].
  pose proof (root_close _ _ _ _ P (squares_nonneg n x) (g_nonneg n) (tiny_nonneg n) H) as C. fold (length_R n x) in C.
  pose proof (sqrt_pos (B2R r)) as S0. pose proof (length_nonneg n x) as L0. pose proof (u_pos prec) as Hu. pose proof (g_nonneg n) as G0.
  set (s := sqrt (B2R r)) in *. set (L := length_R n x) in *. set (g := (1 + u) ^ n - 1) in *.
  replace ((1 + u) ^ S n - 1) with (g + u * (1 + g)) by (unfold g; simpl; ring).
  replace (s * (1 + e) - L) with ((s - L) * (1 + e) + e * L) by ring. eapply Rle_trans; [apply Rabs_triang|].
  rewrite !Rabs_mult, (Rabs_pos_eq L L0).
  assert (E1 : Rabs (1 + e) <= 1 + u) by (eapply Rle_trans; [apply Rabs_triang|]; rewrite Rabs_R1; lra).
  assert (E2 : Rabs (s - L) * Rabs (1 + e) <= (g * L + sqrt (tiny n)) * (1 + u)).
  { apply Rmult_le_compat; try apply Rabs_pos; assumption. }
  assert (E3 : Rabs e * L <= u * L) by (apply Rmult_le_compat_r; assumption). lra.
Qed.

(** ** Lengths *)
(** [a * a] is never negative and [(a * a).sqrt()] is the length of [a] up to a relative error of
    (1 + u)^(n+1) - 1, if the sum of squares is finite. *)
Lemma dot_self_nonneg (a : dvector fl) r : ddot a a = Ok r -> is_finite r = true -> 0 <= B2R r.
Proof.
  intros E F. pose proof (dvector_dot_value sig (r_add FO) (r_mul FO) prim_conj (fun x => x)
    (fun _ _ => eq_refl) (fun _ _ => eq_refl) (fun _ => eq_refl) a a eq_refl) as D.
  unfold dvector_dot in E. change (r_zero FO) with (sz sig) in E. rewrite D in E.
  assert (E0 : fdot prec emax (fun i => nth i a (sz sig)) (fun i => nth i a (sz sig)) (length a) = r) by (injection E; auto).
  subst r. apply (nonneg_real prec emax); [|exact F]. apply sum_squares. intros i Hi Nn.
  destruct (dot_finite_args prec emax _ _ _ F i Hi) as [Q _]. cbv beta in Q. rewrite Nn in Q. discriminate Q.
Qed.
Theorem C101_dvector_length :
  forall (a : dvector fl), let n := length a in
  exists r, ddot a a = Ok r
  /\ (is_finite r = true ->
      0 <= B2R r /\ is_finite (Bsqrt mode_NE r) = true
      /\ Rabs (B2R (Bsqrt mode_NE r) - length_R n (entry_R a))
         <= ((1 + u) ^ S n - 1) * length_R n (entry_R a) + (1 + u) * sqrt (tiny n)).
Proof.
  intros a n. destruct (C52_dvector_dot_error prec emax a a eq_refl) as (r & E & B). exists r. split; [exact E|]. intros F.
  pose proof (dot_self_nonneg a r E F) as P. split; [exact P|]. apply root_of_squares; [exact F|exact P|].
  specialize (B F). fold n in B. unfold dot_bound in B.
  rewrite (rsum_ext n (fun i => Rabs (entry_R a i) * Rabs (entry_R a i)) (fun i => entry_R a i * entry_R a i)) in B; [exact B|].
  intros i _. rewrite <- Rabs_mult. apply Rabs_pos_eq, Rle_0_sqr.
Qed.

(** ** Cauchy-Schwarz *)
Theorem C101_cauchy_schwarz :
  forall (a b : dvector fl), length a = length b ->
  let n := length a in let g := (1 + u) ^ n - 1 in
  exists ab aa bb, ddot a b = Ok ab /\ ddot a a = Ok aa /\ ddot b b = Ok bb
  /\ (is_finite ab = true -> Rabs (B2R ab) <= (1 + g) * (length_R n (entry_R a) * length_R n (entry_R b)) + tiny n)
  (* in terms of the three computed numbers *)
  /\ (is_finite ab = true -> is_finite aa = true -> is_finite bb = true -> g < 1 ->
      (1 - g) * (Rabs (B2R ab) - tiny n) <= (1 + g) * sqrt ((B2R aa + tiny n) * (B2R bb + tiny n))).
Proof.
  intros a b E n g.
  destruct (C52_dvector_dot_error prec emax a b E) as (ab & E1 & B1).
  destruct (C52_dvector_dot_error prec emax a a eq_refl) as (aa & E2 & B2).
  destruct (C52_dvector_dot_error prec emax b b eq_refl) as (bb & E3 & B3).
  exists ab, aa, bb. split; [exact E1|]. split; [exact E2|]. split; [exact E3|].
  rewrite <- E in B3. fold n in B1, B2, B3. unfold dot_bound in *. fold g in B1, B2, B3. fold (tiny n) in B1, B2, B3.
  assert (SQ : forall x : dvector fl, rsum n (fun i => Rabs (entry_R x i) * Rabs (entry_R x i)) = rsum n (fun i => entry_R x i * entry_R x i)).
  { intros x. apply rsum_ext. intros i _. rewrite <- Rabs_mult. apply Rabs_pos_eq, Rle_0_sqr. }
  rewrite SQ in B2, B3. rewrite <- !length_sq in B2, B3.
  set (La := length_R n (entry_R a)) in *. set (Lb := length_R n (entry_R b)) in *.
  assert (La0 : 0 <= La) by apply length_nonneg. assert (Lb0 : 0 <= Lb) by apply length_nonneg.
  assert (G0 : 0 <= g) by apply g_nonneg. assert (T0 : 0 <= tiny n) by apply tiny_nonneg.
  assert (C1 : is_finite ab = true -> Rabs (B2R ab) <= (1 + g) * (La * Lb) + tiny n).
  { intros F. specialize (B1 F). pose proof (cs_abs n (entry_R a) (entry_R b)) as CS. fold La Lb in CS.
    set (M := rsum n (fun i => Rabs (entry_R a i) * Rabs (entry_R b i))) in *.
    assert (X : Rabs (rsum n (fun i => entry_R a i * entry_R b i)) <= M).
    { eapply Rle_trans; [apply rsum_abs|]. apply rsum_le. intros i _. rewrite Rabs_mult. lra. }
    set (e := rsum n (fun i => entry_R a i * entry_R b i)) in *.
    replace (B2R ab) with (e + (B2R ab - e)) by ring. eapply Rle_trans; [apply Rabs_triang|].
    assert ((1 + g) * M <= (1 + g) * (La * Lb)) by (apply Rmult_le_compat_l; lra). lra. }
  split; [exact C1|]. intros F1 F2 F3 Hg. specialize (C1 F1). specialize (B2 F2). specialize (B3 F3).
  apply Rabs_le_inv in B2, B3.
  assert (A1 : (1 - g) * (La * La) <= B2R aa + tiny n) by lra. assert (A2 : (1 - g) * (Lb * Lb) <= B2R bb + tiny n) by lra.
  assert (A3 : (1 - g) * (La * Lb) <= sqrt ((B2R aa + tiny n) * (B2R bb + tiny n))).
  { assert (0 <= La * Lb) by (apply Rmult_le_pos; assumption).
    rewrite <- (sqrt_square ((1 - g) * (La * Lb))) by (apply Rmult_le_pos; lra). apply sqrt_le_1_alt.
    replace ((1 - g) * (La * Lb) * ((1 - g) * (La * Lb))) with (((1 - g) * (La * La)) * ((1 - g) * (Lb * Lb))) by ring.
    pose proof (Rle_0_sqr La). pose proof (Rle_0_sqr Lb). unfold Rsqr in *.
    apply Rmult_le_compat; try assumption; apply Rmult_le_pos; lra. }
  apply Rle_trans with ((1 - g) * ((1 + g) * (La * Lb))); [apply Rmult_le_compat_l; lra|].
  apply (Rmult_le_compat_l (1 + g)) in A3; lra.
Qed.

(** ** Distances *)
Lemma svector_length (n : nat) (a : svector fl n) :
  exists r, svector_dot FO a a = Ok r
  /\ (is_finite r = true ->
      is_finite (Bsqrt mode_NE r) = true
      /\ Rabs (B2R (Bsqrt mode_NE r) - length_R n (entry_R (entries a)))
         <= ((1 + u) ^ S n - 1) * length_R n (entry_R (entries a)) + (1 + u) * sqrt (tiny n)).
Proof.
  destruct (C52_svector_dot_error prec emax n a a) as (r & E & B). exists r. split; [exact E|]. intros F.
  assert (P : 0 <= B2R r).
  { unfold svector_dot in E. rewrite (svector_dot_total FO _ (float_implements prec emax)) in E.
    assert (E0 : fdot prec emax (vec_at sig a) (vec_at sig a) n = r) by (injection E; auto).
    subst r. apply (nonneg_real prec emax); [|exact F]. apply sum_squares. intros i Hi Nn.
    destruct (dot_finite_args prec emax _ _ _ F i Hi) as [Q _]. rewrite Nn in Q. discriminate Q. }
  apply root_of_squares; [exact F|exact P|]. specialize (B F). unfold dot_bound in B.
  rewrite (rsum_ext n (fun i => Rabs (entry_R (entries a) i) * Rabs (entry_R (entries a) i)) (fun i => entry_R (entries a) i * entry_R (entries a) i)) in B; [exact B|].
  intros i _. rewrite <- Rabs_mult. apply Rabs_pos_eq, Rle_0_sqr.
Qed.

(** Small relative changes of the coordinates. *)
Lemma length_perturbed n (x y : nat -> R) : (forall i, (i < n)%nat -> Rabs (y i - x i) <= u * Rabs (x i)) ->
  Rabs (length_R n y - length_R n x) <= u * length_R n x.
Proof.
  intros H. pose proof (u_pos prec) as Hu.
  pose proof (length_mono n (fun i => y i - x i) x u ltac:(lra) H) as D.
  pose proof (length_triangle n x (fun i => y i - x i)) as T1. pose proof (length_triangle n y (fun i => x i - y i)) as T2.
  assert (S : length_R n (fun i => x i - y i) = length_R n (fun i => y i - x i)).
  { unfold length_R. f_equal. apply rsum_ext. intros; ring. }
  assert (S1 : length_R n (fun i => x i + (y i - x i)) = length_R n y) by (unfold length_R; f_equal; apply rsum_ext; intros; ring).
  assert (S2 : length_R n (fun i => y i + (x i - y i)) = length_R n x) by (unfold length_R; f_equal; apply rsum_ext; intros; ring).
  cbv beta in T1, T2, D. rewrite <- S in D. rewrite S in D.
  assert (T1' : length_R n y <= length_R n x + length_R n (fun i => y i - x i)) by (rewrite <- S1; exact T1).
  assert (T2' : length_R n x <= length_R n y + length_R n (fun i => y i - x i)) by (rewrite <- S2 at 1; rewrite <- S; exact T2).
  apply Rabs_le. lra.
Qed.
Lemma combine n L D l : 0 <= D -> 0 <= L -> Rabs (L - D) <= u * D ->
  Rabs (l - L) <= ((1 + u) ^ S n - 1) * L + (1 + u) * sqrt (tiny n) ->
  Rabs (l - D) <= ((1 + u) ^ (n + 2) - 1) * D + (1 + u) * sqrt (tiny n).
Proof.
  intros D0 L0 H1 H2. pose proof (u_pos prec). pose proof (g_nonneg (S n)) as G.
  replace ((1 + u) ^ (n + 2) - 1) with (((1 + u) ^ S n - 1) * (1 + u) + u).
  2:{ replace (n + 2)%nat with (S (S n)) by lia. simpl. ring. }
  set (g := (1 + u) ^ S n - 1) in *. assert (L <= (1 + u) * D) by (apply Rabs_le_inv in H1; lra).
  assert (g * L <= g * ((1 + u) * D)) by (apply Rmult_le_compat_l; lra).
  replace (l - D) with ((l - L) + (L - D)) by ring. eapply Rle_trans; [apply Rabs_triang|]. lra.
Qed.
Lemma entry_at (n : nat) (a : svector fl n) i : (i < n)%nat -> entry_R (entries a) i = B2R (vec_at sig a i).
Proof. intros Hi. symmetry. apply entry_nth. reflexivity. Qed.

(** The computed distance of two points, and the computed length of a sum, are accurate to
    (1 + u)^(n+2) - 1, also when the points are close to each other. *)
Theorem C101_distance :
  forall (n : nat) (a b : svector fl n), exists s d ss dd,
  svector_add FO a b = Ok s /\ svector_sub FO a b = Ok d /\ svector_dot FO s s = Ok ss /\ svector_dot FO d d = Ok dd
  /\ (is_finite ss = true -> is_finite (Bsqrt mode_NE ss) = true
      /\ let exact := length_R n (fun i => entry_R (entries a) i + entry_R (entries b) i) in
         Rabs (B2R (Bsqrt mode_NE ss) - exact) <= ((1 + u) ^ (n + 2) - 1) * exact + (1 + u) * sqrt (tiny n))
  /\ (is_finite dd = true -> is_finite (Bsqrt mode_NE dd) = true
      /\ let exact := length_R n (fun i => entry_R (entries a) i - entry_R (entries b) i) in
         Rabs (B2R (Bsqrt mode_NE dd) - exact) <= ((1 + u) ^ (n + 2) - 1) * exact + (1 + u) * sqrt (tiny n)).
Proof.
  intros n a b. unfold svector_add, svector_sub.
  rewrite (svector_add_total FO _ (float_implements prec emax)), (svector_sub_total FO _ (float_implements prec emax)).
  match goal with |- exists _ _ _ _, Ok ?x = _ /\ Ok ?y = _ /\ _ => set (s := x); set (d := y) end.
  destruct (svector_length n s) as (ss & E1 & B1). destruct (svector_length n d) as (dd & E2 & B2).
  exists s, d, ss, dd. do 2 (split; [reflexivity|]). split; [exact E1|]. split; [exact E2|]. split.
  - intros F. destruct (B1 F) as [Fs Bs]. split; [exact Fs|].
    apply (combine n _ _ _ (length_nonneg _ _) (length_nonneg _ _)) with (2 := Bs). apply length_perturbed. intros i Hi.
    unfold svector_dot in E1. rewrite (svector_dot_total FO _ (float_implements prec emax)) in E1.
    assert (E0 : fdot prec emax (vec_at sig s) (vec_at sig s) n = ss) by (injection E1; auto). subst ss.
    destruct (dot_finite_args prec emax _ _ _ F i Hi) as [Q _]. rewrite !entry_at by exact Hi.
    unfold s in Q |- *. rewrite vec_at_tab in Q |- * by exact Hi. cbn [sadd float_sig] in Q |- *.
    destruct (add_model prec emax _ _ Q) as (_ & _ & e & He' & ->).
    match goal with |- Rabs (?x * (1 + e) - ?x) <= _ => replace (x * (1 + e) - x) with (e * x) by ring end.
    rewrite Rabs_mult. apply Rmult_le_compat_r; [apply Rabs_pos|exact He'].
  - intros F. destruct (B2 F) as [Fs Bs]. split; [exact Fs|].
    apply (combine n _ _ _ (length_nonneg _ _) (length_nonneg _ _)) with (2 := Bs). apply length_perturbed. intros i Hi.
    unfold svector_dot in E2. rewrite (svector_dot_total FO _ (float_implements prec emax)) in E2.
    assert (E0 : fdot prec emax (vec_at sig d) (vec_at sig d) n = dd) by (injection E2; auto). subst dd.
    destruct (dot_finite_args prec emax _ _ _ F i Hi) as [Q _]. rewrite !entry_at by exact Hi.
    unfold d in Q |- *. rewrite vec_at_tab in Q |- * by exact Hi. cbn [ssub float_sig] in Q |- *.
    destruct (sub_model prec emax _ _ Q) as (_ & _ & e & He' & ->).
    match goal with |- Rabs (?x * (1 + e) - ?x) <= _ => replace (x * (1 + e) - x) with (e * x) by ring end.
    rewrite Rabs_mult. apply Rmult_le_compat_r; [apply Rabs_pos|exact He'].
Qed.

(** ** The triangle inequality for computed distances *)
(** [l] is the computed distance of [a] and [b]. *)
Definition distance (n : nat) (a b : svector fl n) (l : fl) : Prop :=
  exists d dd, svector_sub FO a b = Ok d /\ svector_dot FO d d = Ok dd /\ is_finite dd = true /\ l = Bsqrt mode_NE dd.
Theorem C101_triangle :
  forall (n : nat) (a b c : svector fl n) (ab bc ac : fl),
  distance n a b ab -> distance n b c bc -> distance n a c ac ->
  let G := (1 + u) ^ (n + 2) - 1 in let t := (1 + u) * sqrt (tiny n) in
  G < 1 -> (1 - G) * (B2R ac - t) <= (1 + G) * (B2R ab + B2R bc + 2 * t).
Proof.
  intros n a b c ab bc ac Hab Hbc Hac G t HG.
  assert (D : forall (x y : svector fl n) l, distance n x y l ->
    Rabs (B2R l - length_R n (fun i => entry_R (entries x) i - entry_R (entries y) i))
    <= G * length_R n (fun i => entry_R (entries x) i - entry_R (entries y) i) + t).
  { intros x y l (d & dd & E1 & E2 & F & ->). destruct (C101_distance n x y) as (s & d' & ss & dd' & _ & E1' & _ & E2' & _ & B).
    rewrite E1 in E1'. assert (Ed : d = d') by (injection E1'; auto). subst d'.
    rewrite E2 in E2'. assert (Ed : dd = dd') by (injection E2'; auto). subst dd'. exact (proj2 (B F)). }
  pose proof (D _ _ _ Hab) as D1. pose proof (D _ _ _ Hbc) as D2. pose proof (D _ _ _ Hac) as D3. clear D.
  pose proof (length_triangle n (fun i => entry_R (entries a) i - entry_R (entries b) i) (fun i => entry_R (entries b) i - entry_R (entries c) i)) as T.
  assert (S : length_R n (fun i => entry_R (entries a) i - entry_R (entries b) i + (entry_R (entries b) i - entry_R (entries c) i))
              = length_R n (fun i => entry_R (entries a) i - entry_R (entries c) i)).
  { unfold length_R. f_equal. apply rsum_ext. intros; ring. }
  apply (Rle_trans _ _ _ (Req_le _ _ (eq_sym S))) in T. clear S.
  set (X := length_R n (fun i => entry_R (entries a) i - entry_R (entries b) i)) in *.
  set (Y := length_R n (fun i => entry_R (entries b) i - entry_R (entries c) i)) in *.
  set (Z := length_R n (fun i => entry_R (entries a) i - entry_R (entries c) i)) in *.
  apply Rabs_le_inv in D1, D2, D3. assert (G0 : 0 <= G) by apply g_nonneg.
  assert (A1 : (1 - G) * X <= B2R ab + t) by lra. assert (A2 : (1 - G) * Y <= B2R bc + t) by lra.
  assert (A3 : B2R ac - t <= (1 + G) * Z) by lra.
  apply Rle_trans with ((1 - G) * ((1 + G) * (X + Y))).
  - apply Rmult_le_compat_l; [lra|]. eapply Rle_trans; [exact A3|]. apply Rmult_le_compat_l; lra.
  - replace ((1 - G) * ((1 + G) * (X + Y))) with ((1 + G) * ((1 - G) * X + (1 - G) * Y)) by ring. apply Rmult_le_compat_l; lra.
Qed.

(** ** Complex numbers *)
(** The computed |z - w| (and |z + w|) is accurate to (1 + u)^4 - 1. *)
Theorem C101_complex_distance :
  forall (libm : FunOps fl) (z w : complex fl),
  let FE := float_fun prec emax libm in
  let err x := ((1 + u) ^ 4 - 1) * x + (1 + u) * sqrt (2 * (1 + u) * eta) in
  exists s d ls ld, complex_add (r_add FO) z w = Ok s /\ complex_sub (r_sub FO) z w = Ok d
  /\ complex_abs FF FE s = Ok ls /\ complex_abs FF FE d = Ok ld
  /\ (is_finite (fl_norm2 prec emax (re s) (im s)) = true -> is_finite ls = true
      /\ let exact := sqrt ((B2R (re z) + B2R (re w)) ^ 2 + (B2R (im z) + B2R (im w)) ^ 2) in Rabs (B2R ls - exact) <= err exact)
  /\ (is_finite (fl_norm2 prec emax (re d) (im d)) = true -> is_finite ld = true
      /\ let exact := sqrt ((B2R (re z) - B2R (re w)) ^ 2 + (B2R (im z) - B2R (im w)) ^ 2) in Rabs (B2R ld - exact) <= err exact).
Proof.
  intros libm z w FE err.
  exists (Cx (fl_add prec emax (re z) (re w)) (fl_add prec emax (im z) (im w))),
         (Cx (fl_sub prec emax (re z) (re w)) (fl_sub prec emax (im z) (im w))).
  do 2 eexists. do 4 (split; [reflexivity|]). cbn [re im].
  assert (K : forall (p q : fl) (P Q : R), is_finite (fl_norm2 prec emax p q) = true ->
     (is_finite p = true -> Rabs (B2R p - P) <= u * Rabs P) -> (is_finite q = true -> Rabs (B2R q - Q) <= u * Rabs Q) ->
     is_finite (Bsqrt mode_NE (fl_norm2 prec emax p q)) = true
     /\ let exact := sqrt (P ^ 2 + Q ^ 2) in Rabs (B2R (Bsqrt mode_NE (fl_norm2 prec emax p q)) - exact) <= err exact).
  { intros p q P Q F HP HQ. destruct (norm2_error prec emax p q F) as (Fp & Fq & B). pose proof (norm2_nonneg prec emax p q F) as NN.
    specialize (HP Fp). specialize (HQ Fq).
    set (x := fun i : nat => match i with O => B2R p | _ => B2R q end). set (X := fun i : nat => match i with O => P | _ => Q end).
    assert (Tn : tiny 2 = 2 * (1 + u) * eta) by (unfold tiny; simpl; ring).
    destruct (root_of_squares _ 2 x F NN) as [Fs Bs].
    { rewrite Tn. cbn [rsum x]. rewrite Rplus_0_l. exact B. }
    split; [exact Fs|]. cbv zeta.
    assert (EX : sqrt (P ^ 2 + Q ^ 2) = length_R 2 X) by (unfold length_R; f_equal; cbn [rsum X]; ring).
    rewrite EX. unfold err. rewrite <- Tn. apply (combine 2 _ _ _ (length_nonneg 2 X) (length_nonneg 2 x)) with (2 := Bs).
    apply length_perturbed. intros [|[|i]] Hi; [exact HP|exact HQ|lia]. }
  assert (A : forall p q : fl, is_finite (fl_add prec emax p q) = true -> Rabs (B2R (fl_add prec emax p q) - (B2R p + B2R q)) <= u * Rabs (B2R p + B2R q)).
  { intros p q F. destruct (add_model prec emax _ _ F) as (_ & _ & e & He' & ->).
    replace ((B2R p + B2R q) * (1 + e) - (B2R p + B2R q)) with (e * (B2R p + B2R q)) by ring. rewrite Rabs_mult.
    apply Rmult_le_compat_r; [apply Rabs_pos|exact He']. }
  assert (S : forall p q : fl, is_finite (fl_sub prec emax p q) = true -> Rabs (B2R (fl_sub prec emax p q) - (B2R p - B2R q)) <= u * Rabs (B2R p - B2R q)).
  { intros p q F. destruct (sub_model prec emax _ _ F) as (_ & _ & e & He' & ->).
    replace ((B2R p - B2R q) * (1 + e) - (B2R p - B2R q)) with (e * (B2R p - B2R q)) by ring. rewrite Rabs_mult.
    apply Rmult_le_compat_r; [apply Rabs_pos|exact He']. }
  split; intros F; apply K; auto.
Qed.
End Fmt.

(** ** Concrete cases in binary64 *)
Lemma C101_small : unit_roundoff 53 <= / 1000 /\ 0 < unit_roundoff 53.
Proof.
  unfold unit_roundoff. assert (H : bpow radix2 (-10) <= / 1000) by (cbn; lra).
  pose proof (bpow_le radix2 (-(53)) (-10) ltac:(lia)). pose proof (bpow_gt_0 radix2 (-(53))). lra.
Qed.
(** (1/3, 0), (3, 4) and (-2, 1/3). *)
Definition C101_a : svector f64 2 := acons third (acons (f64_of_Z 0) anil).
Definition C101_b : svector f64 2 := acons (f64_of_Z 3) (acons (f64_of_Z 4) anil).
Definition C101_c : svector f64 2 := acons (f64_of_Z (-2)) (acons third anil).
Lemma C101_far (a b : svector f64 2) :
  on_ok (svector_sub f64_ring a b) (fun d => on_ok (svector_dot f64_ring d d) (@is_finite 53 1024)) = true ->
  exists l, distance 53 1024 2 a b l.
Proof.
  intros H. unfold distance. destruct (svector_sub f64_ring a b) as [d| |] eqn:E1; try discriminate H. cbn [on_ok] in H.
  destruct (svector_dot f64_ring d d) as [dd| |] eqn:E2; try discriminate H. cbn [on_ok] in H. do 3 eexists; eauto.
Qed.
Example C101_case :
  (exists ab bc ac, distance 53 1024 2 C101_a C101_b ab /\ distance 53 1024 2 C101_b C101_c bc /\ distance 53 1024 2 C101_a C101_c ac)
  /\ (1 + unit_roundoff 53) ^ (2 + 2) - 1 < 1.
Proof.
  split.
  - destruct (C101_far C101_a C101_b) as [ab Hab]; [vm_compute; reflexivity|].
    destruct (C101_far C101_b C101_c) as [bc Hbc]; [vm_compute; reflexivity|].
    destruct (C101_far C101_a C101_c) as [ac Hac]; [vm_compute; reflexivity|].
    exists ab, bc, ac. split; [exact Hab|]. split; [exact Hbc|exact Hac].
  - destruct C101_small as [U1 U2]. set (u := unit_roundoff 53) in *. cbn [Nat.add].
    assert ((1 + u) ^ 2 <= 1 + / 100) by (cbn; nra). assert (0 <= (1 + u) ^ 2) by (cbn; nra).
    replace ((1 + u) ^ 4) with ((1 + u) ^ 2 * (1 + u) ^ 2) by ring. nra.
Qed.
Definition C101_dot (a b : dvector f64) : outcome f64 := dvector_dot (r_zero f64_ring) (r_add f64_ring) (r_mul f64_ring) prim_conj a b.
Example C101_case_dot :
  let a := [f64_of_Z 3; f64_of_Z 4] in let b := [third; f64_of_Z (-2)] in
  on_ok (C101_dot a b) (@is_finite 53 1024) = true /\ on_ok (C101_dot a a) (fun r => is_finite r && Beqb r (f64_of_Z 25)) = true
  /\ on_ok (C101_dot b b) (@is_finite 53 1024) = true.
Proof. vm_compute. repeat split; reflexivity. Qed.

Print Assumptions C101_dvector_length.
Print Assumptions C101_cauchy_schwarz.
Print Assumptions C101_distance.
Print Assumptions C101_triangle.
Print Assumptions C101_complex_distance.
