(** Complex differentiability (proof device for C88). *)
From Coq Require Import List Reals Lra Lia Psatz.
From Verif Require Import Base.Outcome Model.Traits Model.Complex Model.Polynomial Model.RealInstance
  Spec.Ring Spec.Complex Spec.Calculus Proofs.ComplexProofs Proofs.RealRing Proofs.ComplexReal.
Import ListNotations.
Open Scope R_scope.

Definition copp (z : C) : C := Cx (- re z) (- im z).
Definition cinv (z : C) : C := Cx (re z / norm2 z) (- (im z / norm2 z)).
Definition cdiv (z w : C) : C := cmult z (cinv w).
Notation c0 := (Cx 0 0).
Notation c1 := (Cx 1 0).

Ltac cext := apply complex_ext; cbn [cplus cminus cmult copp re im].

Lemma cinv_l z : z <> c0 -> cmult (cinv z) z = c1.
Proof.
  intros H. apply norm2_pos in H. unfold cinv. cext; unfold norm2 in *; field; lra.
Qed.

Lemma c_field : field_theory c0 c1 cplus cmult cminus copp cdiv cinv eq.
Proof.
  constructor.
  - constructor; intros; try (cext; ring).
  - intros H. injection H as H. lra.
  - reflexivity.
  - intros p H. apply cinv_l, H.
Qed.
Add Field CField : c_field.

Notation "| z |" := (modulus z) (at level 30, z at level 100, format "| z |").

Lemma modulus_norm2 z : |z| = sqrt (norm2 z).
Proof. reflexivity. Qed.
Lemma modulus_pos z : 0 <= |z|.
Proof. apply sqrt_pos. Qed.
Lemma modulus_mul z w : |cmult z w| = |z| * |w|.
Proof. exact (abs_mul z w). Qed.
Lemma modulus_add z w : |cplus z w| <= |z| + |w|.
Proof. exact (abs_triangle z w). Qed.
Lemma modulus_0 z : |z| = 0 <-> z = c0.
Proof. exact (sqrt_norm2_zero z). Qed.
Lemma modulus_zero : |c0| = 0.
Proof. apply modulus_0. reflexivity. Qed.
Lemma modulus_one : |c1| = 1.
Proof. unfold modulus. simpl. replace (1 * 1 + 0 * 0) with 1 by ring. apply sqrt_1. Qed.
Lemma modulus_opp z : |copp z| = |z|.
Proof. unfold modulus, copp. simpl. f_equal. ring. Qed.
Lemma modulus_sub z w : |cminus z w| <= |z| + |w|.
Proof.
  replace (cminus z w) with (cplus z (copp w)) by ring. rewrite <- (modulus_opp w). apply modulus_add.
Qed.
Lemma modulus_sub_sym z w : |cminus z w| = |cminus w z|.
Proof. replace (cminus z w) with (copp (cminus w z)) by ring. apply modulus_opp. Qed.
Lemma modulus_rev z w : |z| - |w| <= |cplus z w|.
Proof.
  replace z with (cminus (cplus z w) w) at 1 by ring. pose proof (modulus_sub (cplus z w) w). lra.
Qed.
Lemma modulus_inv z : z <> c0 -> |cinv z| = / |z|.
Proof.
  intros H. pose proof (cinv_l z H) as E. apply (f_equal modulus) in E. rewrite modulus_mul, modulus_one in E.
  assert (|z| <> 0) by (rewrite modulus_0; exact H). field_simplify_eq; [lra|assumption].
Qed.
Lemma modulus_gt z : z <> c0 -> 0 < |z|.
Proof. intros H. pose proof (modulus_pos z). assert (|z| <> 0) by (rewrite modulus_0; exact H). lra. Qed.
Lemma re_le z : Rabs (re z) <= |z|.
Proof.
  unfold modulus. rewrite <- sqrt_Rsqr_abs. apply sqrt_le_1; unfold Rsqr; nra.
Qed.
Lemma im_le z : Rabs (im z) <= |z|.
Proof.
  unfold modulus. rewrite <- sqrt_Rsqr_abs. apply sqrt_le_1; unfold Rsqr; nra.
Qed.
Lemma modulus_le z : |z| <= Rabs (re z) + Rabs (im z).
Proof.
  unfold modulus. apply Rsqr_incr_0_var.
  - rewrite Rsqr_sqrt by nra. unfold Rsqr. pose proof (Rabs_pos (re z)). pose proof (Rabs_pos (im z)).
    assert (re z * re z = Rabs (re z) * Rabs (re z)) by (rewrite <- Rabs_mult; symmetry; apply Rabs_pos_eq; nra).
    assert (im z * im z = Rabs (im z) * Rabs (im z)) by (rewrite <- Rabs_mult; symmetry; apply Rabs_pos_eq; nra).
    nra.
  - pose proof (Rabs_pos (re z)). pose proof (Rabs_pos (im z)). lra.
Qed.
Lemma modulus_sq z : |z| * |z| = re z * re z + im z * im z.
Proof. unfold modulus. apply sqrt_sqrt. nra. Qed.

(** ** Functions tending to 0 at 0 *)
Definition tends (phi : C -> C) : Prop :=
  forall eps, 0 < eps -> exists delta, 0 < delta /\ forall h, |h| < delta -> |phi h| <= eps.

Lemma tends_ext f g : (exists d, 0 < d /\ forall h, |h| < d -> f h = g h) -> tends f -> tends g.
Proof.
  intros (d & Hd & E) H eps He. destruct (H eps He) as (d' & Hd' & H'). exists (Rmin d d').
  split; [apply Rmin_pos; assumption|]. intros h Hh. pose proof (Rmin_l d d'). pose proof (Rmin_r d d').
  rewrite <- E by lra. apply H'. lra.
Qed.
Lemma tends_id : tends (fun h => h).
Proof. intros eps He. exists eps. split; [exact He|]. intros h Hh. lra. Qed.
Lemma tends_zero : tends (fun _ => c0).
Proof. intros eps He. exists 1. split; [lra|]. intros h _. rewrite modulus_zero. lra. Qed.
Lemma tends_add f g : tends f -> tends g -> tends (fun h => cplus (f h) (g h)).
Proof.
  intros Hf Hg eps He. destruct (Hf (eps / 2)) as (d & Hd & H); [lra|]. destruct (Hg (eps / 2)) as (d' & Hd' & H'); [lra|].
  exists (Rmin d d'). split; [apply Rmin_pos; assumption|]. intros h Hh. pose proof (Rmin_l d d'). pose proof (Rmin_r d d').
  pose proof (modulus_add (f h) (g h)). specialize (H h ltac:(lra)). specialize (H' h ltac:(lra)). lra.
Qed.
Lemma tends_scale c f : tends f -> tends (fun h => cmult c (f h)).
Proof.
  intros Hf eps He. pose proof (modulus_pos c) as Hc. destruct (Hf (eps / (|c| + 1))) as (d & Hd & H).
  - apply Rdiv_lt_0_compat; lra.
  - exists d. split; [exact Hd|]. intros h Hh. rewrite modulus_mul. specialize (H h Hh).
    apply Rle_trans with (|c| * (eps / (|c| + 1))).
    + apply Rmult_le_compat_l; assumption.
    + apply Rmult_le_reg_r with (|c| + 1); [lra|]. field_simplify; [nra|lra].
Qed.
Lemma tends_opp f : tends f -> tends (fun h => copp (f h)).
Proof. intros Hf eps He. destruct (Hf eps He) as (d & Hd & H). exists d. split; [exact Hd|]. intros h Hh. rewrite modulus_opp. auto. Qed.
Lemma tends_mul f g : tends f -> tends g -> tends (fun h => cmult (f h) (g h)).
Proof.
  intros Hf Hg eps He. destruct (Hf 1) as (d & Hd & H); [lra|]. destruct (Hg eps He) as (d' & Hd' & H').
  exists (Rmin d d'). split; [apply Rmin_pos; assumption|]. intros h Hh. pose proof (Rmin_l d d'). pose proof (Rmin_r d d').
  rewrite modulus_mul. specialize (H h ltac:(lra)). specialize (H' h ltac:(lra)).
  pose proof (modulus_pos (f h)). pose proof (modulus_pos (g h)). nra.
Qed.
Lemma tends_comp f g : tends f -> tends g -> tends (fun h => f (g h)).
Proof.
  intros Hf Hg eps He. destruct (Hf eps He) as (d & Hd & H). destruct (Hg (d / 2)) as (d' & Hd' & H'); [lra|].
  exists d'. split; [exact Hd'|]. intros h Hh. apply H. specialize (H' h Hh). lra.
Qed.
Lemma tends_near f d : tends f -> 0 < d -> exists d', 0 < d' /\ forall h, |h| < d' -> |f h| < d.
Proof.
  intros Hf Hd. destruct (Hf (d / 2)) as (d' & Hd' & H'); [lra|]. exists d'. split; [exact Hd'|]. intros h Hh. specialize (H' h Hh). lra.
Qed.
(** 1 / (a + u) - 1 / a. *)
Lemma tends_inv a f : a <> c0 -> tends f ->
  (exists d, 0 < d /\ forall h, |h| < d -> cplus a (f h) <> c0)
  /\ tends (fun h => cminus (cinv (cplus a (f h))) (cinv a)).
Proof.
  intros Ha Hf. pose proof (modulus_gt a Ha) as Hp.
  destruct (tends_near f (|a| / 2) Hf) as (d & Hd & H); [lra|].
  assert (N : forall h, |h| < d -> |a| / 2 < |cplus a (f h)|).
  { intros h Hh. specialize (H h Hh). pose proof (modulus_rev a (f h)). lra. }
  assert (N0 : forall h, |h| < d -> cplus a (f h) <> c0).
  { intros h Hh E. specialize (N h Hh). rewrite E, modulus_zero in N. lra. }
  split; [exists d; split; [exact Hd|exact N0]|].
  intros eps He.
  destruct (Hf (eps * (|a| * |a| / 2))) as (d' & Hd' & H'); [apply Rmult_lt_0_compat; [lra|]; apply Rdiv_lt_0_compat; nra|].
  exists (Rmin d d'). split; [apply Rmin_pos; assumption|]. intros h Hh. pose proof (Rmin_l d d'). pose proof (Rmin_r d d').
  specialize (H' h ltac:(lra)). pose proof (N h ltac:(lra)) as Nh. pose proof (N0 h ltac:(lra)) as N0h.
  replace (cminus (cinv (cplus a (f h))) (cinv a)) with (copp (cmult (f h) (cmult (cinv a) (cinv (cplus a (f h)))))) by (field; auto).
  rewrite modulus_opp, !modulus_mul, !modulus_inv by assumption.
  apply Rle_trans with (eps * (|a| * |a| / 2) * (/ |a| * / (|a| / 2))).
  - apply Rmult_le_compat; [apply modulus_pos| |exact H'|].
    + apply Rlt_le, Rmult_lt_0_compat; apply Rinv_0_lt_compat; lra.
    + apply Rmult_le_compat_l; [left; apply Rinv_0_lt_compat; lra|]. apply Rinv_le_contravar; lra.
  - apply Req_le. field. lra.
Qed.

(** ** Derivatives in the form of Caratheodory *)
Definition D (f : C -> outcome C) (z d : C) : Prop :=
  exists fz phi d0, f z = Ok fz /\ 0 < d0 /\ tends phi /\
  forall h, |h| < d0 -> f (cplus z h) = Ok (cplus fz (cmult h (cplus d (phi h)))).

Lemma D_has_derivative f z d : D f z d -> has_derivative f z d.
Proof.
  intros (fz & phi & d0 & E & H0 & Hphi & H). exists fz. split; [exact E|]. intros eps He.
  destruct (Hphi eps He) as (d' & Hd' & H'). exists (Rmin d0 d'). split; [apply Rmin_pos; assumption|].
  intros h Hh. pose proof (Rmin_l d0 d'). pose proof (Rmin_r d0 d').
  eexists. split; [apply H; lra|]. 
  replace (cminus (cminus (cplus fz (cmult h (cplus d (phi h)))) fz) (cmult d h)) with (cmult h (phi h)) by ring.
  rewrite modulus_mul. specialize (H' h ltac:(lra)). pose proof (modulus_pos h). nra.
Qed.

Definition cval (m : outcome C) : C := match m with Ok a => a | _ => c0 end.

Lemma ceq_dec (z w : C) : {z = w} + {z <> w}.
Proof.
  destruct z as [a b], w as [c d]. destruct (Req_EM_T a c); [|right; intros E; injection E; auto].
  destruct (Req_EM_T b d); [|right; intros E; injection E; auto]. left. congruence.
Qed.

Lemma cplus_0_r z : cplus z c0 = z. Proof. ring. Qed.

Lemma has_derivative_D f z d : has_derivative f z d -> D f z d.
Proof.
  intros (fz & E & H).
  destruct (H 1) as (d0 & Hd0 & H0); [lra|].
  exists fz, (fun h => if ceq_dec h c0 then c0 else cminus (cdiv (cminus (cval (f (cplus z h))) fz) h) d), d0.
  split; [exact E|]. split; [exact Hd0|]. split.
  - intros eps He. destruct (H eps He) as (d' & Hd' & H'). exists d'. split; [exact Hd'|]. intros h Hh.
    destruct (ceq_dec h c0) as [->|Hn]; [rewrite modulus_zero; lra|].
    destruct (H' h Hh) as (fw & Ew & Hw). rewrite Ew. cbn [cval].
    pose proof (modulus_gt h Hn) as Hp.
    apply Rmult_le_reg_r with (|h|); [exact Hp|]. rewrite <- modulus_mul.
    replace (cmult (cminus (cdiv (cminus fw fz) h) d) h) with (cminus (cminus fw fz) (cmult d h)) by (field; assumption).
    exact Hw.
  - intros h Hh. destruct (ceq_dec h c0) as [->|Hn].
    + rewrite cplus_0_r, E. f_equal. ring.
    + destruct (H0 h Hh) as (fw & Ew & _). rewrite Ew. cbn [cval]. f_equal. field. assumption.
Qed.

Lemma D_ext f g z d : (exists r, 0 < r /\ forall h, |h| < r -> g (cplus z h) = f (cplus z h)) -> D f z d -> D g z d.
Proof.
  intros (r & Hr & Hx) (fz & phi & d0 & E & H0 & Hphi & H). exists fz, phi, (Rmin r d0).
  split; [rewrite <- E, <- (cplus_0_r z); apply Hx; rewrite modulus_zero; exact Hr|].
  split; [apply Rmin_pos; assumption|]. split; [exact Hphi|].
  intros h Hh. pose proof (Rmin_l r d0). pose proof (Rmin_r r d0). rewrite Hx by lra. apply H. lra.
Qed.

Lemma D_const c z : D (fun _ => Ok c) z c0.
Proof.
  exists c, (fun _ => c0), 1. split; [reflexivity|]. split; [lra|]. split; [apply tends_zero|]. intros h _. f_equal. ring.
Qed.
Lemma D_id z : D (fun z => Ok z) z c1.
Proof.
  exists z, (fun _ => c0), 1. split; [reflexivity|]. split; [lra|]. split; [apply tends_zero|]. intros h _. f_equal. ring.
Qed.

Definition lift2 (op : C -> C -> outcome C) (f g : C -> outcome C) (z : C) : outcome C :=
  a <- f z ;; b <- g z ;; op a b.

Lemma D_add f g z d e : D f z d -> D g z e -> D (lift2 (fun a b => Ok (cplus a b)) f g) z (cplus d e).
Proof.
  intros (fz & phi & d0 & E & H0 & Hphi & H) (gz & psi & d1 & E' & H1 & Hpsi & H').
  exists (cplus fz gz), (fun h => cplus (phi h) (psi h)), (Rmin d0 d1).
  split; [unfold lift2; rewrite E, E'; reflexivity|]. split; [apply Rmin_pos; assumption|].
  split; [apply tends_add; assumption|]. intros h Hh. pose proof (Rmin_l d0 d1). pose proof (Rmin_r d0 d1).
  unfold lift2. rewrite H, H' by lra. cbn [bind]. f_equal. ring.
Qed.
Lemma D_sub f g z d e : D f z d -> D g z e -> D (lift2 (fun a b => Ok (cminus a b)) f g) z (cminus d e).
Proof.
  intros (fz & phi & d0 & E & H0 & Hphi & H) (gz & psi & d1 & E' & H1 & Hpsi & H').
  exists (cminus fz gz), (fun h => cplus (phi h) (copp (psi h))), (Rmin d0 d1).
  split; [unfold lift2; rewrite E, E'; reflexivity|]. split; [apply Rmin_pos; assumption|].
  split; [apply tends_add; [|apply tends_opp]; assumption|]. intros h Hh. pose proof (Rmin_l d0 d1). pose proof (Rmin_r d0 d1).
  unfold lift2. rewrite H, H' by lra. cbn [bind]. f_equal. ring.
Qed.
Lemma D_mul f g z d e fz gz : D f z d -> D g z e -> f z = Ok fz -> g z = Ok gz ->
  D (lift2 (fun a b => Ok (cmult a b)) f g) z (cplus (cmult d gz) (cmult fz e)).
Proof.
  intros (fz' & phi & d0 & E & H0 & Hphi & H) (gz' & psi & d1 & E' & H1 & Hpsi & H') F G.
  rewrite E in F. injection F as ->. rewrite E' in G. injection G as ->.
  exists (cmult fz gz), (fun h => cplus (cplus (cmult gz (phi h)) (cmult fz (psi h)))
     (cmult h (cplus (cplus (cmult d e) (cmult d (psi h))) (cplus (cmult e (phi h)) (cmult (phi h) (psi h)))))), (Rmin d0 d1).
  split; [unfold lift2; rewrite E, E'; reflexivity|]. split; [apply Rmin_pos; assumption|].
  split.
  - apply tends_ext with (f := fun h => cplus (cplus (cplus (cmult gz (phi h)) (cmult fz (psi h)))
      (cplus (cmult (cmult d e) h) (cmult h (cmult d (psi h))))) (cplus (cmult h (cmult e (phi h))) (cmult h (cmult (phi h) (psi h))))).
    { exists 1. split; [lra|]. intros h _. ring. }
    repeat first [apply tends_add | apply tends_scale | assumption | apply tends_id | apply tends_mul].
  - intros h Hh. pose proof (Rmin_l d0 d1). pose proof (Rmin_r d0 d1).
    unfold lift2. rewrite H, H' by lra. cbn [bind]. f_equal. ring.
Qed.
Lemma D_chain f g z d e fz : D f z d -> f z = Ok fz -> D g fz e -> D (fun z => w <- f z ;; g w) z (cmult e d).
Proof.
  intros (fz' & phi & d0 & E & H0 & Hphi & H) F (gz & psi & d1 & E' & H1 & Hpsi & H').
  rewrite E in F. injection F as ->.
  set (k := fun h => cmult h (cplus d (phi h))).
  assert (Hk : tends k).
  { apply tends_ext with (f := fun h => cplus (cmult d h) (cmult h (phi h))).
    - exists 1. split; [lra|]. intros h _. unfold k. ring.
    - apply tends_add; [apply tends_scale, tends_id|apply tends_mul; [apply tends_id|assumption]]. }
  destruct (tends_near k d1 Hk H1) as (d2 & Hd2 & Hn).
  exists gz, (fun h => cplus (cmult e (phi h)) (cplus (cmult d (psi (k h))) (cmult (phi h) (psi (k h))))), (Rmin d0 d2).
  split; [rewrite E; exact E'|]. split; [apply Rmin_pos; assumption|]. split.
  - pose proof (tends_comp psi k Hpsi Hk). repeat first [apply tends_add | apply tends_scale | assumption | apply tends_mul].
  - intros h Hh. pose proof (Rmin_l d0 d2). pose proof (Rmin_r d0 d2). rewrite H by lra. cbn [bind].
    fold (k h). rewrite H' by (apply Hn; lra). f_equal. unfold k. ring.
Qed.
Lemma D_inv z : z <> c0 -> D (fun z => if ceq_dec z c0 then Panic DomainError else Ok (cinv z)) z (copp (cmult (cinv z) (cinv z))).
Proof.
  intros Hz. destruct (tends_inv z (fun h => h) Hz tends_id) as ((d & Hd & Hn) & Ht).
  exists (cinv z), (fun h => copp (cmult (cinv z) (cminus (cinv (cplus z h)) (cinv z)))), d.
  split; [destruct (ceq_dec z c0); [contradiction|reflexivity]|]. split; [exact Hd|]. split; [apply tends_opp, tends_scale, Ht|].
  intros h Hh. specialize (Hn h Hh). destruct (ceq_dec (cplus z h) c0); [contradiction|]. f_equal. field. split; assumption.
Qed.

(** ** The exponential near 0 *)
Lemma exp_bound a : Rabs a <= 1 -> Rabs (exp a - 1 - a) <= 2 * (a * a) /\ exp a <= 3 /\ Rabs (exp a - 1) <= 3 * Rabs a.
Proof.
  intros Ha.
  assert (Hu : forall b, 0 <= b -> exp (-b) <= / (1 + b)).
  { intros b Hb. rewrite exp_Ropp. apply Rinv_le_contravar; [lra|]. destruct (Req_dec b 0) as [->|N]; [rewrite exp_0; lra|].
    left. apply exp_ineq1. lra. }
  assert (L : 1 + a <= exp a).
  { destruct (Req_dec a 0) as [->|N]; [rewrite exp_0; lra|]. left. apply exp_ineq1, N. }
  assert (Hab : -1 <= a <= 1) by (pose proof (Rle_abs a); pose proof (Rle_abs (- a)) as H'; rewrite Rabs_Ropp in H'; lra).
  assert (E1 : exp a <= 3).
  { apply Rle_trans with (exp 1); [|apply exp_le_3]. destruct (Req_dec a 1) as [->|]; [lra|]. left. apply exp_increasing. lra. }
  (* halving: exp a = exp (a/2)^2, exp (a/2) <= 1 / (1 - a/2) *)
  assert (U : exp a <= 1 + a + 2 * (a * a)).
  { destruct (Rle_dec a (1/2)) as [Hh|Hh].
    - assert (exp a <= / (1 - a)).
      { replace a with (- - a) at 1 by ring. rewrite exp_Ropp. apply Rinv_le_contravar; [lra|].
        destruct (Req_dec a 0) as [->|N]; [rewrite Ropp_0, exp_0; lra|]. left. replace (1 - a) with (1 + - a) by ring. apply exp_ineq1. lra. }
      apply Rle_trans with (/ (1 - a)); [assumption|].
      apply Rmult_le_reg_r with (1 - a); [lra|]. rewrite Rinv_l by lra. nra.
    - assert (exp (a/2) <= / (1 - a/2)).
      { replace (a/2) with (- - (a/2)) at 1 by ring. rewrite exp_Ropp. apply Rinv_le_contravar; [lra|].
        left. replace (1 - a/2) with (1 + - (a/2)) by ring. apply exp_ineq1. lra. }
      assert (exp a = exp (a/2) * exp (a/2)) by (rewrite <- exp_plus; f_equal; field).
      pose proof (exp_pos (a/2)).
      assert (exp a <= / (1 - a/2) * / (1 - a/2)) by (rewrite H0; apply Rmult_le_compat; lra).
      apply Rle_trans with (/ (1 - a/2) * / (1 - a/2)); [assumption|].
      assert (T : 1 <= (1 + a + 2 * (a * a)) * ((1 - a/2) * (1 - a/2))).
      { replace ((1 + a + 2 * (a * a)) * ((1 - a/2) * (1 - a/2))) with (1 + (a * a) / 2 * ((1 - a) * (5/2 - a))) by field.
        assert (0 <= (a * a) / 2 * ((1 - a) * (5/2 - a))); [|lra].
        apply Rmult_le_pos; [nra|apply Rmult_le_pos; lra]. }
      assert (0 < (1 - a/2) * (1 - a/2)) by (apply Rmult_lt_0_compat; lra).
      apply Rmult_le_reg_r with ((1 - a/2) * (1 - a/2)); [assumption|].
      replace (/ (1 - a/2) * / (1 - a/2) * ((1 - a/2) * (1 - a/2))) with 1 by (field; lra). exact T. }
  split; [apply Rabs_le; nra|]. split; [exact E1|].
  destruct (Rle_dec 0 a) as [Hp|Hp].
  - rewrite (Rabs_pos_eq a) by assumption. apply Rabs_le. nra.
  - rewrite (Rabs_left1 a) by lra. apply Rabs_le. split; [lra|]. assert (exp a <= exp 0) by (left; apply exp_increasing; lra). rewrite exp_0 in *. lra.
Qed.

Lemma sin_cos_bound b : Rabs b <= 1 -> Rabs (sin b - b) <= b * b /\ Rabs (cos b - 1) <= b * b.
Proof.
  intros Hb.
  assert (P : forall x, 0 <= x <= 1 -> x - x * x <= sin x <= x /\ 1 - x * x <= cos x <= 1).
  { intros x [H0 H1]. pose proof PI2_3_2. pose proof PI_RGT_0.
    assert (S1 : sin x <= x) by (destruct (Req_dec x 0) as [->|]; [rewrite sin_0; lra|left; apply sin_lt_x; lra]).
    assert (S0 : 0 <= sin x) by (apply sin_ge_0; lra).
    assert (Ch : forall y, 0 <= y <= 1 -> 1 - y * y <= cos y).
    { intros y Hy. replace (cos y) with (cos (2 * (y / 2))) by (f_equal; field). rewrite cos_2a_sin.
      assert (sin (y/2) <= y/2) by (destruct (Req_dec y 0) as [->|]; [replace (0/2) with 0 by field; rewrite sin_0; lra|left; apply sin_lt_x; lra]).
      assert (0 <= sin (y/2)) by (apply sin_ge_0; lra). nra. }
    pose proof (Ch x (conj H0 H1)). pose proof (COS_bound x) as CB.
    split; [split; [|exact S1]|split; [assumption|apply CB]].
    assert (C0 : 0 <= cos x) by (apply cos_ge_0; lra).
    (* sin x = 2 sin(x/2) cos(x/2); tan x >= x *)
    destruct (Req_dec x 0) as [->|Hx]; [rewrite sin_0; lra|].
    assert (T : x * cos x <= sin x).
    { destruct (MVT_cor2 (fun t => sin t - t * cos t) (fun t => cos t - (1 * cos t + t * - sin t)) 0 x) as (c & Hc & Hc').
      - lra.
      - intros c _. apply derivable_pt_lim_minus; [apply derivable_pt_lim_sin|].
        apply (derivable_pt_lim_mult (fun t => t) cos); [apply derivable_pt_lim_id|apply derivable_pt_lim_cos].
      - rewrite sin_0, Rmult_0_l, Rminus_0_r, Rminus_0_r in Hc.
        assert (0 <= sin c) by (apply sin_ge_0; lra).
        assert (0 <= (c * sin c) * x) by (apply Rmult_le_pos; [apply Rmult_le_pos; lra|lra]).
        assert (sin x - x * cos x = (c * sin c) * x); [|lra]. rewrite Hc. ring. }
    nra. }
  destruct (Rle_dec 0 b) as [H0|H0].
  - rewrite Rabs_pos_eq in Hb by assumption. destruct (P b (conj H0 Hb)) as [A B]. split; apply Rabs_le; lra.
  - rewrite Rabs_left1 in Hb by lra. destruct (P (-b) ltac:(lra)) as [A B]. rewrite sin_neg, cos_neg in *. split; apply Rabs_le; nra.
Qed.

Lemma cexp_bound h : |h| <= 1 -> |cminus (cminus (cexp h) c1) h| <= 16 * (|h| * |h|).
Proof.
  intros Hh. pose proof (re_le h) as Hr. pose proof (im_le h) as Hi.
  destruct (exp_bound (re h)) as (A & B & B'); [lra|]. destruct (sin_cos_bound (im h)) as (S & Cb); [lra|].
  pose proof (modulus_le (cminus (cminus (cexp h) c1) h)) as M. cbn [cminus cexp re im] in M.
  set (a := re h) in *. set (b := im h) in *. pose proof (exp_pos a) as Ep.
  assert (R1 : Rabs (exp a * cos b - 1 - a) <= 2 * (a * a) + 3 * (b * b)).
  { replace (exp a * cos b - 1 - a) with ((exp a - 1 - a) + exp a * (cos b - 1)) by ring.
    eapply Rle_trans; [apply Rabs_triang|]. rewrite Rabs_mult, (Rabs_pos_eq (exp a)) by lra.
    pose proof (Rabs_pos (cos b - 1)). nra. }
  assert (R2 : Rabs (exp a * sin b - 0 - b) <= 3 * (b * b) + 3 * (Rabs a * Rabs b)).
  { replace (exp a * sin b - 0 - b) with (exp a * (sin b - b) + (exp a - 1) * b) by ring.
    eapply Rle_trans; [apply Rabs_triang|]. rewrite !Rabs_mult, (Rabs_pos_eq (exp a)) by lra.
    pose proof (Rabs_pos (sin b - b)). pose proof (Rabs_pos b). pose proof (Rabs_pos a). nra. }
  pose proof (modulus_sq h) as Q. fold a b in Q.
  assert (Rabs a * Rabs b <= |h| * |h|).
  { pose proof (Rabs_pos b). pose proof (Rabs_pos a). nra. }
  nra.
Qed.

(** cexp h = 1 + h (1 + ephi h). *)
Definition ephi (h : C) : C := if ceq_dec h c0 then c0 else cminus (cdiv (cminus (cexp h) c1) h) c1.
Lemma cexp_ephi h : cexp h = cplus c1 (cmult h (cplus c1 (ephi h))).
Proof.
  unfold ephi. destruct (ceq_dec h c0) as [->|N].
  - unfold cexp. cbn [re im]. rewrite exp_0, cos_0, sin_0. cext; ring.
  - field. exact N.
Qed.
Lemma ephi_tends : tends ephi.
Proof.
  intros eps He. exists (Rmin 1 (eps / 16)). split; [apply Rmin_pos; lra|]. intros h Hh.
  pose proof (Rmin_l 1 (eps/16)). pose proof (Rmin_r 1 (eps/16)). unfold ephi.
  destruct (ceq_dec h c0) as [->|N]; [rewrite modulus_zero; lra|].
  pose proof (modulus_gt h N) as Hp. apply Rmult_le_reg_r with (|h|); [exact Hp|]. rewrite <- modulus_mul.
  replace (cmult (cminus (cdiv (cminus (cexp h) c1) h) c1) h) with (cminus (cminus (cexp h) c1) h) by (field; assumption).
  eapply Rle_trans; [apply cexp_bound; lra|]. nra.
Qed.

Lemma D_exp z : D (complex_exp real_field real_fun) z (cexp z).
Proof.
  exists (cexp z), (fun h => cmult (cexp z) (ephi h)), 1. split; [apply exp_ok|]. split; [lra|].
  split; [apply tends_scale, ephi_tends|]. intros h _. rewrite exp_ok. f_equal.
  change (cexp (cplus z h)) with (cexp (sadd CS z h)). rewrite cexp_add. change (smul CS) with cmult.
  rewrite (cexp_ephi h). ring.
Qed.

Lemma c2_neq : Cx 2 0 <> c0. Proof. intros E. injection E. lra. Qed.
Lemma c2i_neq : Cx 0 2 <> c0. Proof. intros E. injection E. lra. Qed.

Lemma half_sum a b c : cmult (Cx 2 0) a = cplus b c -> a = cmult (Cx (/2) 0) (cplus b c).
Proof. intros <-. cext; field. Qed.
Lemma half_sub a b c : cmult (Cx 2 0) a = cminus b c -> a = cmult (Cx (/2) 0) (cminus b c).
Proof. intros <-. cext; field. Qed.
Lemma half_i_sub a b c : cmult (Cx 0 2) a = cminus b c -> a = cmult (Cx 0 (-/2)) (cminus b c).
Proof. intros <-. cext; field. Qed.

(** sinh h = h (1 + ...), cosh h = 1 + h (...), and the same for sin, cos. *)
Lemma csinh_small h : csinh h = cmult h (cplus c1 (cmult (Cx (/2) 0) (cplus (ephi h) (ephi (copp h))))).
Proof.
  rewrite (half_sub _ _ _ (csinh_exp h)). change (sneg CS h) with (copp h). rewrite !cexp_ephi.
  cext; field.
Qed.
Lemma ccosh_small h : ccosh h = cplus c1 (cmult h (cmult (Cx (/2) 0) (cminus (ephi h) (ephi (copp h))))).
Proof.
  rewrite (half_sum _ _ _ (ccosh_exp h)). change (sneg CS h) with (copp h). rewrite !cexp_ephi.
  cext; field.
Qed.
Lemma csin_small h : csin h = cmult h (cplus c1 (cmult (Cx (/2) 0) (cplus (ephi (cmult ci h)) (ephi (copp (cmult ci h)))))).
Proof.
  rewrite (half_i_sub _ _ _ (csin_exp h)). change (sneg CS (smul CS ci h)) with (copp (cmult ci h)). change (smul CS ci h) with (cmult ci h).
  rewrite !cexp_ephi. unfold ci. set (u := ephi _). set (v := ephi _). cext; field.
Qed.
Lemma ccos_small h : ccos h = cplus c1 (cmult h (cmult (Cx 0 (/2)) (cminus (ephi (cmult ci h)) (ephi (copp (cmult ci h)))))).
Proof.
  rewrite (half_sum _ _ _ (ccos_exp h)). change (sneg CS (smul CS ci h)) with (copp (cmult ci h)). change (smul CS ci h) with (cmult ci h).
  rewrite !cexp_ephi. unfold ci. set (u := ephi _). set (v := ephi _). cext; field.
Qed.

Definition sh_t h := cmult (Cx (/2) 0) (cplus (ephi h) (ephi (copp h))).
Definition ch_t h := cmult (Cx (/2) 0) (cminus (ephi h) (ephi (copp h))).
Definition s_t h := cmult (Cx (/2) 0) (cplus (ephi (cmult ci h)) (ephi (copp (cmult ci h)))).
Definition c_t h := cmult (Cx 0 (/2)) (cminus (ephi (cmult ci h)) (ephi (copp (cmult ci h)))).
Lemma tends_sub f g : tends f -> tends g -> tends (fun h => cminus (f h) (g h)).
Proof.
  intros. apply tends_ext with (f := fun h => cplus (f h) (copp (g h))).
  - exists 1. split; [lra|]. intros h _. ring.
  - apply tends_add; [|apply tends_opp]; assumption.
Qed.
Lemma trig_tends : tends sh_t /\ tends ch_t /\ tends s_t /\ tends c_t.
Proof.
  pose proof ephi_tends as E.
  pose proof (tends_comp ephi copp E (tends_opp _ tends_id)) as E1.
  pose proof (tends_comp ephi (cmult ci) E (tends_scale ci _ tends_id)) as E2.
  pose proof (tends_comp ephi (fun h => copp (cmult ci h)) E (tends_opp _ (tends_scale ci _ tends_id))) as E3.
  repeat split; apply tends_scale; (apply tends_add || apply tends_sub); assumption.
Qed.

Lemma D_sinh z : D (complex_sinh real_field real_fun) z (ccosh z).
Proof.
  destruct trig_tends as (A & B & _).
  exists (csinh z), (fun h => cplus (cmult (csinh z) (ch_t h)) (cmult (ccosh z) (sh_t h))), 1. split; [apply sinh_ok|]. split; [lra|].
  split; [apply tends_add; apply tends_scale; assumption|]. intros h _. rewrite sinh_ok. f_equal.
  change (csinh (cplus z h)) with (csinh (sadd CS z h)). rewrite csinh_add. change (smul CS) with cmult. change (sadd CS) with cplus.
  rewrite (csinh_small h), (ccosh_small h). unfold sh_t, ch_t. ring.
Qed.
Lemma D_cosh z : D (complex_cosh real_field real_fun) z (csinh z).
Proof.
  destruct trig_tends as (A & B & _).
  exists (ccosh z), (fun h => cplus (cmult (ccosh z) (ch_t h)) (cmult (csinh z) (sh_t h))), 1. split; [apply cosh_ok|]. split; [lra|].
  split; [apply tends_add; apply tends_scale; assumption|]. intros h _. rewrite cosh_ok. f_equal.
  change (ccosh (cplus z h)) with (ccosh (sadd CS z h)). rewrite ccosh_add. change (smul CS) with cmult. change (sadd CS) with cplus.
  rewrite (csinh_small h), (ccosh_small h). unfold sh_t, ch_t. ring.
Qed.
Lemma D_sin z : D (complex_sin real_field real_fun) z (ccos z).
Proof.
  destruct trig_tends as (_ & _ & A & B).
  exists (csin z), (fun h => cplus (cmult (csin z) (c_t h)) (cmult (ccos z) (s_t h))), 1. split; [apply sin_ok|]. split; [lra|].
  split; [apply tends_add; apply tends_scale; assumption|]. intros h _. rewrite sin_ok. f_equal.
  change (csin (cplus z h)) with (csin (sadd CS z h)). rewrite csin_add. change (smul CS) with cmult. change (sadd CS) with cplus.
  rewrite (csin_small h), (ccos_small h). unfold s_t, c_t. ring.
Qed.
Lemma D_cos z : D (complex_cos real_field real_fun) z (copp (csin z)).
Proof.
  destruct trig_tends as (_ & _ & A & B).
  exists (ccos z), (fun h => cminus (cmult (ccos z) (c_t h)) (cmult (csin z) (s_t h))), 1. split; [apply cos_ok|]. split; [lra|].
  split; [apply tends_sub; apply tends_scale; assumption|]. intros h _. rewrite cos_ok. f_equal.
  change (ccos (cplus z h)) with (ccos (sadd CS z h)). rewrite ccos_add. change (smul CS) with cmult. change (ssub CS) with cminus.
  rewrite (csin_small h), (ccos_small h). unfold s_t, c_t. ring.
Qed.

(** ** Quotients *)
Lemma div_ok z w : w <> c0 -> complex_div real_field z w = Ok (cdiv z w).
Proof.
  intros Hw. assert (N : ~ same real_sig (nrm real_sig w) (sz real_sig)).
  { intros E. apply Hw, norm2_zero. exact E. }
  destruct (complex_div_spec real_field real_sig real_is_field z w N) as (q & E & Hq).
  unfold complex_div. rewrite E. f_equal. apply same_eq in Hq.
  transitivity (cdiv (cmult q w) w); [field; exact Hw|]. f_equal. exact Hq.
Qed.

Lemma D_div f g z d e fz gz : D f z d -> D g z e -> f z = Ok fz -> g z = Ok gz -> gz <> c0 ->
  D (lift2 (complex_div real_field) f g) z (cdiv (cminus (cmult d gz) (cmult fz e)) (cmult gz gz)).
Proof.
  intros Hf Hg F G N.
  pose proof (D_chain g _ z e _ gz Hg G (D_inv gz N)) as Hi.
  assert (Ei : (w <- g z ;; (if ceq_dec w c0 then Panic DomainError else Ok (cinv w))) = Ok (cinv gz)).
  { rewrite G. cbn [bind]. destruct (ceq_dec gz c0); [contradiction|reflexivity]. }
  pose proof (D_mul f _ z d _ fz (cinv gz) Hf Hi F Ei) as H.
  replace (cdiv (cminus (cmult d gz) (cmult fz e)) (cmult gz gz)) with
    (cplus (cmult d (cinv gz)) (cmult fz (cmult (copp (cmult (cinv gz) (cinv gz))) e))) by (field; exact N).
  refine (D_ext _ _ z _ _ H).
  destruct Hg as (gz' & psi & d1 & E' & H1 & Hpsi & H'). rewrite E' in G. injection G as ->.
  destruct (tends_inv gz (fun h => cmult h (cplus e (psi h))) N) as ((r & Hr & Hn) & _).
  { apply tends_ext with (f := fun h => cplus (cmult e h) (cmult h (psi h))).
    - exists 1. split; [lra|]. intros h _. ring.
    - apply tends_add; [apply tends_scale, tends_id|apply tends_mul; [apply tends_id|assumption]]. }
  exists (Rmin r d1). split; [apply Rmin_pos; assumption|]. intros h Hh. pose proof (Rmin_l r d1). pose proof (Rmin_r r d1).
  unfold lift2. destruct (f (cplus z h)) as [a| |]; [|reflexivity|reflexivity]. cbn [bind].
  rewrite H' by lra. cbn [bind]. specialize (Hn h ltac:(lra)). rewrite div_ok by exact Hn.
  destruct (ceq_dec _ _); [contradiction|]. cbn [bind]. reflexivity.
Qed.

(** ** Square root *)
Lemma csqrt_ex w : exists s, complex_sqrt real_field real_fun w = Ok s /\ cmult s s = w /\ principal s.
Proof. exact (sqrt_spec w). Qed.

Lemma sqrt_re_pos z s : off_the_cut z -> cmult s s = z -> principal s -> 0 < re s.
Proof.
  intros Hz E [H|[H0 H1]]; [exact H|]. exfalso. subst z. destruct Hz as [Hz|Hz]; cbn [cmult re im] in Hz; rewrite H0 in Hz; nra.
Qed.

Lemma D_sqrt z s : off_the_cut z -> complex_sqrt real_field real_fun z = Ok s ->
  D (complex_sqrt real_field real_fun) z (cinv (cmult (Cx 2 0) s)).
Proof.
  intros Hz Es. destruct (csqrt_ex z) as (s' & Es' & Q & P). rewrite Es in Es'. injection Es' as <-.
  pose proof (sqrt_re_pos z s Hz Q P) as Hm.
  assert (N : s <> c0) by (intros ->; simpl in Hm; lra).
  set (sq := fun h => cval (complex_sqrt real_field real_fun (cplus z h))).
  assert (SQ : forall h, complex_sqrt real_field real_fun (cplus z h) = Ok (sq h) /\ cmult (sq h) (sq h) = cplus z h /\ 0 <= re (sq h)).
  { intros h. unfold sq. destruct (csqrt_ex (cplus z h)) as (t & Et & Qt & Pt). rewrite Et. cbn [cval].
    split; [reflexivity|]. split; [exact Qt|]. destruct Pt as [|[]]; lra. }
  assert (NN : forall h, re s <= |cplus (sq h) s|).
  { intros h. destruct (SQ h) as (_ & _ & H). pose proof (re_le (cplus (sq h) s)). cbn [cplus re] in H0.
    rewrite Rabs_pos_eq in H0 by lra. lra. }
  assert (NZ : forall h, cplus (sq h) s <> c0).
  { intros h E. specialize (NN h). rewrite E, modulus_zero in NN. lra. }
  assert (Df : forall h, cminus (sq h) s = cmult h (cinv (cplus (sq h) s))).
  { intros h. destruct (SQ h) as (_ & H & _). 
    assert (E : cmult (cminus (sq h) s) (cplus (sq h) s) = h).
    { transitivity (cminus (cmult (sq h) (sq h)) (cmult s s)); [ring|]. rewrite H, Q. ring. }
    rewrite <- E at 2. field. apply NZ. }
  exists s, (fun h => cminus (cinv (cplus (sq h) s)) (cinv (cmult (Cx 2 0) s))), 1.
  split; [exact Es|]. split; [lra|]. split.
  - assert (Ht : tends (fun h => cminus (sq h) s)).
    { intros eps He. exists (eps * re s). split; [nra|]. intros h Hh. rewrite Df, modulus_mul, modulus_inv by apply NZ.
      specialize (NN h). apply Rmult_le_reg_r with (|cplus (sq h) s|); [lra|]. rewrite Rmult_assoc, Rinv_l by lra. nra. }
    assert (N2 : cmult (Cx 2 0) s <> c0).
    { intros E. apply N. apply complex_ext; [apply (f_equal re) in E|apply (f_equal im) in E]; cbn [cmult re im] in *; lra. }
    destruct (tends_inv (cmult (Cx 2 0) s) _ N2 Ht) as [_ T].
    refine (tends_ext _ _ _ T). exists 1. split; [lra|]. intros h _. f_equal. f_equal. cext; ring.
  - intros h _. destruct (SQ h) as (E & _ & _). rewrite E. f_equal.
    transitivity (cplus s (cminus (sq h) s)); [ring|]. rewrite Df. ring.
Qed.

(** ** Logarithm *)
Lemma cln_near_1 : tends (fun t => cln (cplus c1 t)).
Proof.
  intros eps He.
  (* ln |1+t| and atan (im / re) are continuous *)
  assert (La : exists d, 0 < d /\ forall x, Rabs (x - 1) < d -> Rabs (ln x) < eps / 2).
  { destruct (derivable_continuous_pt ln 1 (exist _ _ (derivable_pt_lim_ln 1 Rlt_0_1)) (eps / 2)) as (d & Hd & H); [lra|].
    exists d. split; [exact Hd|]. intros x Hx. destruct (Req_dec x 1) as [->|N]; [rewrite ln_1, Rabs_R0; lra|].
    assert (Hc := H x). unfold R_dist, dist in Hc. simpl in Hc. unfold R_dist in Hc. rewrite ln_1, Rminus_0_r in Hc. apply Hc.
    split; [split; [exact I|auto]|exact Hx]. }
  destruct La as (d & Hd & La).
  assert (At : exists d', 0 < d' /\ forall x, Rabs x < d' -> Rabs (atan x) < eps / 2).
  { destruct (derivable_continuous_pt atan 0 (derivable_pt_atan 0) (eps / 2)) as (d' & Hd' & H); [lra|].
    exists d'. split; [exact Hd'|]. intros x Hx. destruct (Req_dec x 0) as [->|N]; [rewrite atan_0, Rabs_R0; lra|].
    assert (Hc := H x). simpl in Hc. unfold R_dist in Hc. rewrite atan_0, !Rminus_0_r in Hc. apply Hc.
    split; [split; [exact I|auto]|exact Hx]. }
  destruct At as (d' & Hd' & At).
  exists (Rmin (1/2) (Rmin (d / 3) (d' / 2))).
  split; [repeat apply Rmin_pos; lra|]. intros t Ht.
  pose proof (Rmin_l (1/2) (Rmin (d / 3) (d' / 2))). pose proof (Rmin_r (1/2) (Rmin (d / 3) (d' / 2))).
  pose proof (Rmin_l (d / 3) (d' / 2)). pose proof (Rmin_r (d / 3) (d' / 2)).
  pose proof (re_le t) as Hr. pose proof (im_le t) as Hi. pose proof (modulus_pos t).
  pose proof (Rle_abs (re t)). pose proof (Rle_abs (- re t)) as Hr'. rewrite Rabs_Ropp in Hr'.
  eapply Rle_trans; [apply modulus_le|]. cbn [cln re im].
  assert (A : Rabs (ln (norm2 (cplus c1 t)) / 2) <= eps / 2).
  { unfold Rdiv at 1. rewrite Rabs_mult, (Rabs_pos_eq (/2)) by lra.
    assert (Rabs (ln (norm2 (cplus c1 t))) < eps / 2); [|pose proof (Rabs_pos (ln (norm2 (cplus c1 t)))); lra].
    apply La. unfold norm2. cbn [cplus re im]. pose proof (modulus_sq t) as Q.
    replace ((1 + re t) * (1 + re t) + (0 + im t) * (0 + im t) - 1) with (2 * re t + |t| * |t|) by (rewrite Q; ring).
    eapply Rle_lt_trans; [apply Rabs_triang|]. rewrite Rabs_mult, (Rabs_pos_eq 2) by lra. rewrite (Rabs_pos_eq (|t| * |t|)) by nra. nra. }
  assert (B : Rabs (atan2 (im (cplus c1 t)) (re (cplus c1 t))) <= eps / 2).
  { cbn [cplus re im]. unfold atan2. destruct (Rlt_dec 0 (1 + re t)) as [P|P]; [|lra]. left. apply At.
    rewrite Rplus_0_l. unfold Rdiv. rewrite Rabs_mult, (Rabs_pos_eq (/ (1 + re t))) by (left; apply Rinv_0_lt_compat; lra).
    apply Rle_lt_trans with (Rabs (im t) * 2).
    - apply Rmult_le_compat_l; [apply Rabs_pos|]. replace 2 with (/ (/ 2)) by field. apply Rinv_le_contravar; lra.
    - lra. }
  lra.
Qed.

Lemma atan2_off z : off_the_cut z -> - PI < atan2 (im z) (re z) < PI.
Proof.
  intros Hz. pose proof (atan2_range (im z) (re z)) as [A B]. split; [exact A|].
  destruct B as [B|B]; [exact B|]. exfalso.
  destruct (polar (im z) (re z)) as [P1 P2]. rewrite B, cos_PI in P1. rewrite B, sin_PI in P2.
  pose proof (sqrt_pos (re z * re z + im z * im z)). destruct Hz as [Hz|Hz]; lra.
Qed.

Lemma D_ln z : off_the_cut z -> D (complex_ln real_field real_fun) z (cinv z).
Proof.
  intros Hz.
  assert (N : z <> c0) by (intros ->; destruct Hz as [Hz|Hz]; simpl in Hz; lra).
  set (k := fun h => cln (cplus c1 (cdiv h z))).
  assert (Hk : tends k).
  { apply (tends_comp (fun t => cln (cplus c1 t)) (fun h => cdiv h z)); [exact cln_near_1|].
    apply tends_ext with (f := fun h => cmult (cinv z) h); [|apply tends_scale, tends_id].
    exists 1. split; [lra|]. intros h _. unfold cdiv. ring. }
  destruct (tends_inv z (fun h => h) N tends_id) as ((r0 & Hr0 & Hn0) & _).
  pose proof (atan2_off z Hz) as [A1 A2].
  set (m := Rmin (PI - atan2 (im z) (re z)) (atan2 (im z) (re z) + PI)).
  assert (Hm : 0 < m) by (apply Rmin_pos; lra).
  destruct (tends_near k m Hk Hm) as (r1 & Hr1 & Hn1).
  assert (C1 : c1 <> c0) by (intros E; injection E; lra).
  destruct (tends_inv c1 (fun h => ephi (k h)) C1 (tends_comp _ _ ephi_tends Hk)) as ((r2 & Hr2 & Hn2) & T).
  exists (cln z), (fun h => cmult (cinv z) (cminus (cinv (cplus c1 (ephi (k h)))) (cinv c1))), (Rmin r0 (Rmin r1 r2)).
  split; [apply ln_ok, N|]. split; [repeat apply Rmin_pos; assumption|]. split; [apply tends_scale, T|].
  intros h Hh.
  pose proof (Rmin_l r0 (Rmin r1 r2)). pose proof (Rmin_r r0 (Rmin r1 r2)). pose proof (Rmin_l r1 r2). pose proof (Rmin_r r1 r2).
  specialize (Hn0 h ltac:(lra)). specialize (Hn1 h ltac:(lra)). specialize (Hn2 h ltac:(lra)).
  assert (Nt : cplus c1 (cdiv h z) <> c0).
  { intros E. apply Hn0. transitivity (cmult z (cplus c1 (cdiv h z))); [field; exact N|]. rewrite E. ring. }
  assert (Ek : cexp (k h) = cplus c1 (cdiv h z)) by (apply exp_cln, Nt).
  rewrite ln_ok by exact Hn0. f_equal.
  assert (El : cln (cplus z h) = cplus (cln z) (k h)).
  { assert (Ee : cexp (cplus (cln z) (k h)) = cplus z h).
    { change (cplus (cln z) (k h)) with (sadd CS (cln z) (k h)). rewrite cexp_add, Ek, exp_cln by exact N.
      change (smul CS) with cmult. field. exact N. }
    rewrite <- Ee. apply cln_cexp. cbn [cplus im cln].
    pose proof (im_le (k h)) as I. pose proof (Rle_abs (im (k h))). pose proof (Rle_abs (- im (k h))) as I'. rewrite Rabs_Ropp in I'.
    pose proof (Rmin_l (PI - atan2 (im z) (re z)) (atan2 (im z) (re z) + PI)).
    pose proof (Rmin_r (PI - atan2 (im z) (re z)) (atan2 (im z) (re z) + PI)). unfold m in Hn1. lra. }
  rewrite El. f_equal.
  (* k (1 + ephi k) = h / z *)
  assert (E1 : cmult (k h) (cplus c1 (ephi (k h))) = cdiv h z).
  { pose proof (cexp_ephi (k h)) as E. rewrite Ek in E.
    transitivity (cminus (cplus c1 (cmult (k h) (cplus c1 (ephi (k h))))) c1); [ring|]. rewrite <- E. ring. }
  transitivity (cmult (cdiv h z) (cinv (cplus c1 (ephi (k h))))).
  - rewrite <- E1. field. exact Hn2.
  - field. repeat split; assumption.
Qed.
