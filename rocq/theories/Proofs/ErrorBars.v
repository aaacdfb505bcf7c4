(** Float computations stay within the error bars (for C91). *)
From Coq Require Import List Arith ZArith Reals Bool Lia Lra Psatz.
From Flocq Require Import Core.Core IEEE754.BinarySingleNaN.
From Verif Require Import Base.Outcome Base.Array Base.Sim Model.Traits Model.Float Model.RealInstance Model.Polynomial Model.Complex
  Model.SVector Model.SMatrix Spec.Ring Spec.FloatErr Spec.Nest Spec.ErrorBars
  Proofs.FloatErr Proofs.FloatComm Proofs.FloatSpecial Proofs.RingSim Proofs.IntProofs Props.NestProps.
Import ListNotations.
Local Open Scope R_scope.

Lemma abs_0 x : Rabs x = 0 -> x = 0.
Proof. intros H. destruct (Req_dec x 0) as [E|E]; [exact E|]. apply Rabs_no_R0 in E. contradiction. Qed.

Section Fmt.
Context (prec emax : Z) {Hp : Prec_gt_0 prec} {He : Prec_lt_emax prec emax}.
Notation fl := (binary_float prec emax).
Notation u := (unit_roundoff prec).
Notation eta := (underflow_unit prec emax).
Notation big := (bpow radix2 emax).

Lemma g_pos n : 1 <= (1 + u) ^ n.
Proof. apply pow_ge_1. pose proof (u_pos prec). lra. Qed.

Lemma inside_abs F x b : inside prec emax F x b -> is_finite x = true -> Rabs (B2R x) <= (1 + u) ^ depth b * padded b.
Proof.
  intros ((S1 & S2 & _ & _) & W & _) Fx. specialize (W Fx). unfold error_bar in W.
  pose proof (Rabs_triang_inv (B2R x) (exact b)). lra.
Qed.
Lemma inside_blank F x b : inside prec emax F x b -> blank b = true -> is_finite x = true -> B2R x = 0.
Proof.
  intros H B Fx. pose proof (inside_abs F x b H Fx) as A. destruct H as ((_ & _ & Z & _) & _).
  rewrite (Z B), Rmult_0_r in A. pose proof (Rabs_pos (B2R x)). apply abs_0. lra.
Qed.
Lemma sane_blank b : sane prec b -> blank b = true -> padded b = 0 /\ size b = 0 /\ exact b = 0.
Proof.
  intros (S1 & S2 & Z & _) B. specialize (Z B). pose proof (Rabs_pos (exact b)).
  repeat split; [exact Z|lra|]. apply abs_0. lra.
Qed.
Lemma sane_nonneg b : sane prec b -> 0 <= size b /\ 0 <= padded b.
Proof. intros (S1 & S2 & _). pose proof (Rabs_pos (exact b)). lra. Qed.

Lemma inside_zero F : inside prec emax F (fl_int prec emax 0) bars_zero.
Proof.
  destruct (zero_value prec emax) as [E0 F0]. split; [|split].
  - unfold sane, bars_zero; simpl. rewrite Rabs_R0. repeat split; try lra.
  - intros _. unfold error_bar, bars_zero, bars_one, bars_of; cbn [exact size padded depth blank peak pow]. rewrite E0, Rminus_0_r, Rabs_R0. lra.
  - intros _ _. exact F0.
Qed.
Lemma inside_one F : inside prec emax F (fl_int prec emax 1) bars_one.
Proof.
  destruct (one_value prec emax) as [F1 E1]. split; [|split].
  - unfold sane, bars_one; simpl. rewrite Rabs_R1. repeat split; try lra; try discriminate.
  - intros _. unfold error_bar, bars_zero, bars_one, bars_of; cbn [exact size padded depth blank peak pow]. rewrite E1. unfold Rminus. rewrite Rplus_opp_r, Rabs_R0. lra.
  - intros _ _. exact F1.
Qed.
Lemma inside_input (F : Prop) x : (F -> is_finite x = true) -> inside prec emax F x (bars_of prec emax x).
Proof.
  intros H. split; [|split].
  - unfold sane, bars_of; simpl. repeat split; try lra; try discriminate.
  - intros _. unfold error_bar, bars_zero, bars_one, bars_of; cbn [exact size padded depth blank peak pow]. unfold Rminus at 1. rewrite Rplus_opp_r, Rabs_R0. lra.
  - auto.
Qed.

Lemma inside_neg F x b : inside prec emax F x b -> inside prec emax F (Bopp x) (bars_neg b).
Proof.
  intros (S & W & G). split; [|split].
  - unfold sane, bars_neg in *; simpl. rewrite Rabs_Ropp. exact S.
  - intros Fx. rewrite (opp_finite prec emax) in Fx. specialize (W Fx). unfold error_bar, bars_neg in *; simpl.
    rewrite B2R_Bopp. replace (- B2R x - - exact b) with (- (B2R x - exact b)) by ring. rewrite Rabs_Ropp. exact W.
  - intros HF Hk. rewrite (opp_finite prec emax). apply G; assumption.
Qed.

Lemma add_0_r (x y : fl) : B2R y = 0 -> is_finite x = true -> is_finite y = true ->
  is_finite (fl_add prec emax x y) = true /\ B2R (fl_add prec emax x y) = B2R x.
Proof. intros. rewrite (fl_add_comm prec emax). apply (add_0_l prec emax); assumption. Qed.
Lemma mul_0_r (x y : fl) : B2R y = 0 -> is_finite x = true -> is_finite y = true ->
  is_finite (fl_mul prec emax x y) = true /\ B2R (fl_mul prec emax x y) = 0.
Proof. intros. rewrite (fl_mul_comm prec emax). apply (mul_0_l prec emax); assumption. Qed.

Lemma rmax3 a b c : a <= Rmax (Rmax a b) c /\ b <= Rmax (Rmax a b) c /\ c <= Rmax (Rmax a b) c.
Proof. pose proof (Rmax_l (Rmax a b) c). pose proof (Rmax_r (Rmax a b) c). pose proof (Rmax_l a b). pose proof (Rmax_r a b). lra. Qed.

Lemma inside_add F x y a b : inside prec emax F x a -> inside prec emax F y b -> inside prec emax F (fl_add prec emax x y) (bars_add prec a b).
Proof.
  intros Hx Hy. pose proof Hx as (Sa & Wa & Ga). pose proof Hy as (Sb & Wb & Gb).
  pose proof (sane_nonneg a Sa) as [A0 A1]. pose proof (sane_nonneg b Sb) as [B0 B1].
  pose proof (u_pos prec) as U.
  destruct (rmax3 (peak a) (peak b) ((1 + u) ^ depth (bars_add prec a b) * padded (bars_add prec a b))) as (P1 & P2 & P3).
  split; [|split].
  - pose proof Sa as (A2 & A3 & A4 & A5). pose proof Sb as (B2 & B3 & B4 & B5).
    unfold sane. split; [|split; [|split]].
    + unfold bars_add; simpl. pose proof (Rabs_triang (exact a) (exact b)). lra.
    + unfold bars_add; simpl. lra.
    + unfold bars_add; simpl. intros E. apply andb_true_iff in E as [E1 E2]. rewrite A4, B4 by assumption. lra.
    + exact P3.
  - clear P1 P2 P3. intros Fs. destruct (add_model prec emax x y Fs) as (Fx & Fy & d & Hd & E).
    specialize (Wa Fx). specialize (Wb Fy). unfold error_bar, bars_add in *; cbn [exact size padded depth blank peak pow].
    destruct (blank a) eqn:Ba; [|destruct (blank b) eqn:Bb].
    + destruct (sane_blank a Sa Ba) as (Z1 & Z2 & Z3).
      rewrite (proj2 (add_0_l prec emax x y (inside_blank F x a Hx Ba Fx) Fx Fy)), Z1, Z2, Z3, !Rplus_0_l. exact Wb.
    + destruct (sane_blank b Sb Bb) as (Z1 & Z2 & Z3).
      rewrite (proj2 (add_0_r x y (inside_blank F y b Hy Bb Fy) Fx Fy)), Z1, Z2, Z3, !Rplus_0_r. exact Wa.
    + rewrite E. pose proof (inside_abs F x a Hx Fx) as Xa. pose proof (inside_abs F y b Hy Fy) as Ya.
      set (m := max (depth a) (depth b)).
      pose proof (pow_mono (1 + u) (depth a) m ltac:(lra) ltac:(lia)) as Ma.
      pose proof (pow_mono (1 + u) (depth b) m ltac:(lra) ltac:(lia)) as Mb.
      assert (Xm : (1 + u) ^ depth a * padded a <= (1 + u) ^ m * padded a) by (apply Rmult_le_compat_r; assumption).
      assert (Ym : (1 + u) ^ depth b * padded b <= (1 + u) ^ m * padded b) by (apply Rmult_le_compat_r; assumption).
      replace ((B2R x + B2R y) * (1 + d) - (exact a + exact b))
        with ((B2R x - exact a) + (B2R y - exact b) + (B2R x + B2R y) * d) by ring.
      assert (Q : Rabs ((B2R x + B2R y) * d) <= ((1 + u) ^ m * padded a + (1 + u) ^ m * padded b) * u).
      { rewrite Rabs_mult. apply Rmult_le_compat; try apply Rabs_pos; [|exact Hd].
        pose proof (Rabs_triang (B2R x) (B2R y)). lra. }
      pose proof (Rabs_triang (B2R x - exact a + (B2R y - exact b)) ((B2R x + B2R y) * d)).
      pose proof (Rabs_triang (B2R x - exact a) (B2R y - exact b)).
      change ((1 + u) ^ S m) with ((1 + u) * (1 + u) ^ m).
      replace ((1 + u) * (1 + u) ^ m * (padded a + padded b))
        with ((1 + u) ^ m * padded a + (1 + u) ^ m * padded b + ((1 + u) ^ m * padded a + (1 + u) ^ m * padded b) * u) by ring.
      lra.
  - intros HF Hk. assert (HK : peak (bars_add prec a b) < big) by exact Hk.
    unfold peak at 1, bars_add in HK. cbv zeta in HK.
    change (Rmax (Rmax (peak a) (peak b)) ((1 + u) ^ depth (bars_add prec a b) * padded (bars_add prec a b)) < big) in HK.
    assert (Fx : is_finite x = true) by (apply Ga; [exact HF|lra]).
    assert (Fy : is_finite y = true) by (apply Gb; [exact HF|lra]).
    destruct (blank a) eqn:Ba; [|destruct (blank b) eqn:Bb].
    + apply (add_0_l prec emax x y (inside_blank F x a Hx Ba Fx) Fx Fy).
    + apply (add_0_r x y (inside_blank F y b Hy Bb Fy) Fx Fy).
    + apply (add_finite prec emax); [exact Fx|exact Fy|]. unfold too_big.
      pose proof (inside_abs F x a Hx Fx) as Xa. pose proof (inside_abs F y b Hy Fy) as Ya.
      assert (D : depth (bars_add prec a b) = S (max (depth a) (depth b))) by (unfold bars_add; simpl; rewrite Ba, Bb; reflexivity).
      rewrite D in *. assert (Q : padded (bars_add prec a b) = padded a + padded b) by reflexivity. rewrite Q in *.
      set (m := max (depth a) (depth b)) in *.
      pose proof (pow_mono (1 + u) (depth a) m ltac:(lra) ltac:(lia)) as Ma.
      pose proof (pow_mono (1 + u) (depth b) m ltac:(lra) ltac:(lia)) as Mb.
      assert (Xm : (1 + u) ^ depth a * padded a <= (1 + u) ^ m * padded a) by (apply Rmult_le_compat_r; assumption).
      assert (Ym : (1 + u) ^ depth b * padded b <= (1 + u) ^ m * padded b) by (apply Rmult_le_compat_r; assumption).
      assert (L : (1 + u) * Rabs (B2R x + B2R y) <= (1 + u) * ((1 + u) ^ m * (padded a + padded b))).
      { apply Rmult_le_compat_l; [lra|]. pose proof (Rabs_triang (B2R x) (B2R y)). lra. }
      simpl pow in P3, HK. lra.
Qed.

Lemma inside_mul F x y a b : inside prec emax F x a -> inside prec emax F y b -> inside prec emax F (fl_mul prec emax x y) (bars_mul prec emax a b).
Proof.
  intros Hx Hy. pose proof Hx as (Sa & Wa & Ga). pose proof Hy as (Sb & Wb & Gb).
  pose proof (sane_nonneg a Sa) as [A0 A1]. pose proof (sane_nonneg b Sb) as [B0 B1].
  pose proof (u_pos prec) as U. pose proof (eta_pos prec emax) as HE.
  pose proof Sa as (A2 & A3 & A4 & A5). pose proof Sb as (B2 & B3 & B4 & B5).
  destruct (rmax3 (peak a) (peak b) ((1 + u) ^ depth (bars_mul prec emax a b) * padded (bars_mul prec emax a b))) as (P1 & P2 & P3).
  assert (Zs : blank a || blank b = true -> size a * size b = 0 /\ exact a * exact b = 0).
  { intros E. apply orb_true_iff in E as [E|E].
    - destruct (sane_blank a Sa E) as (_ & -> & ->). split; ring.
    - destruct (sane_blank b Sb E) as (_ & -> & ->). split; ring. }
  assert (MM : size a * size b <= padded a * padded b) by (apply Rmult_le_compat; assumption).
  split; [|split].
  - unfold sane. split; [|split; [|split]].
    + unfold bars_mul; simpl. rewrite Rabs_mult. apply Rmult_le_compat; try apply Rabs_pos; assumption.
    + unfold bars_mul; simpl. destruct (blank a || blank b) eqn:E; [destruct (Zs eq_refl); lra|lra].
    + unfold bars_mul; simpl. intros ->. reflexivity.
    + exact P3.
  - clear P1 P2 P3. intros Fs. destruct (mul_model prec emax x y Fs) as (Fx & Fy & e & h & Hd & Hh & E).
    specialize (Wa Fx). specialize (Wb Fy). unfold error_bar, bars_mul in *; cbn [exact size padded depth blank peak pow].
    destruct (blank a || blank b) eqn:Z.
    + destruct (Zs eq_refl) as [-> ->].
      assert (M0 : B2R (fl_mul prec emax x y) = 0).
      { apply orb_true_iff in Z as [Z|Z].
        - apply (mul_0_l prec emax x y (inside_blank F x a Hx Z Fx) Fx Fy).
        - apply (mul_0_r x y (inside_blank F y b Hy Z Fy) Fx Fy). }
      rewrite M0. unfold Rminus at 1. rewrite Rplus_opp_r, Rabs_R0. simpl. lra.
    + rewrite E. pose proof (inside_abs F x a Hx Fx) as Xa. pose proof (inside_abs F y b Hy Fy) as Ya.
      change ((1 + u) ^ S (depth a + depth b)) with ((1 + u) * (1 + u) ^ (depth a + depth b)).
      rewrite pow_add. set (ga := (1 + u) ^ depth a) in *. set (gb := (1 + u) ^ depth b) in *.
      assert (Q0 : Rabs (B2R x * B2R y) <= ga * padded a * (gb * padded b)).
      { rewrite Rabs_mult. apply Rmult_le_compat; try apply Rabs_pos; assumption. }
      assert (Q1 : Rabs ((B2R x - exact a) * B2R y) <= (ga * padded a - size a) * (gb * padded b)).
      { rewrite Rabs_mult. apply Rmult_le_compat; try apply Rabs_pos; assumption. }
      assert (Q2 : Rabs (exact a * (B2R y - exact b)) <= size a * (gb * padded b - size b)).
      { rewrite Rabs_mult. apply Rmult_le_compat; try apply Rabs_pos; assumption. }
      assert (Q3 : Rabs (B2R x * B2R y * e) <= ga * padded a * (gb * padded b) * u).
      { rewrite Rabs_mult. apply Rmult_le_compat; try apply Rabs_pos; assumption. }
      replace (B2R x * B2R y * (1 + e) + h - exact a * exact b)
        with ((B2R x - exact a) * B2R y + exact a * (B2R y - exact b) + B2R x * B2R y * e + h) by ring.
      pose proof (Rabs_triang ((B2R x - exact a) * B2R y + exact a * (B2R y - exact b) + B2R x * B2R y * e) h).
      pose proof (Rabs_triang ((B2R x - exact a) * B2R y + exact a * (B2R y - exact b)) (B2R x * B2R y * e)).
      pose proof (Rabs_triang ((B2R x - exact a) * B2R y) (exact a * (B2R y - exact b))).
      assert (Q4 : eta <= (1 + u) * (ga * gb) * eta).
      { rewrite <- (Rmult_1_l eta) at 1. apply Rmult_le_compat_r; [lra|].
        pose proof (g_pos (S (depth a + depth b))) as G. simpl in G. rewrite pow_add in G. exact G. }
      replace ((1 + u) * (ga * gb) * (padded a * padded b + eta) - size a * size b)
        with ((ga * padded a - size a) * (gb * padded b) + size a * (gb * padded b - size b)
              + ga * padded a * (gb * padded b) * u + (1 + u) * (ga * gb) * eta) by ring.
      lra.
  - intros HF Hk. assert (HK : peak (bars_mul prec emax a b) < big) by exact Hk.
    change (Rmax (Rmax (peak a) (peak b)) ((1 + u) ^ depth (bars_mul prec emax a b) * padded (bars_mul prec emax a b)) < big) in HK.
    assert (Fx : is_finite x = true) by (apply Ga; [exact HF|lra]).
    assert (Fy : is_finite y = true) by (apply Gb; [exact HF|lra]).
    destruct (blank a || blank b) eqn:Z.
    + apply orb_true_iff in Z as [Z|Z].
      * apply (mul_0_l prec emax x y (inside_blank F x a Hx Z Fx) Fx Fy).
      * apply (mul_0_r x y (inside_blank F y b Hy Z Fy) Fx Fy).
    + apply (mul_finite prec emax); [exact Fx|exact Fy|]. unfold too_big.
      pose proof (inside_abs F x a Hx Fx) as Xa. pose proof (inside_abs F y b Hy Fy) as Ya.
      assert (D : depth (bars_mul prec emax a b) = S (depth a + depth b)) by (unfold bars_mul; simpl; rewrite Z; reflexivity).
      assert (Q : padded (bars_mul prec emax a b) = padded a * padded b + eta) by (unfold bars_mul; simpl; rewrite Z; reflexivity).
      rewrite D, Q in *. simpl pow in P3, HK. rewrite pow_add in P3, HK.
      set (ga := (1 + u) ^ depth a) in *. set (gb := (1 + u) ^ depth b) in *.
      assert (Q0 : (1 + u) * Rabs (B2R x * B2R y) <= (1 + u) * (ga * padded a * (gb * padded b))).
      { apply Rmult_le_compat_l; [lra|]. rewrite Rabs_mult. apply Rmult_le_compat; try apply Rabs_pos; assumption. }
      assert (Q4 : eta <= (1 + u) * (ga * gb) * eta).
      { rewrite <- (Rmult_1_l eta) at 1. apply Rmult_le_compat_r; [lra|].
        pose proof (g_pos (S (depth a + depth b))) as G. simpl in G. rewrite pow_add in G. exact G. }
      replace ((1 + u) * (ga * gb) * (padded a * padded b + eta))
        with ((1 + u) * (ga * padded a * (gb * padded b)) + (1 + u) * (ga * gb) * eta) in P3, HK by ring.
      lra.
Qed.

Lemma bars_sim F : ring_sim never (inside prec emax F) (float_ring prec emax) (bars_ops prec emax).
Proof.
  constructor; cbn [r_zero r_one r_add r_sub r_mul r_neg float_ring bars_ops].
  - apply inside_zero.
  - apply inside_one.
  - intros. apply sim_ok, inside_add; assumption.
  - intros. apply sim_ok. rewrite (sub_add prec emax). apply inside_add; [assumption|]. apply inside_neg. assumption.
  - intros. apply sim_ok, inside_mul; assumption.
  - intros. apply sim_ok, inside_neg. assumption.
Qed.

Lemma exact_hom : is_hom exact (bars_ops prec emax) real_ring.
Proof. constructor; reflexivity. Qed.
End Fmt.

(** ** Expressions *)
Open Scope nat_scope.
Lemma run_sim {A B} P (R : A -> B -> Prop) OA OB (HS : ring_sim P R OA OB) v w :
  (forall i, R (v i) (w i)) -> forall e, sim P R (run OA v e) (run OB w e).
Proof.
  intros Hv. induction e as [i| | |a IHa b IHb|a IHa b IHb|a IHa b IHb|a IHa]; cbn [run].
  - apply (sim_ok P), Hv.
  - apply (sim_ok P), (rs_zero _ _ _ _ HS).
  - apply (sim_ok P), (rs_one _ _ _ _ HS).
  - eapply (sim_bind P); [exact IHa|]. intros. eapply (sim_bind P); [exact IHb|]. intros. apply (rs_add _ _ _ _ HS); assumption.
  - eapply (sim_bind P); [exact IHa|]. intros. eapply (sim_bind P); [exact IHb|]. intros. apply (rs_sub _ _ _ _ HS); assumption.
  - eapply (sim_bind P); [exact IHa|]. intros. eapply (sim_bind P); [exact IHb|]. intros. apply (rs_mul _ _ _ _ HS); assumption.
  - eapply (sim_bind P); [exact IHa|]. intros. apply (rs_neg _ _ _ _ HS); assumption.
Qed.
Lemma run_hom {A B} (f : A -> B) OA OB (H : is_hom f OA OB) v e : run OB (fun i => f (v i)) e = omap f (run OA v e).
Proof.
  induction e as [i| | |a IHa b IHb|a IHa b IHb|a IHa b IHb|a IHa]; simpl.
  - reflexivity.
  - rewrite (hom_zero _ _ _ H). reflexivity.
  - rewrite (hom_one _ _ _ H). reflexivity.
  - rewrite IHa, IHb. destruct (run OA v a); try reflexivity. destruct (run OA v b); try reflexivity. apply (hom_add _ _ _ H).
  - rewrite IHa, IHb. destruct (run OA v a); try reflexivity. destruct (run OA v b); try reflexivity. apply (hom_sub _ _ _ H).
  - rewrite IHa, IHb. destruct (run OA v a); try reflexivity. destruct (run OA v b); try reflexivity. apply (hom_mul _ _ _ H).
  - rewrite IHa. destruct (run OA v a); try reflexivity. apply (hom_neg _ _ _ H).
Qed.

(** ** Places *)
Lemma base_at_rel {A B} (R : A -> B -> Prop) a0 b0 (H0 : R a0 b0) t : forall place (x : nval A t) y,
  nest_rel R t x y -> R (base_at a0 t place x) (base_at b0 t place y).
Proof.
  induction t as [|t IH|t IH|n t IH]; intros place x y H; simpl in *.
  - exact H.
  - destruct place as [|i place]; [exact H0|]. pose proof (Forall2_nth_error _ _ _ i H) as G.
    match goal with |- R (match ?a with _ => _ end) (match ?b with _ => _ end) =>
      change (match a, b with Some c, Some d => nest_rel R t c d | None, None => True | _, _ => False end) in G;
      destruct a, b end; try contradiction; [apply IH, G|exact H0].
  - destruct place as [|i place]; [exact H0|]. destruct H. destruct (i =? 0); apply IH; assumption.
  - destruct place as [|i [|j place]]; try exact H0. pose proof (Forall2_nth_error _ _ _ i H) as G.
    match goal with |- R (match ?a with _ => _ end) (match ?b with _ => _ end) =>
      change (match a, b with Some c, Some d => arel (nest_rel R t) c d | None, None => True | _, _ => False end) in G;
      destruct a as [r|], b as [s|] end; try contradiction; [|exact H0].
    pose proof (Forall2_nth_error _ _ _ j G) as G2.
    match goal with |- R (match ?a with _ => _ end) (match ?b with _ => _ end) =>
      change (match a, b with Some c, Some d => nest_rel R t c d | None, None => True | _, _ => False end) in G2;
      destruct a, b end; try contradiction; [apply IH, G2|exact H0].
Qed.

Lemma Forall2_map_r {A B} (R : A -> B -> Prop) (f : A -> B) l : (forall x, In x l -> R x (f x)) -> Forall2 R l (map f l).
Proof. induction l; simpl; intros; constructor; auto. Qed.

(** A value and its image are related if the base values are. *)
Lemma nest_rel_image {A B} (R : A -> B -> Prop) (f : A -> B) a0 t : forall x : nval A t,
  (forall place, R (base_at a0 t place x) (f (base_at a0 t place x))) -> nest_rel R t x (nest_image f t x).
Proof.
  induction t as [|t IH|t IH|n t IH]; intros x H; simpl.
  - exact (H []).
  - apply Forall2_map_r. intros c Hc. apply In_nth_error in Hc as [i Hi]. apply IH. intros place.
    specialize (H (i :: place)).
    change (R (match @nth_error (nval A t) x i with Some c => base_at a0 t place c | None => a0 end)
              (f (match @nth_error (nval A t) x i with Some c => base_at a0 t place c | None => a0 end))) in H.
    rewrite Hi in H. exact H.
  - split; simpl; apply IH; intros place; [exact (H (0 :: place))|exact (H (1 :: place))].
  - change (smatrix (nval A t) n n) in x. unfold arel at 1. rewrite entries_image. apply Forall2_map_r. intros r Hr. apply In_nth_error in Hr as [i Hi].
    unfold arel. rewrite entries_image. apply Forall2_map_r. intros c Hc. apply In_nth_error in Hc as [j Hj].
    apply IH. intros place. specialize (H (i :: j :: place)).
    change (R (match nth_error (entries x) i with
               | Some row => match @nth_error (nval A t) (entries row) j with Some c => base_at a0 t place c | None => a0 end | None => a0 end)
              (f (match nth_error (entries x) i with
               | Some row => match @nth_error (nval A t) (entries row) j with Some c => base_at a0 t place c | None => a0 end | None => a0 end))) in H.
    change (@nth_error (array (nval A t) n) (@entries (array (nval A t) n) n x) i = Some r) in Hi.
    rewrite Hi, Hj in H. exact H.
Qed.

Lemma base_at_image {A B} (f : A -> B) a0 t place : forall x : nval A t,
  base_at (f a0) t place (nest_image f t x) = f (base_at a0 t place x).
Proof.
  intros x. symmetry. apply (base_at_rel (fun a b => f a = b) a0 (f a0) eq_refl).
  apply (nest_rel_image _ f a0). reflexivity.
Qed.

(** ** Equal nested values have equal base values *)
Lemma matrix_zero {T} (O : RingOps T) n : r_zero (smatrix_ops O n) = tab n (fun _ => tab n (fun _ => r_zero O)).
Proof.
  cbn [r_zero smatrix_ops]. unfold smatrix_zero.
  rewrite (array_gen_const n _ (tab n (fun _ => r_zero O))); [reflexivity|].
  rewrite (array_gen_const n _ (r_zero O)) by reflexivity. reflexivity.
Qed.
Lemma nth_error_tab {T} n (f : nat -> T) i x : nth_error (entries (tab n f)) i = Some x -> x = f i.
Proof.
  rewrite entries_tab. intros H. assert (Hi : i < n).
  { rewrite <- (seq_length n 0), <- (map_length f). apply nth_error_Some. rewrite H. discriminate. }
  apply (nth_error_nth _ _ (f i)) in H. rewrite nth_map_seq in H by exact Hi. symmetry. exact H.
Qed.

Lemma base_at_zero {B} (O : RingOps B) t : forall place, base_at (r_zero O) t place (r_zero (nest_ops O t)) = r_zero O.
Proof.
  induction t as [|t IH|t IH|n t IH]; intros place.
  - reflexivity.
  - destruct place as [|i place]; [reflexivity|]. destruct i; reflexivity.
  - destruct place as [|i place]; [reflexivity|]. simpl. destruct (i =? 0); apply IH.
  - destruct place as [|i [|j place]]; try reflexivity.
    change (match @nth_error (array (nval B t) n) (entries (r_zero (smatrix_ops (nest_ops O t) n))) i with
            | Some row => match @nth_error (nval B t) (entries row) j with Some c => base_at (r_zero O) t place c | None => r_zero O end
            | None => r_zero O end = r_zero O).
    rewrite matrix_zero.
    match goal with |- match ?a with _ => _ end = _ => destruct a as [row|] eqn:E; [|reflexivity] end.
    match goal with |- match ?a with _ => _ end = _ => destruct a as [c|] eqn:E2; [|reflexivity] end.
    apply nth_error_tab in E. subst row. apply nth_error_tab in E2. subst c. apply IH.
Qed.

Lemma base_at_same {B} (O : RingOps B) t : forall place (x y : nval B t),
  nest_same O eq t x y -> base_at (r_zero O) t place x = base_at (r_zero O) t place y.
Proof.
  induction t as [|t IH|t IH|n t IH]; intros place x y H.
  - exact H.
  - destruct place as [|i place]; [reflexivity|].
    assert (K : forall p : list (nval B t), base_at (r_zero O) (NPoly t) (i :: place) p
              = base_at (r_zero O) t place (nth i p (r_zero (nest_ops O t)))).
    { intros p. change (match @nth_error (nval B t) p i with Some c => base_at (r_zero O) t place c | None => r_zero O end
                        = base_at (r_zero O) t place (nth i p (r_zero (nest_ops O t)))).
      destruct (nth_error p i) as [c|] eqn:E.
      - rewrite (nth_error_nth _ _ _ E). reflexivity.
      - rewrite nth_overflow by (apply nth_error_None, E). symmetry. apply base_at_zero. }
    rewrite (K x), (K y). apply IH. exact (H i).
  - destruct place as [|i place]; [reflexivity|]. destruct H as [H1 H2]. simpl. destruct (i =? 0); apply IH; assumption.
  - destruct place as [|i [|j place]]; try reflexivity.
    change (smatrix (nval B t) n n) in x, y.
    assert (K : forall a : smatrix (nval B t) n n, base_at (r_zero O) (NMat n t) (i :: j :: place) a
              = match nth_error (nth i (map entries (entries a)) []) j with Some c => base_at (r_zero O) t place c | None => r_zero O end).
    { intros a. change (match @nth_error (array (nval B t) n) (entries a) i with
            | Some row => match @nth_error (nval B t) (entries row) j with Some c => base_at (r_zero O) t place c | None => r_zero O end
            | None => r_zero O end = match nth_error (nth i (map entries (entries a)) []) j with Some c => base_at (r_zero O) t place c | None => r_zero O end).
      destruct (@nth_error (array (nval B t) n) (entries a) i) as [row|] eqn:E.
      - rewrite (nth_error_nth (map entries (entries a)) i [] (map_nth_error entries _ _ E)). reflexivity.
      - rewrite nth_overflow by (rewrite map_length; apply nth_error_None, E). destruct j; reflexivity. }
    rewrite (K x), (K y).
    assert (Lx : forall a : smatrix (nval B t) n n, i < n -> length (nth i (map entries (entries a)) []) = n).
    { intros a Hi. rewrite (nth_indep _ [] (entries (tab n (fun _ => r_zero (nest_ops O t))))) by (rewrite map_length, entries_length; exact Hi).
      rewrite map_nth. apply entries_length. }
    destruct (le_lt_dec n i) as [Hi|Hi].
    { rewrite !nth_overflow by (rewrite map_length, entries_length; exact Hi). destruct j; reflexivity. }
    destruct (le_lt_dec n j) as [Hj|Hj].
    { rewrite (proj2 (nth_error_None (nth i (map entries (entries x)) []) j)) by (rewrite Lx; assumption).
      rewrite (proj2 (nth_error_None (nth i (map entries (entries y)) []) j)) by (rewrite Lx; assumption). reflexivity. }
    destruct (nth_error (nth i (map entries (entries x)) []) j) as [c|] eqn:E1.
    2: { apply nth_error_None in E1. rewrite Lx in E1 by exact Hi. lia. }
    destruct (nth_error (nth i (map entries (entries y)) []) j) as [d|] eqn:E2.
    2: { apply nth_error_None in E2. rewrite Lx in E2 by exact Hi. lia. }
    apply IH. exact (H i j c d Hi Hj E1 E2).
Qed.
