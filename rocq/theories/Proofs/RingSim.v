(** The generic code of polynomial.rs, complex.rs, svector.rs, smatrix.rs and the dot
    product of dvector.rs is parametric in the element type: whatever relates the element
    operations also relates the results.  (Proof device for C47-C50.) *)
From Coq Require Import List Arith Lia Bool NArith.
From Verif Require Import Base.Outcome Base.Array Base.Usize Base.Sim Model.Traits Model.Polynomial
  Model.Complex Model.SVector Model.SMatrix Model.DVector Model.DMatrix.
Import ListNotations.

Record ring_sim {T1 T2} (P : panic -> Prop) (R : T1 -> T2 -> Prop)
    (O1 : RingOps T1) (O2 : RingOps T2) : Prop := MkRingSim {
  rs_zero : R (r_zero O1) (r_zero O2);
  rs_one : R (r_one O1) (r_one O2);
  rs_add : forall x1 x2 y1 y2, R x1 x2 -> R y1 y2 -> sim P R (r_add O1 x1 y1) (r_add O2 x2 y2);
  rs_sub : forall x1 x2 y1 y2, R x1 x2 -> R y1 y2 -> sim P R (r_sub O1 x1 y1) (r_sub O2 x2 y2);
  rs_mul : forall x1 x2 y1 y2, R x1 x2 -> R y1 y2 -> sim P R (r_mul O1 x1 y1) (r_mul O2 x2 y2);
  rs_neg : forall x1 x2, R x1 x2 -> sim P R (r_neg O1 x1) (r_neg O2 x2)
}.

Definition crel {T1 T2} (R : T1 -> T2 -> Prop) (z : complex T1) (w : complex T2) : Prop :=
  R (re z) (re w) /\ R (im z) (im w).

Section RingSim.
Context {T1 T2 : Type} (P : panic -> Prop) (R : T1 -> T2 -> Prop)
        (O1 : RingOps T1) (O2 : RingOps T2) (HS : ring_sim P R O1 O2).
Notation sim := (sim P).
Notation prel := (Forall2 R).

Ltac elt := first [ apply (rs_add _ _ _ _ HS) | apply (rs_sub _ _ _ _ HS)
                  | apply (rs_mul _ _ _ _ HS) | apply (rs_neg _ _ _ _ HS) ].

(** ** Polynomials *)
Lemma sim_poly_eval p1 p2 x1 x2 : prel p1 p2 -> R x1 x2 ->
  sim R (poly_eval_ref O1 p1 x1) (poly_eval_ref O2 p2 x2).
Proof.
  intros Hp Hx. unfold poly_eval_ref. apply (sim_for_each P R R).
  - apply Forall2_rev, Hp.
  - intros a1 a2 y1 y2 Ha Hy. eapply sim_bind; [elt; eassumption|]. intros. elt; assumption.
  - apply (rs_zero _ _ _ _ HS).
Qed.

Lemma sim_poly_add_rec fuel p1 p2 q1 q2 : prel p1 p2 -> prel q1 q2 ->
  sim prel (poly_add_rec O1 fuel p1 q1) (poly_add_rec O2 fuel p2 q2).
Proof.
  revert p1 p2 q1 q2. induction fuel as [|fuel IH]; intros p1 p2 q1 q2 Hp Hq; simpl; [reflexivity|].
  rewrite (Forall2_length _ _ _ Hp), (Forall2_length _ _ _ Hq).
  destruct (length p2 <? length q2); [apply IH; assumption|].
  eapply (sim_for_each P); [apply Forall2_enumerate, Hq| |exact Hp].
  intros [i x1] [j x2] t1 t2 [He Hx] Ht. simpl in He, Hx. subst j.
  apply sim_vupd; [exact Ht|]. intros; elt; assumption.
Qed.

Lemma sim_poly_add p1 p2 q1 q2 : prel p1 p2 -> prel q1 q2 ->
  sim prel (poly_add O1 p1 q1) (poly_add O2 p2 q2).
Proof. apply sim_poly_add_rec. Qed.

Lemma sim_poly_add_assign p1 p2 q1 q2 : prel p1 p2 -> prel q1 q2 ->
  sim prel (poly_add_assign O1 p1 q1) (poly_add_assign O2 p2 q2).
Proof.
  intros Hp Hq. unfold poly_add_assign. rewrite (Forall2_length _ _ _ Hp).
  eapply (sim_for_each P); [apply Forall2_enumerate, Hq| |exact Hp].
  intros [i x1] [j x2] t1 t2 [He Hx] Ht. simpl in He, Hx. subst j.
  destruct (i <? length p2).
  - apply sim_vupd; [exact Ht|]. intros; elt; assumption.
  - apply sim_ok. apply Forall2_app; [exact Ht|]. constructor; [exact Hx|constructor].
Qed.

Lemma prel_resize p1 p2 n : prel p1 p2 ->
  prel (resize_with p1 n (r_zero O1)) (resize_with p2 n (r_zero O2)).
Proof.
  intros Hp. unfold resize_with. rewrite (Forall2_length _ _ _ Hp).
  apply Forall2_app; [exact Hp|]. apply Forall2_repeat, (rs_zero _ _ _ _ HS).
Qed.

Lemma sim_poly_add_assign_ref p1 p2 q1 q2 : prel p1 p2 -> prel q1 q2 ->
  sim prel (poly_add_assign_ref O1 p1 q1) (poly_add_assign_ref O2 p2 q2).
Proof.
  intros Hp Hq. unfold poly_add_assign_ref.
  pose proof (Forall2_length _ _ _ Hp) as Lp. pose proof (Forall2_length _ _ _ Hq) as Lq.
  apply sim_for_range; [reflexivity|exact Lq| |].
  - rewrite Lp, Lq. destruct (length p2 <? length q2); [apply prel_resize|]; exact Hp.
  - intros i t1 t2 Ht. eapply sim_bind; [apply sim_vget, Hq|]. intros x1 x2 Hx.
    apply sim_vupd; [exact Ht|]. intros; elt; assumption.
Qed.

Lemma sim_poly_sub_assign_ref p1 p2 q1 q2 : prel p1 p2 -> prel q1 q2 ->
  sim prel (poly_sub_assign_ref O1 p1 q1) (poly_sub_assign_ref O2 p2 q2).
Proof.
  intros Hp Hq. unfold poly_sub_assign_ref.
  pose proof (Forall2_length _ _ _ Hp) as Lp. pose proof (Forall2_length _ _ _ Hq) as Lq.
  apply sim_for_range; [reflexivity|exact Lq| |].
  - rewrite Lp, Lq. destruct (length p2 <? length q2); [apply prel_resize|]; exact Hp.
  - intros i t1 t2 Ht. eapply sim_bind; [apply sim_vget, Hq|]. intros x1 x2 Hx.
    apply sim_vupd; [exact Ht|]. intros; elt; assumption.
Qed.

Lemma sim_poly_neg p1 p2 : prel p1 p2 -> sim prel (poly_neg O1 p1) (poly_neg O2 p2).
Proof. intros Hp. eapply sim_mapM; [exact Hp|]. intros; elt; assumption. Qed.

Lemma sim_poly_sub p1 p2 q1 q2 : prel p1 p2 -> prel q1 q2 ->
  sim prel (poly_sub O1 p1 q1) (poly_sub O2 p2 q2).
Proof.
  intros Hp Hq. eapply sim_bind; [apply sim_poly_neg, Hq|]. intros. apply sim_poly_add; assumption.
Qed.

Lemma sim_poly_sub_assign p1 p2 q1 q2 : prel p1 p2 -> prel q1 q2 ->
  sim prel (poly_sub_assign O1 p1 q1) (poly_sub_assign O2 p2 q2).
Proof.
  intros Hp Hq. eapply sim_bind; [apply sim_poly_neg, Hq|]. intros. apply sim_poly_add_assign; assumption.
Qed.

Lemma sim_poly_mul p1 p2 q1 q2 : prel p1 p2 -> prel q1 q2 ->
  sim prel (poly_mul_ref O1 p1 q1) (poly_mul_ref O2 p2 q2).
Proof.
  intros Hp Hq. unfold poly_mul_ref.
  pose proof (Forall2_length _ _ _ Hp) as Lp. pose proof (Forall2_length _ _ _ Hq) as Lq.
  rewrite Lp, Lq. destruct ((length p2 =? 0) || (length q2 =? 0)); [apply sim_ok; constructor|].
  eapply sim_bind; [|intros a1 a2 Ha; apply sim_ok, Ha].
  apply sim_for_range; [reflexivity|reflexivity|apply Forall2_repeat, (rs_zero _ _ _ _ HS)|].
  intros i t1 t2 Ht. apply sim_for_range; [reflexivity|reflexivity|exact Ht|].
  intros j u1 u2 Hu. eapply sim_bind; [apply sim_vget, Hp|]. intros x1 x2 Hx.
  eapply sim_bind; [apply sim_vget, Hq|]. intros y1 y2 Hy.
  eapply sim_bind; [elt; eassumption|]. intros z1 z2 Hz.
  apply sim_vupd; [exact Hu|]. intros; elt; assumption.
Qed.

Lemma poly_ring_sim : ring_sim P prel (poly_ops O1) (poly_ops O2).
Proof.
  constructor; cbn [poly_ops r_zero r_one r_add r_sub r_mul r_neg].
  - constructor.
  - constructor; [apply (rs_one _ _ _ _ HS)|constructor].
  - exact sim_poly_add_assign_ref.
  - exact sim_poly_sub_assign_ref.
  - exact sim_poly_mul.
  - exact sim_poly_neg.
Qed.

(** ** Complex numbers *)
Notation crel := (crel R).

Ltac cstep := first [ eapply sim_bind; [elt; eassumption|intros ? ? ?]
                    | apply sim_ok; split; assumption ].

Lemma sim_complex_add z1 z2 w1 w2 : crel z1 z2 -> crel w1 w2 ->
  sim crel (complex_add_assign_ref O1 z1 w1) (complex_add_assign_ref O2 z2 w2).
Proof. intros [] []. unfold complex_add_assign_ref. repeat cstep. Qed.

Lemma sim_complex_sub z1 z2 w1 w2 : crel z1 z2 -> crel w1 w2 ->
  sim crel (complex_sub_assign_ref O1 z1 w1) (complex_sub_assign_ref O2 z2 w2).
Proof. intros [] []. unfold complex_sub_assign_ref. repeat cstep. Qed.

Lemma sim_complex_mul z1 z2 w1 w2 : crel z1 z2 -> crel w1 w2 ->
  sim crel (complex_mul_ref O1 z1 w1) (complex_mul_ref O2 z2 w2).
Proof. intros [] []. unfold complex_mul_ref. repeat cstep. Qed.

Lemma sim_complex_neg z1 z2 : crel z1 z2 ->
  sim crel (complex_neg (r_neg O1) z1) (complex_neg (r_neg O2) z2).
Proof. intros []. unfold complex_neg. repeat cstep. Qed.

Lemma sim_complex_conj z1 z2 : crel z1 z2 ->
  sim crel (complex_conj (r_neg O1) z1) (complex_conj (r_neg O2) z2).
Proof. intros []. unfold complex_conj. repeat cstep. Qed.

Lemma sim_complex_scale z1 z2 t1 t2 : crel z1 z2 -> R t1 t2 ->
  sim crel (complex_mul_scalar O1 z1 t1) (complex_mul_scalar O2 z2 t2).
Proof. intros [] ?. unfold complex_mul_scalar. repeat cstep. Qed.

Lemma sim_complex_sqr_norm z1 z2 : crel z1 z2 ->
  sim R (complex_sqr_norm O1 z1) (complex_sqr_norm O2 z2).
Proof. intros []. unfold complex_sqr_norm. do 2 cstep. elt; assumption. Qed.

Lemma complex_ring_sim : ring_sim P crel (complex_ops O1) (complex_ops O2).
Proof.
  pose proof (rs_zero _ _ _ _ HS). pose proof (rs_one _ _ _ _ HS).
  constructor; cbn [complex_ops r_zero r_one r_add r_sub r_mul r_neg].
  - split; assumption.
  - split; assumption.
  - exact sim_complex_add.
  - exact sim_complex_sub.
  - exact sim_complex_mul.
  - exact sim_complex_neg.
Qed.

(** ** Static vectors and matrices *)
Lemma sim_svector_add n (u1 : svector T1 n) u2 v1 v2 : arel R u1 u2 -> arel R v1 v2 ->
  sim (arel R) (svector_add_assign_ref O1 u1 v1) (svector_add_assign_ref O2 u2 v2).
Proof. intros Hu Hv. eapply sim_array_zip_mut; [exact Hu|exact Hv|]. intros; elt; assumption. Qed.

Lemma sim_svector_sub n (u1 : svector T1 n) u2 v1 v2 : arel R u1 u2 -> arel R v1 v2 ->
  sim (arel R) (svector_sub_assign_ref O1 u1 v1) (svector_sub_assign_ref O2 u2 v2).
Proof. intros Hu Hv. eapply sim_array_zip_mut; [exact Hu|exact Hv|]. intros; elt; assumption. Qed.

Lemma sim_svector_scale n (u1 : svector T1 n) u2 t1 t2 : arel R u1 u2 -> R t1 t2 ->
  sim (arel R) (svector_scale_assign_ref O1 u1 t1) (svector_scale_assign_ref O2 u2 t2).
Proof. intros Hu Ht. eapply sim_array_map; [exact Hu|]. intros; elt; assumption. Qed.

Lemma sim_mul_add_loop (l1 : list (T1 * T1)) (l2 : list (T2 * T2)) s1 s2 :
  Forall2 (fun p q => R (fst p) (fst q) /\ R (snd p) (snd q)) l1 l2 -> R s1 s2 ->
  sim R (for_each (fun '(l, r) sum => prod <- r_mul O1 l r ;; r_add O1 sum prod) l1 s1)
        (for_each (fun '(l, r) sum => prod <- r_mul O2 l r ;; r_add O2 sum prod) l2 s2).
Proof.
  intros Hl Hs. eapply (sim_for_each P); [exact Hl| |exact Hs].
  intros [x1 y1] [x2 y2] t1 t2 [Hx Hy] Ht. simpl in Hx, Hy.
  eapply sim_bind; [elt; eassumption|]. intros. elt; assumption.
Qed.

Lemma sim_svector_dot n (u1 : svector T1 n) u2 v1 v2 : arel R u1 u2 -> arel R v1 v2 ->
  sim R (svector_dot_ref O1 u1 v1) (svector_dot_ref O2 u2 v2).
Proof.
  intros Hu Hv. apply sim_mul_add_loop; [apply Forall2_combine; assumption|apply (rs_zero _ _ _ _ HS)].
Qed.

Notation mrel := (arel (arel R)).

Lemma sim_smatrix_zero m n : sim mrel (smatrix_zero O1 m n) (smatrix_zero O2 m n).
Proof.
  apply sim_array_gen. intros _. eapply sim_bind.
  - apply sim_array_gen. intros _. apply sim_ok. split; [apply (rs_zero _ _ _ _ HS)|reflexivity].
  - intros r1 r2 Hr. apply sim_ok. split; [exact Hr|reflexivity].
Qed.

Lemma sim_smatrix_one m n : sim mrel (smatrix_one O1 m n) (smatrix_one O2 m n).
Proof.
  apply sim_array_gen. intros i. eapply sim_bind.
  - apply sim_array_gen. intros j. apply sim_ok. split; [|reflexivity]. simpl.
    destruct (i =? j); [apply (rs_one _ _ _ _ HS)|apply (rs_zero _ _ _ _ HS)].
  - intros r1 r2 Hr. apply sim_ok. split; [exact Hr|reflexivity].
Qed.

Lemma sim_smatrix_add m n (a1 : smatrix T1 m n) a2 b1 b2 : mrel a1 a2 -> mrel b1 b2 ->
  sim mrel (smatrix_add_assign_ref O1 a1 b1) (smatrix_add_assign_ref O2 a2 b2).
Proof.
  intros Ha Hb. eapply sim_array_zip_mut; [exact Ha|exact Hb|].
  intros. eapply sim_array_zip_mut; [eassumption|eassumption|]. intros; elt; assumption.
Qed.

Lemma sim_smatrix_sub m n (a1 : smatrix T1 m n) a2 b1 b2 : mrel a1 a2 -> mrel b1 b2 ->
  sim mrel (smatrix_sub_assign_ref O1 a1 b1) (smatrix_sub_assign_ref O2 a2 b2).
Proof.
  intros Ha Hb. eapply sim_array_zip_mut; [exact Ha|exact Hb|].
  intros. eapply sim_array_zip_mut; [eassumption|eassumption|]. intros; elt; assumption.
Qed.

Lemma sim_smatrix_neg m n (a1 : smatrix T1 m n) a2 : mrel a1 a2 ->
  sim mrel (smatrix_neg O1 a1) (smatrix_neg O2 a2).
Proof.
  intros Ha. eapply sim_array_map; [exact Ha|]. intros. eapply sim_array_map; [eassumption|].
  intros; elt; assumption.
Qed.

Lemma sim_smatrix_mul l m n (a1 : smatrix T1 l m) a2 (b1 : smatrix T1 m n) b2 :
  mrel a1 a2 -> mrel b1 b2 -> sim mrel (smatrix_mul_refs O1 a1 b1) (smatrix_mul_refs O2 a2 b2).
Proof.
  intros Ha Hb. apply sim_array_gen. intros i. eapply sim_bind.
  - apply sim_array_gen. intros j. eapply sim_bind.
    + apply sim_for_range; [reflexivity|reflexivity|apply (rs_zero _ _ _ _ HS)|].
      intros k s1 s2 Hs.
      eapply sim_bind; [apply (sim_array_get P (arel R)), Ha|]. intros r1 r2 Hr.
      eapply sim_bind; [apply sim_array_get, Hr|]. intros x1 x2 Hx.
      eapply sim_bind; [apply (sim_array_get P (arel R)), Hb|]. intros c1 c2 Hc.
      eapply sim_bind; [apply sim_array_get, Hc|]. intros y1 y2 Hy.
      eapply sim_bind; [elt; eassumption|]. intros. elt; assumption.
    + intros s1 s2 Hs. apply sim_ok. split; [exact Hs|reflexivity].
  - intros r1 r2 Hr. apply sim_ok. split; [exact Hr|reflexivity].
Qed.

Lemma sim_smatrix_mul_vec m n (a1 : smatrix T1 m n) a2 (v1 : svector T1 n) v2 :
  mrel a1 a2 -> arel R v1 v2 -> sim (arel R) (smatrix_mul_vec O1 a1 v1) (smatrix_mul_vec O2 a2 v2).
Proof.
  intros Ha Hv. apply sim_array_gen. intros i.
  eapply sim_bind; [apply (sim_array_get P (arel R)), Ha|]. intros r1 r2 Hr.
  eapply sim_bind.
  - apply sim_mul_add_loop; [apply Forall2_combine; [exact Hr|exact Hv]|apply (rs_zero _ _ _ _ HS)].
  - intros s1 s2 Hs. apply sim_ok. split; [exact Hs|reflexivity].
Qed.

Lemma array_gen_unit_ok {A} n (body : unit -> outcome (A * unit)) x :
  body tt = Ok (x, tt) -> array_gen n body tt = Ok (tab n (fun _ => x)).
Proof. apply array_gen_const. Qed.

Lemma smatrix_ring_sim n : ring_sim P mrel (smatrix_ops O1 n) (smatrix_ops O2 n).
Proof.
  constructor; cbn [smatrix_ops r_zero r_one r_add r_sub r_mul r_neg].
  - pose proof (sim_smatrix_zero n n) as H.
    assert (Hz : arel (arel R) (tab n (fun _ => tab n (fun _ => r_zero O1)))
                               (tab n (fun _ => tab n (fun _ => r_zero O2))))
      by (apply arel_tab; intros; apply arel_tab; intros; apply (rs_zero _ _ _ _ HS)).
    destruct (smatrix_zero O1 n n) as [a| |] eqn:E.
    + destruct H as (b & -> & H). exact H.
    + exfalso. unfold smatrix_zero in E.
      rewrite (array_gen_unit_ok n _ (tab n (fun _ => r_zero O1))) in E; [discriminate|].
      rewrite (array_gen_unit_ok n _ (r_zero O1)); reflexivity.
    + exfalso. unfold smatrix_zero in E.
      rewrite (array_gen_unit_ok n _ (tab n (fun _ => r_zero O1))) in E; [discriminate|].
      rewrite (array_gen_unit_ok n _ (r_zero O1)); reflexivity.
  - pose proof (sim_smatrix_one n n) as H.
    assert (E : exists a, smatrix_one O1 n n = Ok a).
    { unfold smatrix_one. eexists. erewrite array_gen_tab0; [reflexivity|].
      intros i Hi. erewrite array_gen_tab0.
      - simpl. rewrite Nat.add_1_r. reflexivity.
      - intros j Hj. rewrite Nat.add_1_r. reflexivity. }
    destruct E as (a & E). rewrite E in *. destruct H as (b & -> & H). exact H.
  - apply sim_smatrix_add.
  - apply sim_smatrix_sub.
  - apply sim_smatrix_mul.
  - apply sim_smatrix_neg.
Qed.

(** ** Dot product of dynamic vectors *)
Lemma sim_dvector_dot (cj1 : T1 -> outcome T1) (cj2 : T2 -> outcome T2) u1 u2 v1 v2 :
  (forall x1 x2, R x1 x2 -> sim R (cj1 x1) (cj2 x2)) ->
  Forall2 R u1 u2 -> Forall2 R v1 v2 ->
  sim R (dvector_dot_ref (r_zero O1) (r_add O1) (r_mul O1) cj1 u1 v1)
        (dvector_dot_ref (r_zero O2) (r_add O2) (r_mul O2) cj2 u2 v2).
Proof.
  intros Hc Hu Hv. eapply (sim_for_each P); [apply Forall2_combine; [exact Hu|exact Hv]| |apply (rs_zero _ _ _ _ HS)].
  intros [x1 y1] [x2 y2] t1 t2 [Hx Hy] Ht. simpl in Hx, Hy.
  eapply sim_bind; [apply Hc, Hx|]. intros.
  eapply sim_bind; [elt; eassumption|]. intros. elt; assumption.
Qed.
End RingSim.

(** ** Dynamic matrices *)
Definition dmrel {A B} (R : A -> B -> Prop) (a : dmatrix A) (b : dmatrix B) : Prop :=
  Forall2 R (dm_data a) (dm_data b) /\ dm_rows a = dm_rows b /\ dm_cols a = dm_cols b.

Lemma sim_sget {A B} P (R : A -> B -> Prop) l1 l2 i :
  Forall2 R l1 l2 -> sim P R (sget l1 i) (sget l2 i).
Proof. intros H. rewrite !sget_vget. apply sim_vget, H. Qed.

Lemma sim_refl {A} P (m : outcome A) : sim P eq m m.
Proof. destruct m; simpl; eauto. Qed.

Lemma sim_dmatrix_entry {A B} P (R : A -> B -> Prop) md a b r c :
  dmrel R a b -> sim P R (dmatrix_entry md a r c) (dmatrix_entry md b r c).
Proof.
  intros (Hd & _ & Hc). unfold dmatrix_entry. rewrite Hc.
  eapply sim_bind; [apply sim_refl|]. intros i ? <-. apply sim_sget, Hd.
Qed.

Lemma sim_dmatrix_mul_entry {T1 T2} P (R : T1 -> T2 -> Prop) O1 O2 (HS : ring_sim P R O1 O2)
    md a1 a2 b1 b2 r c : dmrel R a1 a2 -> dmrel R b1 b2 ->
  sim P R (mul_dmatrix_entry md (r_mul O1) (r_add O1) a1 b1 r c)
          (mul_dmatrix_entry md (r_mul O2) (r_add O2) a2 b2 r c).
Proof.
  intros Ha Hb. unfold mul_dmatrix_entry.
  eapply sim_bind; [apply sim_dmatrix_entry, Ha|]. intros x1 x2 Hx.
  eapply sim_bind; [apply sim_dmatrix_entry, Hb|]. intros y1 y2 Hy.
  eapply sim_bind; [apply (rs_mul _ _ _ _ HS); eassumption|]. intros s1 s2 Hs.
  replace (dm_cols a2) with (dm_cols a1) by apply Ha.
  apply (sim_for_each P eq R); [apply Forall2_refl| |exact Hs].
  intros i ? t1 t2 <- Ht.
  eapply sim_bind; [apply sim_dmatrix_entry, Ha|]. intros.
  eapply sim_bind; [apply sim_dmatrix_entry, Hb|]. intros.
  eapply sim_bind; [apply (rs_mul _ _ _ _ HS); eassumption|]. intros.
  apply (rs_add _ _ _ _ HS); assumption.
Qed.

(** [(&a * &b).eval()]. *)
Lemma sim_dmatrix_product {T1 T2} P (R : T1 -> T2 -> Prop) O1 O2 (HS : ring_sim P R O1 O2)
    md a1 a2 b1 b2 : dmrel R a1 a2 -> dmrel R b1 b2 ->
  sim P (dmrel R) (e <- dmatrix_mul md (r_mul O1) (r_add O1) a1 b1 ;; m_eval e)
                  (e <- dmatrix_mul md (r_mul O2) (r_add O2) a2 b2 ;; m_eval e).
Proof.
  intros Ha Hb. unfold dmatrix_mul. rewrite !bind_assoc.
  pose proof Ha as (_ & Hra & Hca). pose proof Hb as (_ & Hrb & Hcb). rewrite Hra, Hca, Hrb, Hcb.
  eapply sim_bind; [apply sim_refl|]. intros _ _ _. simpl. unfold mexpr_default_eval.
  eapply sim_bind.
  - apply (sim_mapM P eq R); [apply Forall2_refl|]. intros [r c] ? <-.
    apply sim_dmatrix_mul_entry; assumption.
  - intros d1 d2 Hd. apply sim_ok. split; [exact Hd|]. split; reflexivity.
Qed.
