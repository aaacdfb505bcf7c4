(** SVector and SMatrix operations compute the textbook entries. *)
From Coq Require Import List Arith Lia Bool Setoid Morphisms.
From Verif Require Import Base.Outcome Base.Array Model.Traits Model.SVector Model.SMatrix
  Spec.Ring Spec.Sums Spec.Agree Spec.Matrix Proofs.RingTheory.
Import ListNotations.

Lemma combine_as_map {A B} (l : list A) (r : list B) da db : length l = length r ->
  combine l r = map (fun i => (nth i l da, nth i r db)) (seq 0 (length l)).
Proof.
  revert r; induction l as [|x l IH]; intros [|y r] H; simpl in *; try discriminate; [reflexivity|].
  f_equal. rewrite (IH r) by lia. rewrite <- seq_shift, map_map. reflexivity.
Qed.

Lemma for_each_map {A B S} (f : A -> B) (body : B -> S -> outcome S) l s :
  for_each body (map f l) s = for_each (fun x => body (f x)) l s.
Proof. revert s; induction l as [|x l IH]; intros s; simpl; [reflexivity|]. apply bind_ext; intros; apply IH. Qed.

Section P.
Context {T : Type} (O : RingOps T) (R : ring_sig T) (HI : implements O R).

Lemma r0 : r_zero O = sz R. Proof. apply (impl_zero O R HI). Qed.
Lemma r1 : r_one O = so R. Proof. apply (impl_one O R HI). Qed.

(** Left-to-right accumulation is [sum_n]. *)
Lemma for_range_sum n (body : nat -> T -> outcome T) f :
  (forall i s, i < n -> body i s = Ok (sadd R s (f i))) ->
  for_range 0 n body (sz R) = Ok (sum_n R n f).
Proof.
  intros H. unfold for_range. rewrite Nat.sub_0_r. revert H.
  induction n as [|n IH]; intros H; [reflexivity|].
  rewrite seq_S, for_each_app, IH by (intros; apply H; lia). simpl.
  rewrite H by lia. reflexivity.
Qed.

Lemma dot_total {n} (u v : svector T n) :
  for_each (fun '(l, r) sum => prod <- r_mul O l r ;; r_add O sum prod)
           (combine (entries u) (entries v)) (r_zero O)
  = Ok (sum_n R n (fun i => smul R (vec_at R u i) (vec_at R v i))).
Proof.
  rewrite (combine_as_map _ _ (sz R) (sz R)) by (rewrite !entries_length; reflexivity).
  rewrite for_each_map, entries_length, r0.
  change (seq 0 n) with (seq 0 n).
  assert (H := for_range_sum n (fun i sum => prod <- r_mul O (vec_at R u i) (vec_at R v i) ;; r_add O sum prod)
           (fun i => smul R (vec_at R u i) (vec_at R v i))).
  unfold for_range in H. rewrite Nat.sub_0_r in H. apply H.
  intros i s _. rewrite (impl_mul O R HI). simpl. apply (impl_add O R HI).
Qed.

(** ** SVector *)
Section V.
Context {n : nat}.
Implicit Types u v : svector T n.

Definition vtab (f : nat -> T) : svector T n := tab n f.

Lemma vec_at_tab f i : i < n -> vec_at R (vtab f) i = f i.
Proof. apply (ent_tab (sz R)). Qed.

Lemma svector_zero_total : svector_zero O = Ok (vtab (fun _ => sz R)).
Proof. unfold svector_zero. rewrite <- r0. apply array_gen_const. reflexivity. Qed.

Lemma svector_add_total u v :
  svector_add_assign_ref O u v = Ok (vtab (fun i => sadd R (vec_at R u i) (vec_at R v i))).
Proof. apply (array_zip_mut_tab _ (sadd R) (sz R) (sz R)). apply (impl_add O R HI). Qed.

Lemma svector_sub_total u v :
  svector_sub_assign_ref O u v = Ok (vtab (fun i => ssub R (vec_at R u i) (vec_at R v i))).
Proof. apply (array_zip_mut_tab _ (ssub R) (sz R) (sz R)). apply (impl_sub O R HI). Qed.

Lemma svector_scale_total u s :
  svector_scale_assign_ref O u s = Ok (vtab (fun i => smul R (vec_at R u i) s)).
Proof. apply (array_map_tab _ (fun x => smul R x s) (sz R)). intros; apply (impl_mul O R HI). Qed.

Lemma svector_dot_total u v :
  svector_dot_ref O u v = Ok (sum_n R n (fun i => smul R (vec_at R u i) (vec_at R v i))).
Proof. apply dot_total. Qed.
End V.

(** ** SMatrix *)
Definition mtab m n (f : nat -> nat -> T) : smatrix T m n := tab m (fun i => tab n (f i)).

Lemma mat_at_ent {m n} (a : smatrix T m n) i j d : i < m ->
  mat_at R a i j = ent (sz R) (ent d a i) j.
Proof.
  intros H. unfold mat_at, ent. f_equal.
  rewrite (nth_indep _ [] (entries d)) by (rewrite map_length, entries_length; exact H).
  apply map_nth.
Qed.

Lemma mat_at_tab m n f i j : i < m -> j < n -> mat_at R (mtab m n f) i j = f i j.
Proof.
  intros Hi Hj. rewrite (mat_at_ent _ i j (tab n (fun _ => sz R))) by exact Hi.
  unfold mtab. rewrite ent_tab by exact Hi. apply ent_tab; exact Hj.
Qed.

Lemma smatrix_zero_total m n : smatrix_zero O m n = Ok (mtab m n (fun _ _ => sz R)).
Proof.
  unfold smatrix_zero, mtab. apply array_gen_const. rewrite <- r0.
  rewrite (array_gen_const n _ (r_zero O)) by reflexivity. reflexivity.
Qed.

Lemma smatrix_one_total m n : smatrix_one O m n = Ok (mtab m n (delta R)).
Proof.
  unfold smatrix_one, mtab. apply array_gen_tab0. intros i Hi.
  rewrite (array_gen_tab0 n _ (delta R i)).
  - simpl. do 2 f_equal. lia.
  - intros j Hj. unfold delta. rewrite r0, r1. do 2 f_equal. lia.
Qed.

Lemma zip2_tab (g : T -> T -> T) (f : T -> T -> outcome T) {m n} (a b : smatrix T m n) :
  (forall x y, f x y = Ok (g x y)) ->
  array_zip_mut (fun lo ro => array_zip_mut f lo ro) a b
  = Ok (mtab m n (fun i j => g (mat_at R a i j) (mat_at R b i j))).
Proof.
  intros H. set (d := tab n (fun _ => sz R)).
  rewrite (array_zip_mut_tab _
             (fun lo ro => tab n (fun j => g (ent (sz R) lo j) (ent (sz R) ro j))) d d).
  - f_equal. unfold mtab. apply tab_ext. intros i Hi. apply tab_ext. intros j Hj.
    rewrite !(mat_at_ent _ i j d) by exact Hi. reflexivity.
  - intros lo ro. apply array_zip_mut_tab. exact H.
Qed.

Lemma map2_tab (g : T -> T) (f : T -> outcome T) {m n} (a : smatrix T m n) :
  (forall x, f x = Ok (g x)) ->
  array_map (fun row => array_map f row) a
  = Ok (mtab m n (fun i j => g (mat_at R a i j))).
Proof.
  intros H. set (d := tab n (fun _ => sz R)).
  rewrite (array_map_tab _ (fun lo => tab n (fun j => g (ent (sz R) lo j))) d).
  - f_equal. unfold mtab. apply tab_ext. intros i Hi. apply tab_ext. intros j Hj.
    rewrite !(mat_at_ent _ i j d) by exact Hi. reflexivity.
  - intros lo. apply array_map_tab. exact H.
Qed.

Lemma smatrix_add_total {m n} (a b : smatrix T m n) :
  smatrix_add_assign_ref O a b = Ok (mtab m n (fun i j => sadd R (mat_at R a i j) (mat_at R b i j))).
Proof. apply zip2_tab. apply (impl_add O R HI). Qed.

Lemma smatrix_sub_total {m n} (a b : smatrix T m n) :
  smatrix_sub_assign_ref O a b = Ok (mtab m n (fun i j => ssub R (mat_at R a i j) (mat_at R b i j))).
Proof. apply zip2_tab. apply (impl_sub O R HI). Qed.

Lemma smatrix_neg_total {m n} (a : smatrix T m n) :
  smatrix_neg O a = Ok (mtab m n (fun i j => sneg R (mat_at R a i j))).
Proof. apply map2_tab. apply (impl_neg O R HI). Qed.

Lemma smatrix_conj_total {m n} (a : smatrix T m n) (conj : T -> outcome T) c :
  (forall x, conj x = Ok (c x)) ->
  smatrix_conj conj a = Ok (mtab m n (fun i j => c (mat_at R a i j))).
Proof. apply map2_tab. Qed.

Lemma smatrix_mul_total {L M N} (a : smatrix T L M) (b : smatrix T M N) :
  smatrix_mul_refs O a b
  = Ok (mtab L N (fun l n => sum_n R M (fun m => smul R (mat_at R a l m) (mat_at R b m n)))).
Proof.
  unfold smatrix_mul_refs, mtab. apply array_gen_tab0. intros l Hl.
  rewrite (array_gen_tab0 N _ (fun n => sum_n R M (fun m => smul R (mat_at R a l m) (mat_at R b m n)))).
  - simpl. do 2 f_equal. lia.
  - intros n Hn. rewrite r0.
    rewrite (for_range_sum M _ (fun m => smul R (mat_at R a l m) (mat_at R b m n))).
    + simpl. do 2 f_equal. lia.
    + intros m s Hm.
      rewrite (array_get_ok (tab M (fun _ => sz R))) by exact Hl. cbn [bind].
      rewrite (array_get_ok (sz R)) by exact Hm. cbn [bind].
      rewrite (array_get_ok (tab N (fun _ => sz R))) by exact Hm. cbn [bind].
      rewrite (array_get_ok (sz R)) by exact Hn. cbn [bind].
      rewrite (impl_mul O R HI). cbn [bind]. rewrite (impl_add O R HI).
      rewrite !(mat_at_ent a l m (tab M (fun _ => sz R))) by exact Hl.
      rewrite !(mat_at_ent b m n (tab N (fun _ => sz R))) by exact Hm. reflexivity.
Qed.

Lemma smatrix_mul_vec_total {M N} (a : smatrix T M N) (v : svector T N) :
  smatrix_mul_vec O a v
  = Ok (tab M (fun i => sum_n R N (fun j => smul R (mat_at R a i j) (vec_at R v j)))).
Proof.
  unfold smatrix_mul_vec. apply array_gen_tab0. intros i Hi.
  rewrite (array_get_ok (tab N (fun _ => sz R))) by exact Hi. cbn [bind].
  unfold svector_into_iter. rewrite dot_total. cbn [bind]. do 2 f_equal; [|lia].
  assert (E : forall j, vec_at R (ent (tab N (fun _ => sz R)) a i) j = mat_at R a i j)
    by (intros j; symmetry; apply mat_at_ent; exact Hi).
  assert (G : forall k f g, (forall j, f j = g j) -> sum_n R k f = sum_n R k g).
  { clear. intros k f g H. induction k; simpl; congruence. }
  apply G. intros j. rewrite E. reflexivity.
Qed.

Lemma smatrix_eqb_at {m n} (a b : smatrix T m n) :
  smatrix_eqb O a b = true <->
  (forall i j, i < m -> j < n -> r_eqb O (mat_at R a i j) (mat_at R b i j) = true).
Proof.
  unfold smatrix_eqb. set (d := tab n (fun _ => sz R)).
  rewrite (array_eqb_ent _ d). split; intros H i; [intros j Hi Hj|intros Hi].
  - specialize (H i Hi). rewrite (array_eqb_ent _ (sz R)) in H. specialize (H j Hj).
    rewrite !(mat_at_ent _ i j d) by exact Hi. exact H.
  - rewrite (array_eqb_ent _ (sz R)). intros j Hj. specialize (H i j Hi Hj).
    rewrite !(mat_at_ent _ i j d) in H by exact Hi. exact H.
Qed.

(** Textbook matrix algebra. *)
Definition mat_sig (n : nat) : ring_sig (smatrix T n n) := {|
  sz := mtab n n (fun _ _ => sz R);
  so := mtab n n (delta R);
  sadd := fun a b => mtab n n (fun i j => sadd R (mat_at R a i j) (mat_at R b i j));
  ssub := fun a b => mtab n n (fun i j => ssub R (mat_at R a i j) (mat_at R b i j));
  smul := fun a b => mtab n n (fun i j => sum_n R n (fun m => smul R (mat_at R a i m) (mat_at R b m j)));
  sneg := fun a => mtab n n (fun i j => sneg R (mat_at R a i j));
  same := same_mat R
|}.

Lemma smatrix_implements n : implements (smatrix_ops O n) (mat_sig n).
Proof.
  constructor; cbn [smatrix_ops r_zero r_one r_add r_sub r_mul r_neg r_eqb mat_sig sz so sadd ssub smul sneg same].
  - rewrite smatrix_zero_total. reflexivity.
  - rewrite smatrix_one_total. reflexivity.
  - apply smatrix_add_total.
  - apply smatrix_sub_total.
  - apply smatrix_mul_total.
  - apply smatrix_neg_total.
  - intros a b H i j Hi Hj. apply (impl_eqb O R HI). rewrite smatrix_eqb_at in H. apply H; assumption.
Qed.

Section Laws.
Context (HR : ring_laws R).
#[local] Instance J1 : Equivalence (same R) := same_equiv R HR.
#[local] Instance J2 : Proper (same R ==> same R ==> same R) (sadd R) := sadd_proper R HR.
#[local] Instance J3 : Proper (same R ==> same R ==> same R) (ssub R) := ssub_proper R HR.
#[local] Instance J4 : Proper (same R ==> same R ==> same R) (smul R) := smul_proper R HR.
#[local] Instance J5 : Proper (same R ==> same R) (sneg R) := sneg_proper R HR.
Notation "x [=] y" := (same R x y) (at level 70).
Notation "x [+] y" := (sadd R x y) (at level 50, left associativity).
Notation "x [*] y" := (smul R x y) (at level 40, left associativity).

(** Sums of products: associativity. *)
Lemma sum_mul_assoc M K (x : nat -> T) (y : nat -> nat -> T) (z : nat -> T) :
  sum_n R K (fun k => sum_n R M (fun m => x m [*] y m k) [*] z k)
  [=] sum_n R M (fun m => x m [*] sum_n R K (fun k => y m k [*] z k)).
Proof.
  transitivity (sum_n R K (fun k => sum_n R M (fun m => x m [*] y m k [*] z k))).
  { apply (sum_ext R HR). intros k _. symmetry. apply (sum_mul_r R HR). }
  rewrite (sum_swap R HR). apply (sum_ext R HR). intros m _.
  transitivity (sum_n R K (fun k => x m [*] (y m k [*] z k))).
  { apply (sum_ext R HR). intros k _. nc_ring HR. }
  apply (sum_mul_l R HR).
Qed.

Lemma sum_delta_l n i f : i < n -> sum_n R n (fun m => delta R i m [*] f m) [=] f i.
Proof.
  intros H. rewrite (sum_single R HR n i) by (try exact H; intros m _ Hm; unfold delta;
    replace (i =? m) with false by (symmetry; apply Nat.eqb_neq; lia); apply (mul_0_l R HR)).
  unfold delta. rewrite Nat.eqb_refl. apply (law_mul_1_l R HR).
Qed.

Lemma sum_delta_r n j f : j < n -> sum_n R n (fun m => f m [*] delta R m j) [=] f j.
Proof.
  intros H. rewrite (sum_single R HR n j) by (try exact H; intros m _ Hm; unfold delta;
    replace (m =? j) with false by (symmetry; apply Nat.eqb_neq; lia); apply (mul_0_r R HR)).
  unfold delta. rewrite Nat.eqb_refl. apply (law_mul_1_r R HR).
Qed.

Lemma sum_distr_l n x y z :
  sum_n R n (fun m => x m [*] (y m [+] z m)) [=] sum_n R n (fun m => x m [*] y m) [+] sum_n R n (fun m => x m [*] z m).
Proof.
  rewrite <- (sum_add R HR). apply (sum_ext R HR). intros m _. apply (law_distr_l R HR).
Qed.
Lemma sum_distr_r n x y z :
  sum_n R n (fun m => (x m [+] y m) [*] z m) [=] sum_n R n (fun m => x m [*] z m) [+] sum_n R n (fun m => y m [*] z m).
Proof.
  rewrite <- (sum_add R HR). apply (sum_ext R HR). intros m _. apply (law_distr_r R HR).
Qed.
Lemma sum_distr_sub_l n x y z :
  sum_n R n (fun m => x m [*] ssub R (y m) (z m))
  [=] ssub R (sum_n R n (fun m => x m [*] y m)) (sum_n R n (fun m => x m [*] z m)).
Proof.
  rewrite <- (sum_sub R HR). apply (sum_ext R HR). intros m _. nc_ring HR.
Qed.
Lemma sum_distr_sub_r n x y z :
  sum_n R n (fun m => ssub R (x m) (y m) [*] z m)
  [=] ssub R (sum_n R n (fun m => x m [*] z m)) (sum_n R n (fun m => y m [*] z m)).
Proof.
  rewrite <- (sum_sub R HR). apply (sum_ext R HR). intros m _. nc_ring HR.
Qed.

Lemma same_mtab m n f g : (forall i j, i < m -> j < n -> f i j [=] g i j) ->
  same_mat R (mtab m n f) (mtab m n g).
Proof. intros H i j Hi Hj. rewrite !mat_at_tab by assumption. apply H; assumption. Qed.

Lemma mat_laws n : ring_laws (mat_sig n).
Proof.
  constructor; cbn [mat_sig sz so sadd ssub smul sneg same].
  - intros a i j _ _. reflexivity.
  - intros a b H i j Hi Hj. symmetry. apply H; assumption.
  - intros a b c H H' i j Hi Hj. rewrite (H i j Hi Hj). apply H'; assumption.
  - intros a a' b b' Ha Hb. apply same_mtab. intros i j Hi Hj. rewrite (Ha i j Hi Hj), (Hb i j Hi Hj). reflexivity.
  - intros a a' b b' Ha Hb. apply same_mtab. intros i j Hi Hj. rewrite (Ha i j Hi Hj), (Hb i j Hi Hj). reflexivity.
  - intros a a' b b' Ha Hb. apply same_mtab. intros i j Hi Hj. apply (sum_ext R HR).
    intros m Hm. rewrite (Ha i m Hi Hm), (Hb m j Hm Hj). reflexivity.
  - intros a a' Ha. apply same_mtab. intros i j Hi Hj. rewrite (Ha i j Hi Hj). reflexivity.
  - intros a b c i j Hi Hj. rewrite !mat_at_tab by assumption. nc_ring HR.
  - intros a b i j Hi Hj. rewrite !mat_at_tab by assumption. nc_ring HR.
  - intros a i j Hi Hj. rewrite !mat_at_tab by assumption. nc_ring HR.
  - intros a i j Hi Hj. rewrite !mat_at_tab by assumption. nc_ring HR.
  - intros a b i j Hi Hj. rewrite !mat_at_tab by assumption. nc_ring HR.
  - intros a b c. apply same_mtab. intros i j Hi Hj. etransitivity.
    2: { etransitivity; [apply (sum_mul_assoc n n (fun m => mat_at R a i m) (fun m k => mat_at R b m k) (fun k => mat_at R c k j))|].
         apply (sum_ext R HR). intros m Hm. rewrite mat_at_tab by assumption. reflexivity. }
    apply (sum_ext R HR). intros k Hk. rewrite mat_at_tab by assumption. reflexivity.
  - intros a i j Hi Hj. rewrite mat_at_tab by assumption. etransitivity; [|apply (sum_delta_l n i (fun m => mat_at R a m j) Hi)].
    apply (sum_ext R HR). intros m Hm. rewrite mat_at_tab by assumption. reflexivity.
  - intros a i j Hi Hj. rewrite mat_at_tab by assumption. etransitivity; [|apply (sum_delta_r n j (fun m => mat_at R a i m) Hj)].
    apply (sum_ext R HR). intros m Hm. rewrite mat_at_tab by assumption. reflexivity.
  - intros a b c i j Hi Hj. rewrite !mat_at_tab by assumption. etransitivity; [|apply sum_distr_l].
    apply (sum_ext R HR). intros m Hm. rewrite mat_at_tab by assumption. reflexivity.
  - intros a b c i j Hi Hj. rewrite !mat_at_tab by assumption. etransitivity; [|apply sum_distr_r].
    apply (sum_ext R HR). intros m Hm. rewrite mat_at_tab by assumption. reflexivity.
Qed.
End Laws.
End P.
