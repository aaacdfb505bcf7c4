(** Loops that update slots of a list: each slot sees exactly its own updates, in order. *)
From Coq Require Import List Arith Lia Bool.
From Verif Require Import Base.Outcome Base.Array Base.Wp Model.Traits Model.Polynomial Spec.Formula Proofs.Paths.
Import ListNotations.

Section Slots.
Context {T : Type}.
Definition slot_step (u : nat * (T -> outcome T)) (a : list T) : outcome (list T) := vupd a (fst u) (snd u).
Definition slot_ups (k : nat) (ups : list (nat * (T -> outcome T))) : list (T -> outcome T) :=
  map snd (filter (fun u => fst u =? k) ups).
Definition run_ups (fs : list (T -> outcome T)) (x : T) : outcome T := for_each (fun f x => f x) fs x.

Lemma vupd_inv (a : list T) i f r : vupd a i f = Ok r ->
  exists x y, nth_error a i = Some x /\ f x = Ok y /\ r = list_upd a i y.
Proof.
  unfold vupd. intros H. apply bind_Ok_inv in H as (x & E & H). apply bind_Ok_inv in H as (y & F & H).
  unfold vget in E. destruct (nth_error a i) as [x'|] eqn:N; [injection E as ->|discriminate].
  unfold vset in H. destruct (Nat.ltb_spec i (length a)); [|discriminate]. injection H as <-. exists x, y. auto.
Qed.

Lemma slots_ok ups : forall a r, for_each slot_step ups a = Ok r ->
  length r = length a /\
  forall k x, nth_error a k = Some x -> exists y, nth_error r k = Some y /\ run_ups (slot_ups k ups) x = Ok y.
Proof.
  induction ups as [|[i f] ups IH]; intros a r; cbn [for_each].
  - intros H. injection H as <-. split; [reflexivity|]. intros k x H. exists x. split; [exact H|reflexivity].
  - intros H. apply bind_Ok_inv in H as (a' & E & H). unfold slot_step in E. cbn [fst snd] in E.
    apply vupd_inv in E as (x0 & y0 & N & F & ->). apply IH in H as (L & H). rewrite list_upd_length in L. split; [exact L|].
    intros k x Hk. specialize (H k). rewrite nth_error_list_upd in H. unfold slot_ups. cbn [filter fst].
    assert (Li : i < length a) by (apply nth_error_Some; congruence).
    destruct (Nat.eqb_spec i k) as [<-|Hne].
    + assert (x = x0) by congruence. subst x0. cbn [map run_ups for_each snd]. unfold run_ups. cbn [for_each]. rewrite F. cbn [bind].
      destruct (Nat.eqb_spec i i); [|congruence]. destruct (Nat.ltb_spec i (length a)); [|lia]. apply (H y0 eq_refl).
    + destruct (Nat.eqb_spec k i); [congruence|]. apply (H x Hk).
Qed.

Lemma slots_succeed ups : forall a, (forall u, In u ups -> fst u < length a) ->
  (forall k x, nth_error a k = Some x -> exists y, run_ups (slot_ups k ups) x = Ok y) ->
  exists r, for_each slot_step ups a = Ok r.
Proof.
  induction ups as [|[i f] ups IH]; intros a HB HS; cbn [for_each]; [eexists; reflexivity|].
  assert (Li : i < length a) by (apply (HB (i, f)); left; reflexivity).
  destruct (nth_error a i) as [x|] eqn:N; [|apply nth_error_None in N; lia].
  pose proof (HS i x N) as (y & Hy). unfold slot_ups in Hy. cbn [filter fst] in Hy. rewrite Nat.eqb_refl in Hy.
  cbn [map snd] in Hy. unfold run_ups in Hy. cbn [for_each] in Hy. apply bind_Ok_inv in Hy as (x' & F & Hy).
  unfold slot_step at 1, vupd, vget. cbn [fst snd]. rewrite N. cbn [bind]. rewrite F. cbn [bind]. rewrite vset_ok by exact Li. cbn [bind].
  apply IH.
  - intros u Hu. rewrite list_upd_length. apply HB. right; exact Hu.
  - intros k z. rewrite nth_error_list_upd. destruct (Nat.eqb_spec k i) as [->|Hne].
    + destruct (Nat.ltb_spec i (length a)); [|lia]. intros E. injection E as <-. exists y. exact Hy.
    + intros Hz. destruct (HS k z Hz) as (w & Hw). exists w. unfold slot_ups in Hw. cbn [filter fst] in Hw.
      destruct (Nat.eqb_spec i k); [congruence|]. exact Hw.
Qed.
End Slots.

Lemma for_each_flat_map {A B S} (body : B -> S -> outcome S) (g : A -> list B) l s :
  for_each body (flat_map g l) s = for_each (fun a s => for_each body (g a) s) l s.
Proof.
  revert s; induction l as [|a l IH]; intros s; [reflexivity|]. cbn [flat_map for_each]. rewrite for_each_app.
  apply bind_ext. intros s'. apply IH.
Qed.
Lemma for_each_map' {A B S} (body : B -> S -> outcome S) (g : A -> B) l s :
  for_each body (map g l) s = for_each (fun a s => body (g a) s) l s.
Proof. revert s; induction l as [|a l IH]; intros s; [reflexivity|]. cbn [map for_each]. apply bind_ext. intros s'. apply IH. Qed.

Section Poly.
Context {T : Type} (O : RingOps T).

(** The products of the convolution in the order of the loops. *)
Definition mul_ups (p q : list T) : list (nat * (T -> outcome T)) :=
  flat_map (fun i => map (fun j => (i + j, fun s => x <- vget p i ;; y <- vget q j ;; prod <- r_mul O x y ;; r_add O s prod))
    (seq 0 (length q))) (seq 0 (length p)).

Lemma poly_mul_slots p q : p <> [] -> q <> [] ->
  forall (a : list T), length a = length p + length q - 1 ->
  for_range 0 (length p) (fun i a => for_range 0 (length q) (fun j a =>
     x <- vget p i ;; y <- vget q j ;; prod <- r_mul O x y ;; vupd a (i + j) (fun s => r_add O s prod)) a) a
  = for_each slot_step (mul_ups p q) a.
Proof.
  intros Hp Hq a0 HL. unfold mul_ups. rewrite for_each_flat_map. unfold for_range. rewrite !Nat.sub_0_r.
  assert (G : forall is a, (forall i, In i is -> i < length p) -> length a = length p + length q - 1 ->
    for_each (fun i a => for_each (fun j a =>
     x <- vget p i ;; y <- vget q j ;; prod <- r_mul O x y ;; vupd a (i + j) (fun s => r_add O s prod)) (seq 0 (length q)) a) is a
    = for_each (fun i s => for_each slot_step (map (fun j => (i + j, fun s => x <- vget p i ;; y <- vget q j ;; prod <- r_mul O x y ;; r_add O s prod)) (seq 0 (length q))) s) is a).
  2: { apply G; [intros i Hi; apply in_seq in Hi; lia|exact HL]. }
  assert (J : forall i js a, i < length p -> (forall j, In j js -> j < length q) -> length a = length p + length q - 1 ->
    for_each (fun j a => x <- vget p i ;; y <- vget q j ;; prod <- r_mul O x y ;; vupd a (i + j) (fun s => r_add O s prod)) js a
    = for_each slot_step (map (fun j => (i + j, fun s => x <- vget p i ;; y <- vget q j ;; prod <- r_mul O x y ;; r_add O s prod)) js) a
    /\ (forall r, for_each slot_step (map (fun j => (i + j, fun s => x <- vget p i ;; y <- vget q j ;; prod <- r_mul O x y ;; r_add O s prod)) js) a = Ok r -> length r = length a)).
  { intros i js a Hi Hj Ha. split; [|intros r Hr; apply (slots_ok _ _ _ Hr)].
    revert a Ha; induction js as [|j js IH]; intros a Ha; [reflexivity|]. cbn [map for_each].
    assert (E : (x <- vget p i ;; y <- vget q j ;; prod <- r_mul O x y ;; vupd a (i + j) (fun s => r_add O s prod))
        = slot_step (i + j, fun s => x <- vget p i ;; y <- vget q j ;; prod <- r_mul O x y ;; r_add O s prod) a).
    { assert (Hjj : j < length q) by (apply Hj; left; reflexivity).
      unfold slot_step, vupd, vget at 1 2. cbn [fst snd].
      destruct (nth_error p i) as [x|] eqn:Np; [|apply nth_error_None in Np; lia].
      destruct (nth_error q j) as [y|] eqn:Nq; [|apply nth_error_None in Nq; lia]. cbn [bind].
      unfold vget. destruct (nth_error a (i + j)) as [s|] eqn:Na; [|apply nth_error_None in Na; lia]. cbn [bind].
      rewrite Np, Nq. cbn [bind]. rewrite bind_assoc. reflexivity. }
    rewrite E. destruct (slot_step _ a) as [a'| |] eqn:Es; [|reflexivity|reflexivity]. cbn [bind].
    apply IH; [intros j' Hj'; apply Hj; right; exact Hj'|].
    unfold slot_step in Es. apply vupd_inv in Es as (? & ? & _ & _ & ->). rewrite list_upd_length. exact Ha. }
  intros is; induction is as [|i is IH]; intros a His Ha; [reflexivity|]. cbn [for_each].
  destruct (J i (seq 0 (length q)) a) as [E HLr]; [apply His; left; reflexivity|intros j Hj; apply in_seq in Hj; lia|exact Ha|].
  rewrite E. destruct (for_each slot_step _ a) as [a'| |] eqn:Es; [|reflexivity|reflexivity]. cbn [bind].
  apply IH; [intros i' Hi'; apply His; right; exact Hi'|]. rewrite (HLr a' eq_refl). exact Ha.
Qed.

Lemma filter_seq_eq k i n : forall s,
  filter (fun j => i + j =? k) (seq s n) = if (i + s <=? k) && (k <? i + s + n) then [k - i] else [].
Proof.
  induction n as [|n IH]; intros s; cbn [seq filter].
  - destruct (Nat.leb_spec (i + s) k); destruct (Nat.ltb_spec k (i + s + 0)); simpl; try reflexivity; lia.
  - rewrite IH. destruct (Nat.eqb_spec (i + s) k).
    + destruct (Nat.leb_spec (i + S s) k); [lia|]. destruct (Nat.leb_spec (i + s) k); [|lia]. destruct (Nat.ltb_spec k (i + s + S n)); [|lia].
      simpl. f_equal. lia.
    + destruct (Nat.leb_spec (i + S s) k); destruct (Nat.leb_spec (i + s) k); destruct (Nat.ltb_spec k (i + S s + n)); destruct (Nat.ltb_spec k (i + s + S n)); simpl; try reflexivity; lia.
Qed.
Lemma filter_flat_map {A B} (f : B -> bool) (g : A -> list B) l : filter f (flat_map g l) = flat_map (fun a => filter f (g a)) l.
Proof. induction l as [|a l IH]; [reflexivity|]. cbn [flat_map]. rewrite filter_app, IH. reflexivity. Qed.
Lemma filter_map {A B} (f : B -> bool) (g : A -> B) l : filter f (map g l) = map g (filter (fun a => f (g a)) l).
Proof. induction l as [|a l IH]; [reflexivity|]. cbn [map filter]. destruct (f (g a)); cbn [map]; rewrite IH; reflexivity. Qed.
Lemma map_flat_map {A B C} (f : B -> C) (g : A -> list B) l : map f (flat_map g l) = flat_map (fun a => map f (g a)) l.
Proof. induction l as [|a l IH]; [reflexivity|]. cbn [flat_map]. rewrite map_app, IH. reflexivity. Qed.
Lemma flat_map_ext_in {A B} (f g : A -> list B) l : (forall a, In a l -> f a = g a) -> flat_map f l = flat_map g l.
Proof. intros H. induction l as [|a l IH]; [reflexivity|]. cbn [flat_map]. rewrite H by (left; reflexivity). rewrite IH; [reflexivity|]. intros b Hb. apply H. right; exact Hb. Qed.
Lemma flat_map_nil {A B} (f : A -> list B) l : (forall a, In a l -> f a = []) -> flat_map f l = [].
Proof. intros H. induction l as [|a l IH]; [reflexivity|]. cbn [flat_map]. rewrite H by (left; reflexivity). apply IH. intros b Hb. apply H. right; exact Hb. Qed.

Lemma plus_products_run s l : plus_products O s l = run_ups (map (fun '(x, y) => fun s => prod <- r_mul O x y ;; r_add O s prod) l) s.
Proof.
  unfold run_ups. revert s; induction l as [|[x y] l IH]; intros s; [reflexivity|]. cbn [plus_products map for_each].
  rewrite bind_assoc. apply bind_ext. intros prod. apply bind_ext. intros s'. apply IH.
Qed.

Lemma mul_ups_slot p q k s : k < length p + length q - 1 ->
  run_ups (slot_ups k (mul_ups p q)) s = plus_products O s (coefficient_pairs p q k).
Proof.
  intros Hk. rewrite plus_products_run. unfold slot_ups, mul_ups. rewrite filter_flat_map, map_flat_map.
  rewrite (flat_map_ext_in _ (fun i => if (i <=? k) && (k <? i + length q)
     then [fun s => x <- vget p i ;; y <- vget q (k - i) ;; prod <- r_mul O x y ;; r_add O s prod] else [])).
  2: { intros i _. rewrite filter_map. cbn [fst]. rewrite filter_seq_eq, Nat.add_0_r. destruct (_ && _); reflexivity. }
  unfold coefficient_pairs, pairs_of. rewrite map_flat_map.
  assert (E : forall n, flat_map (fun i => if (i <=? k) && (k <? i + length q)
     then [fun s => x <- vget p i ;; y <- vget q (k - i) ;; prod <- r_mul O x y ;; r_add O s prod] else []) (seq 0 n)
     = flat_map (fun i => if (i <=? k) && (k <? i + length q)
     then [fun s => x <- vget p i ;; y <- vget q (k - i) ;; prod <- r_mul O x y ;; r_add O s prod] else []) (seq 0 (min n (S k)))).
  { intros n. destruct (Nat.le_ge_cases n (S k)); [rewrite Nat.min_l by assumption; reflexivity|]. rewrite Nat.min_r by assumption.
    replace n with (S k + (n - S k)) by lia. rewrite seq_app, flat_map_app. rewrite (flat_map_nil _ (seq (0 + S k) (n - S k))); [apply app_nil_r|].
    intros i Hi. apply in_seq in Hi. rewrite (proj2 (Nat.leb_gt i k)) by lia. reflexivity. }
  rewrite E.
  assert (E2 : forall n, n <= S k -> n <= length p -> run_ups (flat_map (fun i => if (i <=? k) && (k <? i + length q)
     then [fun s => x <- vget p i ;; y <- vget q (k - i) ;; prod <- r_mul O x y ;; r_add O s prod] else []) (seq 0 n)) s
     = run_ups (flat_map (fun i => map (fun '(x, y) => fun s => prod <- r_mul O x y ;; r_add O s prod)
          (match nth_error p i with Some x => match (if i <=? k then nth_error q (k - i) else None) with Some y => [(x, y)] | None => [] end | None => [] end)) (seq 0 n)) s).
  { intros n Hn Hp. unfold run_ups. rewrite !for_each_flat_map. apply for_each_ext. intros i z Hi. apply in_seq in Hi.
    rewrite (proj2 (Nat.leb_le i k)) by lia. cbn [andb].
    destruct (nth_error p i) as [x|] eqn:Np; [|apply nth_error_None in Np; lia].
    destruct (Nat.ltb_spec k (i + length q)).
    - destruct (nth_error q (k - i)) as [y|] eqn:Nq; [|apply nth_error_None in Nq; lia].
      cbn [for_each map]. unfold vget. rewrite Np, Nq. reflexivity.
    - destruct (nth_error q (k - i)) as [y|] eqn:Nq; [|reflexivity]. assert (k - i < length q) by (apply nth_error_Some; congruence). lia. }
  rewrite (E2 (min (length p) (S k))) by lia.
  f_equal. destruct (Nat.le_ge_cases (length p) (S k)).
  - rewrite Nat.min_l by assumption. replace (S k) with (length p + (S k - length p)) by lia. rewrite seq_app, flat_map_app.
    rewrite (flat_map_nil _ (seq (0 + length p) _)); [symmetry; apply app_nil_r|].
    intros i Hi. apply in_seq in Hi. rewrite (proj2 (nth_error_None p i)) by lia. reflexivity.
  - rewrite Nat.min_r by assumption. reflexivity.
Qed.

Lemma mul_ups_bound p q u : In u (mul_ups p q) -> fst u < length p + length q - 1.
Proof.
  unfold mul_ups. intros H. apply in_flat_map in H as (i & Hi & H). apply in_map_iff in H as (j & <- & Hj).
  apply in_seq in Hi, Hj. cbn [fst]. lia.
Qed.
End Poly.

(** Coefficientwise operations. *)
Section Zip.
Context {T : Type}.
Fixpoint zipM (both : T -> T -> outcome T) (left right : T -> outcome T) (p q : list T) : outcome (list T) :=
  match p, q with
  | x :: p', y :: q' => z <- both x y ;; zs <- zipM both left right p' q' ;; Ok (z :: zs)
  | x :: p', [] => z <- left x ;; zs <- zipM both left right p' [] ;; Ok (z :: zs)
  | [], q => mapM right q
  end.
Lemma mapM_seq_nth {B} (f : T -> outcome B) (q : list T) :
  mapM (fun k => match nth_error q k with Some y => f y | None => Panic IndexOOB end) (seq 0 (length q)) = mapM f q.
Proof.
  induction q as [|y q IH]; [reflexivity|]. cbn [length seq mapM nth_error]. rewrite <- seq_shift, mapM_map. cbn [nth_error]. rewrite IH. reflexivity.
Qed.
Lemma meet_zipM both left right p : forall q,
  mapM (meet both left right p q) (seq 0 (max (length p) (length q))) = zipM both left right p q.
Proof.
  induction p as [|x p IH]; intros q.
  - cbn [length Nat.max zipM]. rewrite <- (mapM_seq_nth right q). apply mapM_ext. intros k _. unfold meet.
    destruct k; cbn [nth_error]; destruct q; reflexivity.
  - destruct q as [|y q]; cbn [length Nat.max seq mapM zipM]; unfold meet at 1; cbn [nth_error]; apply bind_ext; intros z; rewrite <- seq_shift, mapM_map.
    + rewrite <- (IH []). cbn [length]. rewrite Nat.max_0_r. f_equal. apply mapM_ext. intros k _. unfold meet. cbn [nth_error]. destruct k; reflexivity.
    + rewrite <- IH. reflexivity.
Qed.
Lemma zipM_flip both left right p : forall q, zipM both left right p q = zipM (fun x y => both y x) right left q p.
Proof.
  induction p as [|x p IH]; intros q.
  - cbn [zipM]. induction q as [|y q IHq]; [reflexivity|]. cbn [zipM mapM]. rewrite IHq. reflexivity.
  - destruct q as [|y q]; cbn [zipM].
    + rewrite IH. cbn [mapM zipM]. apply bind_ext. intros z. reflexivity.
    + apply bind_ext. intros z. rewrite IH. reflexivity.
Qed.
Lemma zipM_left_ok both right (p : list T) : zipM both Ok right p [] = Ok p.
Proof. induction p as [|x p IH]; [reflexivity|]. cbn [zipM bind]. rewrite IH. reflexivity. Qed.

Lemma list_upd_app (pre : list T) x p z : list_upd (pre ++ x :: p) (length pre) z = pre ++ z :: p.
Proof. induction pre as [|a pre IH]; [reflexivity|]. cbn [app length list_upd]. rewrite IH. reflexivity. Qed.
Lemma vupd_app (pre : list T) x p f : vupd (pre ++ x :: p) (length pre) f = (z <- f x ;; Ok (pre ++ z :: p)).
Proof.
  unfold vupd, vget. rewrite nth_error_app2, Nat.sub_diag by lia. cbn [nth_error bind]. apply bind_ext. intros z.
  rewrite vset_ok by (rewrite app_length; simpl; lia). rewrite list_upd_app. reflexivity.
Qed.

(** Updating slot i with the i-th coefficient of q. *)
Lemma zip_slots (f : T -> T -> outcome T) right : forall q pre p, length q <= length p ->
  for_each (fun '(i, x) a => vupd a i (fun s => f s x)) (combine (seq (length pre) (length q)) q) (pre ++ p)
  = (r <- zipM f Ok right p q ;; Ok (pre ++ r)).
Proof.
  induction q as [|y q IH]; intros pre p HL.
  - cbn. rewrite zipM_left_ok. reflexivity.
  - destruct p as [|x p]; [simpl in HL; lia|]. cbn [length seq combine for_each zipM]. rewrite vupd_app, bind_assoc.
    rewrite bind_assoc. apply bind_ext. intros z. cbn [bind].
    specialize (IH (pre ++ [z]) p ltac:(simpl in HL; lia)). rewrite app_length, Nat.add_1_r, <- app_assoc in IH. cbn [app] in IH.
    rewrite IH, bind_assoc. apply bind_ext. intros r. cbn [bind]. rewrite <- app_assoc. reflexivity.
Qed.
(** The same with an index loop. *)
Lemma zip_range (f : T -> T -> outcome T) right : forall q pre p (preq : list T), length q <= length p -> length pre = length preq ->
  for_each (fun i a => x <- vget (preq ++ q) i ;; vupd a i (fun s => f s x)) (seq (length pre) (length q)) (pre ++ p)
  = (r <- zipM f Ok right p q ;; Ok (pre ++ r)).
Proof.
  induction q as [|y q IH]; intros pre p preq HL HP.
  - cbn. rewrite zipM_left_ok. reflexivity.
  - destruct p as [|x p]; [simpl in HL; lia|]. cbn [length seq for_each zipM].
    unfold vget at 1. rewrite nth_error_app2 by lia. rewrite HP, Nat.sub_diag. cbn [nth_error bind]. rewrite <- HP.
    rewrite vupd_app, bind_assoc. rewrite bind_assoc. apply bind_ext. intros z. cbn [bind].
    specialize (IH (pre ++ [z]) p (preq ++ [y]) ltac:(simpl in HL; lia) ltac:(rewrite !app_length; simpl; lia)).
    rewrite app_length, Nat.add_1_r, <- !app_assoc in IH. cbn [app] in IH.
    rewrite IH, bind_assoc. apply bind_ext. intros r. cbn [bind]. rewrite <- app_assoc. reflexivity.
Qed.
(** Updating or appending. *)
Lemma zip_push (f : T -> T -> outcome T) n : forall q pre p, length pre + length p = n ->
  for_each (fun '(i, x) a => if i <? n then vupd a i (fun s => f s x) else Ok (a ++ [x])) (combine (seq (length pre) (length q)) q) (pre ++ p)
  = (r <- zipM f Ok Ok p q ;; Ok (pre ++ r)).
Proof.
  induction q as [|y q IH]; intros pre p HL.
  - cbn. rewrite zipM_left_ok. reflexivity.
  - destruct p as [|x p].
    + simpl in HL. rewrite Nat.add_0_r in HL. clear IH. cbn [zipM]. rewrite app_nil_r.
      assert (G : forall q a s, n <= s -> for_each (fun '(i, x) a => if i <? n then vupd a i (fun s => f s x) else Ok (a ++ [x])) (combine (seq s (length q)) q) a = Ok (a ++ q)).
      { induction q0 as [|y0 q0 IH]; intros a s Hs; [cbn; rewrite app_nil_r; reflexivity|]. cbn [length seq combine for_each].
        rewrite (proj2 (Nat.ltb_ge s n)) by lia. cbn [bind]. rewrite IH by lia. rewrite <- app_assoc. reflexivity. }
      rewrite G by lia. replace (mapM Ok (y :: q)) with (Ok (y :: q)); [reflexivity|].
      clear. generalize (y :: q). induction l as [|a l IH]; [reflexivity|]. cbn [mapM bind]. rewrite <- IH. reflexivity.
    + cbn [length seq combine for_each zipM]. rewrite (proj2 (Nat.ltb_lt (length pre) n)) by (simpl in HL; lia). rewrite vupd_app, bind_assoc.
      rewrite bind_assoc. apply bind_ext. intros z. cbn [bind].
      specialize (IH (pre ++ [z]) p ltac:(rewrite app_length; simpl in *; lia)). rewrite app_length, Nat.add_1_r, <- app_assoc in IH. cbn [app] in IH.
      rewrite IH, bind_assoc. apply bind_ext. intros r. cbn [bind]. rewrite <- app_assoc. reflexivity.
Qed.
(** Padding with zeros. *)
Lemma zip_padded f zero right (p : list T) : forall q, (forall y, right y = f zero y) ->
  forall any, zipM f Ok any (p ++ repeat zero (length q - length p)) q = zipM f Ok right p q.
Proof.
  induction p as [|x p IH]; intros q HR any.
  - cbn [app length]. rewrite Nat.sub_0_r. induction q as [|y q IHq]; [reflexivity|]. cbn [repeat zipM length mapM]. rewrite HR, IHq. reflexivity.
  - destruct q as [|y q]; cbn [app length Nat.sub repeat zipM].
    + rewrite app_nil_r. cbn [bind]. rewrite !zipM_left_ok. reflexivity.
    + rewrite IH by exact HR. reflexivity.
Qed.
End Zip.

Section PolyZip.
Context {T : Type} (O : RingOps T).
Lemma poly_add_zip (p q : poly T) :
  poly_add O p q = if length p <? length q then zipM (fun x y => r_add O y x) Ok Ok p q else zipM (r_add O) Ok Ok p q.
Proof.
  assert (G : forall f (p q : poly T), length q <= length p ->
     for_each (fun '(i, x) a => vupd a i (fun s => f s x)) (enumerate q) p = zipM f Ok Ok p q).
  { intros f p0 q0 H. pose proof (zip_slots f Ok q0 [] p0 H) as E. cbn [length app] in E.
    etransitivity; [exact E|apply bind_ret]. }
  unfold poly_add. cbn [poly_add_rec]. destruct (Nat.ltb_spec (length p) (length q)) as [H|H].
  - rewrite (proj2 (Nat.ltb_ge (length q) (length p))) by lia. rewrite G by lia. symmetry. apply zipM_flip.
  - apply G. exact H.
Qed.
Lemma poly_add_assign_zip (p q : poly T) : poly_add_assign O p q = zipM (r_add O) Ok Ok p q.
Proof.
  unfold poly_add_assign. pose proof (zip_push (r_add O) (length p) q [] p eq_refl) as E. cbn [length app] in E.
  etransitivity; [exact E|apply bind_ret].
Qed.
Lemma assign_ref_zip f (p q : poly T) :
  for_range 0 (length q) (fun i a => x <- vget q i ;; vupd a i (fun s => f s x))
    (if length p <? length q then resize_with p (length q) (r_zero O) else p)
  = zipM f Ok (f (r_zero O)) p q.
Proof.
  set (a := if length p <? length q then resize_with p (length q) (r_zero O) else p).
  assert (Ha : a = p ++ repeat (r_zero O) (length q - length p)).
  { unfold a, resize_with. destruct (Nat.ltb_spec (length p) (length q)); [reflexivity|].
    replace (length q - length p) with 0 by lia. rewrite app_nil_r. reflexivity. }
  rewrite <- (zip_padded f (r_zero O) (f (r_zero O)) p q (fun _ => eq_refl) Ok), <- Ha.
  unfold for_range. rewrite Nat.sub_0_r.
  pose proof (zip_range f Ok q [] a [] ) as E. cbn [length app] in E. etransitivity; [apply E; [|reflexivity]|apply bind_ret].
  rewrite Ha, app_length, repeat_length. lia.
Qed.
Lemma poly_eval_steps (p : poly T) x : poly_eval O p x = horner_steps O p x.
Proof.
  unfold poly_eval, poly_eval_ref. induction p as [|a p IH]; [reflexivity|]. cbn [rev horner_steps]. rewrite for_each_app, IH.
  apply bind_ext. intros y. cbn [for_each]. rewrite bind_ret. reflexivity.
Qed.
End PolyZip.
