(** Counting tapes. *)
From Coq Require Import List Arith Lia Bool.
From Verif Require Import Base.Outcome Base.Array Base.Wp Model.DiffEvo Spec.DiffEvo Spec.DiffEvoRandom
  Proofs.DiffEvoProofs Proofs.DiffEvoSim Proofs.DiffEvoMore.
Import ListNotations.

Lemma count_app {A} f (l l' : list A) : count f (l ++ l') = count f l + count f l'.
Proof. unfold count. rewrite filter_app, app_length. reflexivity. Qed.
Lemma count_map {A B} f (g : A -> B) l : count f (map g l) = count (fun x => f (g x)) l.
Proof. unfold count. induction l as [|x l IH]; simpl; [reflexivity|]. destruct (f (g x)); simpl; congruence. Qed.
Lemma count_ext {A} (f g : A -> bool) l : (forall x, In x l -> f x = g x) -> count f l = count g l.
Proof. unfold count. induction l as [|x l IH]; simpl; intros H; [reflexivity|]. rewrite H by auto. destruct (g x); simpl; rewrite IH; auto. Qed.
Lemma count_le {A} (f g : A -> bool) l : (forall x, In x l -> f x = true -> g x = true) -> count f l <= count g l.
Proof.
  unfold count. induction l as [|x l IH]; simpl; intros H; [lia|]. assert (IH' := IH (fun y Hy => H y (or_intror Hy))).
  specialize (H x (or_introl eq_refl)). destruct (f x); [rewrite (H eq_refl); simpl; lia|]. destruct (g x); simpl; lia.
Qed.
Lemma count_all {A} (l : list A) : count (fun _ => true) l = length l.
Proof. unfold count. induction l; simpl; auto. Qed.
Lemma count_none {A} (f : A -> bool) l : (forall x, In x l -> f x = false) -> count f l = 0.
Proof. unfold count. induction l as [|x l IH]; simpl; intros H; [reflexivity|]. rewrite H by auto. apply IH. auto. Qed.
Lemma count_le_length {A} (f : A -> bool) l : count f l <= length l.
Proof. rewrite <- count_all. apply count_le. reflexivity. Qed.

Definition total {A} (f : A -> nat) (l : list A) : nat := list_sum (map f l).
Lemma count_flat_map {A B} f (g : A -> list B) l : count f (flat_map g l) = total (fun x => count f (g x)) l.
Proof. unfold total. induction l; simpl; [reflexivity|]. rewrite count_app, IHl. reflexivity. Qed.
Lemma total_le {A} (f g : A -> nat) l : (forall x, In x l -> f x <= g x) -> total f l <= total g l.
Proof. unfold total. induction l; simpl; intros H; [lia|]. specialize (H a (or_introl eq_refl)) as Ha. specialize (IHl (fun x Hx => H x (or_intror Hx))). lia. Qed.
Lemma total_ext {A} (f g : A -> nat) l : (forall x, In x l -> f x = g x) -> total f l = total g l.
Proof. unfold total. induction l; simpl; intros H; [reflexivity|]. rewrite H, IHl; auto. Qed.
Lemma total_split {A} (f : A -> bool) (a b : nat) l :
  total (fun x => if f x then a else b) l + count f l * b = count f l * a + length l * b.
Proof. unfold total, count. induction l as [|x l IH]; simpl; [lia|]. destruct (f x); simpl; lia. Qed.
Lemma total_const {A} a (l : list A) : total (fun _ => a) l = length l * a.
Proof. unfold total. induction l; simpl; lia. Qed.
Lemma total_plus {A} (f g : A -> nat) l : total (fun x => f x + g x) l = total f l + total g l.
Proof. unfold total. induction l; simpl; lia. Qed.
Lemma total_scale {A} c (f : A -> nat) l : total (fun x => c * f x) l = c * total f l.
Proof. unfold total. induction l; simpl; lia. Qed.

Lemma tapes_length K m : length (tapes K m) = K ^ m.
Proof.
  induction m as [|m IH]; simpl; [reflexivity|].
  rewrite <- count_all, count_flat_map, (total_ext _ (fun _ => K ^ m)).
  - rewrite total_const, seq_length. reflexivity.
  - intros w _. rewrite count_map, count_all. exact IH.
Qed.
Lemma in_tapes K m t : In t (tapes K m) <-> length t = m /\ (forall w, In w t -> w < K).
Proof.
  revert t; induction m as [|m IH]; simpl; intros t.
  - split.
    + intros [<-|[]]. split; [reflexivity|intros w []].
    + intros [H _]. destruct t; [auto|discriminate].
  - rewrite in_flat_map. split.
    + intros (w & Hw & H). apply in_map_iff in H as (t' & <- & H). apply IH in H as [L H]. apply in_seq in Hw.
      split; [simpl; lia|]. intros v [<-|Hv]; [lia|auto].
    + intros [L H]. destruct t as [|w t]; [discriminate|]. exists w. split; [apply in_seq; specialize (H w (or_introl eq_refl)); lia|].
      apply in_map. apply IH. split; [simpl in L; lia|]. intros v Hv. apply H. right; exact Hv.
Qed.
Lemma count_tapes_S K m f : count f (tapes K (S m)) = total (fun w => count (fun t => f (w :: t)) (tapes K m)) (seq 0 K).
Proof. simpl. rewrite count_flat_map. apply total_ext. intros w _. apply count_map. Qed.
Lemma count_tapes_app K a b f :
  count f (tapes K (a + b)) = total (fun t => count (fun u => f (t ++ u)) (tapes K b)) (tapes K a).
Proof.
  revert f; induction a as [|a IH]; intros f; [unfold total; simpl; rewrite Nat.add_0_r; reflexivity|].
  change (S a + b) with (S (a + b)). rewrite count_tapes_S.
  erewrite total_ext by (intros w _; apply IH). simpl tapes.
  assert (E : forall l, total (fun w => total (fun t => count (fun u => f (w :: t ++ u)) (tapes K b)) (tapes K a)) l
     = total (fun t => count (fun u => f (t ++ u)) (tapes K b)) (flat_map (fun w => map (cons w) (tapes K a)) l)).
  { intros l. unfold total. induction l as [|w l IHl]; simpl; [reflexivity|]. rewrite map_app, list_sum_app, <- IHl, map_map. reflexivity. }
  apply E.
Qed.

(** ** Programs that read a tape *)
Definition tprog (A : Type) : Type := nat -> list nat -> outcome (A * list nat).

Section Progs.
Context (K : nat).

Definition stuck {A} (P : tprog A) (t : list nat) : bool := undecided (P (S (length t))) t.

Record good {A} (P : tprog A) : Prop := MkGood {
  g_split : forall f t, length t < f ->
    match P f t with
    | Ok (a, t') => exists u, t = u ++ t' /\ forall f' v, length (u ++ v) < f' -> P f' (u ++ v) = Ok (a, v)
    | Panic q => forall f' v, length (t ++ v) < f' -> P f' (t ++ v) = Panic q
    | Diverge => True
    end;
  g_ends : forall d, exists M, forall m, M <= m -> d * count (stuck P) (tapes K m) <= K ^ m
}.

Lemma g_fuel {A} (P : tprog A) f f' t : good P -> length t < f -> length t < f' -> P f t = P f' t.
Proof.
  intros G H H'. pose proof (g_split P G f t H) as S1. pose proof (g_split P G f' t H') as S2.
  destruct (P f t) as [[a t1]|q|] eqn:E.
  - destruct S1 as (u & -> & S1). rewrite S1 by exact H'. reflexivity.
  - rewrite <- (app_nil_r t). rewrite S1; [reflexivity|]. rewrite app_nil_r. exact H'.
  - destruct (P f' t) as [[a t1]|q|] eqn:E'; [| |reflexivity].
    + destruct S2 as (u & -> & S2). rewrite S2 in E by exact H. discriminate.
    + rewrite <- (app_nil_r t) in E. rewrite S2 in E; [discriminate|]. rewrite app_nil_r. exact H.
Qed.

Lemma stuck_fuel {A} (P : tprog A) f t : good P -> length t < f -> stuck P t = undecided (P f) t.
Proof. intros G H. unfold stuck, undecided. rewrite (g_fuel P (S (length t)) f t G) by lia. reflexivity. Qed.

(** Without draws. *)
Lemma good_pure {A} (o : outcome A) : o <> Diverge -> good (fun _ t => (a <- o ;; Ok (a, t))%oc).
Proof.
  intros H. split.
  - intros f t _. destruct o; simpl; [|reflexivity|contradiction]. exists []. split; [reflexivity|]. intros f' v _. reflexivity.
  - intros d. exists 0. intros m _. rewrite count_none; [lia|]. intros t _. unfold stuck, undecided. destruct o; simpl; congruence.
Qed.

Lemma good_ext {A} (P Q : tprog A) : (forall f t, P f t = Q f t) -> good P -> good Q.
Proof.
  intros E G. split.
  - intros f t H. pose proof (g_split P G f t H) as S1. rewrite E in S1. destruct (Q f t) as [[a t']|q|]; [|intros f' v; rewrite <- E; apply S1|exact I].
    destruct S1 as (u & -> & S1). exists u. split; [reflexivity|]. intros f' v. rewrite <- E. apply S1.
  - intros d. destruct (g_ends P G d) as [M HM]. exists M. intros m Hm. specialize (HM m Hm).
    rewrite (count_ext _ (stuck P)); [exact HM|]. intros t _. unfold stuck, undecided. rewrite E. reflexivity.
Qed.

(** One word. *)
Lemma good_draw {A} (g : nat -> outcome A) : (forall w, w < K -> g w <> Diverge) ->
  good (fun _ t => match t with [] => Diverge | w :: t' => (a <- g w ;; Ok (a, t'))%oc end).
Proof.
  intros H. split.
  - intros f t _. destruct t as [|w t]; [exact I|]. destruct (g w) as [a|q|] eqn:E; simpl.
    + exists [w]. split; [reflexivity|]. intros f' v _. simpl. rewrite E. reflexivity.
    + intros f' v _. rewrite E. reflexivity.
    + exact I.
  - intros d. exists 1. intros m Hm. destruct m as [|m]; [lia|]. rewrite count_none; [lia|].
    intros t Ht. apply in_tapes in Ht as [L Ht]. destruct t as [|w t]; [discriminate|]. unfold stuck, undecided.
    specialize (H w (Ht w (or_introl eq_refl))). destruct (g w); simpl; congruence.
Qed.

Lemma g_ends_after {A} (P : tprog A) : good P -> forall p d, (0 < K) ->
  (forall w, In w p -> w < K) ->
  exists M, forall m, M <= m -> d * count (fun t => stuck P (p ++ t)) (tapes K m) <= K ^ m.
Proof.
  intros G p d HK Hp. destruct (g_ends P G (d * K ^ length p)) as [M HM]. exists M. intros m Hm.
  specialize (HM (length p + m) ltac:(lia)). rewrite count_tapes_app in HM.
  assert (In p (tapes K (length p))) as Hin by (apply in_tapes; split; [reflexivity|exact Hp]).
  assert (L : count (fun t => stuck P (p ++ t)) (tapes K m) <= total (fun t => count (fun u => stuck P (t ++ u)) (tapes K m)) (tapes K (length p))).
  { revert Hin. generalize (tapes K (length p)). intros l. induction l as [|t l IH]; [intros []|]. intros [->|Hin]; unfold total in *; simpl.
    - lia.
    - specialize (IH Hin). lia. }
  rewrite Nat.pow_add_r in HM. assert (K ^ length p <> 0) by (apply Nat.pow_nonzero; lia).
  apply (Nat.mul_le_mono_pos_l _ _ (K ^ length p)); [lia|]. etransitivity; [|exact HM].
  rewrite Nat.mul_assoc, (Nat.mul_comm (K ^ length p) d). apply Nat.mul_le_mono_l. exact L.
Qed.

Lemma uniform_bound {A} (l : list A) (Q : A -> nat -> Prop) :
  (forall x, In x l -> exists M, forall m, M <= m -> Q x m) ->
  exists M, forall x m, In x l -> M <= m -> Q x m.
Proof.
  induction l as [|x l IH]; intros H.
  - exists 0. intros x m [].
  - destruct (H x (or_introl eq_refl)) as [M1 H1]. destruct IH as [M2 H2]; [intros y Hy; apply H; right; exact Hy|].
    exists (M1 + M2). intros y m [<-|Hy] Hm; [apply H1; lia|apply H2; [exact Hy|lia]].
Qed.

Lemma good_bind {A B} (P : tprog A) (Q : A -> tprog B) : 0 < K -> good P ->
  (forall a, (exists f t t', P f t = Ok (a, t')) -> good (Q a)) ->
  good (fun f t => (' (a, t') <- P f t ;; Q a f t')%oc).
Proof.
  intros HK GP GQ. split.
  - intros f t Ht. pose proof (g_split P GP f t Ht) as S1. destruct (P f t) as [[a t1]|q|] eqn:E; simpl.
    + destruct S1 as (u & -> & S1). rewrite app_length in Ht.
      assert (GQa : good (Q a)) by (apply GQ; eauto).
      pose proof (g_split (Q a) GQa f t1 ltac:(lia)) as S2. destruct (Q a f t1) as [[b t2]|q|]; [| |exact I].
      * destruct S2 as (u2 & -> & S2). exists (u ++ u2). split; [apply app_assoc|].
        intros f' v Hv. rewrite <- app_assoc in *. rewrite S1 by exact Hv. simpl. apply S2. rewrite app_length in Hv. lia.
      * intros f' v Hv. rewrite <- app_assoc in *. rewrite S1 by exact Hv. simpl. apply S2. rewrite app_length in Hv. lia.
    + intros f' v Hv. rewrite S1 by exact Hv. reflexivity.
    + exact I.
  - intros d. destruct (g_ends P GP (2 * d)) as [M1 H1]. specialize (H1 M1 (le_n _)).
    set (R := fun f t => (' (a, t') <- P f t ;; Q a f t')%oc).
    (* per prefix *)
    destruct (uniform_bound (tapes K M1) (fun t m => stuck P t = true \/
               2 * d * count (fun u => stuck R (t ++ u)) (tapes K m) <= K ^ m)) as [M2 H2].
    { intros t Ht. apply in_tapes in Ht as [Lt Ht]. destruct (stuck P t) eqn:St; [exists 0; auto|].
      unfold stuck, undecided in St. pose proof (g_split P GP (S (length t)) t ltac:(lia)) as S1.
      destruct (P (S (length t)) t) as [[a t1]|q|] eqn:EP; [| |discriminate].
      - assert (GQa : good (Q a)) by (apply GQ; eauto). destruct S1 as (u & -> & S1).
        destruct (g_ends_after (Q a) GQa t1 (2 * d) HK) as [M HM]; [intros w Hw; apply Ht, in_app_iff; auto|].
        exists M. intros m Hm. right. specialize (HM m Hm).
        rewrite (count_ext _ (fun x => stuck (Q a) (t1 ++ x))); [exact HM|].
        intros v _. rewrite <- app_assoc.
        rewrite (stuck_fuel (Q a) (S (length (u ++ t1 ++ v))) (t1 ++ v) GQa) by (rewrite (app_length u); lia).
        unfold stuck, undecided, R. rewrite S1 by lia. reflexivity.
      - exists 0. intros m _. right. rewrite count_none; [lia|]. intros v _. unfold stuck, undecided, R. rewrite S1 by lia. reflexivity. }
    exists (M1 + M2). intros m Hm. replace m with (M1 + (m - M1)) by lia. set (m2 := m - M1).
    rewrite count_tapes_app, Nat.pow_add_r.
    assert (HB : 2 * d * total (fun t => count (fun u => stuck R (t ++ u)) (tapes K m2)) (tapes K M1)
      <= total (fun t => 2 * d * (if stuck P t then K ^ m2 else 0) + K ^ m2) (tapes K M1)).
    { rewrite <- total_scale. apply total_le. intros t Ht.
      destruct (H2 t m2 Ht ltac:(unfold m2; lia)) as [->|L].
      - pose proof (count_le_length (fun u => stuck R (t ++ u)) (tapes K m2)) as L. rewrite tapes_length in L.
        assert (2 * d * count (fun u => stuck R (t ++ u)) (tapes K m2) <= 2 * d * K ^ m2) by (apply Nat.mul_le_mono_l; exact L). lia.
      - lia. }
    rewrite total_plus, total_const, tapes_length, total_scale in HB.
    pose proof (total_split (stuck P) (K ^ m2) 0 (tapes K M1)) as E. rewrite !Nat.mul_0_r, !Nat.add_0_r in E. rewrite E in HB.
    assert (2 * d * (count (stuck P) (tapes K M1) * K ^ m2) <= K ^ M1 * K ^ m2) by (rewrite Nat.mul_assoc; apply Nat.mul_le_mono_r; exact H1).
    change (stuck (fun f t => (' (a, t') <- P f t ;; Q a f t')%oc)) with (stuck R). nia.
Qed.

(** Rejection. *)
Lemma pow_gap c m : c ^ m * (c + m) <= S c ^ m * c.
Proof.
  induction m as [|m IH]; [simpl; lia|]. simpl. 
  assert (c ^ m * (c + m) * S c <= S c ^ m * c * S c) by (apply Nat.mul_le_mono_r; exact IH).
  assert (c * c ^ m * (c + S m) <= c ^ m * (c + m) * S c) by nia. nia.
Qed.
Lemma pow_beats c d : exists M, forall m, M <= m -> d * c ^ m <= S c ^ m.
Proof.
  destruct c as [|c].
  - exists 1. intros m Hm. destruct m; [lia|]. simpl. lia.
  - exists (d * S c). intros m Hm. pose proof (pow_gap (S c) m) as H.
    assert (S c ^ m * (d * S c) <= S (S c) ^ m * S c) by (etransitivity; [|exact H]; apply Nat.mul_le_mono_l; lia).
    nia.
Qed.

Context {T F C : Type} (num : de_num T F) (idx : nat -> nat -> nat) (val : T -> T -> nat -> outcome T) (un : nat -> F)
  {N : nat} (cmp : C -> array T N -> array T N -> outcome (bool * C)).
Notation cand := (array T N).
Local Notation rng := (tape_rng idx val un).
Context (HK : 0 < K)
  (Hadd : forall x y, t_add num x y <> Diverge) (Hsub : forall x y, t_sub num x y <> Diverge)
  (Hmul : forall x y, t_mul num x y <> Diverge) (Hval : forall lo hi w, val lo hi w <> Diverge)
  (Hcmp : forall c x y, cmp c x y <> Diverge).

Definition tp {A} (o : nat -> list nat -> outcome A) (get : A -> (list nat)) : tprog A := fun f t => (a <- o f t ;; Ok (a, get a))%oc.

Lemma good_reject len excl w0 : w0 < K -> existsb (Nat.eqb (idx len w0)) excl = false ->
  good (fun f t => de_reject rng f len excl t).
Proof.
  intros Hw0 Hx. split.
  - intros f t; revert f; induction t as [|w t IH]; intros f Hf; (destruct f as [|f]; [simpl in Hf; lia|]); simpl; simpl in Hf.
    + destruct (len =? 0) eqn:E0; simpl; [|exact I]. intros f' v Hv. destruct f' as [|f']; [lia|]. simpl. rewrite E0. reflexivity.
    + destruct (len =? 0) eqn:E0; simpl.
      * intros f' v Hv. destruct f' as [|f']; [lia|]. simpl. rewrite E0. reflexivity.
      * destruct (existsb (Nat.eqb (idx len w)) excl) eqn:Ex.
        -- specialize (IH f ltac:(lia)). destruct (de_reject rng f len excl t) as [[a t']|q|]; [| |exact I].
           ++ destruct IH as (u & -> & IH). exists (w :: u). split; [reflexivity|]. intros f' v Hv. simpl in Hv.
              destruct f' as [|f']; [lia|]. simpl. rewrite E0. simpl. rewrite Ex. apply IH. lia.
           ++ intros f' v Hv. simpl in Hv. destruct f' as [|f']; [lia|]. simpl. rewrite E0. simpl. rewrite Ex. apply IH. lia.
        -- exists [w]. split; [reflexivity|]. intros f' v Hv. destruct f' as [|f']; [lia|]. simpl. rewrite E0. simpl. rewrite Ex. reflexivity.
  - assert (B : forall m, count (stuck (fun f t => de_reject rng f len excl t)) (tapes K m) <= (K - 1) ^ m).
    { induction m as [|m IH]; [apply (count_le_length _ [[]])|]. rewrite count_tapes_S.
      transitivity (total (fun w => if negb (existsb (Nat.eqb (idx len w)) excl) then 0 else (K - 1) ^ m) (seq 0 K)).
      - apply total_le. intros w _. destruct (existsb (Nat.eqb (idx len w)) excl) eqn:Ex; simpl.
        + etransitivity; [|exact IH]. apply count_le. intros t _. unfold stuck, undecided. cbn [length].
          cbn [de_reject tape_rng gen_index]. destruct (len =? 0) eqn:E0; simpl; [discriminate|]. rewrite Ex. auto.
        + rewrite count_none; [lia|]. intros t _. unfold stuck, undecided. cbn [length].
          cbn [de_reject tape_rng gen_index]. destruct (len =? 0) eqn:E0; simpl; [reflexivity|]. rewrite Ex. reflexivity.
      - pose proof (total_split (fun w => negb (existsb (Nat.eqb (idx len w)) excl)) 0 ((K - 1) ^ m) (seq 0 K)) as E.
        rewrite seq_length in E. assert (1 <= count (fun w => negb (existsb (Nat.eqb (idx len w)) excl)) (seq 0 K)).
        { unfold count. assert (In w0 (filter (fun w => negb (existsb (Nat.eqb (idx len w)) excl)) (seq 0 K))) as H.
          { apply filter_In. split; [apply in_seq; lia|]. rewrite Hx. reflexivity. }
          destruct (filter (fun w => negb (existsb (Nat.eqb (idx len w)) excl)) (seq 0 K)); [destruct H|simpl; lia]. }
        rewrite Nat.pow_succ_r'. destruct K as [|K']; [lia|]. simpl Nat.sub in *. rewrite Nat.sub_0_r in *. nia. }
    intros d. destruct (pow_beats (K - 1) d) as [M HM]. exists M. intros m Hm. specialize (HM m Hm). specialize (B m).
    replace (S (K - 1)) with K in HM by lia. nia.
Qed.

Lemma good_index n : good (fun _ t => gen_index rng n t).
Proof.
  destruct (Nat.eqb_spec n 0) as [->|H].
  - apply (good_ext (fun _ t => (a <- Panic EmptyRange ;; Ok (a, t))%oc)); [reflexivity|]. apply good_pure. discriminate.
  - apply (good_ext (fun _ t => match t with [] => Diverge | w :: t' => (a <- Ok (idx n w) ;; Ok (a, t'))%oc end)).
    + intros f t. simpl. apply Nat.eqb_neq in H. rewrite H. destruct t; reflexivity.
    + apply good_draw. discriminate.
Qed.
Lemma good_value lo hi : good (fun _ t => gen_value rng lo hi t).
Proof.
  apply (good_ext (fun _ t => match t with [] => Diverge | w :: t' => (a <- val lo hi w ;; Ok (a, t'))%oc end)); [reflexivity|].
  apply good_draw. auto.
Qed.
Lemma good_unit : good (fun _ t => gen_unit rng t).
Proof.
  apply (good_ext (fun _ t => match t with [] => Diverge | w :: t' => (a <- Ok (un w) ;; Ok (a, t'))%oc end)).
  - intros f t. destruct t; reflexivity.
  - apply good_draw. discriminate.
Qed.
Lemma good_ok {A} (a : A) : good (fun _ t => Ok (a, t)).
Proof. apply (good_pure (Ok a)). discriminate. Qed.

Lemma good_from_fn {X} (body : nat -> list nat -> outcome (X * list nat)) n i0 :
  (forall i, good (fun _ t => body i t)) -> good (fun _ t => array_from_fn n i0 body t).
Proof.
  intros H. revert i0; induction n as [|n IH]; intros i0; cbn [array_from_fn]; [apply good_ok|].
  apply (good_bind (fun _ t => body i0 t) (fun x _ t => (' (xs, t') <- array_from_fn n (S i0) body t ;; Ok (acons x xs, t'))%oc) HK (H i0)).
  intros x _. apply (good_bind (fun _ t => array_from_fn n (S i0) body t) (fun xs _ t => Ok (acons x xs, t)) HK (IH (S i0))).
  intros xs _. apply good_ok.
Qed.

Lemma vget_total {A} (l : list A) i : vget l i <> Diverge.
Proof. unfold vget. destruct (nth_error l i); discriminate. Qed.
Lemma vset_total {A} (l : list A) i x : vset l i x <> Diverge.
Proof. unfold vset. destruct (i <? length l); discriminate. Qed.
Lemma bind_total {A B} (o : outcome A) (k : A -> outcome B) : o <> Diverge -> (forall a, k a <> Diverge) -> bind o k <> Diverge.
Proof. destruct o; simpl; congruence. Qed.
Lemma pop_at_total (pop : list cand) j n : pop_at pop j n <> Diverge.
Proof. apply bind_total; [apply vget_total|intros; apply vget_total]. Qed.

Lemma good_trial p w (pop : list cand) i j k l r : good (fun _ t => de_trial num rng p w pop i j k l r t).
Proof.
  unfold de_trial. apply good_from_fn. intros n.
  apply (good_ext (fun f t => (' (take, t') <- (if n =? r then Ok (true, t) else ' (u, t') <- gen_unit rng t ;; Ok (p_ltb num u p, t')) ;;
     v <- (if take : bool then a <- pop_at pop j n ;; b <- pop_at pop k n ;; c <- pop_at pop l n ;;
             d <- t_sub num b c ;; e <- t_mul num d w ;; t_add num a e else pop_at pop i n) ;; Ok (v, t'))%oc)).
  - intros f t. destruct (if n =? r then Ok (true, t) else _) as [[[|] t']|q|]; cbn [bind]; try reflexivity.
    destruct (pop_at pop j n) as [a| |]; cbn [bind]; try reflexivity.
    destruct (pop_at pop k n) as [b| |]; cbn [bind]; try reflexivity.
    destruct (pop_at pop l n) as [c| |]; cbn [bind]; try reflexivity.
    destruct (t_sub num b c) as [d| |]; cbn [bind]; try reflexivity.
    destruct (t_mul num d w) as [e| |]; reflexivity.
  - apply (good_bind (fun _ t => if n =? r then Ok (true, t) else (' (u, t') <- gen_unit rng t ;; Ok (p_ltb num u p, t'))%oc)
      (fun take _ t => (v <- (if take : bool then a <- pop_at pop j n ;; b <- pop_at pop k n ;; c <- pop_at pop l n ;;
             d <- t_sub num b c ;; e <- t_mul num d w ;; t_add num a e else pop_at pop i n) ;; Ok (v, t))%oc) HK).
    + destruct (n =? r); [apply good_ok|].
      apply (good_bind (fun _ t => gen_unit rng t) (fun u _ t => Ok (p_ltb num u p, t)) HK good_unit). intros u _. apply good_ok.
    + intros take _. apply good_pure. destruct take; [|apply pop_at_total].
      repeat (apply bind_total; [first [apply pop_at_total|apply Hsub|apply Hmul]|intros ?]). apply Hadd.
Qed.

Lemma good_population bounds n : good (fun _ t => de_initial_population rng bounds n t : outcome (list cand * list nat)).
Proof.
  induction n as [|n IH]; cbn [de_initial_population]; [apply good_ok|].
  apply (good_bind (fun _ t => de_initial_candidate rng bounds t)
    (fun x _ t => (' (xs, t') <- de_initial_population rng bounds n t ;; Ok (x :: xs, t'))%oc) HK).
  - unfold de_initial_candidate. apply good_from_fn. intros i. unfold array_get, vget.
    destruct (nth_error (entries bounds) i) as [[lo hi]|]; simpl; [apply good_value|].
    apply (good_ext (fun _ t => (a <- Panic IndexOOB ;; Ok (a, t))%oc)); [reflexivity|]. apply good_pure. discriminate.
  - intros x _. apply (good_bind (fun _ t => de_initial_population rng bounds n t) (fun xs _ t => Ok (x :: xs, t)) HK IH).
    intros xs _. apply good_ok.
Qed.

(** A number outside a list of three exists below four. *)
Lemma free_index n excl : length excl < n -> exists x, x < n /\ existsb (Nat.eqb x) excl = false.
Proof.
  intros H. destruct (Forall_Exists_dec (fun x => existsb (Nat.eqb x) excl = true) (fun x => Bool.bool_dec _ _) (seq 0 n)) as [A|E].
  - exfalso. assert (incl (seq 0 n) excl).
    { intros x Hx. rewrite Forall_forall in A. apply A in Hx. apply existsb_exists in Hx as (y & Hy & E). apply Nat.eqb_eq in E. subst; exact Hy. }
    pose proof (NoDup_incl_length (seq_NoDup n 0) H0) as L. rewrite seq_length in L. lia.
  - apply Exists_exists in E as (x & Hx & E). exists x. apply in_seq in Hx. split; [lia|]. destruct (existsb _ _); congruence.
Qed.

Section Size.
Context (size : nat) (H4 : 4 <= size) (Hsur : forall x, x < size -> exists w, w < K /\ idx size w = x).
Lemma good_reject_size excl : length excl <= 3 -> good (fun f t => de_reject rng f size excl t).
Proof.
  intros L. destruct (free_index size excl ltac:(lia)) as (x & Hx & E). destruct (Hsur x Hx) as (w0 & Hw & <-).
  apply (good_reject size excl w0 Hw E).
Qed.

Definition it_prog p w i (pop : list cand) (c : C) : tprog (list cand * C) := fun f t =>
  (' (pop', t', c') <- de_iteration num rng cmp f p w i (pop, t, c) ;; Ok ((pop', c'), t'))%oc.

Lemma good_iteration p w i pop c : length pop = size -> good (it_prog p w i pop c).
Proof.
  intros HL.
  apply (good_ext (fun f t =>
    (' (j, t) <- de_reject rng f size [i] t ;; ' (k, t) <- de_reject rng f size [i; j] t ;;
     ' (l, t) <- de_reject rng f size [i; j; k] t ;; ' (r, t) <- gen_index rng N t ;;
     ' (x, t) <- de_trial num rng p w pop i j k l r t ;;
     z <- (y <- vget pop i ;; ' (b, c') <- cmp c x y ;; if b : bool then pop' <- vset pop i x ;; Ok (pop', c') else Ok (pop, c')) ;;
     Ok (z, t))%oc)).
  { intros f t. unfold it_prog, de_iteration. rewrite HL.
    repeat match goal with
    | |- context [bind (bind ?o _) _] => destruct o as [[? ?]| |]; cbn [bind]; try reflexivity
    end.
    all: try (destruct (vget pop i) as [y| |]; cbn [bind]; try reflexivity).
    all: try (destruct (cmp c _ y) as [[[|] c']| |]; cbn [bind]; try reflexivity).
    all: try (destruct (vset pop i _); cbn [bind]; reflexivity). }
  refine (good_bind (fun f t => de_reject rng f size [i] t) _ HK (good_reject_size [i] ltac:(simpl; lia)) _). intros j _.
  refine (good_bind (fun f t => de_reject rng f size [i; j] t) _ HK (good_reject_size [i; j] ltac:(simpl; lia)) _). intros k _.
  refine (good_bind (fun f t => de_reject rng f size [i; j; k] t) _ HK (good_reject_size [i; j; k] ltac:(simpl; lia)) _). intros l _.
  refine (good_bind (fun f t => gen_index rng N t) _ HK (good_index N) _). intros r _.
  refine (good_bind (fun f t => de_trial num rng p w pop i j k l r t) _ HK (good_trial p w pop i j k l r) _). intros x _.
  apply good_pure. apply bind_total; [apply vget_total|]. intros y. apply bind_total; [apply Hcmp|]. intros [[|] c']; [|discriminate].
  apply bind_total; [apply vset_total|discriminate].
Qed.

Lemma iteration_size f p w i (pop : list cand) t c pop' t' c' : length pop = size ->
  de_iteration num rng cmp f p w i (pop, t, c) = Ok (pop', t', c') -> length pop' = size.
Proof.
  intros HL. unfold de_iteration. intros H.
  apply bind_Ok_inv in H as ([j s1] & _ & H).
  apply bind_Ok_inv in H as ([k s2] & _ & H).
  apply bind_Ok_inv in H as ([l s3] & _ & H).
  apply bind_Ok_inv in H as ([r s4] & _ & H).
  apply bind_Ok_inv in H as ([x s5] & _ & H).
  apply bind_Ok_inv in H as (y & _ & H).
  apply bind_Ok_inv in H as ([b d] & _ & H).
  destruct b.
  - apply bind_Ok_inv in H as (q & E & H). injection H as <- _ _. unfold vset in E.
    destruct (i <? length pop); [|discriminate]. injection E as <-. rewrite list_upd_length. exact HL.
  - injection H as <- _ _. exact HL.
Qed.

Definition loop_prog p w is (pop : list cand) (c : C) : tprog (list cand * C) := fun f t =>
  (' (pop', t', c') <- for_each (de_iteration num rng cmp f p w) is (pop, t, c) ;; Ok ((pop', c'), t'))%oc.

Lemma good_loop p w is pop c : length pop = size -> good (loop_prog p w is pop c).
Proof.
  revert pop c; induction is as [|i is IH]; intros pop c HL.
  - apply (good_ext (fun _ t => Ok ((pop, c), t))); [reflexivity|apply good_ok].
  - apply (good_ext (fun f t => (' (a, t') <- it_prog p w i pop c f t ;; loop_prog p w is (fst a) (snd a) f t')%oc)).
    { intros f t. unfold it_prog, loop_prog. cbn [for_each].
      destruct (de_iteration num rng cmp f p w i (pop, t, c)) as [[[pop' t'] c']| |]; reflexivity. }
    apply good_bind; [exact HK|apply good_iteration; exact HL|].
    intros [pop' c'] (f & t & t' & E). apply IH. unfold it_prog in E.
    destruct (de_iteration num rng cmp f p w i (pop, t, c)) as [[[q t1] c1]| |] eqn:Ei; try discriminate.
    injection E as <- <- <-. apply (iteration_size f p w i pop t c q t1 c1 HL Ei).
Qed.

Lemma population_size f bounds n (pop : list cand) t t' :
  (fun (_ : nat) t => de_initial_population rng bounds n t) f t = Ok (pop, t') -> length pop = n.
Proof.
  revert pop t t'; induction n as [|n IH]; intros pop t t'; cbn [de_initial_population].
  - intros E. injection E as <- _. reflexivity.
  - intros E. apply bind_Ok_inv in E as ([x t1] & _ & E). apply bind_Ok_inv in E as ([xs t2] & E1 & E).
    injection E as <- _. simpl. f_equal. apply (IH xs t1 t2 E1).
Qed.

Lemma knockout_total (pop : list cand) c : 1 <= length pop -> de_knockout cmp (length pop) pop c <> Diverge.
Proof.
  intros HL E.
  assert (Wc : forall c x y, wp (fun _ => True) False (cmp c x y) (fun _ => True)).
  { intros c0 x y. specialize (Hcmp c0 x y). destruct (cmp c0 x y); simpl; auto. }
  pose proof (wp_knockout (fun _ => True) False cmp Wc (length pop) pop c [] HL (le_n _)) as Wk.
  pose proof (sim_knockout (recorded cmp) cmp (fun c1 c2 => fst c1 = c2)
        (fun c1 c2 x y H => recorded_sim cmp c1 c2 x y H) (length pop) pop (c, []) c eq_refl) as Sk.
  rewrite E in Sk. destruct (de_knockout (recorded cmp) (length pop) pop (c, [])); simpl in Sk, Wk; contradiction.
Qed.
End Size.

Lemma ends_good {A B} (P : tprog A) (run : list nat -> outcome B) : good P ->
  (forall t, undecided run t = stuck P t) -> ends_almost_surely K run.
Proof.
  intros G H d. destruct (g_ends P G d) as [M HM]. exists M. intros m Hm.
  rewrite (count_ext _ (stuck P)); [apply HM; exact Hm|]. intros t _. apply H.
Qed.

Lemma optimize_ends bounds size p w iters c :
  (4 <= size -> forall x, x < size -> exists w, w < K /\ idx size w = x) ->
  ends_almost_surely K (fun t => de_optimize num rng cmp (S (length t)) bounds size p w iters t c).
Proof.
  intros Hsur. destruct (Nat.leb_spec 4 size) as [H4|H4].
  - specialize (Hsur H4).
    apply (ends_good (fun f t =>
      (_ <- (_ <- de_assert (p_leb num (p_0 num) p && p_leb num p (p_1 num)) ;;
             de_assert (t_leb num (t_0 num) w && t_leb num w (t_2 num))) ;;
       ' (pop, t) <- de_initial_population rng bounds size t ;;
       ' (a, t) <- loop_prog p w (cycle_take (seq 0 (length pop)) (seq 0 (length pop)) iters) pop c f t ;;
       z <- (' (q, c) <- de_knockout cmp (length (fst a)) (fst a) (snd a) ;; best <- vget q 0 ;; Ok (best, c)) ;;
       Ok (z, t))%oc)).
    + destruct (_ <- de_assert _ ;; de_assert _)%oc as [[]|q|] eqn:EA.
      * cbn [bind]. refine (good_bind (fun f t => de_initial_population rng bounds size t) _ HK (good_population bounds size) _).
        intros pop (f & t & t' & E). apply (population_size f) in E.
        refine (good_bind (loop_prog p w _ pop c) _ HK (good_loop size H4 Hsur p w _ pop c E) _).
        intros [pop' c'] (f' & t1 & t2 & E2). cbn [fst snd]. apply good_pure. apply bind_total.
        -- apply knockout_total. unfold loop_prog in E2. apply bind_Ok_inv in E2 as ([[p2 t3] c3] & E2 & E3). injection E3 as <- <- <-.
           assert (HL : length p2 = size).
           { clear - E E2. revert E2. generalize (cycle_take (seq 0 (length pop)) (seq 0 (length pop)) iters).
             intros is. revert pop t1 c E. induction is as [|i is IH]; intros pop t1 c E; cbn [for_each].
             - intros H. injection H as <- _ _. exact E.
             - intros H. apply bind_Ok_inv in H as ([[p3 t4] c4] & H1 & H2).
               apply (IH p3 t4 c4 (iteration_size size f' p w i pop t1 c p3 t4 c4 E H1) H2). }
           lia.
        -- intros [q c2]. apply bind_total; [apply vget_total|discriminate].
      * apply (good_ext (fun _ t => (a <- Panic q ;; Ok (a, t))%oc)); [reflexivity|]. apply good_pure. discriminate.
      * unfold de_assert in EA. destruct (_ && _) in EA; simpl in EA; [destruct (_ && _) in EA; discriminate|discriminate].
    + intros t. unfold stuck, undecided, de_optimize, loop_prog, de_greedy. cbn [fst snd].
      apply Nat.leb_le in H4. rewrite H4. cbn [de_assert bind].
      destruct (de_assert (p_leb num (p_0 num) p && p_leb num p (p_1 num))) as [[]| |]; cbn [bind]; try reflexivity.
      destruct (de_assert (t_leb num (t_0 num) w && t_leb num w (t_2 num))) as [[]| |]; cbn [bind]; try reflexivity.
      destruct (de_initial_population rng bounds size t) as [[pop t1]| |]; cbn [bind]; try reflexivity.
      destruct (for_each _ _ _) as [[[p2 t2] c2]| |]; cbn [bind fst snd]; try reflexivity.
      destruct (de_knockout cmp (length p2) p2 c2) as [[q c3]| |]; cbn [bind]; try reflexivity.
      destruct (vget q 0); reflexivity.
  - intros d. exists 0. intros m _. rewrite count_none; [lia|]. intros t _. unfold undecided, de_optimize.
    apply Nat.leb_gt in H4. rewrite H4. reflexivity.
Qed.
End Progs.
