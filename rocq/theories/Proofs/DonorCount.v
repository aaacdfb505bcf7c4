(** Counting the outcomes of the donor choice and of the crossover. *)
From Coq Require Import List Arith Lia Bool.
From Verif Require Import Base.Outcome Base.Array Model.DiffEvo Spec.DiffEvo Spec.DiffEvoRandom Proofs.DiffEvoRandom.
Import ListNotations.

Fixpoint rej (excl t : list nat) : option (nat * list nat) :=
  match t with
  | [] => None
  | w :: t' => if existsb (Nat.eqb w) excl then rej excl t' else Some (w, t')
  end.
Lemma rej_shorter excl t x t' : rej excl t = Some (x, t') -> length t' < length t.
Proof.
  induction t as [|w t IH]; simpl; [discriminate|]. destruct (existsb _ _).
  - intros H. apply IH in H. lia.
  - intros H. injection H as _ <-. lia.
Qed.
Local Notation rng := (tape_rng (T := unit) (F := unit) (fun _ w => w) (fun _ _ _ => Ok tt) (fun _ => tt)).
Lemma reject_rej f n excl t : 0 < n -> length t < f ->
  de_reject rng f n excl t = match rej excl t with Some r => Ok r | None => Diverge end.
Proof.
  intros Hn. revert f; induction t as [|w t IH]; intros f Hf; (destruct f as [|f]; [simpl in Hf; lia|]); simpl.
  - destruct n; [lia|]. reflexivity.
  - destruct n; [lia|]. simpl. destruct (existsb (Nat.eqb w) excl); [|reflexivity]. apply IH. simpl in Hf. lia.
Qed.

Definition d3 (excl t : list nat) : option nat := option_map fst (rej excl t).
Definition d2 (i j : nat) (t : list nat) : option (nat * nat) :=
  match rej [i; j] t with Some (k, t') => option_map (pair k) (d3 [i; j; k] t') | None => None end.
Definition d1 (i : nat) (t : list nat) : option (nat * nat * nat) :=
  match rej [i] t with Some (j, t') => option_map (fun '(k, l) => (j, k, l)) (d2 i j t') | None => None end.

Lemma donors_view n i t : 0 < n ->
  match donors n i t with
  | Ok (j, k, l, _) => d1 i t = Some (j, k, l)
  | Panic _ => False
  | Diverge => d1 i t = None
  end.
Proof.
  intros Hn. unfold donors, draw_donors, d1, d2, d3.
  rewrite reject_rej by (simpl; lia). destruct (rej [i] t) as [[j t1]|] eqn:E1; cbn [bind]; [|reflexivity].
  pose proof (rej_shorter _ _ _ _ E1). rewrite reject_rej by lia.
  destruct (rej [i; j] t1) as [[k t2]|] eqn:E2; cbn [bind]; [|reflexivity].
  pose proof (rej_shorter _ _ _ _ E2). rewrite reject_rej by lia.
  destruct (rej [i; j; k] t2) as [[l t3]|]; cbn [bind]; reflexivity.
Qed.

Definition is_none {A} (o : option A) : bool := match o with None => true | _ => false end.

(** Sums over the next word. *)
Lemma count_in n excl : NoDup excl -> (forall x, In x excl -> x < n) ->
  count (fun w => existsb (Nat.eqb w) excl) (seq 0 n) = length excl.
Proof.
  intros H HB. unfold count. apply Nat.le_antisymm.
  - apply NoDup_incl_length; [apply NoDup_filter, seq_NoDup|]. intros w Hw. apply filter_In in Hw as [_ Hw].
    apply existsb_exists in Hw as (x & Hx & E). apply Nat.eqb_eq in E. subst; exact Hx.
  - apply NoDup_incl_length; [exact H|]. intros w Hw. apply filter_In. split; [apply in_seq; specialize (HB w Hw); lia|].
    apply existsb_exists. exists w. split; [exact Hw|apply Nat.eqb_refl].
Qed.
Lemma total_excl n excl a b : NoDup excl -> (forall x, In x excl -> x < n) ->
  total (fun w => if existsb (Nat.eqb w) excl then a else b) (seq 0 n) = length excl * a + (n - length excl) * b.
Proof.
  intros H HB. pose proof (total_split (fun w => existsb (Nat.eqb w) excl) a b (seq 0 n)) as E.
  rewrite (count_in n excl H HB), seq_length in E.
  assert (length excl <= n).
  { rewrite <- (seq_length n 0). apply NoDup_incl_length; [exact H|]. intros x Hx. apply in_seq. specialize (HB x Hx). lia. }
  nia.
Qed.
Lemma total_pick n excl l a b : NoDup (l :: excl) -> (forall x, In x (l :: excl) -> x < n) ->
  total (fun w => if existsb (Nat.eqb w) excl then a else if w =? l then b else 0) (seq 0 n) = length excl * a + b.
Proof.
  intros H HB. inversion H as [|? ? Hl H']; subst.
  rewrite (total_ext _ (fun w => (if existsb (Nat.eqb w) excl then a else 0) + (if existsb (Nat.eqb w) [l] then b else 0))).
  - rewrite total_plus, !total_excl.
    + simpl. lia.
    + constructor; [intros []|constructor].
    + intros x [<-|[]]. apply HB. left; reflexivity.
    + exact H'.
    + intros x Hx. apply HB. right; exact Hx.
  - intros w _. simpl. rewrite orb_false_r. destruct (existsb (Nat.eqb w) excl) eqn:E.
    + destruct (Nat.eqb_spec w l) as [->|]; [|lia]. exfalso. apply Hl. apply existsb_exists in E as (x & Hx & E). apply Nat.eqb_eq in E. subst; exact Hx.
    + lia.
Qed.

(** Undecided. *)
Fixpoint u3 m := match m with 0 => 1 | S m' => 3 * u3 m' end.
Fixpoint u2 n m := match m with 0 => 1 | S m' => 2 * u2 n m' + (n - 2) * u3 m' end.
Fixpoint u1 n m := match m with 0 => 1 | S m' => u1 n m' + (n - 1) * u2 n m' end.
(** A given result. *)
Fixpoint r3 n m := match m with 0 => 0 | S m' => 3 * r3 n m' + n ^ m' end.
Fixpoint r2 n m := match m with 0 => 0 | S m' => 2 * r2 n m' + r3 n m' end.
Fixpoint r1 n m := match m with 0 => 0 | S m' => r1 n m' + r2 n m' end.

Ltac nodup := repeat (constructor; [simpl; intuition congruence|]); constructor.

Lemma count_u3 n i j k m : NoDup [i; j; k] -> i < n -> j < n -> k < n ->
  count (fun t => is_none (d3 [i; j; k] t)) (tapes n m) = u3 m.
Proof.
  intros H Hi Hj Hk. induction m as [|m IH]; [reflexivity|]. rewrite count_tapes_S.
  rewrite (total_ext _ (fun w => if existsb (Nat.eqb w) [i; j; k] then u3 m else 0)).
  - rewrite total_excl; [simpl length; cbn [u3]; lia|exact H|]. intros x [<-|[<-|[<-|[]]]]; assumption.
  - intros w _. unfold d3. cbn [rej]. destruct (existsb (Nat.eqb w) [i; j; k]); [exact IH|]. apply count_none. reflexivity.
Qed.
Lemma count_u2 n i j m : NoDup [i; j] -> i < n -> j < n ->
  count (fun t => is_none (d2 i j t)) (tapes n m) = u2 n m.
Proof.
  intros H Hi Hj. induction m as [|m IH]; [reflexivity|]. rewrite count_tapes_S.
  rewrite (total_ext _ (fun w => if existsb (Nat.eqb w) [i; j] then u2 n m else u3 m)).
  - rewrite total_excl; [simpl length; cbn [u2]; lia|exact H|]. intros x [<-|[<-|[]]]; assumption.
  - intros w Hw. apply in_seq in Hw. unfold d2. cbn [rej]. destruct (existsb (Nat.eqb w) [i; j]) eqn:E; [exact IH|].
    rewrite <- (count_u3 n i j w m).
    + apply count_ext. intros t _. destruct (d3 [i; j; w] t); reflexivity.
    + simpl in E. apply orb_false_iff in E as [E1 E]. apply orb_false_iff in E as [E2 _]. apply Nat.eqb_neq in E1, E2.
      inversion H as [|? ? H1 _]; subst. simpl in H1. nodup.
    + exact Hi.
    + exact Hj.
    + lia.
Qed.
Lemma count_u1 n i m : i < n -> count (fun t => is_none (d1 i t)) (tapes n m) = u1 n m.
Proof.
  intros Hi. induction m as [|m IH]; [reflexivity|]. rewrite count_tapes_S.
  rewrite (total_ext _ (fun w => if existsb (Nat.eqb w) [i] then u1 n m else u2 n m)).
  - rewrite total_excl; [simpl length; cbn [u1]; lia|nodup|]. intros x [<-|[]]; assumption.
  - intros w Hw. apply in_seq in Hw. unfold d1. cbn [rej]. destruct (existsb (Nat.eqb w) [i]) eqn:E; [exact IH|].
    rewrite <- (count_u2 n i w m).
    + apply count_ext. intros t _. destruct (d2 i w t) as [[? ?]|]; reflexivity.
    + simpl in E. apply orb_false_iff in E as [E1 E]. apply Nat.eqb_neq in E1. nodup.
    + exact Hi.
    + lia.
Qed.

Definition hit1 (l : nat) (o : option nat) : bool := match o with Some x => x =? l | None => false end.
Definition hit2 (k l : nat) (o : option (nat * nat)) : bool := match o with Some (x, y) => (x =? k) && (y =? l) | None => false end.
Definition hit3 (j k l : nat) (o : option (nat * nat * nat)) : bool :=
  match o with Some (x, y, z) => (x =? j) && (y =? k) && (z =? l) | None => false end.

Lemma count_r3 n i j k l m : NoDup [l; i; j; k] -> (forall x, In x [l; i; j; k] -> x < n) ->
  count (fun t => hit1 l (d3 [i; j; k] t)) (tapes n m) = r3 n m.
Proof.
  intros H HB. induction m as [|m IH]; [reflexivity|]. rewrite count_tapes_S.
  rewrite (total_ext _ (fun w => if existsb (Nat.eqb w) [i; j; k] then r3 n m else if w =? l then n ^ m else 0)).
  - rewrite total_pick; [reflexivity|exact H|exact HB].
  - intros w _. unfold d3. cbn [rej]. destruct (existsb (Nat.eqb w) [i; j; k]); [exact IH|]. cbn.
    destruct (w =? l); [rewrite count_all; apply tapes_length|]. apply count_none. reflexivity.
Qed.
Lemma count_r2 n i j k l m : NoDup [l; i; j; k] -> (forall x, In x [l; i; j; k] -> x < n) ->
  count (fun t => hit2 k l (d2 i j t)) (tapes n m) = r2 n m.
Proof.
  intros H HB. induction m as [|m IH]; [reflexivity|]. rewrite count_tapes_S.
  rewrite (total_ext _ (fun w => if existsb (Nat.eqb w) [i; j] then r2 n m else if w =? k then r3 n m else 0)).
  - rewrite total_pick; [reflexivity| |].
    + repeat match goal with HH : NoDup (_ :: _) |- _ => inversion HH; clear HH; subst end. simpl in *. nodup.
    + intros x [<-|[<-|[<-|[]]]]; apply HB; simpl; auto.
  - intros w _. unfold d2. cbn [rej]. destruct (existsb (Nat.eqb w) [i; j]); [exact IH|].
    destruct (Nat.eqb_spec w k) as [->|Hk].
    + rewrite <- (count_r3 n i j k l m H HB). apply count_ext. intros t _. destruct (d3 [i; j; k] t); simpl; [|reflexivity].
      rewrite Nat.eqb_refl. reflexivity.
    + apply count_none. intros t _. destruct (d3 [i; j; w] t); simpl; [|reflexivity]. apply Nat.eqb_neq in Hk. rewrite Hk. reflexivity.
Qed.
Lemma count_r1 n i j k l m : NoDup [l; i; j; k] -> (forall x, In x [l; i; j; k] -> x < n) ->
  count (fun t => hit3 j k l (d1 i t)) (tapes n m) = r1 n m.
Proof.
  intros H HB. induction m as [|m IH]; [reflexivity|]. rewrite count_tapes_S.
  rewrite (total_ext _ (fun w => if existsb (Nat.eqb w) [i] then r1 n m else if w =? j then r2 n m else 0)).
  - rewrite total_pick; [simpl length; cbn [r1]; lia| |].
    + repeat match goal with HH : NoDup (_ :: _) |- _ => inversion HH; clear HH; subst end. simpl in *. nodup.
    + intros x [<-|[<-|[]]]; apply HB; simpl; auto.
  - intros w _. unfold d1. cbn [rej]. destruct (existsb (Nat.eqb w) [i]); [exact IH|].
    destruct (Nat.eqb_spec w j) as [->|Hk].
    + rewrite <- (count_r2 n i j k l m H HB). apply count_ext. intros t _. destruct (d2 i j t) as [[? ?]|]; simpl; [|reflexivity].
      rewrite Nat.eqb_refl. reflexivity.
    + apply count_none. intros t _. destruct (d2 i w t) as [[? ?]|]; simpl; [|reflexivity]. apply Nat.eqb_neq in Hk. rewrite Hk. reflexivity.
Qed.

(** The numbers. *)
Lemma u3_pow m : u3 m = 3 ^ m.
Proof. induction m; simpl; lia. Qed.
Lemma u2_pow n m : 3 <= n -> u2 n m + (n - 3) * 2 ^ m = (n - 2) * 3 ^ m.
Proof.
  intros Hn. induction m as [|m IH]; [simpl; lia|]. cbn [u2]. rewrite u3_pow, !Nat.pow_succ_r'. nia.
Qed.
Lemma u1_pow n m : 3 <= n ->
  2 * u1 n m + 2 * ((n - 1) * (n - 3)) * 2 ^ m = (n - 1) * (n - 2) * 3 ^ m + (n - 2) * (n - 3).
Proof.
  intros Hn. induction m as [|m IH].
  - cbn [u1 Nat.pow]. nia.
  - cbn [u1]. pose proof (u2_pow n m Hn) as E. rewrite !Nat.pow_succ_r'.
    assert ((n - 1) * u2 n m + (n - 1) * (n - 3) * 2 ^ m = (n - 1) * (n - 2) * 3 ^ m).
    { rewrite <- !Nat.mul_assoc, <- Nat.mul_add_distr_l. f_equal. exact E. }
    nia.
Qed.
Lemma sum3 n m : 3 <= n -> (n - 3) * r3 n m + u3 m = n ^ m.
Proof. intros Hn. induction m as [|m IH]; [simpl; lia|]. cbn [r3 u3]. rewrite Nat.pow_succ_r'. nia. Qed.
Lemma sum2 n m : 3 <= n -> (n - 2) * (n - 3) * r2 n m + u2 n m = n ^ m.
Proof.
  intros Hn. induction m as [|m IH]; [simpl; lia|]. cbn [r2 u2]. rewrite Nat.pow_succ_r'. pose proof (sum3 n m Hn) as E.
  assert ((n - 2) * ((n - 3) * r3 n m) + (n - 2) * u3 m = (n - 2) * n ^ m) by (rewrite <- Nat.mul_add_distr_l; f_equal; exact E).
  assert (n * n ^ m = 2 * n ^ m + (n - 2) * n ^ m) by (rewrite <- Nat.mul_add_distr_r; f_equal; lia). nia.
Qed.
Lemma sum1 n m : 3 <= n -> (n - 1) * (n - 2) * (n - 3) * r1 n m + u1 n m = n ^ m.
Proof.
  intros Hn. induction m as [|m IH]; [simpl; lia|]. cbn [r1 u1]. rewrite Nat.pow_succ_r'. pose proof (sum2 n m Hn) as E.
  assert ((n - 1) * ((n - 2) * (n - 3) * r2 n m) + (n - 1) * u2 n m = (n - 1) * n ^ m) by (rewrite <- Nat.mul_add_distr_l; f_equal; exact E).
  assert (n * n ^ m = n ^ m + (n - 1) * n ^ m).
  { destruct n; [lia|]. simpl. rewrite Nat.sub_0_r. reflexivity. }
  rewrite Nat.mul_add_distr_l. nia.
Qed.

(** ** Crossover *)
Lemma picked_length take r n i0 t : n - (if (i0 <=? r) && (r <? i0 + n) then 1 else 0) <= length t ->
  length (picked take r n i0 t) = n.
Proof.
  revert i0 t; induction n as [|n IH]; intros i0 t H; [reflexivity|]. cbn [picked].
  destruct (Nat.eqb_spec i0 r) as [->|Hr].
  - simpl. rewrite IH; [reflexivity|]. rewrite (proj2 (Nat.leb_gt (S r) r)) by lia. simpl.
    rewrite Nat.leb_refl, (proj2 (Nat.ltb_lt r (r + S n))) in H by lia. simpl in H. lia.
  - destruct t as [|w t].
    + exfalso. simpl length in H. destruct (Nat.leb_spec i0 r), (Nat.ltb_spec r (i0 + S n)); simpl in H; lia.
    + simpl. rewrite IH; [reflexivity|]. simpl length in H.
      destruct (Nat.leb_spec i0 r), (Nat.ltb_spec r (i0 + S n)), (Nat.leb_spec (S i0) r), (Nat.ltb_spec r (S i0 + n)); simpl in *; lia.
Qed.

Definition weight (q K : nat) (b : bool) : nat := if b then q else K - q.
Fixpoint chances (q K r i0 : nat) (mask : list bool) : nat :=
  match mask with
  | [] => 1
  | b :: mask' => (if i0 =? r then if b then 1 else 0 else weight q K b) * chances q K r (S i0) mask'
  end.
Lemma same_mask_cons a b l l' : same_mask (a :: l) (b :: l') = eqb a b && same_mask l l'.
Proof.
  unfold same_mask. destruct (list_eq_dec _ (a :: l) (b :: l')) as [E|E], (list_eq_dec _ l l') as [E'|E']; destruct a, b; simpl; try reflexivity; congruence.
Qed.
Lemma total_bool K (f : nat -> bool) a b :
  total (fun w => if f w then a else b) (seq 0 K) = count f (seq 0 K) * a + (K - count f (seq 0 K)) * b.
Proof.
  pose proof (total_split f a b (seq 0 K)) as E. pose proof (count_le_length f (seq 0 K)) as L. rewrite seq_length in *. nia.
Qed.
Lemma picked_count take K r mask : forall i0 m,
  m = length mask - (if (i0 <=? r) && (r <? i0 + length mask) then 1 else 0) ->
  count (fun t => same_mask (picked take r (length mask) i0 t) mask) (tapes K m) = chances (count take (seq 0 K)) K r i0 mask.
Proof.
  induction mask as [|b mask IH]; intros i0 m Hm; cbn [length picked chances].
  - simpl in Hm. subst m. reflexivity.
  - cbn [length] in Hm. destruct (Nat.eqb_spec i0 r) as [->|Hr].
    + rewrite Nat.leb_refl, (proj2 (Nat.ltb_lt r (r + S (length mask)))) in Hm by lia. simpl in Hm.
      specialize (IH (S r) m). rewrite (proj2 (Nat.leb_gt (S r) r)) in IH by lia. specialize (IH ltac:(simpl; lia)).
      destruct b.
      * rewrite Nat.mul_1_l, <- IH. apply count_ext. intros t _. rewrite same_mask_cons. reflexivity.
      * apply count_none. intros t _. rewrite same_mask_cons. reflexivity.
    + destruct m as [|m].
      { exfalso. destruct (Nat.leb_spec i0 r), (Nat.ltb_spec r (i0 + S (length mask))); simpl in Hm; lia. }
      rewrite count_tapes_S.
      assert (E : m = length mask - (if (S i0 <=? r) && (r <? S i0 + length mask) then 1 else 0)).
      { destruct (Nat.leb_spec i0 r), (Nat.ltb_spec r (i0 + S (length mask))), (Nat.leb_spec (S i0) r), (Nat.ltb_spec r (S i0 + length mask));
          simpl in *; lia. }
      specialize (IH (S i0) m E).
      rewrite (total_ext _ (fun w => if take w then (if b then chances (count take (seq 0 K)) K r (S i0) mask else 0)
                                     else (if b then 0 else chances (count take (seq 0 K)) K r (S i0) mask))).
      * rewrite total_bool. unfold weight. destruct b; lia.
      * intros w _. rewrite (count_ext _ (fun t => eqb (take w) b && same_mask (picked take r (length mask) (S i0) t) mask))
          by (intros t _; apply same_mask_cons).
        destruct (take w), b; cbn [eqb andb]; try exact IH; apply count_none; reflexivity.
Qed.
Lemma chances_pow q K r : forall mask i0, i0 <= r < i0 + length mask -> nth (r - i0) mask false = true ->
  chances q K r i0 mask = q ^ (count (fun b => b) mask - 1) * (K - q) ^ count negb mask.
Proof.
  assert (G : forall mask i0, r < i0 -> chances q K r i0 mask = q ^ count (fun b => b) mask * (K - q) ^ count negb mask).
  { induction mask as [|b mask IH]; intros i0 H; [reflexivity|]. cbn [chances]. destruct (Nat.eqb_spec i0 r); [lia|].
    rewrite IH by lia. unfold count. destruct b; simpl; unfold weight; ring. }
  induction mask as [|b mask IH]; intros i0 Hr Hn; [simpl in Hr; lia|]. cbn [chances].
  destruct (Nat.eqb_spec i0 r) as [->|Hne].
  - rewrite Nat.sub_diag in Hn. simpl in Hn. subst b. rewrite G by lia. unfold count. simpl. rewrite Nat.sub_0_r. ring.
  - rewrite IH; [|simpl in Hr; lia|].
    + assert (1 <= count (fun b => b) mask).
      { replace (r - i0) with (S (r - S i0)) in Hn by lia. simpl in Hn. unfold count.
        assert (In true (filter (fun b => b) mask)) as H.
        { apply filter_In. split; [|reflexivity]. rewrite <- Hn. apply nth_In.
          destruct (Nat.ltb_spec (r - S i0) (length mask)); [assumption|]. rewrite nth_overflow in Hn by assumption. discriminate. }
        destruct (filter (fun b => b) mask); [destruct H|simpl; lia]. }
      unfold count in *. destruct b; simpl; unfold weight.
      * destruct (length (filter (fun b => b) mask)) as [|c] eqn:E; [lia|]. simpl. rewrite Nat.sub_0_r. ring.
      * ring.
    + replace (r - i0) with (S (r - S i0)) in Hn by lia. exact Hn.
Qed.
