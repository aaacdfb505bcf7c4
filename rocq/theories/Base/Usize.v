(** [usize]: indices, lengths and their arithmetic.

    Values are [N]; an actual usize is below 2^bits.  Arithmetic is checked in a
    build with overflow checks ([Debug]) and wraps without ([Release]). *)
From Coq Require Import List Arith NArith Lia Bool.
From Verif Require Import Base.Outcome.
Import ListNotations.

Inductive build_mode : Set := Debug | Release.

(** What is compiled for: the width of usize (any number of bits; 16, 32 and 64 exist) and
    whether overflow is checked.  A bare [Debug] or [Release] stands for a 64-bit target. *)
Record target : Set := MkTarget { usize_bits : N; checks : build_mode }.
Definition on64 (checks : build_mode) : target := MkTarget 64 checks.
Coercion on64 : build_mode >-> target.

Definition usize_bound (md : target) : N := (2 ^ usize_bits md)%N.

Definition usize_result (md : target) (x : N) : outcome N :=
  if (x <? usize_bound md)%N then Ok x
  else match checks md with
       | Debug => Panic ArithOverflow
       | Release => Ok (x mod usize_bound md)%N
       end.

(** [a * b] and [a + b] on usize. *)
Definition u_mul (md : target) (a b : N) : outcome N := usize_result md (a * b)%N.
Definition u_add (md : target) (a b : N) : outcome N := usize_result md (a + b)%N.

(** The items of [0..n] and [lo..hi]. *)
Definition urange_from (lo hi : N) : list N :=
  map N.of_nat (seq (N.to_nat lo) (N.to_nat hi - N.to_nat lo)).
Definition urange (n : N) : list N := urange_from 0 n.

(** [slice.len()]. *)
Definition ulen {A} (l : list A) : N := N.of_nat (length l).

(** Bounds-checked [slice[i]] and [slice[i] = x]. *)
Definition sget {A} (l : list A) (i : N) : outcome A :=
  if (i <? ulen l)%N then vget l (N.to_nat i) else Panic IndexOOB.
Definition sset {A} (l : list A) (i : N) (x : A) : outcome (list A) :=
  if (i <? ulen l)%N then Ok (list_upd l (N.to_nat i) x) else Panic IndexOOB.

(** * Facts *)
Lemma usize_bound_pos md : (0 < usize_bound md)%N.
Proof. unfold usize_bound. pose proof (N.pow_nonzero 2 (usize_bits md)). lia. Qed.
Lemma usize_result_ok md x : (x < usize_bound md)%N -> usize_result md x = Ok x.
Proof. intros H. unfold usize_result. apply N.ltb_lt in H. rewrite H. reflexivity. Qed.

Lemma urange_eq n : urange n = map N.of_nat (seq 0 (N.to_nat n)).
Proof. unfold urange, urange_from. simpl. rewrite Nat.sub_0_r. reflexivity. Qed.

Lemma urange_length n : length (urange n) = N.to_nat n.
Proof. rewrite urange_eq, map_length, seq_length. reflexivity. Qed.

Lemma in_urange n i : In i (urange n) <-> (i < n)%N.
Proof.
  rewrite urange_eq, in_map_iff. split.
  - intros (k & <- & Hk). apply in_seq in Hk. lia.
  - intros H. exists (N.to_nat i). split; [apply N2Nat.id|]. apply in_seq. lia.
Qed.

Lemma nth_urange n k : k < N.to_nat n -> nth_error (urange n) k = Some (N.of_nat k).
Proof.
  intros H. rewrite urange_eq.
  rewrite (nth_error_nth' _ 0%N) by (rewrite map_length, seq_length; exact H).
  change 0%N with (N.of_nat 0). rewrite map_nth, seq_nth by exact H. reflexivity.
Qed.

Lemma ulen_lt {A} (l : list A) i : (i < ulen l)%N <-> N.to_nat i < length l.
Proof. unfold ulen. lia. Qed.

Lemma sget_vget {A} (l : list A) i : sget l i = vget l (N.to_nat i).
Proof.
  unfold sget. destruct (N.ltb_spec i (ulen l)) as [H|H]; [reflexivity|].
  rewrite vget_oob; [reflexivity|]. unfold ulen in H. lia.
Qed.

Lemma sget_oob {A} (l : list A) i : (ulen l <= i)%N -> sget l i = Panic IndexOOB.
Proof. intros H. unfold sget. apply N.ltb_ge in H. rewrite H. reflexivity. Qed.

Lemma sget_ok {A} (l : list A) i d : (i < ulen l)%N -> sget l i = Ok (nth (N.to_nat i) l d).
Proof. intros H. rewrite sget_vget. apply vget_ok. apply ulen_lt. exact H. Qed.

Lemma sget_nth {A} (l : list A) i x : nth_error l (N.to_nat i) = Some x -> sget l i = Ok x.
Proof. intros H. rewrite sget_vget. unfold vget. rewrite H. reflexivity. Qed.

Lemma sget_Ok_inv {A} (l : list A) i x : sget l i = Ok x -> nth_error l (N.to_nat i) = Some x.
Proof. rewrite sget_vget. unfold vget. destruct (nth_error l (N.to_nat i)); congruence. Qed.

Lemma mapM_nth {A B} (f : A -> outcome B) l r k x :
  mapM f l = Ok r -> nth_error l k = Some x ->
  exists y, f x = Ok y /\ nth_error r k = Some y.
Proof.
  revert r k; induction l as [|a l IH]; intros r k; simpl.
  - intros _ H. destruct k; discriminate.
  - intros H Hk. apply bind_Ok_inv in H as (y & Hy & H).
    apply bind_Ok_inv in H as (ys & Hys & H). injection H as <-.
    destruct k as [|k]; simpl in *.
    + injection Hk as <-. eauto.
    + apply (IH ys k Hys Hk).
Qed.

Lemma mapM_self {A B} (f : A -> outcome B) (la : list A) (lb : list B) :
  length la = length lb ->
  (forall k a b, nth_error la k = Some a -> nth_error lb k = Some b -> f a = Ok b) ->
  mapM f la = Ok lb.
Proof.
  revert lb; induction la as [|a la IH]; intros [|b lb] Hl H; simpl in *; try discriminate; [reflexivity|].
  rewrite (H 0 a b) by reflexivity. simpl. rewrite (IH lb); [reflexivity|lia|].
  intros k x y Hx Hy. apply (H (S k)); assumption.
Qed.
