(** Properties C28-C31: compound assignment and indexing of DVector/DMatrix.

    A [&mut self] operation returns the state it leaves behind together with its outcome
    ([mres]); [finish] keeps the state only if it did not panic.  [dm_wf md m]: the matrix has
    exactly rows*cols entries; [row_major_at m r c]: entry in row r, column c. *)
From Coq Require Import List Arith NArith ZArith Lia Bool.
From Verif Require Import Base.Outcome Base.Usize Model.Traits Model.DVector Model.DMatrix
  Spec.Agree Spec.DExpr Spec.DStore Proofs.IntegerRing Proofs.DExprProofs Proofs.EarlyProofs
  Proofs.DStore Proofs.DVectorProofs.
Import ListNotations.

(** ** C28 *)
Lemma inplace_length {I A} (g : I -> A -> outcome A) its l : length (fst (inplace_run g its l)) = length l.
Proof.
  revert l; induction its as [|it its IH]; intros [|x l]; simpl; try reflexivity.
  destruct (g it x); try reflexivity. specialize (IH l). destruct (inplace_run g its l). simpl in *. congruence.
Qed.

(** [a += e] has exactly the outcome of [a = (&a + e).eval()], panics included. *)
Theorem C28_dvector_assign_is_operator :
  forall (A B : Type) (op : A -> B -> outcome A) (a : dvector A) (e : vexpr B),
  v_len e = ulen a ->
  finish (dvector_op_assign op a e) = (b <- dvector_binop op a e ;; v_eval b)
  /\ ulen (fst (dvector_op_assign op a e)) = ulen a.
Proof.
  intros A B op a e Hl. rewrite dvector_op_assign_run. split.
  - assert (L : length (urange (ulen a)) = length a) by (rewrite urange_length; unfold ulen; lia).
    rewrite inplace_finish by exact L.
    rewrite (mapM_combine_read _ _ _ (sget a) L).
    + unfold dvector_binop, vexpr_binop. simpl v_len. rewrite assert_eq_true by (apply N.eqb_eq; congruence).
      cbn [bind]. simpl. reflexivity.
    + intros j it x Hj Hx. assert (Hk : j < length a) by (apply nth_error_Some; congruence).
      rewrite nth_urange in Hj by (unfold ulen; lia). injection Hj as <-. apply sget_nth. rewrite Nat2N.id. exact Hx.
  - unfold ulen. rewrite inplace_length. reflexivity.
Qed.

Theorem C28_dmatrix_assign_is_operator :
  forall (A B : Type) (md : target) (op : A -> B -> outcome A) (a : dmatrix A) (e : mexpr B),
  dm_wf md a -> m_rows e = dm_rows a -> m_cols e = dm_cols a ->
  finish (dmatrix_op_assign md op a e) = (b <- dmatrix_binop md op a e ;; m_eval b)
  /\ dm_rows (fst (dmatrix_op_assign md op a e)) = dm_rows a
  /\ dm_cols (fst (dmatrix_op_assign md op a e)) = dm_cols a
  /\ dm_wf md (fst (dmatrix_op_assign md op a e)).
Proof.
  intros A B md op a e Hw Hr Hc. rewrite dmatrix_op_assign_run by exact Hw.
  assert (L : length (index_pairs (dm_rows a) (dm_cols a)) = length (dm_data a)).
  { rewrite index_pairs_length. destruct Hw as [Hl _]. unfold ulen in Hl. lia. }
  split.
  - transitivity (d <- finish (inplace_run (fun '(r, c) x => y <- m_entry e r c ;; op x y)
                     (index_pairs (dm_rows a) (dm_cols a)) (dm_data a)) ;; Ok (MkDM d (dm_rows a) (dm_cols a))).
    { destruct (inplace_run _ _ _) as [d [u|p|]]; reflexivity. }
    rewrite inplace_finish by exact L.
    rewrite (mapM_combine_read _ _ _ (fun '(r, c) => dmatrix_entry md a r c) L).
    + unfold dmatrix_binop, mexpr_binop. simpl m_rows. simpl m_cols.
      rewrite !assert_eq_true by (apply N.eqb_eq; congruence). cbn [bind]. simpl. unfold mexpr_default_eval.
      f_equal. apply mapM_ext. intros [r c] _. reflexivity.
    + intros j [r c] x Hj Hx. apply index_pairs_inv in Hj as (Hr' & Hc' & ->). simpl in *.
      rewrite dmatrix_entry_in by assumption. unfold row_major_at. rewrite Hx. reflexivity.
  - pose proof (inplace_length (fun '(r, c) x => y <- m_entry e r c ;; op x y)
                  (index_pairs (dm_rows a) (dm_cols a)) (dm_data a)) as Len.
    destruct (inplace_run _ _ _) as [d o]. simpl in *. repeat split.
    + destruct Hw as [Hl _]. unfold ulen in *. simpl. lia.
    + exact (proj2 Hw).
Qed.

Example C28_case :
  finish (dvector_op_assign (r_add z_ops) [1; 2; 3]%Z (slice_expr [10; 20; 30]%Z)) = Ok [11; 22; 33]%Z
  /\ finish (dmatrix_op_assign Debug (r_sub z_ops) (MkDM [1; 2; 3; 4]%Z 2 2) (array2_expr 2 [[2; 2]; [2; 2]]%Z))
     = Ok (MkDM [-1; 0; 1; 2]%Z 2 2).
Proof. split; reflexivity. Qed.

(** ** C29: mismatched shapes are not rejected. *)

(** Exact behaviour for a vector right-hand side of any length, for a total entry operation:
    the common prefix is updated; if the right-hand side is too short the operation then panics,
    leaving the modified prefix behind; if it is too long the surplus is ignored. *)
Theorem C29_dvector_assign_any_length :
  forall (A B : Type) (op : A -> B -> outcome A) (f : A -> B -> A), (forall x y, op x y = Ok (f x y)) ->
  forall (a : dvector A) (b : dvector B),
  let k := min (length a) (length b) in
  dvector_op_assign op a (dvector_expr b)
  = (map (fun '(x, y) => f x y) (combine (firstn k a) (firstn k b)) ++ skipn k a,
     if length b <? length a then Panic IndexOOB else Ok tt).
Proof.
  intros A B op f Hf a b k. rewrite dvector_op_assign_run.
  set (its := urange (ulen a)).
  assert (L : length its = length a) by (unfold its; rewrite urange_length; unfold ulen; lia).
  set (g := fun i x => y <- v_entry (dvector_expr b) i ;; op x y).
  set (h := fun (i : N) (x : A) => match nth_error b (N.to_nat i) with Some y => f x y | None => x end).
  assert (Hg : forall j it x, j < length b -> nth_error its j = Some it -> nth_error a j = Some x -> g it x = Ok (h it x)).
  { intros j it x Hj Hi Hx. assert (j < length a) by (apply nth_error_Some; congruence).
    unfold its in Hi. rewrite nth_urange in Hi by (unfold ulen; lia). injection Hi as <-.
    unfold g, h. simpl. rewrite sget_vget, Nat2N.id. unfold vget.
    destruct (nth_error b j) as [y|] eqn:E; [apply Hf|]. apply nth_error_None in E. lia. }
  assert (Hmap : forall n, n <= length a -> n <= length b ->
     map (fun '(it, x) => h it x) (combine (firstn n its) (firstn n a))
     = map (fun '(x, y) => f x y) (combine (firstn n a) (firstn n b))).
  { intros n Hna Hnb.
    assert (G : forall (n s : nat) (a' : list A) (b' : list B) (its' : list N),
       n <= length a' -> n <= length b' -> length its' = length a' ->
       (forall j, j < n -> nth_error its' j = Some (N.of_nat (s + j))) ->
       (forall j, j < n -> nth_error b (s + j) = nth_error b' j) ->
       map (fun '(it, x) => h it x) (combine (firstn n its') (firstn n a'))
       = map (fun '(x, y) => f x y) (combine (firstn n a') (firstn n b'))).
    { clear. induction n as [|n IH]; intros s a' b' its' Ha Hb Hl Hi Hn; [reflexivity|].
      destruct a' as [|x a'], b' as [|y b'], its' as [|i its']; simpl in *; try lia.
      f_equal.
      - pose proof (Hi 0 ltac:(lia)) as E. simpl in E. injection E as ->. rewrite Nat.add_0_r.
        unfold h. rewrite Nat2N.id. pose proof (Hn 0 ltac:(lia)) as E. rewrite Nat.add_0_r in E. rewrite E. reflexivity.
      - apply (IH (S s)); try lia.
        + intros j Hj. pose proof (Hi (S j) ltac:(lia)) as E. simpl in E. rewrite E. do 2 f_equal. lia.
        + intros j Hj. pose proof (Hn (S j) ltac:(lia)) as E. simpl in E. rewrite <- E. f_equal. lia. }
    apply (G n 0 a b its); auto.
    intros j Hj. unfold its. simpl. apply nth_urange. unfold ulen. lia. }
  destruct (Nat.ltb_spec (length b) (length a)) as [Hlt|Hge].
  - assert (Ek : k = length b) by (unfold k; lia). rewrite Ek. rewrite <- (Hmap (length b)) by lia.
    apply (inplace_stops g h its a (length b) IndexOOB L Hlt).
    + intros j it x Hj. apply Hg; exact Hj.
    + intros it x Hi Hx. unfold its in Hi. rewrite nth_urange in Hi by (unfold ulen; lia). injection Hi as <-.
      unfold g. simpl. rewrite sget_oob by (unfold ulen; lia). reflexivity.
  - assert (Ek : k = length a) by (unfold k; lia). rewrite Ek. rewrite skipn_all, app_nil_r.
    rewrite <- (Hmap (length a)) by lia. rewrite firstn_all. rewrite firstn_all2 by lia.
    apply (inplace_total g h its a L). intros j it x Hi Hx. apply (Hg j); auto.
    assert (j < length a) by (apply nth_error_Some; congruence). lia.
Qed.

(** A DMatrix right-hand side [b] of any shape is read at flat offset [r * b.num_cols + c]. *)
Theorem C29_dmatrix_assign_any_shape :
  forall (A B : Type) (md : target) (op : A -> B -> outcome A) (f : A -> B -> A),
  (forall x y, op x y = Ok (f x y)) ->
  forall (a : dmatrix A) (b : dmatrix B), dm_wf md a -> dm_wf md b ->
  ((forall r c, (r < dm_rows a)%N -> (c < dm_cols a)%N -> (r * dm_cols b + c < dm_rows b * dm_cols b)%N) ->
   returns (finish (dmatrix_op_assign md op a (dmatrix_expr md b))) (fun a' =>
     dm_rows a' = dm_rows a /\ dm_cols a' = dm_cols a /\ dm_wf md a'
     /\ forall r c x y, (r < dm_rows a)%N -> (c < dm_cols a)%N ->
          row_major_at a r c = Some x -> nth_error (dm_data b) (N.to_nat (r * dm_cols b + c)) = Some y ->
          row_major_at a' r c = Some (f x y)))
  /\ (forall r c, (r < dm_rows a)%N -> (c < dm_cols a)%N -> (dm_rows b * dm_cols b <= r * dm_cols b + c)%N ->
      checks md = Debug -> exists p, finish (dmatrix_op_assign md op a (dmatrix_expr md b)) = Panic p).
Proof.
  intros A B md op f Hf a b Wa [Lb Bb]. pose proof Wa as [La Ba].
  set (its := index_pairs (dm_rows a) (dm_cols a)).
  assert (L : length its = length (dm_data a)).
  { unfold its. rewrite index_pairs_length. unfold ulen in La. lia. }
  rewrite dmatrix_op_assign_run by exact Wa. fold its.
  set (g := fun '(r, c) x => y <- m_entry (dmatrix_expr md b) r c ;; op x y).
  split.
  - intros Hin.
    set (h := fun '(r, c) (x : A) => match nth_error (dm_data b) (N.to_nat (r * dm_cols b + c)) with Some y => f x y | None => x end).
    rewrite (inplace_total g h its (dm_data a) L).
    + eexists. split; [reflexivity|]. cbn [dm_rows dm_cols dm_data]. split; [reflexivity|]. split; [reflexivity|]. split.
      * split; [|exact Ba]. cbn [dm_rows dm_cols dm_data]. unfold ulen. rewrite map_length, combine_length, L, Nat.min_id.
        exact La.
      * intros r c x y Hr Hc Hx Hy. unfold row_major_at in *. cbn [dm_rows dm_cols dm_data].
        assert (E : nth_error (combine its (dm_data a)) (N.to_nat (r * dm_cols a + c)) = Some ((r, c), x)).
        { pose proof (index_pairs_nth _ _ _ _ Hr Hc) as E. fold its in E. revert E Hx L. clear.
          generalize (N.to_nat (r * dm_cols a + c)) as k. generalize (dm_data a). revert its.
          induction its as [|i its IH]; intros [|d l] [|k] E Hx L; simpl in *; try discriminate.
          - congruence.
          - apply IH; congruence. }
        rewrite (map_nth_error _ _ _ E). unfold h. rewrite Hy. reflexivity.
    + intros j [r c] x Hj Hx. apply index_pairs_inv in Hj as (Hr & Hc & _). simpl in Hr, Hc.
      unfold g, h. simpl. unfold dmatrix_entry. specialize (Hin r c Hr Hc).
      rewrite dm_offset_ok by lia. cbn [bind]. rewrite sget_vget. unfold vget.
      destruct (nth_error (dm_data b) (N.to_nat (r * dm_cols b + c))) eqn:E; [apply Hf|].
      apply nth_error_None in E. unfold ulen in Lb. lia.
  - intros r c Hr Hc Hout Hd.
    assert (Hbad : exists p, m_entry (dmatrix_expr md b) r c = Panic p).
    { simpl. unfold dmatrix_entry, dm_offset, u_mul, u_add, usize_result. rewrite Hd.
      destruct (r * dm_cols b <? usize_bound md)%N; cbn [bind]; [|eauto].
      destruct (r * dm_cols b + c <? usize_bound md)%N; cbn [bind]; [|eauto].
      rewrite sget_oob by lia. eauto. }
    destruct Hbad as (p & Hp).
    assert (Hno : forall l, In (r, c) its -> forall d, length its = length d ->
              inplace_run g its d = (l, Ok tt) -> False).
    { clear L. induction its as [|[r0 c0] its' IH]; intros l Hi d Ld E; [destruct Hi|].
      destruct d as [|x d]; [discriminate|]. simpl in E.
      destruct (y <- dmatrix_entry md b r0 c0;; op x y) as [z|q|] eqn:Ez; try discriminate.
      destruct (inplace_run g its' d) as [l' o] eqn:E'. injection E as <- ->.
      destruct Hi as [Hi|Hi].
      - injection Hi as -> ->. simpl in Hp. rewrite Hp in Ez. discriminate.
      - simpl in Ld. apply (IH l' Hi d); [congruence|exact E']. }
    assert (Hnd : forall d, snd (inplace_run g its d) <> Diverge).
    { clear L Hno. induction its as [|[r0 c0] its' IH]; intros [|x d]; simpl; try discriminate.
      unfold dmatrix_entry, dm_offset, u_mul, u_add, usize_result, sget, vget. rewrite Hd.
      destruct (r0 * dm_cols b <? usize_bound md)%N; cbn [bind snd]; [|discriminate].
      destruct (r0 * dm_cols b + c0 <? usize_bound md)%N; cbn [bind snd]; [|discriminate].
      destruct (r0 * dm_cols b + c0 <? ulen (dm_data b))%N; cbn [bind snd]; [|discriminate].
      destruct (nth_error (dm_data b) _); cbn [bind snd]; [|discriminate]. rewrite Hf.
      specialize (IH d). destruct (inplace_run g its' d). exact IH. }
    assert (Hin : In (r, c) its) by (apply in_index_pairs; auto).
    specialize (Hnd (dm_data a)). destruct (inplace_run g its (dm_data a)) as [l [u|q|]] eqn:E.
    + exfalso. destruct u. apply (Hno l Hin (dm_data a) L E).
    + exists q. reflexivity.
    + exfalso. apply Hnd. reflexivity.
Qed.

(** Witnesses against "mismatched shapes are rejected". *)
Theorem C29_mismatched_shapes_rejected_refuted :
  (* a longer right-hand side is silently truncated *)
  dvector_op_assign (r_add z_ops) [1; 2]%Z (slice_expr [10; 20; 30]%Z) = ([11; 22]%Z, Ok tt)
  (* a shorter one panics, but only after modifying the common prefix *)
  /\ dvector_op_assign (r_add z_ops) [1; 2; 3]%Z (slice_expr [10]%Z) = ([11; 2; 3]%Z, Panic IndexOOB)
  (* a 1x2 matrix += a 2x1 matrix is silently accepted *)
  /\ dmatrix_op_assign Debug (r_add z_ops) (MkDM [1; 2]%Z 1 2) (dmatrix_expr Debug (MkDM [10; 20]%Z 2 1))
     = (MkDM [11; 22]%Z 1 2, Ok tt)
  (* while + on the same operands panics *)
  /\ dmatrix_binop Debug (r_add z_ops) (MkDM [1; 2]%Z 1 2) (dmatrix_expr Debug (MkDM [10; 20]%Z 2 1))
     = Panic AssertFailed.
Proof. repeat split. Qed.

(** ** C31: exact behaviour of every index pair. *)
Theorem C31_index_characterised :
  forall (T : Type) (md : target) (m : dmatrix T) (r c : N), dm_wf md m ->
  let off := (r * dm_cols m + c)%N in
  ((off < dm_rows m * dm_cols m)%N ->
     exists x, nth_error (dm_data m) (N.to_nat off) = Some x /\ dmatrix_index md m r c = Ok x)
  /\ (checks md = Debug -> (dm_rows m * dm_cols m <= off)%N ->
     dmatrix_index md m r c = Panic (if (off <? usize_bound md)%N then IndexOOB else ArithOverflow))
  /\ (checks md = Release -> dmatrix_index md m r c
     = match nth_error (dm_data m) (N.to_nat (off mod usize_bound md)) with Some x => Ok x | None => Panic IndexOOB end).
Proof.
  intros T md m r c [Hl Hb] off. split; [|split].
  - intros H. unfold dmatrix_index. fold off. rewrite dm_offset_ok by (fold off; lia). cbn [bind]. fold off.
    destruct (nth_error (dm_data m) (N.to_nat off)) as [x|] eqn:E.
    + exists x. split; [reflexivity|]. apply sget_nth. exact E.
    + apply nth_error_None in E. unfold ulen in Hl. lia.
  - intros Hd H. unfold dmatrix_index, dm_offset, u_mul, u_add, usize_result. rewrite Hd.
    destruct (N.ltb_spec (r * dm_cols m) (usize_bound md)) as [H1|H1]; cbn [bind].
    + fold off. destruct (N.ltb_spec off (usize_bound md)); cbn [bind]; [|reflexivity].
      rewrite sget_oob by lia. reflexivity.
    + destruct (N.ltb_spec off (usize_bound md)); [|reflexivity]. unfold off in *. lia.
  - intros Hd. unfold dmatrix_index, dm_offset, u_mul, u_add.
    assert (U : forall x, usize_result md x = Ok (x mod usize_bound md)%N).
    { intros x. unfold usize_result. rewrite Hd. destruct (N.ltb_spec x (usize_bound md)) as [H|H]; [|reflexivity].
      rewrite N.mod_small by exact H. reflexivity. }
    rewrite !U. cbn [bind]. rewrite U. cbn [bind].
    rewrite N.add_mod_idemp_l by (pose proof (usize_bound_pos md); lia). fold off. rewrite sget_vget. reflexivity.
Qed.

(** In-range pairs are always readable; a row index out of range panics in checked builds;
    a column index out of range that stays inside the storage reads another row's entry. *)
Theorem C31_consequences :
  forall (T : Type) (md : target) (m : dmatrix T) (r c : N), dm_wf md m ->
  ((r < dm_rows m)%N -> (c < dm_cols m)%N -> exists x, dmatrix_index md m r c = Ok x)
  /\ (checks md = Debug -> (dm_rows m <= r)%N -> exists p, dmatrix_index md m r c = Panic p)
  /\ ((1 <= dm_cols m)%N -> (dm_cols m <= c)%N -> (r + c / dm_cols m < dm_rows m)%N ->
        dmatrix_index md m r c = dmatrix_index md m (r + c / dm_cols m) (c mod dm_cols m))
  /\ (forall x, (1 <= dm_cols m)%N -> (dm_cols m <= c)%N -> (r + c / dm_cols m < dm_rows m)%N ->
        dmatrix_index_set md m r c x = dmatrix_index_set md m (r + c / dm_cols m) (c mod dm_cols m) x).
Proof.
  intros T md m r c Hw. destruct (C31_index_characterised T md m r c Hw) as (H1 & H2 & _).
  assert (Off : (1 <= dm_cols m)%N -> (r * dm_cols m + c = (r + c / dm_cols m) * dm_cols m + c mod dm_cols m)%N).
  { intros H. pose proof (N.div_mod c (dm_cols m)) as D. nia. }
  split; [|split; [|split]].
  - intros Hr Hc. destruct H1 as (x & _ & E); [|eauto]. apply flat_lt; assumption.
  - intros Hd Hr. rewrite (H2 Hd) by nia. eauto.
  - intros Hc1 Hc Hr. specialize (Off Hc1).
    assert (Hmod : (c mod dm_cols m < dm_cols m)%N) by (apply N.mod_lt; lia).
    pose proof (flat_lt _ _ _ _ Hr Hmod) as F. destruct Hw as [Hl Hb].
    unfold dmatrix_index. rewrite !dm_offset_ok by lia. rewrite Off. reflexivity.
  - intros x Hc1 Hc Hr. specialize (Off Hc1).
    assert (Hmod : (c mod dm_cols m < dm_cols m)%N) by (apply N.mod_lt; lia).
    pose proof (flat_lt _ _ _ _ Hr Hmod) as F. destruct Hw as [Hl Hb].
    unfold dmatrix_index_set. rewrite !dm_offset_ok by lia. rewrite Off. reflexivity.
Qed.

Theorem C31_out_of_range_rejected_refuted :
  let m := MkDM [1; 2; 3; 4]%Z 2 2 in
  forall bits, (3 <= bits)%N ->
  let debug := MkTarget bits Debug in let release := MkTarget bits Release in
  dm_wf debug m
  (* column 2 of a 2x2 matrix: reads and writes row 1 *)
  /\ dmatrix_index debug m 0 2 = Ok 3%Z
  /\ dmatrix_index_set debug m 0 2 9%Z = Ok (MkDM [1; 2; 9; 4]%Z 2 2)
  (* row 2^(bits - 1), 2^63 on a 64-bit target, in a release build wraps to row 0 *)
  /\ dmatrix_index release m (2 ^ (bits - 1)) 1 = Ok 2%Z
  /\ dmatrix_index debug m (2 ^ (bits - 1)) 1 = Panic ArithOverflow.
Proof.
  intros m bits Hb debug release.
  assert (B8 : (8 <= 2 ^ bits)%N) by (apply (N.pow_le_mono_r 2 3 bits); lia).
  assert (W : dm_wf debug m) by (split; [reflexivity|]; unfold usize_bound; cbn [debug m dm_rows dm_cols usize_bits]; lia).
  assert (W' : dm_wf release m) by exact W.
  assert (E : (2 ^ (bits - 1) * 2 = 2 ^ bits)%N).
  { replace bits with (N.succ (bits - 1)) at 2 by lia. rewrite N.pow_succ_r'. lia. }
  destruct (C31_index_characterised Z debug m (2 ^ (bits - 1)) 1 W) as (_ & D & _).
  destruct (C31_index_characterised Z release m (2 ^ (bits - 1)) 1 W') as (_ & _ & R).
  split; [exact W|]. split; [|split; [|split]].
  - destruct (C31_index_characterised Z debug m 0 2 W) as (H & _ & _).
    destruct H as (x & Hx & ->); [reflexivity|]. injection Hx as <-. reflexivity.
  - unfold dmatrix_index_set. rewrite dm_offset_ok; [reflexivity|].
    unfold usize_bound; cbn [debug m dm_cols usize_bits]. lia.
  - rewrite R by reflexivity. cbn [m dm_cols]. rewrite E. unfold usize_bound. cbn [release usize_bits].
    replace ((2 ^ bits + 1) mod 2 ^ bits)%N with 1%N; [reflexivity|].
    rewrite <- (N.mul_1_l (2 ^ bits)) at 1. rewrite N.add_comm, N.mod_add by lia. rewrite N.mod_small by lia. reflexivity.
  - rewrite D; [|reflexivity|cbn [m dm_rows dm_cols]; rewrite E; lia].
    cbn [m dm_cols]. rewrite E. unfold usize_bound. cbn [debug usize_bits].
    destruct (N.ltb_spec (2 ^ bits + 1) (2 ^ bits)); [lia|reflexivity].
Qed.

(** ** C30: a faithful store. *)
Definition run_step {T} (md : target) (s : dm_step T) (m : dmatrix T) : mres (dmatrix T) :=
  match s with
  | Write r c x => match dmatrix_index_set md m r c x with
                   | Ok m' => (m', Ok tt)
                   | Panic p => (m, Panic p)
                   | Diverge => (m, Diverge)
                   end
  | OpAssign op e => dmatrix_op_assign md op m e
  end.

Theorem C30_read_write :
  forall (T : Type) (md : target) (m : dmatrix T) (r c : N) (x : T),
  dm_wf md m -> (r < dm_rows m)%N -> (c < dm_cols m)%N ->
  (exists y, dmatrix_index md m r c = Ok y /\ row_major_at m r c = Some y)
  /\ returns (dmatrix_index_set md m r c x) (fun m' =>
       dm_rows m' = dm_rows m /\ dm_cols m' = dm_cols m /\ dm_wf md m'
       /\ dmatrix_index md m' r c = Ok x
       /\ forall r' c', (r' < dm_rows m)%N -> (c' < dm_cols m)%N -> (r', c') <> (r, c) ->
            dmatrix_index md m' r' c' = dmatrix_index md m r' c').
Proof.
  intros T md m r c x Hw Hr Hc. split.
  - destruct (row_major_some m r c Hw Hr Hc) as (y & E). exists y. split; [|exact E].
    rewrite dmatrix_index_in by assumption. rewrite E. reflexivity.
  - rewrite dmatrix_set_in by assumption. eexists. split; [reflexivity|]. cbn [dm_rows dm_cols].
    set (m' := MkDM (list_upd (dm_data m) (N.to_nat (r * dm_cols m + c)) x) (dm_rows m) (dm_cols m)).
    assert (Hw' : dm_wf md m').
    { destruct Hw as [Hl Hb]. split; [|exact Hb]. unfold m'. simpl. unfold ulen in *. rewrite list_upd_length. exact Hl. }
    split; [reflexivity|]. split; [reflexivity|]. split; [exact Hw'|].
    assert (At : forall r' c', (r' < dm_rows m)%N -> (c' < dm_cols m)%N ->
              row_major_at m' r' c' = if ((r' =? r) && (c' =? c))%N%bool then Some x else row_major_at m r' c').
    { intros r' c' Hr' Hc'. unfold row_major_at, m'. cbn [dm_cols dm_data].
      pose proof (flat_lt _ _ _ _ Hr' Hc') as F'. pose proof (flat_lt _ _ _ _ Hr Hc) as F.
      destruct Hw as [Hl Hb]. unfold ulen in Hl.
      rewrite !(nth_error_nth' _ x) by (rewrite ?list_upd_length; lia). rewrite nth_list_upd.
      replace (N.to_nat (r * dm_cols m + c) <? length (dm_data m)) with true by (symmetry; apply Nat.ltb_lt; lia).
      rewrite andb_true_r.
      destruct (Nat.eqb_spec (N.to_nat (r' * dm_cols m + c')) (N.to_nat (r * dm_cols m + c))) as [E|E].
      - apply N2Nat.inj in E. apply offset_inj in E as [-> ->]; try assumption. rewrite !N.eqb_refl. reflexivity.
      - destruct (N.eqb_spec r' r), (N.eqb_spec c' c); try reflexivity. subst. contradiction. }
    split.
    + rewrite (dmatrix_index_in md m' r c Hw' Hr Hc). rewrite At by assumption. rewrite !N.eqb_refl. reflexivity.
    + intros r' c' Hr' Hc' Hne. rewrite (dmatrix_index_in md m' r' c' Hw' Hr' Hc'), (dmatrix_index_in md m r' c' Hw Hr' Hc').
      rewrite At by assumption. destruct (N.eqb_spec r' r), (N.eqb_spec c' c); try reflexivity. subst. congruence.
Qed.

(** Shape and storage size survive any history, whether or not steps panic
    (out-of-range indices, ill-shaped or panicking right-hand sides, panicking entry operations). *)
Theorem C30_invariant_any_history :
  forall (T : Type) (md : target) (steps : list (dm_step T)) (m : dmatrix T),
  dm_wf md m ->
  let m' := fold_left (fun m s => fst (run_step md s m)) steps m in
  dm_wf md m' /\ dm_rows m' = dm_rows m /\ dm_cols m' = dm_cols m.
Proof.
  intros T md steps. induction steps as [|s steps IH]; intros m Hw; simpl; [auto|].
  assert (H1 : dm_wf md (fst (run_step md s m)) /\ dm_rows (fst (run_step md s m)) = dm_rows m
               /\ dm_cols (fst (run_step md s m)) = dm_cols m).
  { destruct s as [r c x|op e]; simpl.
    - unfold dmatrix_index_set. destruct (dm_offset md (dm_cols m) r c) as [i|p|]; simpl; auto.
      unfold sset. destruct (i <? ulen (dm_data m))%N; simpl; auto.
      split; [|auto]. destruct Hw as [Hl Hb]. split; [|exact Hb]. simpl. unfold ulen in *. rewrite list_upd_length. exact Hl.
    - rewrite dmatrix_op_assign_run by exact Hw.
      pose proof (inplace_length (fun '(r, c) x => y <- m_entry e r c ;; op x y)
                  (index_pairs (dm_rows m) (dm_cols m)) (dm_data m)) as Len.
      destruct (inplace_run _ _ _) as [d o]. simpl in *. split; [|auto].
      destruct Hw as [Hl Hb]. split; [|exact Hb]. simpl. unfold ulen in *. congruence. }
  destruct H1 as (W & R1 & C1). destruct (IH _ W) as (? & ? & ?). repeat split; try congruence; apply H.
Qed.

(** A history of in-range writes and well-shaped compound assignments does to every entry
    exactly what the same history does to a mathematical matrix. *)
Theorem C30_history_refines_mathematical_matrix :
  forall (T : Type) (md : target) (rows cols : N) (steps : list (dm_step T)) (changes : list (N -> N -> T -> T)),
  Forall2 (fine_step rows cols) steps changes ->
  forall m : dmatrix T, dm_wf md m -> dm_rows m = rows -> dm_cols m = cols ->
  returns (for_each (fun s m => finish (run_step md s m)) steps m) (fun m' =>
    dm_wf md m' /\ dm_rows m' = rows /\ dm_cols m' = cols
    /\ forall r c x0, (r < rows)%N -> (c < cols)%N -> dmatrix_index md m r c = Ok x0 ->
         dmatrix_index md m' r c = Ok (after_steps changes r c x0)).
Proof.
  intros T md rows cols steps changes HF. induction HF as [|s ch steps changes Hs HF IH]; intros m Hw Hr Hc; simpl.
  - exists m. repeat split; auto; apply Hw.
  - assert (H1 : returns (finish (run_step md s m)) (fun m1 => dm_wf md m1 /\ dm_rows m1 = rows /\ dm_cols m1 = cols
       /\ forall r c x0, (r < rows)%N -> (c < cols)%N -> dmatrix_index md m r c = Ok x0 ->
            dmatrix_index md m1 r c = Ok (ch r c x0))).
    { subst rows cols. destruct Hs as [r c x Hr' Hc'|op f e g He1 He2 Hop Hg].
      - destruct (proj2 (C30_read_write T md m r c x Hw Hr' Hc')) as (m1 & E & R1 & C1 & W1 & G1 & O1).
        simpl. rewrite E. exists m1. split; [reflexivity|]. split; [exact W1|]. split; [exact R1|]. split; [exact C1|].
        intros r' c' x0 Hr1 Hc1 Hx. destruct (N.eqb_spec r' r), (N.eqb_spec c' c); simpl; subst; auto;
          rewrite O1 by congruence; exact Hx.
      - simpl. rewrite (proj1 (C28_dmatrix_assign_is_operator T T md op m e Hw He1 He2)).
        set (e' := make_matrix_expr (dm_rows m) (dm_cols m) (m_entry e)).
        assert (Ee : mexpr_binop op (dmatrix_expr md m) e = mexpr_binop op (dmatrix_expr md m) e').
        { unfold mexpr_binop, e'. simpl. rewrite He1, He2. reflexivity. }
        destruct (mspec_binop op (dmatrix_expr md m) e' (dm_rows m, dm_cols m)
          (fun r c => some_ok (row_major_at m r c)) (fun r c => Ok (g r c)) (mspec_dm md m Hw)) as (b & Eb & Sb).
        { apply mspec_make. exact Hg. }
        unfold dmatrix_binop. rewrite mexpr_eta, Ee, Eb. cbn [bind]. destruct Sb as [_ _ _ Sv]. rewrite Sv. cbn [fst snd].
        set (h := fun r c => match row_major_at m r c with Some x => f x (g r c) | None => g r c end).
        rewrite (mapM_total _ (fun '(r, c) => h r c)).
        + cbn [bind]. eexists. split; [reflexivity|]. cbn [dm_rows dm_cols].
          assert (W1 : dm_wf md (MkDM (map (fun '(r, c) => h r c) (index_pairs (dm_rows m) (dm_cols m))) (dm_rows m) (dm_cols m))).
          { split; [|exact (proj2 Hw)]. simpl. unfold ulen. rewrite map_length, index_pairs_length. lia. }
          split; [exact W1|]. split; [reflexivity|]. split; [reflexivity|].
          intros r c x0 Hr' Hc' Hx. rewrite (dmatrix_index_in md _ r c W1 Hr' Hc'). unfold row_major_at. simpl.
          rewrite (map_nth_error _ _ _ (index_pairs_nth _ _ _ _ Hr' Hc')). unfold h. simpl.
          rewrite (dmatrix_index_in md m r c Hw Hr' Hc') in Hx. destruct (row_major_at m r c); simpl in Hx; congruence.
        + intros [r c] Hi. apply in_index_pairs in Hi as [Hr' Hc']. unfold h.
          destruct (row_major_some m r c Hw Hr' Hc') as (x & ->). simpl. apply Hop. }
    destruct H1 as (m1 & -> & W1 & R1 & C1 & V1). simpl.
    destruct (IH m1 W1 R1 C1) as (m' & E' & W' & R' & C' & V'). exists m'. split; [exact E'|].
    split; [exact W'|]. split; [exact R'|]. split; [exact C'|].
    intros r c x0 Hr' Hc' Hx. simpl. apply V'; auto.
Qed.

(** m[[0,1]] = 7; m += [[1,1],[1,1]]; m -= &m0 *)
Example C30_case :
  let m := MkDM [1; 2; 3; 4]%Z 2 2 in
  let steps := [Write 0 1 7%Z; OpAssign (r_add z_ops) (array2_expr 2 [[1; 1]; [1; 1]]%Z);
                OpAssign (r_sub z_ops) (dmatrix_expr Debug m)] in
  for_each (fun s m => finish (run_step Debug s m)) steps m = Ok (MkDM [1; 6; 1; 1]%Z 2 2)
  /\ exists changes, Forall2 (fine_step 2 2) steps changes /\ after_steps changes 0 1 2%Z = 6%Z.
Proof.
  split; [reflexivity|]. eexists. split.
  - apply Forall2_cons; [apply FineWrite; reflexivity|].
    apply Forall2_cons.
    { apply (FineAssign 2 2 _ Z.add _ (fun _ _ => 1%Z)); try reflexivity.
      intros r c Hr Hc. destruct r as [|[p|p|]]; try lia; destruct c as [|[q|q|]]; try lia; reflexivity. }
    apply Forall2_cons.
    { apply (FineAssign 2 2 _ Z.sub _ (fun r c => nth (N.to_nat (r * 2 + c)) [1; 2; 3; 4]%Z 0%Z)); try reflexivity.
      intros r c Hr Hc. destruct r as [|[p|p|]]; try lia; destruct c as [|[q|q|]]; try lia; reflexivity. }
    apply Forall2_nil.
  - reflexivity.
Qed.

Print Assumptions C28_dvector_assign_is_operator.
Print Assumptions C28_dmatrix_assign_is_operator.
Print Assumptions C29_dvector_assign_any_length.
Print Assumptions C29_dmatrix_assign_any_shape.
Print Assumptions C29_mismatched_shapes_rejected_refuted.
Print Assumptions C30_read_write.
Print Assumptions C30_invariant_any_history.
Print Assumptions C30_history_refines_mathematical_matrix.
Print Assumptions C31_index_characterised.
Print Assumptions C31_consequences.
Print Assumptions C31_out_of_range_rejected_refuted.
