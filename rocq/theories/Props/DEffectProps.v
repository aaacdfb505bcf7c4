(** C75: closures with side effects in vector and matrix expressions. *)
From Coq Require Import List Arith NArith Lia Bool Permutation.
From Verif Require Import Base.Outcome Base.Usize Model.DVector Model.DMatrix Model.DExpr Model.DEffect
  Spec.DExpr Spec.DEffect Proofs.DExprProofs Proofs.DEffect.
Import ListNotations.

(** [vwatch md step [] e] is [e] with every closure [f] replaced by one that first applies [step c] to a
    state, [c] telling which closure is called with which index. *)

(** Evaluating a vector expression gives the value (or panic) it has without side effects, and makes the
    calls [vrun e] in this order: entry by entry in increasing index, for one entry the operands from
    left to right; a panic stops after some of them, and the state left behind is that of the calls made. *)
Theorem C75_vector_calls : forall {St T} md (step : call -> St -> St) (e : vx T) (s : St),
  exists made rest, vrun e = made ++ rest
    /\ eveval (vwatch md step [] e) s = (after step made s, veval md e)
    /\ (forall v, veval md e = Ok v -> rest = []).
Proof.
  intros St T md step e s. pose proof (proj1 (watch_sim step md) T e []) as H. unfold eveval, veval.
  destruct (evbuild (vwatch md step [] e)) as [b'|p|]; simpl in H.
  - destruct H as (b & -> & H). exact (vs_eval _ _ _ _ _ H s).
  - rewrite H. exists [], (vrun e). repeat split. discriminate.
  - rewrite H. exists [], (vrun e). repeat split. discriminate.
Qed.

(** The same for a matrix expression: row by row. *)
Theorem C75_matrix_calls : forall {St T} md (step : call -> St -> St) (e : mx T) (s : St),
  exists made rest, mrun e = made ++ rest
    /\ emeval (mwatch md step [] e) s = (after step made s, meval md e)
    /\ (forall m, meval md e = Ok m -> rest = []).
Proof.
  intros St T md step e s. pose proof (proj2 (watch_sim step md) T e []) as H. unfold emeval, meval.
  destruct (embuild (mwatch md step [] e)) as [b'|p|]; simpl in H.
  - destruct H as (b & -> & H). exact (ms_eval _ _ _ _ _ H s).
  - rewrite H. exists [], (mrun e). repeat split. discriminate.
  - rewrite H. exists [], (mrun e). repeat split. discriminate.
Qed.

(** Closures without side effects: the models of Model/DVector.v and Model/DMatrix.v. *)
Theorem C75_pure_closures : forall {St} md,
  (forall T (e : vx T) (s : St), eveval (vwatch md (fun _ s => s) [] e) s = (s, veval md e))
  /\ (forall T (e : mx T) (s : St), emeval (mwatch md (fun _ s => s) [] e) s = (s, meval md e)).
Proof.
  intros St md.
  assert (Z : forall l (s : St), after (fun _ s => s) l s = s) by (induction l; simpl; auto).
  split; intros T e s.
  - destruct (C75_vector_calls md (fun _ s => s) e s) as (made & rest & _ & E & _). rewrite Z in E. exact E.
  - destruct (C75_matrix_calls md (fun _ s => s) e s) as (made & rest & _ & E & _). rewrite Z in E. exact E.
Qed.

(** Lazy: with mismatched operands anywhere in the expression the assertion fails before any closure
    is called. *)
Theorem C75_no_calls_on_mismatch : forall {St} md (step : call -> St -> St),
  (forall T (e : vx T) s, vproper md e -> vmatch e = false -> eveval (vwatch md step [] e) s = (s, Panic AssertFailed))
  /\ (forall T (e : mx T) s, mproper md e -> mmatch e = false -> emeval (mwatch md step [] e) s = (s, Panic AssertFailed)).
Proof.
  intros St md step. split; intros T e s P M.
  - pose proof (proj1 (watch_sim step md) T e []) as H.
    destruct (proj1 (build_correct md) T e P) as [_ B]. rewrite (B M) in H. unfold eveval.
    destruct (evbuild (vwatch md step [] e)) as [b'|p|]; simpl in H.
    + destruct H as (b & E & _). discriminate.
    + injection H as ->. reflexivity.
    + discriminate.
  - pose proof (proj2 (watch_sim step md) T e []) as H.
    destruct (proj2 (build_correct md) T e P) as [_ B]. rewrite (B M) in H. unfold emeval.
    destruct (embuild (mwatch md step [] e)) as [b'|p|]; simpl in H.
    + destruct H as (b & E & _). discriminate.
    + injection H as ->. reflexivity.
    + discriminate.
Qed.

(** No closure given to make_vector_expr or make_matrix_expr is called twice with the same index. *)
Theorem C75_at_most_once : (forall T (e : vx T), NoDup (filter is_entry (vrun e)))
  /\ (forall T (e : mx T), NoDup (filter is_entry (mrun e))).
Proof. split; intros T e; [apply vrun_once|apply mrun_once]. Qed.

(** If no diagonal of a matrix is taken, each is called with every index of its shape. *)
Theorem C75_exactly_once :
  (forall T (e : vx T), vfull e = true -> vmatch e = true -> Permutation (filter is_entry (vrun e)) (vevery [] e))
  /\ (forall T (e : mx T), mfull e = true -> mmatch e = true -> Permutation (filter is_entry (mrun e)) (mevery [] e)).
Proof.
  split; intros T e F M.
  - unfold vrun. rewrite filter_flat_map. apply (proj1 every T e F M []).
  - unfold mrun. rewrite filter_flat_map.
    rewrite <- (proj2 every T e F M []). erewrite flat_map_ext; [reflexivity|]. intros [r c]. reflexivity.
Qed.

(** [v += e], [v -= e]: the vector left behind and the outcome are those without side effects; the calls
    are those of the entries of [v], in increasing order; a panic stops after some of them. *)
Theorem C75_vector_assign : forall {St A B} md (step : call -> St -> St) (op : A -> B -> outcome A)
    (v : dvector A) (e : vx B) b s,
  vbuild md e = Ok b ->
  exists b' made rest, evbuild (vwatch md step [] e) = Ok b'
    /\ flat_map (vcalls [] e) (urange (ulen v)) = made ++ rest
    /\ ev_op_assign op v b' s = (after step made s, dvector_op_assign op v b)
    /\ (snd (dvector_op_assign op v b) = Ok tt -> rest = []).
Proof.
  intros St A B md step op v e b s E. pose proof (proj1 (watch_sim step md) B e []) as H.
  destruct (evbuild (vwatch md step [] e)) as [b'|p|]; simpl in H; [|congruence|congruence].
  destruct H as (b0 & E0 & H). rewrite E in E0. injection E0 as <-. exists b'.
  destruct (v_assign_loops step op v b' b _ _ H s) as (made & rest & R). exists made, rest. split; [reflexivity|exact R].
Qed.

(** [m += e], [m -= e]: row by row. *)
Theorem C75_matrix_assign : forall {St A B} md (step : call -> St -> St) (op : A -> B -> outcome A)
    (m : dmatrix A) (e : mx B) b s,
  mbuild md e = Ok b ->
  exists b' made rest, embuild (mwatch md step [] e) = Ok b'
    /\ flat_map (fun '(r, c) => mcalls [] e r c) (rows_then_cols (dm_rows m) (dm_cols m)) = made ++ rest
    /\ em_op_assign md op m b' s = (after step made s, dmatrix_op_assign md op m b)
    /\ (snd (dmatrix_op_assign md op m b) = Ok tt -> rest = []).
Proof.
  intros St A B md step op m e b s E. pose proof (proj2 (watch_sim step md) B e []) as H.
  destruct (embuild (mwatch md step [] e)) as [b'|p|]; simpl in H; [|congruence|congruence].
  destruct H as (b0 & E0 & H). rewrite E in E0. injection E0 as <-. exists b'.
  destruct (m_assign_loops step md op m b' b _ _ H s) as (made & rest & R). exists made, rest. split; [reflexivity|exact R].
Qed.

(** Finding: when the closure's result depends on the state (a counter, a random number generator),
    transposing lazily is not transposing the evaluated matrix: the calls are made in the order of the
    outermost expression. *)
Theorem C75_lazy_transpose_refuted :
  ~ (forall (e : emx nat nat) s s1 s2 a b, emeval e s = (s1, Ok a) -> emeval (EMTr e) s = (s2, Ok b) ->
       forall r c, (r < dm_rows a)%N -> (c < dm_cols a)%N -> row_major_at b c r = row_major_at a r c).
Proof.
  intros H.
  specialize (H (EMMake 2 2 (fun _ _ s => (S s, Ok s))) 0 4 4 (MkDM [0; 1; 2; 3] 2%N 2%N) (MkDM [0; 1; 2; 3] 2%N 2%N)
                eq_refl eq_refl 0%N 1%N eq_refl eq_refl).
  discriminate.
Qed.

(** A 2 x 3 matrix made by a closure, mapped, transposed and added to another made one: the log of calls. *)
Definition C75_log (c : call) (l : list call) : list call := l ++ [c].
Definition C75_expr (n : N) : mx N :=
  MBin (fun x y => Ok (x + y)%N)
    (MTr (MMap (fun x => Ok (x * 2)%N) (MMake 2 3 (fun r c => Ok (10 * r + c)%N))))
    (MMake n 2 (fun r c => if (r =? 2)%N then Panic DivByZero else Ok (100 * r)%N)).
Example C75_case :
  mproper Debug (C75_expr 3) /\ mmatch (C75_expr 3) = true /\ mfull (C75_expr 3) = true
  /\ emeval (mwatch Debug C75_log [] (MTr (MMake 2 1 (fun r _ => Ok r)))) []
     = ([Entry2 [0]%nat 0 0; Entry2 [0]%nat 1 0]%N, Ok (MkDM [0; 1] 1 2)%N)
  (* the panic for row 2 of the right operand: the left operand's closures for that entry have run *)
  /\ emeval (mwatch Debug C75_log [] (C75_expr 3)) []
     = ([Entry2 [0; 0; 0]%nat 0 0; Apply [0; 0]%nat; Entry2 [1]%nat 0 0; Entry2 [0; 0; 0]%nat 1 0; Apply [0; 0]%nat; Entry2 [1]%nat 0 1;
         Entry2 [0; 0; 0]%nat 0 1; Apply [0; 0]%nat; Entry2 [1]%nat 1 0; Entry2 [0; 0; 0]%nat 1 1; Apply [0; 0]%nat; Entry2 [1]%nat 1 1;
         Entry2 [0; 0; 0]%nat 0 2; Apply [0; 0]%nat; Entry2 [1]%nat 2 0]%N, Panic DivByZero)
  (* mismatched shapes: nothing has run *)
  /\ mproper Debug (C75_expr 4) /\ mmatch (C75_expr 4) = false
  /\ emeval (mwatch Debug C75_log [] (C75_expr 4)) [] = ([], Panic AssertFailed)
  (* a compound assignment: one call per entry of the left operand *)
  /\ (exists b', evbuild (vwatch Debug C75_log [] (VMake 5 (fun i => Ok i))) = Ok b'
      /\ ev_op_assign (fun x y => Ok (x + y)%N) [10; 20]%N b' [] = ([Entry1 []%nat 0; Entry1 []%nat 1]%N, ([10; 21]%N, Ok tt))).
Proof.
  repeat split; try reflexivity. eexists. split; reflexivity.
Qed.

Print Assumptions C75_vector_calls.
Print Assumptions C75_matrix_calls.
Print Assumptions C75_pure_closures.
Print Assumptions C75_no_calls_on_mismatch.
Print Assumptions C75_at_most_once.
Print Assumptions C75_exactly_once.
Print Assumptions C75_vector_assign.
Print Assumptions C75_matrix_assign.
Print Assumptions C75_lazy_transpose_refuted.
