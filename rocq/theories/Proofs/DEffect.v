(** Effectful evaluation of watched expressions: values, calls and their order. *)
From Coq Require Import List Arith NArith Lia Bool Permutation.
From Verif Require Import Base.Outcome Base.Usize Model.DVector Model.DMatrix Model.DExpr Model.DEffect
  Spec.DExpr Spec.DEffect Proofs.DExprProofs.
Import ListNotations.

Section Runs.
Context {St : Type} (step : call -> St -> St).

(** [m] gives the outcome [o] after the calls [l], or after some of them if it does not succeed. *)
Definition runs {A} (m : eff St A) (o : outcome A) (l : list call) : Prop :=
  forall s, exists done rest, l = done ++ rest /\ m s = (after step done s, o)
            /\ (forall a, o = Ok a -> rest = []).

Lemma after_app l1 l2 s : after step (l1 ++ l2) s = after step l2 (after step l1 s).
Proof. apply fold_left_app. Qed.

Lemma runs_lift {A} (o : outcome A) : runs (lift o) o [].
Proof. intros s. exists [], []. repeat split. Qed.
Lemma runs_watched {A} c (o : outcome A) : runs (watched step c o) o [c].
Proof. intros s. exists [c], []. repeat split. Qed.
Lemma runs_bind {A B} (m : eff St A) o l (k : A -> eff St B) ko lk :
  runs m o l -> (forall a, runs (k a) (ko a) lk) -> runs (ebind m k) (bind o ko) (l ++ lk).
Proof.
  intros H K s. destruct (H s) as (d & r & E & Em & Ok_r). unfold ebind. rewrite Em. destruct o as [a|p|]; simpl.
  - rewrite (Ok_r a eq_refl), app_nil_r in E. subst d. destruct (K a (after step l s)) as (d & r' & E & Ek & Ok_r').
    exists (l ++ d), r'. rewrite E, app_assoc, after_app. repeat split; assumption.
  - exists d, (r ++ lk). rewrite E, app_assoc. repeat split. discriminate.
  - exists d, (r ++ lk). rewrite E, app_assoc. repeat split. discriminate.
Qed.
Lemma runs_bind_lift {A B} (m : eff St A) o l (k : A -> outcome B) :
  runs m o l -> runs (ebind m (fun a => lift (k a))) (bind o k) l.
Proof. intros H. rewrite <- (app_nil_r l). apply runs_bind; [exact H|]. intros a. apply runs_lift. Qed.
Lemma runs_ext {A} (m m' : eff St A) o o' l l' :
  (forall s, m s = m' s) -> o = o' -> l = l' -> runs m o l -> runs m' o' l'.
Proof. intros Hm <- <- H s. rewrite <- Hm. apply H. Qed.

Lemma runs_emapM {A B} (f : A -> eff St B) fo lf (l : list A) :
  (forall x, runs (f x) (fo x) (lf x)) -> runs (emapM f l) (mapM fo l) (flat_map lf l).
Proof.
  intros H. induction l as [|x l IH]; simpl; [apply runs_lift|].
  apply runs_bind; [apply H|]. intros y. apply runs_bind_lift. exact IH.
Qed.
End Runs.

(** ** Expression objects *)
Section Sim.
Context {St : Type} (step : call -> St -> St).
Local Notation runs := (runs step).

Record vsim {T} (b' : evexpr St T) (b : vexpr T) (n : N) (calls : N -> list call) : Prop := MkVSim {
  vs_len' : ev_len b' = n;
  vs_len : v_len b = n;
  vs_entry : forall i, runs (ev_entry b' i) (v_entry b i) (calls i);
  vs_eval : runs (ev_eval b') (v_eval b) (flat_map calls (urange n))
}.
Record msim {T} (b' : emexpr St T) (b : mexpr T) (n : N * N) (calls : N -> N -> list call) : Prop := MkMSim {
  ms_rows' : em_rows b' = fst n;
  ms_cols' : em_cols b' = snd n;
  ms_rows : m_rows b = fst n;
  ms_cols : m_cols b = snd n;
  ms_entry : forall r c, runs (em_entry b' r c) (m_entry b r c) (calls r c);
  ms_eval : runs (em_eval b') (m_eval b) (flat_map (fun '(r, c) => calls r c) (rows_then_cols (fst n) (snd n)))
}.
Definition osim {A B} (R : A -> B -> Prop) (o' : outcome A) (o : outcome B) : Prop :=
  match o' with
  | Ok a => exists b, o = Ok b /\ R a b
  | Panic p => o = Panic p
  | Diverge => o = Diverge
  end.
Lemma osim_bind {A B C D} (R : A -> B -> Prop) (Q : C -> D -> Prop) o' o k' k :
  osim R o' o -> (forall a b, R a b -> osim Q (k' a) (k b)) -> osim Q (bind o' k') (bind o k).
Proof. destruct o'; simpl; [intros (b & -> & H) K|intros -> _|intros -> _]; simpl; auto. Qed.
Lemma osim_bind_same {A C D} (Q : C -> D -> Prop) (o : outcome A) k' k :
  (forall a, o = Ok a -> osim Q (k' a) (k a)) -> osim Q (bind o k') (bind o k).
Proof. destruct o; simpl; auto. Qed.
Lemma osim_ok {A B} (R : A -> B -> Prop) a b : R a b -> osim R (Ok a) (Ok b).
Proof. intros H. exists b. auto. Qed.

Lemma flat_map_none {A B} (l : list A) : flat_map (fun _ => @nil B) l = [].
Proof. induction l; simpl; auto. Qed.

Lemma vsim_make {T} n (f' : N -> eff St T) f calls : (forall i, runs (f' i) (f i) (calls i)) ->
  vsim (ev_make n f') (make_vector_expr n f) n calls.
Proof. intros H. constructor; simpl; auto. apply runs_emapM. exact H. Qed.
Lemma msim_make {T} r c (f' : N -> N -> eff St T) f calls : (forall i j, runs (f' i j) (f i j) (calls i j)) ->
  msim (em_make r c f') (make_matrix_expr r c f) (r, c) calls.
Proof.
  intros H. constructor; simpl; auto. apply runs_bind_lift. apply (runs_emapM step (fun '(r, c) => f' r c) (fun '(r, c) => f r c)).
  intros [i j]. apply H.
Qed.
Lemma vsim_stored {T} (b : vexpr T) n : v_len b = n -> vsim (ev_stored b) b n (fun _ => []).
Proof.
  intros H. constructor; simpl; auto.
  - intros i. apply runs_lift.
  - rewrite flat_map_none. apply runs_lift.
Qed.
Lemma msim_stored {T} (b : mexpr T) n : (m_rows b, m_cols b) = n -> msim (em_stored b) b n (fun _ _ => []).
Proof.
  intros <-. constructor; simpl; auto.
  - intros i j. apply runs_lift.
  - match goal with |- runs _ _ ?l => replace l with (@nil call); [apply runs_lift|] end.
    generalize (rows_then_cols (m_rows b) (m_cols b)). intros l. induction l as [|[? ?] l IH]; simpl; auto.
Qed.

Lemma vsim_map {A B} (b' : evexpr St A) b n calls (f' : A -> eff St B) f last : vsim b' b n calls ->
  (forall x, runs (f' x) (f x) last) ->
  vsim (ev_map b' f') (vexpr_map b f) n (fun i => calls i ++ last).
Proof.
  intros H F. unfold ev_map, vexpr_map. rewrite (vs_len' _ _ _ _ H), (vs_len _ _ _ _ H). apply vsim_make.
  intros i. apply runs_bind; [apply (vs_entry _ _ _ _ H)|exact F].
Qed.
Lemma msim_map {A B} (b' : emexpr St A) b n calls (f' : A -> eff St B) f last : msim b' b n calls ->
  (forall x, runs (f' x) (f x) last) ->
  msim (em_map b' f') (mexpr_map b f) n (fun r c => calls r c ++ last).
Proof.
  intros H F. unfold em_map, mexpr_map.
  rewrite (ms_rows' _ _ _ _ H), (ms_rows _ _ _ _ H), (ms_cols' _ _ _ _ H), (ms_cols _ _ _ _ H). destruct n as [r c].
  apply msim_make. intros i j. apply runs_bind; [apply (ms_entry _ _ _ _ H)|exact F].
Qed.
Lemma runs_two {A B C} (m1 : eff St A) o1 l1 (m2 : eff St B) o2 l2 (op : A -> B -> outcome C) :
  runs m1 o1 l1 -> runs m2 o2 l2 ->
  runs (ebind m1 (fun x => ebind m2 (fun y => lift (op x y)))) (x <- o1 ;; y <- o2 ;; op x y)%oc (l1 ++ l2).
Proof. intros H1 H2. apply runs_bind; [exact H1|]. intros x. apply runs_bind_lift. exact H2. Qed.

Lemma vsim_binop {A B C} (op : A -> B -> outcome C) b1' b1 n1 c1 b2' b2 n2 c2 :
  vsim b1' b1 n1 c1 -> vsim b2' b2 n2 c2 ->
  osim (fun b' b => vsim b' b n1 (fun i => c1 i ++ c2 i)) (ev_binop op b1' b2') (vexpr_binop op b1 b2).
Proof.
  intros H1 H2. unfold ev_binop, vexpr_binop.
  rewrite (vs_len' _ _ _ _ H1), (vs_len _ _ _ _ H1), (vs_len' _ _ _ _ H2), (vs_len _ _ _ _ H2).
  apply osim_bind_same. intros _ _. apply osim_ok, vsim_make. intros i. apply runs_two; [apply (vs_entry _ _ _ _ H1)|apply (vs_entry _ _ _ _ H2)].
Qed.
Lemma msim_binop {A B C} (op : A -> B -> outcome C) b1' b1 n1 c1 b2' b2 n2 c2 :
  msim b1' b1 n1 c1 -> msim b2' b2 n2 c2 ->
  osim (fun b' b => msim b' b n1 (fun i j => c1 i j ++ c2 i j)) (em_binop op b1' b2') (mexpr_binop op b1 b2).
Proof.
  intros H1 H2. unfold em_binop, mexpr_binop.
  rewrite (ms_rows' _ _ _ _ H1), (ms_rows _ _ _ _ H1), (ms_rows' _ _ _ _ H2), (ms_rows _ _ _ _ H2).
  rewrite (ms_cols' _ _ _ _ H1), (ms_cols _ _ _ _ H1), (ms_cols' _ _ _ _ H2), (ms_cols _ _ _ _ H2).
  destruct n1 as [r1 k1].
  do 2 (apply osim_bind_same; intros _ _). apply osim_ok, msim_make. intros i j.
  apply runs_two; [apply (ms_entry _ _ _ _ H1)|apply (ms_entry _ _ _ _ H2)].
Qed.
Lemma vsim_elem {A B C} (op : A -> B -> outcome C) b1' b1 n1 c1 b2' b2 n2 c2 :
  vsim b1' b1 n1 c1 -> vsim b2' b2 n2 c2 ->
  osim (fun b' b => vsim b' b n1 (fun i => c1 i ++ c2 i)) (ev_op_elemwise op b1' b2') (vexpr_op_elemwise op b1 b2).
Proof.
  intros H1 H2. unfold ev_op_elemwise, vexpr_op_elemwise.
  apply (osim_bind (fun b' b => vsim b' b n1 (fun i => c1 i ++ c2 i))).
  - apply (vsim_binop (fun x y => Ok (x, y)) b1' b1 n1 c1 b2' b2 n2 c2 H1 H2).
  - intros b' b H. apply osim_ok. unfold ev_map, vexpr_map. rewrite (vs_len' _ _ _ _ H), (vs_len _ _ _ _ H). apply vsim_make.
    intros i. refine (runs_ext step (ebind (ev_entry b' i) (fun a => lift (let '(x, y) := a in op x y))) _
                        (bind (v_entry b i) (fun '(x, y) => op x y)) _ _ _ _ _ eq_refl _);
      [| |apply runs_bind_lift, (vs_entry _ _ _ _ H)].
    + intros s. unfold ebind. destruct (ev_entry b' i s) as [s' [[x y]|p|]]; reflexivity.
    + destruct (v_entry b i) as [[x y]|p|]; reflexivity.
Qed.
Lemma msim_elem {A B C} (op : A -> B -> outcome C) b1' b1 n1 c1 b2' b2 n2 c2 :
  msim b1' b1 n1 c1 -> msim b2' b2 n2 c2 ->
  osim (fun b' b => msim b' b n1 (fun i j => c1 i j ++ c2 i j)) (em_op_elemwise op b1' b2') (mexpr_op_elemwise op b1 b2).
Proof.
  intros H1 H2. unfold em_op_elemwise, mexpr_op_elemwise.
  apply (osim_bind (fun b' b => msim b' b n1 (fun i j => c1 i j ++ c2 i j))).
  - apply (msim_binop (fun x y => Ok (x, y)) b1' b1 n1 c1 b2' b2 n2 c2 H1 H2).
  - intros b' b H. apply osim_ok. unfold em_map, mexpr_map.
    rewrite (ms_rows' _ _ _ _ H), (ms_rows _ _ _ _ H), (ms_cols' _ _ _ _ H), (ms_cols _ _ _ _ H).
    destruct n1 as [r1 k1]. apply msim_make.
    intros i j. refine (runs_ext step (ebind (em_entry b' i j) (fun a => lift (let '(x, y) := a in op x y))) _
                        (bind (m_entry b i j) (fun '(x, y) => op x y)) _ _ _ _ _ eq_refl _);
      [| |apply runs_bind_lift, (ms_entry _ _ _ _ H)].
    + intros s. unfold ebind. destruct (em_entry b' i j s) as [s' [[x y]|p|]]; reflexivity.
    + destruct (m_entry b i j) as [[x y]|p|]; reflexivity.
Qed.

(** ** Syntax trees *)
Context (md : target).
Definition vwat {T} (e : vx T) : Prop := forall p,
  osim (fun b' b => vsim b' b (vshape e) (vcalls p e)) (evbuild (vwatch md step p e)) (vbuild md e).
Definition mwat {T} (e : mx T) : Prop := forall p,
  osim (fun b' b => msim b' b (mshape e) (mcalls p e)) (embuild (mwatch md step p e)) (mbuild md e).

Lemma watch_sim : (forall T (e : vx T), vwat e) /\ (forall T (e : mx T), mwat e).
Proof.
  apply vx_mx_ind; unfold vwat, mwat; simpl.
  - intros T s p. exists (vexpr_wrap (slice_expr s)); split; [reflexivity|]. apply vsim_stored. reflexivity.
  - intros T v p. exists (dvector_expr v); split; [reflexivity|]. apply vsim_stored. reflexivity.
  - intros T v p. exists (vexpr_wrap (dvector_expr v)); split; [reflexivity|]. apply vsim_stored. reflexivity.
  - intros T n f p. eexists; split; [reflexivity|]. apply vsim_make. intros i. apply runs_watched.
  - intros T n x p. eexists; split; [reflexivity|]. apply vsim_stored. reflexivity.
  - intros A B f e IH p. eapply osim_bind; [apply IH|]. intros b' b H. apply osim_ok. apply vsim_map; [exact H|].
    intros x. apply runs_watched.
  - intros A B e1 IH1 e2 IH2 p. eapply osim_bind; [apply IH1|]. intros b1' b1 H1.
    eapply osim_bind; [apply IH2|]. intros b2' b2 H2. apply (vsim_binop (fun x y => Ok (x, y)) _ _ _ _ _ _ _ _ H1 H2).
  - intros A B C op e1 IH1 e2 IH2 p. eapply osim_bind; [apply IH1|]. intros b1' b1 H1.
    eapply osim_bind; [apply IH2|]. intros b2' b2 H2. apply (vsim_binop op _ _ _ _ _ _ _ _ H1 H2).
  - intros A B C op e1 IH1 e2 IH2 p. eapply osim_bind; [apply IH1|]. intros b1' b1 H1.
    eapply osim_bind; [apply IH2|]. intros b2' b2 H2. apply (vsim_elem op _ _ _ _ _ _ _ _ H1 H2).
  - intros T cj e IH p. eapply osim_bind; [apply IH|]. intros b' b H. apply osim_ok.
    unfold ev_conj, ev_map, vexpr_conj, vexpr_map. rewrite (vs_len' _ _ _ _ H), (vs_len _ _ _ _ H). apply vsim_make.
    intros i. apply runs_bind_lift, (vs_entry _ _ _ _ H).
  - intros T e IH p. eapply osim_bind; [apply IH|]. intros b' b H. apply osim_ok.
    unfold em_diag, mexpr_diag. rewrite (ms_rows' _ _ _ _ H), (ms_rows _ _ _ _ H), (ms_cols' _ _ _ _ H), (ms_cols _ _ _ _ H).
    destruct (mshape e) as [r c]. apply vsim_make. intros i. apply (ms_entry _ _ _ _ H).
  - intros T n rows p. exists (mexpr_wrap (array2_expr n rows)); split; [reflexivity|]. apply msim_stored. reflexivity.
  - intros T m p. exists (dmatrix_expr md m); split; [reflexivity|]. apply msim_stored. reflexivity.
  - intros T m p. exists (mexpr_wrap (dmatrix_expr md m)); split; [reflexivity|]. apply msim_stored. reflexivity.
  - intros T r c f p. eexists; split; [reflexivity|]. apply msim_make. intros i j. apply runs_watched.
  - intros T r c x p. eexists; split; [reflexivity|]. apply msim_stored. reflexivity.
  - intros T z o n p. eexists; split; [reflexivity|]. apply msim_stored. reflexivity.
  - intros A B f e IH p. eapply osim_bind; [apply IH|]. intros b' b H. apply osim_ok. apply msim_map; [exact H|].
    intros x. apply runs_watched.
  - intros A B e1 IH1 e2 IH2 p. eapply osim_bind; [apply IH1|]. intros b1' b1 H1.
    eapply osim_bind; [apply IH2|]. intros b2' b2 H2. apply (msim_binop (fun x y => Ok (x, y)) _ _ _ _ _ _ _ _ H1 H2).
  - intros A B C op e1 IH1 e2 IH2 p. eapply osim_bind; [apply IH1|]. intros b1' b1 H1.
    eapply osim_bind; [apply IH2|]. intros b2' b2 H2. apply (msim_binop op _ _ _ _ _ _ _ _ H1 H2).
  - intros A B C op e1 IH1 e2 IH2 p. eapply osim_bind; [apply IH1|]. intros b1' b1 H1.
    eapply osim_bind; [apply IH2|]. intros b2' b2 H2. apply (msim_elem op _ _ _ _ _ _ _ _ H1 H2).
  - intros T e IH p. eapply osim_bind; [apply IH|]. intros b' b H. apply osim_ok.
    unfold em_t, mexpr_t. rewrite (ms_rows' _ _ _ _ H), (ms_rows _ _ _ _ H), (ms_cols' _ _ _ _ H), (ms_cols _ _ _ _ H).
    destruct (mshape e) as [r c]. apply msim_make. intros i j. apply (ms_entry _ _ _ _ H).
  - intros T cj e IH p. eapply osim_bind; [apply IH|]. intros b' b H. apply osim_ok.
    unfold em_h, mexpr_h. rewrite (ms_rows' _ _ _ _ H), (ms_rows _ _ _ _ H), (ms_cols' _ _ _ _ H), (ms_cols _ _ _ _ H).
    destruct (mshape e) as [r c]. apply msim_make. intros i j. apply runs_bind_lift, (ms_entry _ _ _ _ H).
  - intros T z e IH p. eapply osim_bind; [apply IH|]. intros b' b H. apply osim_ok.
    unfold ev_diag, vexpr_diag. rewrite (vs_len' _ _ _ _ H), (vs_len _ _ _ _ H).
    apply msim_make. intros i j. destruct (i =? j)%N; [apply (vs_entry _ _ _ _ H)|apply runs_lift].
  - intros A B mul add a b p. destruct (dmatrix_mul md mul add a b) as [m|q|] eqn:E; simpl; [|reflexivity|reflexivity].
    exists m. split; [reflexivity|]. apply msim_stored.
    unfold dmatrix_mul in E. apply bind_Ok_inv in E as ([] & _ & E). injection E as <-. reflexivity.
Qed.
End Sim.

Lemma flat_pairs {B} (f : N -> N -> list B) r l :
  flat_map (fun '(r, c) => f r c) (map (fun c => (r, c)) l) = flat_map (f r) l.
Proof. induction l as [|c l IH]; simpl; [reflexivity|]. f_equal. exact IH. Qed.
Lemma flat_rows {B} (f : N -> N -> list B) rows cols :
  flat_map (fun '(r, c) => f r c) (rows_then_cols rows cols)
  = flat_map (fun r => flat_map (f r) (urange cols)) (urange rows).
Proof.
  unfold rows_then_cols. induction (urange rows) as [|r l IH]; simpl; [reflexivity|].
  rewrite flat_map_app, IH, flat_pairs. reflexivity.
Qed.

(** ** Compound assignment *)
Section Assign.
Context {St : Type} (step : call -> St -> St).

Definition loops {D} (m : D -> St -> St * mres D) (o : D -> mres D) (l : list call) : Prop :=
  forall d s, exists done rest, l = done ++ rest /\ m d s = (after step done s, o d)
              /\ (snd (o d) = Ok tt -> rest = []).

Lemma loops_for {A D} (body' : A -> D -> St -> St * mres D) body calls (l : list A) :
  (forall x, loops (body' x) (body x) (calls x)) ->
  loops (efor_each_mut body' l) (for_each_mut body l) (flat_map calls l).
Proof.
  intros H. induction l as [|x l IH]; intros d s; simpl.
  - exists [], []. repeat split.
  - destruct (H x d s) as (dn & rs & E & Em & R). rewrite Em.
    destruct (body x d) as [d' [[]|p|]].
    + specialize (R eq_refl). subst rs. rewrite app_nil_r in E. subst dn.
      destruct (IH d' (after step (calls x) s)) as (dn & rs & E & Em' & R). rewrite Em'.
      exists (calls x ++ dn), rs. rewrite E, app_assoc, after_app. repeat split. exact R.
    + exists dn, (rs ++ flat_map calls l). rewrite E, app_assoc. repeat split. discriminate.
    + exists dn, (rs ++ flat_map calls l). rewrite E, app_assoc. repeat split. discriminate.
Qed.

Lemma loops_body {D A} (m : D -> eff St A) o l (put : D -> A -> D) :
  (forall d, runs step (m d) (o d) l) ->
  loops (fun d s => match m d s with
                    | (s', Ok a) => (s', (put d a, Ok tt))
                    | (s', Panic p) => (s', (d, Panic p))
                    | (s', Diverge) => (s', (d, Diverge))
                    end)
        (fun d => match o d with
                  | Ok a => (put d a, Ok tt)
                  | Panic p => (d, Panic p)
                  | Diverge => (d, Diverge)
                  end) l.
Proof.
  intros H d s. destruct (H d s) as (dn & rs & E & Em & R). rewrite Em. exists dn, rs. split; [exact E|].
  destruct (o d) as [a|p|]; split; try reflexivity; try discriminate. intros _. apply (R a eq_refl).
Qed.

Lemma runs_lift_bind {A B} (o : outcome A) (k : A -> eff St B) ko l :
  (forall a, runs step (k a) (ko a) l) -> runs step (ebind (lift o) k) (bind o ko) l.
Proof. intros H. apply (runs_bind step (lift o) o [] k ko l); [apply runs_lift|exact H]. Qed.

Lemma v_assign_loops {A B} (op : A -> B -> outcome A) (v : dvector A) b' b n calls : vsim step b' b n calls ->
  forall s, exists done rest, flat_map calls (urange (ulen v)) = done ++ rest
    /\ ev_op_assign op v b' s = (after step done s, dvector_op_assign op v b)
    /\ (snd (dvector_op_assign op v b) = Ok tt -> rest = []).
Proof.
  intros H. unfold ev_op_assign, dvector_op_assign. apply loops_for. intros i.
  apply (loops_body (fun data => ebind (lift (sget data i)) (fun x => ebind (ev_entry b' i) (fun y => ebind (lift (op x y)) (fun z => lift (sset data i z)))))
    (fun data => x <- sget data i ;; y <- v_entry b i ;; z <- op x y ;; sset data i z)%oc _ (fun _ a => a)).
  intros d. apply runs_lift_bind. intros x. rewrite <- (app_nil_r (calls i)). apply runs_bind; [apply (vs_entry _ _ _ _ _ H)|].
  intros y. apply runs_lift_bind. intros z. apply runs_lift.
Qed.

Lemma m_assign_loops md {A B} (op : A -> B -> outcome A) (m : dmatrix A) b' b n calls : msim step b' b n calls ->
  forall s, exists done rest, flat_map (fun '(r, c) => calls r c) (rows_then_cols (dm_rows m) (dm_cols m)) = done ++ rest
    /\ em_op_assign md op m b' s = (after step done s, dmatrix_op_assign md op m b)
    /\ (snd (dmatrix_op_assign md op m b) = Ok tt -> rest = []).
Proof.
  intros H.
  rewrite flat_rows.
  unfold em_op_assign, dmatrix_op_assign. apply loops_for. intros r. apply loops_for. intros c.
  apply (loops_body (fun m0 => ebind (lift (dm_offset md (dm_cols m) r c)) (fun i => ebind (lift (sget (dm_data m0) i)) (fun x =>
           ebind (em_entry b' r c) (fun y => ebind (lift (op x y)) (fun z => lift (sset (dm_data m0) i z))))))
    (fun m0 => i <- dm_offset md (dm_cols m) r c ;; x <- sget (dm_data m0) i ;; y <- m_entry b r c ;; z <- op x y ;; sset (dm_data m0) i z)%oc
    _ (fun m0 a => MkDM a (dm_rows m0) (dm_cols m0))).
  intros d. apply runs_lift_bind. intros i. apply runs_lift_bind. intros x. rewrite <- (app_nil_r (calls r c)).
  apply runs_bind; [apply (ms_entry _ _ _ _ _ H)|].
  intros y. apply runs_lift_bind. intros z. apply runs_lift.
Qed.
End Assign.

(** ** How often *)
Definition at_path (c : call) : path := match c with Entry1 p _ => p | Entry2 p _ _ => p | Apply p => p end.
Definition under (p : path) (c : call) : Prop := exists q, at_path c = q ++ p.
Lemma under_tail k p c : under (k :: p) c -> under p c.
Proof. intros (q & E). exists (q ++ [k]). rewrite E, <- app_assoc. reflexivity. Qed.
Lemma under_disjoint p c : under (0 :: p) c -> under (1 :: p) c -> False.
Proof.
  intros (q & E) (q' & E'). rewrite E in E'.
  assert (A : forall q q', q ++ 0 :: p = q' ++ 1 :: p -> False).
  { clear. intros q q' E. assert (L : length q = length q').
    { apply (f_equal (@length nat)) in E. rewrite !app_length in E. simpl in E. lia. }
    revert q' E L. induction q as [|a q IH]; intros [|b q'] E L; simpl in *; try discriminate.
    injection E as _ E. apply (IH q' E). lia. }
  exact (A _ _ E').
Qed.

Lemma calls_under : (forall T (e : vx T), forall p i c, In c (vcalls p e i) -> under p c)
  /\ (forall T (e : mx T), forall p i j c, In c (mcalls p e i j) -> under p c).
Proof.
  apply vx_mx_ind; simpl; try contradiction;
    try (intros; match goal with H : In _ (if _ then _ else _) |- _ => destruct (_ =? _)%N end);
    try (intros; repeat match goal with H : In _ (_ ++ _) |- _ => apply in_app_iff in H as [H|H] end;
         eauto using under_tail; simpl in *;
         match goal with H : _ \/ False |- _ => destruct H as [<-|[]]; exists []; reflexivity | _ => contradiction end).
  all: intros; contradiction.
Qed.

Lemma under_operands p c : under (0 :: p) c -> under (1 :: p) c -> forall P, P.
Proof. intros H H'. destruct (under_disjoint p c H H'). Qed.

(** The entry calls of one entry are distinct, and tell which entry they are for. *)
Lemma filter_app2 {A} f (l l' : list A) : filter f (l ++ l') = filter f l ++ filter f l'.
Proof. apply filter_app. Qed.
Definition v_apart {T} (e : vx T) : Prop := forall p,
  (forall i, NoDup (filter is_entry (vcalls p e i)))
  /\ (forall i i' c, is_entry c = true -> In c (vcalls p e i) -> In c (vcalls p e i') -> i = i').
Definition m_apart {T} (e : mx T) : Prop := forall p,
  (forall r c, NoDup (filter is_entry (mcalls p e r c)))
  /\ (forall r c r' c' k, is_entry k = true -> In k (mcalls p e r c) -> In k (mcalls p e r' c') -> r = r' /\ c = c').

Lemma NoDup_app2 {A} (l l' : list A) : NoDup l -> NoDup l' -> (forall x, In x l -> In x l' -> False) -> NoDup (l ++ l').
Proof.
  intros H H' D. induction H as [|x l Hx H IH]; simpl; [exact H'|]. constructor.
  - intros E. apply in_app_iff in E as [E|E]; [contradiction|]. apply (D x); [left; reflexivity|exact E].
  - apply IH. intros y Hy. apply D. right; exact Hy.
Qed.

Lemma v_apart2 {A B} (e1 : vx A) (e2 : vx B) : v_apart e1 -> v_apart e2 -> forall p,
  (forall i, NoDup (filter is_entry (vcalls (0 :: p) e1 i ++ vcalls (1 :: p) e2 i)))
  /\ (forall i i' c, is_entry c = true -> In c (vcalls (0 :: p) e1 i ++ vcalls (1 :: p) e2 i) ->
        In c (vcalls (0 :: p) e1 i' ++ vcalls (1 :: p) e2 i') -> i = i').
Proof.
  intros H1 H2 p. pose proof (proj1 calls_under) as U. split.
  - intros i. rewrite filter_app. apply NoDup_app2; [apply H1|apply H2|].
    intros c Hc Hc'. apply filter_In in Hc as [Hc _]. apply filter_In in Hc' as [Hc' _].
    exact (under_disjoint p c (U _ _ _ _ _ Hc) (U _ _ _ _ _ Hc')).
  - intros i i' c Ec Hc Hc'. apply in_app_iff in Hc as [Hc|Hc]; apply in_app_iff in Hc' as [Hc'|Hc'].
    + apply (proj2 (H1 (0 :: p)) i i' c Ec Hc Hc').
    + destruct (under_disjoint p c (U _ _ _ _ _ Hc) (U _ _ _ _ _ Hc')).
    + destruct (under_disjoint p c (U _ _ _ _ _ Hc') (U _ _ _ _ _ Hc)).
    + apply (proj2 (H2 (1 :: p)) i i' c Ec Hc Hc').
Qed.
Lemma m_apart2 {A B} (e1 : mx A) (e2 : mx B) : m_apart e1 -> m_apart e2 -> forall p,
  (forall r c, NoDup (filter is_entry (mcalls (0 :: p) e1 r c ++ mcalls (1 :: p) e2 r c)))
  /\ (forall r c r' c' k, is_entry k = true -> In k (mcalls (0 :: p) e1 r c ++ mcalls (1 :: p) e2 r c) ->
        In k (mcalls (0 :: p) e1 r' c' ++ mcalls (1 :: p) e2 r' c') -> r = r' /\ c = c').
Proof.
  intros H1 H2 p. pose proof (proj2 calls_under) as U. split.
  - intros r c. rewrite filter_app. apply NoDup_app2; [apply H1|apply H2|].
    intros k Hc Hc'. apply filter_In in Hc as [Hc _]. apply filter_In in Hc' as [Hc' _].
    exact (under_disjoint p k (U _ _ _ _ _ _ Hc) (U _ _ _ _ _ _ Hc')).
  - intros r c r' c' k Ec Hc Hc'. apply in_app_iff in Hc as [Hc|Hc]; apply in_app_iff in Hc' as [Hc'|Hc'].
    + apply (proj2 (H1 (0 :: p)) r c r' c' k Ec Hc Hc').
    + destruct (under_disjoint p k (U _ _ _ _ _ _ Hc) (U _ _ _ _ _ _ Hc')).
    + destruct (under_disjoint p k (U _ _ _ _ _ _ Hc') (U _ _ _ _ _ _ Hc)).
    + apply (proj2 (H2 (1 :: p)) r c r' c' k Ec Hc Hc').
Qed.

Lemma apart : (forall T (e : vx T), v_apart e) /\ (forall T (e : mx T), m_apart e).
Proof.
  apply vx_mx_ind; unfold v_apart, m_apart; simpl;
    try (intros; split; [intros; constructor|intros; contradiction]).
  - intros T n f p. split; [intros i; constructor; [intros []|constructor]|].
    intros i i' c _ [<-|[]] [E|[]]. congruence.
  - intros A B f e IH p. destruct (IH (0 :: p)) as [N1 N2]. split.
    + intros i. rewrite filter_app. simpl. rewrite app_nil_r. apply N1.
    + intros i i' c Ec Hc Hc'. apply in_app_iff in Hc as [Hc|[<-|[]]]; [|discriminate].
      apply in_app_iff in Hc' as [Hc'|[<-|[]]]; [|discriminate]. exact (N2 i i' c Ec Hc Hc').
  - intros A B e1 H1 e2 H2. exact (v_apart2 e1 e2 H1 H2).
  - intros A B C op e1 H1 e2 H2. exact (v_apart2 e1 e2 H1 H2).
  - intros A B C op e1 H1 e2 H2. exact (v_apart2 e1 e2 H1 H2).
  - intros T cj e IH p. apply IH.
  - intros T e IH p. destruct (IH (0 :: p)) as [N1 N2]. split; [intros i; apply N1|].
    intros i i' c Ec Hc Hc'. apply (N2 _ _ _ _ c Ec Hc Hc').
  - intros T n m f p. split; [intros i j; constructor; [intros []|constructor]|].
    intros r c r' c' k _ [<-|[]] [E|[]]. injection E as -> ->. auto.
  - intros A B f e IH p. destruct (IH (0 :: p)) as [N1 N2]. split.
    + intros i j. rewrite filter_app. simpl. rewrite app_nil_r. apply N1.
    + intros r c r' c' k Ec Hc Hc'. apply in_app_iff in Hc as [Hc|[<-|[]]]; [|discriminate].
      apply in_app_iff in Hc' as [Hc'|[<-|[]]]; [|discriminate]. exact (N2 _ _ _ _ k Ec Hc Hc').
  - intros A B e1 H1 e2 H2. exact (m_apart2 e1 e2 H1 H2).
  - intros A B C op e1 H1 e2 H2. exact (m_apart2 e1 e2 H1 H2).
  - intros A B C op e1 H1 e2 H2. exact (m_apart2 e1 e2 H1 H2).
  - intros T e IH p. destruct (IH (0 :: p)) as [N1 N2]. split; [intros; apply N1|].
    intros r c r' c' k Ec Hc Hc'. destruct (N2 _ _ _ _ k Ec Hc Hc'). auto.
  - intros T cj e IH p. destruct (IH (0 :: p)) as [N1 N2]. split; [intros; apply N1|].
    intros r c r' c' k Ec Hc Hc'. destruct (N2 _ _ _ _ k Ec Hc Hc'). auto.
  - intros T z e IH p. destruct (IH (0 :: p)) as [N1 N2]. split.
    + intros r c. destruct (r =? c)%N; [apply N1|constructor].
    + intros r c r' c' k Ec. destruct (N.eqb_spec r c) as [->|]; [|intros []].
      destruct (N.eqb_spec r' c') as [->|]; [|intros _ []]. intros Hc Hc'. pose proof (N2 _ _ k Ec Hc Hc'). auto.
Qed.

Lemma filter_flat_map {A B} (f : B -> bool) (g : A -> list B) l :
  filter f (flat_map g l) = flat_map (fun x => filter f (g x)) l.
Proof. induction l; simpl; [reflexivity|]. rewrite filter_app, IHl. reflexivity. Qed.

Lemma NoDup_flat_map {A B} (g : A -> list B) l : NoDup l -> (forall x, NoDup (g x)) ->
  (forall x y b, In b (g x) -> In b (g y) -> x = y) -> NoDup (flat_map g l).
Proof.
  intros H N D. induction H as [|x l Hx H IH]; simpl; [constructor|]. apply NoDup_app2; [apply N|exact IH|].
  intros b Hb Hb'. apply in_flat_map in Hb' as (y & Hy & Hb'). rewrite (D x y b Hb Hb') in Hx. contradiction.
Qed.
Lemma NoDup_urange n : NoDup (urange n).
Proof. rewrite urange_eq. apply FinFun.Injective_map_NoDup; [intros x y; apply Nat2N.inj|apply seq_NoDup]. Qed.
Lemma NoDup_rows rows cols : NoDup (rows_then_cols rows cols).
Proof.
  unfold rows_then_cols. apply NoDup_flat_map; [apply NoDup_urange| |].
  - intros r. apply FinFun.Injective_map_NoDup; [intros x y E; congruence|apply NoDup_urange].
  - intros r r' b Hb Hb'. apply in_map_iff in Hb as (c & <- & _). apply in_map_iff in Hb' as (c' & E & _). congruence.
Qed.
Lemma in_rows rows cols r c : In (r, c) (rows_then_cols rows cols) <-> (r < rows /\ c < cols)%N.
Proof. apply in_index_pairs. Qed.

Lemma vrun_once {T} (e : vx T) : NoDup (filter is_entry (vrun e)).
Proof.
  unfold vrun. rewrite filter_flat_map. destruct (proj1 apart T e []) as [H1 H2]. apply NoDup_flat_map; [apply NoDup_urange|exact H1|].
  intros i i' c Hc Hc'. apply filter_In in Hc as [Hc Ec]. apply filter_In in Hc' as [Hc' _]. exact (H2 i i' c Ec Hc Hc').
Qed.
Lemma mrun_once {T} (e : mx T) : NoDup (filter is_entry (mrun e)).
Proof.
  unfold mrun. rewrite filter_flat_map. destruct (proj2 apart T e []) as [H1 H2]. apply NoDup_flat_map; [apply NoDup_rows| |].
  - intros [r c]. apply H1.
  - intros [r c] [r' c'] k Hc Hc'. apply filter_In in Hc as [Hc Ec]. apply filter_In in Hc' as [Hc' _].
    destruct (H2 r c r' c' k Ec Hc Hc'). congruence.
Qed.

(** ** Every call *)
Lemma flat_map_two {A B} (f g : A -> list B) l : Permutation (flat_map (fun x => f x ++ g x) l) (flat_map f l ++ flat_map g l).
Proof.
  induction l as [|x l IH]; simpl; [constructor|]. rewrite IH, <- !app_assoc. apply Permutation_app_head.
  rewrite !app_assoc. apply Permutation_app_tail, Permutation_app_comm.
Qed.
Lemma flat_map_Permutation {A B} (f : A -> list B) l l' : Permutation l l' -> Permutation (flat_map f l) (flat_map f l').
Proof.
  induction 1; simpl; [constructor|apply Permutation_app_head; assumption| |etransitivity; eassumption].
  rewrite !app_assoc. apply Permutation_app_tail, Permutation_app_comm.
Qed.
Lemma rows_transposed rows cols : Permutation (map (fun '(r, c) => (c, r)) (rows_then_cols rows cols)) (rows_then_cols cols rows).
Proof.
  apply NoDup_Permutation.
  - apply FinFun.Injective_map_NoDup; [|apply NoDup_rows]. intros [r c] [r' c'] E. congruence.
  - apply NoDup_rows.
  - intros [c r]. rewrite in_map_iff, in_rows. split.
    + intros ([r' c'] & E & H). injection E as -> ->. apply in_rows in H. tauto.
    + intros H. exists (r, c). split; [reflexivity|]. apply in_rows. tauto.
Qed.
Lemma flat_transposed {B} (f : N -> N -> list B) rows cols :
  Permutation (flat_map (fun '(r, c) => f c r) (rows_then_cols cols rows))
              (flat_map (fun '(r, c) => f r c) (rows_then_cols rows cols)).
Proof.
  rewrite <- (flat_map_Permutation (fun '(r, c) => f r c) _ _ (rows_transposed cols rows)).
  rewrite flat_map_concat_map, flat_map_concat_map, map_map.
  rewrite (map_ext (fun '(r, c) => f c r) (fun x => let '(r, c) := let '(r, c) := x in (c, r) in f r c)); [reflexivity|].
  intros [r c]. reflexivity.
Qed.
Lemma flat_pick {B} (x : list B) r l : NoDup l -> In r l -> flat_map (fun c => if (r =? c)%N then x else []) l = x.
Proof.
  assert (Z : forall l, ~ In r l -> flat_map (fun c => if (r =? c)%N then x else []) l = []).
  { clear. induction l as [|c l IH]; simpl; intros H; [reflexivity|].
    destruct (N.eqb_spec r c) as [->|_]; [destruct H; auto|]. apply IH. tauto. }
  induction 1 as [|c l Hc H IH]; simpl; [intros []|]. intros [<-|Hr].
  - rewrite N.eqb_refl, Z by exact Hc. apply app_nil_r.
  - destruct (N.eqb_spec r c) as [->|_]; [contradiction|]. apply IH, Hr.
Qed.
Lemma flat_map_ext_in2 {A B} (f g : A -> list B) l : (forall x, In x l -> f x = g x) -> flat_map f l = flat_map g l.
Proof. induction l as [|x l IH]; simpl; intros H; [reflexivity|]. rewrite H by auto. f_equal. apply IH. auto. Qed.
Lemma flat_diag {B} (f : N -> list B) n :
  flat_map (fun '(r, c) => if (r =? c)%N then f r else []) (rows_then_cols n n) = flat_map f (urange n).
Proof.
  rewrite (flat_rows (fun r c => if (r =? c)%N then f r else [])). apply flat_map_ext_in2.
  intros r Hr. apply flat_pick; [apply NoDup_urange|exact Hr].
Qed.

Definition v_all {T} (e : vx T) : Prop := vfull e = true -> vmatch e = true -> forall p,
  Permutation (flat_map (fun i => filter is_entry (vcalls p e i)) (urange (vshape e))) (vevery p e).
Definition m_all {T} (e : mx T) : Prop := mfull e = true -> mmatch e = true -> forall p,
  Permutation (flat_map (fun '(r, c) => filter is_entry (mcalls p e r c)) (rows_then_cols (fst (mshape e)) (snd (mshape e)))) (mevery p e).

Lemma v_all2 {A B} (e1 : vx A) (e2 : vx B) : v_all e1 -> v_all e2 -> vfull e1 && vfull e2 = true ->
  vmatch e1 && vmatch e2 && (vshape e1 =? vshape e2)%N = true -> forall p,
  Permutation (flat_map (fun i => filter is_entry (vcalls (0 :: p) e1 i ++ vcalls (1 :: p) e2 i)) (urange (vshape e1)))
    (vevery (0 :: p) e1 ++ vevery (1 :: p) e2).
Proof.
  intros H1 H2 F M p. apply andb_true_iff in F as [F1 F2]. apply andb_true_iff in M as [M E]. apply andb_true_iff in M as [M1 M2].
  apply N.eqb_eq in E.
  rewrite (flat_map_ext _ _ (fun i => filter_app is_entry (vcalls (0 :: p) e1 i) (vcalls (1 :: p) e2 i))).
  rewrite flat_map_two. apply Permutation_app; [apply H1; assumption|]. rewrite E. apply H2; assumption.
Qed.
Lemma m_all2 {A B} (e1 : mx A) (e2 : mx B) : m_all e1 -> m_all e2 -> mfull e1 && mfull e2 = true ->
  mmatch e1 && mmatch e2 && same_shape (mshape e1) (mshape e2) = true -> forall p,
  Permutation (flat_map (fun '(r, c) => filter is_entry (mcalls (0 :: p) e1 r c ++ mcalls (1 :: p) e2 r c))
                 (rows_then_cols (fst (mshape e1)) (snd (mshape e1))))
    (mevery (0 :: p) e1 ++ mevery (1 :: p) e2).
Proof.
  intros H1 H2 F M p. apply andb_true_iff in F as [F1 F2]. apply andb_true_iff in M as [M E]. apply andb_true_iff in M as [M1 M2].
  unfold same_shape in E. apply andb_true_iff in E as [E E']. apply N.eqb_eq in E, E'.
  rewrite (flat_map_ext _ (fun x => (fun '(r, c) => filter is_entry (mcalls (0 :: p) e1 r c)) x ++ (fun '(r, c) => filter is_entry (mcalls (1 :: p) e2 r c)) x))
    by (intros [r c]; apply filter_app).
  rewrite flat_map_two. apply Permutation_app; [apply H1; assumption|]. rewrite E, E'. apply H2; assumption.
Qed.

Lemma every : (forall T (e : vx T), v_all e) /\ (forall T (e : mx T), m_all e).
Proof.
  assert (Z : forall l : list (N * N), Permutation (flat_map (fun '(_, _) => @nil call) l) []).
  { induction l as [|[? ?] l IH]; simpl; auto. }
  apply vx_mx_ind; unfold v_all, m_all; cbn [vfull mfull vmatch mmatch vshape mshape vcalls mcalls vevery mevery filter is_entry fst snd];
    try (intros; rewrite flat_map_none; constructor); try (intros; apply Z).
  - intros T n f _ _ p. rewrite flat_map_concat_map. induction (urange n); simpl; auto.
  - intros A B f e IH F M p. rewrite <- (IH F M (0 :: p)). erewrite flat_map_ext; [reflexivity|].
    intros i. cbn. rewrite filter_app. apply app_nil_r.
  - intros A B e1 H1 e2 H2. exact (v_all2 e1 e2 H1 H2).
  - intros A B C op e1 H1 e2 H2. exact (v_all2 e1 e2 H1 H2).
  - intros A B C op e1 H1 e2 H2. exact (v_all2 e1 e2 H1 H2).
  - intros T cj e IH F M p. apply (IH F M).
  - intros T e IH F. discriminate.
  - intros T r c f _ _ p. induction (rows_then_cols r c) as [|[? ?] l IHl]; simpl; auto.
  - intros A B f e IH F M p. rewrite <- (IH F M (0 :: p)). erewrite flat_map_ext; [reflexivity|].
    intros [r c]. cbn. rewrite filter_app. apply app_nil_r.
  - intros A B e1 H1 e2 H2. exact (m_all2 e1 e2 H1 H2).
  - intros A B C op e1 H1 e2 H2. exact (m_all2 e1 e2 H1 H2).
  - intros A B C op e1 H1 e2 H2. exact (m_all2 e1 e2 H1 H2).
  - intros T e IH F M p. rewrite <- (IH F M (0 :: p)). destruct (mshape e) as [r c]. cbn [fst snd].
    apply (flat_transposed (fun r c => filter is_entry (mcalls (0 :: p) e r c))).
  - intros T cj e IH F M p. rewrite <- (IH F M (0 :: p)). destruct (mshape e) as [r c]. cbn [fst snd].
    apply (flat_transposed (fun r c => filter is_entry (mcalls (0 :: p) e r c))).
  - intros T z e IH F M p. rewrite <- (IH F M (0 :: p)).
    rewrite <- (flat_diag (fun i => filter is_entry (vcalls (0 :: p) e i))).
    erewrite flat_map_ext; [reflexivity|]. intros [r c]. cbn. destruct (r =? c)%N; reflexivity.
Qed.
