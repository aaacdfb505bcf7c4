(** Properties C32, C33 and C34: transposes and products of DMatrix.

    [dm_at R m r c] is the entry in row r, column c; [row_times_col R a b r c] is
    sum over m of a[r,m]*b[m,c]; [same_dmat] is equality of shape and entries; [dm_wf] says a
    stored matrix has rows*cols entries; [fits] that a shape fits into memory
    (Spec/DMatrix.v, Spec/DExpr.v).  [md] is the overflow-check mode. *)
From Coq Require Import List Arith NArith ZArith Lia Bool Setoid Morphisms.
From Verif Require Import Base.Outcome Base.Usize Base.Array Model.Traits Model.SVector Model.SMatrix Model.Complex
  Model.DVector Model.DMatrix
  Spec.Ring Spec.Sums Spec.Agree Spec.Complex Spec.Matrix Spec.DExpr Spec.DMatrix
  Proofs.RingTheory Proofs.IntegerRing Proofs.SMatrixProofs Proofs.DExprProofs Proofs.DMatrixProofs.
Import ListNotations.

(** [(&a + &b).eval()] / [(&a - &b).eval()] / [(&a * &b).eval()] / [a.t().eval()] / [a.h().eval()]. *)
Definition dm_op {T} md (op : T -> T -> outcome T) (a b : dmatrix T) : outcome (dmatrix T) :=
  e <- dmatrix_binop md op a (mexpr_wrap (dmatrix_expr md b)) ;; m_eval e.
Definition dm_mul {T} md (add mul : T -> T -> outcome T) (a b : dmatrix T) : outcome (dmatrix T) :=
  e <- dmatrix_mul md mul add a b ;; m_eval e.
Definition dm_t {T} md (a : dmatrix T) : outcome (dmatrix T) := m_eval (dmatrix_t md a).
Definition dm_h {T} md (conj : T -> outcome T) (a : dmatrix T) : outcome (dmatrix T) := m_eval (dmatrix_h md conj a).

Section Laws.
Context (T : Type) (R : ring_sig T) (HR : ring_laws R) (md : target).
Context (add sub mul : T -> T -> outcome T)
        (Ha : forall x y, add x y = Ok (sadd R x y)) (Hs : forall x y, sub x y = Ok (ssub R x y))
        (Hm : forall x y, mul x y = Ok (smul R x y)).
Notation "a [+] b" := (dm_op md add a b) (at level 50).
Notation "a [-] b" := (dm_op md sub a b) (at level 50).
Notation "a [*] b" := (dm_mul md add mul a b) (at level 40).
Local Notation sm := (same_dmat R).

Local Instance Je : Equivalence (same R) := same_equiv R HR.

Lemma same_tab rows cols f g :
  (forall r c, (r < rows)%N -> (c < cols)%N -> same R (f r c) (g r c)) ->
  sm (dm_tab rows cols f) (dm_tab rows cols g).
Proof.
  intros H. split; [reflexivity|]. split; [reflexivity|]. simpl. intros r c Hr Hc.
  rewrite !dm_at_tab by assumption. apply H; assumption.
Qed.

(** ** C33 *)
Theorem C33_product_entries :
  forall a b : dmatrix T, dm_wf md a -> dm_wf md b -> dm_cols a = dm_rows b -> (1 <= dm_cols a)%N ->
  returns (a [*] b) (fun p =>
    dm_rows p = dm_rows a /\ dm_cols p = dm_cols b
    /\ ulen (dm_data p) = (dm_rows a * dm_cols b)%N
    /\ (fits md (dm_rows a) (dm_cols b) -> dm_wf md p)
    /\ forall r c, (r < dm_rows a)%N -> (c < dm_cols b)%N ->
         same R (dm_at R p r c) (row_times_col R a b r c)).
Proof.
  intros a b Wa Wb E H1. eexists. split; [apply (dm_mul_total R add mul Ha Hm md a b Wa Wb E H1)|].
  simpl. split; [reflexivity|]. split; [reflexivity|]. split.
  { unfold ulen. rewrite map_length, index_pairs_length. lia. }
  split; [apply dm_tab_wf|].
  intros r c Hr Hc. rewrite dm_at_tab by assumption. etransitivity; [apply (sum1_sum R HR)|].
  unfold row_times_col. replace (S (Init.Nat.pred (N.to_nat (dm_cols a)))) with (N.to_nat (dm_cols a)) by lia. reflexivity.
Qed.

Lemma mul_tab a b : dm_wf md a -> dm_wf md b -> dm_cols a = dm_rows b -> (1 <= dm_cols a)%N ->
  exists p, a [*] b = Ok p /\ dm_rows p = dm_rows a /\ dm_cols p = dm_cols b
    /\ (fits md (dm_rows a) (dm_cols b) -> dm_wf md p)
    /\ forall r c, (r < dm_rows a)%N -> (c < dm_cols b)%N -> same R (dm_at R p r c) (row_times_col R a b r c).
Proof.
  intros Wa Wb E H1. destruct (C33_product_entries a b Wa Wb E H1) as (p & ? & ? & ? & _ & ? & ?). eauto 10.
Qed.

Lemma op_tab op g a b : (forall x y, op x y = Ok (g x y)) -> dm_wf md a -> dm_wf md b ->
  dm_rows a = dm_rows b -> dm_cols a = dm_cols b ->
  exists p, dm_op md op a b = Ok p /\ dm_rows p = dm_rows a /\ dm_cols p = dm_cols a /\ dm_wf md p
    /\ forall r c, (r < dm_rows a)%N -> (c < dm_cols a)%N -> dm_at R p r c = g (dm_at R a r c) (dm_at R b r c).
Proof.
  intros Hg Wa Wb Er Ec. eexists. split; [apply (dm_binop_total R md op g a b Hg Wa Wb Er Ec)|].
  split; [reflexivity|]. split; [reflexivity|]. split; [apply dm_tab_wf; exact (proj2 Wa)|].
  intros r c Hr Hc. rewrite dm_at_tab by assumption; reflexivity.
Qed.

Lemma t_tab a : dm_wf md a -> exists p, dm_t md a = Ok p /\ dm_rows p = dm_cols a /\ dm_cols p = dm_rows a /\ dm_wf md p
    /\ forall r c, (r < dm_cols a)%N -> (c < dm_rows a)%N -> dm_at R p r c = dm_at R a c r.
Proof.
  intros Wa. eexists. split; [apply (dm_t_total R md a Wa)|].
  split; [reflexivity|]. split; [reflexivity|]. split.
  - apply dm_tab_wf. unfold fits. rewrite N.mul_comm. exact (proj2 Wa).
  - intros r c Hr Hc. rewrite dm_at_tab by assumption; reflexivity.
Qed.

Lemma eye_tab n : fits md n n -> exists p, m_eval (dmatrix_eye (sz R) (so R) n) = Ok p
    /\ dm_rows p = n /\ dm_cols p = n /\ dm_wf md p
    /\ forall r c, (r < n)%N -> (c < n)%N -> dm_at R p r c = if (r =? c)%N then so R else sz R.
Proof.
  intros H. eexists. split; [apply dm_eye_total|]. split; [reflexivity|]. split; [reflexivity|].
  split; [apply dm_tab_wf, H|]. intros r c Hr Hc. rewrite dm_at_tab by assumption; reflexivity.
Qed.

Theorem C33_product_laws :
  forall a b b' c : dmatrix T,
  dm_wf md a -> dm_wf md b -> dm_wf md b' -> dm_wf md c ->
  dm_cols a = dm_rows b -> dm_rows b = dm_rows b' -> dm_cols b = dm_cols b' -> dm_cols b = dm_rows c ->
  (1 <= dm_cols a)%N -> (1 <= dm_cols b)%N ->
  fits md (dm_rows a) (dm_cols b) -> fits md (dm_rows b) (dm_cols c) ->
  fits md (dm_rows a) (dm_rows a) -> fits md (dm_cols a) (dm_cols a) ->
  agree sm (x <- a [*] b ;; x [*] c) (y <- b [*] c ;; a [*] y)
  /\ agree sm (x <- b [+] b' ;; a [*] x) (y <- a [*] b ;; y' <- a [*] b' ;; y [+] y')
  /\ agree sm (x <- b [+] b' ;; x [*] c) (y <- b [*] c ;; y' <- b' [*] c ;; y [+] y')
  /\ agree sm (x <- b [-] b' ;; a [*] x) (y <- a [*] b ;; y' <- a [*] b' ;; y [-] y')
  /\ agree sm (x <- b [-] b' ;; x [*] c) (y <- b [*] c ;; y' <- b' [*] c ;; y [-] y')
  /\ agree sm (e <- m_eval (dmatrix_eye (sz R) (so R) (dm_cols a)) ;; a [*] e) (Ok a)
  /\ ((1 <= dm_rows a)%N -> agree sm (e <- m_eval (dmatrix_eye (sz R) (so R) (dm_rows a)) ;; e [*] a) (Ok a)).
Proof.
  intros a b b' c Wa Wb Wb' Wc Eab Er Ec Ebc Pa Pb Fab Fbc Faa Fca.
  assert (Hsum : forall k k' f g, k = k' -> (forall i, i < N.to_nat k -> same R (f i) (g i)) ->
            same R (sum_n R (N.to_nat k) f) (sum_n R (N.to_nat k') g)).
  { intros k k' f g <- H. apply (sum_ext R HR). exact H. }
  assert (MC : forall x x' y y', same R x x' -> same R y y' -> same R (smul R x y) (smul R x' y')) by apply (law_mul_cong R HR).
  destruct (mul_tab a b Wa Wb Eab Pa) as (ab & Eq1 & R1 & C1 & W1 & V1). specialize (W1 Fab).
  destruct (mul_tab b c Wb Wc Ebc Pb) as (bc & Eq2 & R2 & C2 & W2 & V2). specialize (W2 Fbc).
  destruct (mul_tab a b' Wa Wb' ltac:(congruence) Pa) as (ab' & Eq3 & R3 & C3 & W3 & V3).
  rewrite <- Ec in W3. specialize (W3 Fab).
  destruct (mul_tab b' c Wb' Wc ltac:(congruence) ltac:(congruence)) as (b'c & Eq4 & R4 & C4 & W4 & V4).
  rewrite <- Er in W4. specialize (W4 Fbc).
  destruct (op_tab add (sadd R) b b' Ha Wb Wb' Er Ec) as (s & Eq5 & R5 & C5 & W5 & V5).
  destruct (op_tab sub (ssub R) b b' Hs Wb Wb' Er Ec) as (d & Eq6 & R6 & C6 & W6 & V6).
  rewrite Eq1, Eq2, Eq3, Eq4, Eq5, Eq6. cbn [bind].
  split; [|split; [|split; [|split; [|split; [|split]]]]].
  - destruct (mul_tab ab c W1 Wc ltac:(congruence) ltac:(congruence)) as (l & El & Rl & Cl & _ & Vl).
    destruct (mul_tab a bc Wa W2 ltac:(congruence) ltac:(congruence)) as (r & Er' & Rr & Cr & _ & Vr).
    exists l, r. split; [exact El|]. split; [exact Er'|]. split; [congruence|]. split; [congruence|].
    intros i j Hi Hj. rewrite Vl, Vr by congruence. unfold row_times_col.
    etransitivity; [|etransitivity; [apply (sum_mul_assoc R HR (N.to_nat (dm_cols a)) (N.to_nat (dm_cols b))
       (fun m => dm_at R a i (N.of_nat m)) (fun m k => dm_at R b (N.of_nat m) (N.of_nat k))
       (fun k => dm_at R c (N.of_nat k) j))|]].
    + apply Hsum; [congruence|]. intros k Hk. apply MC; [|reflexivity]. rewrite V1 by (congruence || lia). reflexivity.
    + apply Hsum; [reflexivity|]. intros m Hmm. apply MC; [reflexivity|]. rewrite V2 by (congruence || lia). reflexivity.
  - destruct (mul_tab a s Wa W5 ltac:(congruence) Pa) as (l & El & Rl & Cl & _ & Vl).
    destruct (op_tab add (sadd R) ab ab' Ha W1 W3 ltac:(congruence) ltac:(congruence)) as (r & Er' & Rr & Cr & _ & Vr).
    exists l, r. split; [exact El|]. split; [exact Er'|]. split; [congruence|]. split; [congruence|].
    intros i j Hi Hj. rewrite Vr, Vl by congruence.
    transitivity (sadd R (row_times_col R a b i j) (row_times_col R a b' i j)).
    + unfold row_times_col. etransitivity; [|apply (sum_distr_l R HR)]. apply Hsum; [reflexivity|].
      intros m Hmm. apply MC; [reflexivity|]. rewrite V5 by (congruence || lia). reflexivity.
    + symmetry. apply (law_add_cong R HR); [apply V1|apply V3]; congruence.
  - destruct (mul_tab s c W5 Wc ltac:(congruence) ltac:(congruence)) as (l & El & Rl & Cl & _ & Vl).
    destruct (op_tab add (sadd R) bc b'c Ha W2 W4 ltac:(congruence) ltac:(congruence)) as (r & Er' & Rr & Cr & _ & Vr).
    exists l, r. split; [exact El|]. split; [exact Er'|]. split; [congruence|]. split; [congruence|].
    intros i j Hi Hj. rewrite Vr, Vl by congruence.
    transitivity (sadd R (row_times_col R b c i j) (row_times_col R b' c i j)).
    + unfold row_times_col. rewrite <- Ec, C5. etransitivity; [|apply (sum_distr_r R HR)]. apply Hsum; [reflexivity|].
      intros m Hmm. apply MC; [|reflexivity]. rewrite V5 by (congruence || lia). reflexivity.
    + symmetry. apply (law_add_cong R HR); [apply V2|apply V4]; congruence.
  - destruct (mul_tab a d Wa W6 ltac:(congruence) Pa) as (l & El & Rl & Cl & _ & Vl).
    destruct (op_tab sub (ssub R) ab ab' Hs W1 W3 ltac:(congruence) ltac:(congruence)) as (r & Er' & Rr & Cr & _ & Vr).
    exists l, r. split; [exact El|]. split; [exact Er'|]. split; [congruence|]. split; [congruence|].
    intros i j Hi Hj. rewrite Vr, Vl by congruence.
    transitivity (ssub R (row_times_col R a b i j) (row_times_col R a b' i j)).
    + unfold row_times_col. etransitivity; [|apply (sum_distr_sub_l R HR)]. apply Hsum; [reflexivity|].
      intros m Hmm. apply MC; [reflexivity|]. rewrite V6 by (congruence || lia). reflexivity.
    + symmetry. apply (law_sub_cong R HR); [apply V1|apply V3]; congruence.
  - destruct (mul_tab d c W6 Wc ltac:(congruence) ltac:(congruence)) as (l & El & Rl & Cl & _ & Vl).
    destruct (op_tab sub (ssub R) bc b'c Hs W2 W4 ltac:(congruence) ltac:(congruence)) as (r & Er' & Rr & Cr & _ & Vr).
    exists l, r. split; [exact El|]. split; [exact Er'|]. split; [congruence|]. split; [congruence|].
    intros i j Hi Hj. rewrite Vr, Vl by congruence.
    transitivity (ssub R (row_times_col R b c i j) (row_times_col R b' c i j)).
    + unfold row_times_col. rewrite <- Ec, C6. etransitivity; [|apply (sum_distr_sub_r R HR)]. apply Hsum; [reflexivity|].
      intros m Hmm. apply MC; [|reflexivity]. rewrite V6 by (congruence || lia). reflexivity.
    + symmetry. apply (law_sub_cong R HR); [apply V2|apply V4]; congruence.
  - destruct (eye_tab (dm_cols a) Fca) as (e & -> & Re & Ce & We & Ve). cbn [bind].
    destruct (mul_tab a e Wa We ltac:(congruence) Pa) as (l & El & Rl & Cl & _ & Vl).
    exists l, a. split; [exact El|]. split; [reflexivity|]. split; [congruence|]. split; [congruence|].
    intros i j Hi Hj. rewrite Vl by congruence. unfold row_times_col.
    assert (Hj' : N.to_nat j < N.to_nat (dm_cols a)) by lia.
    etransitivity; [|etransitivity; [apply (sum_delta_r R HR _ (N.to_nat j) (fun m => dm_at R a i (N.of_nat m)) Hj')|]].
    + apply Hsum; [reflexivity|]. intros m Hmm. apply MC; [reflexivity|].
      rewrite Ve by lia. unfold delta. destruct (N.eqb_spec (N.of_nat m) j), (Nat.eqb_spec m (N.to_nat j)); try lia; reflexivity.
    + rewrite N2Nat.id. reflexivity.
  - intros Pr. destruct (eye_tab (dm_rows a) Faa) as (e & -> & Re & Ce & We & Ve). cbn [bind].
    destruct (mul_tab e a We Wa ltac:(congruence) ltac:(congruence)) as (l & El & Rl & Cl & _ & Vl).
    exists l, a. split; [exact El|]. split; [reflexivity|]. split; [congruence|]. split; [congruence|].
    intros i j Hi Hj. rewrite Vl by congruence. unfold row_times_col. rewrite Ce.
    assert (Hi' : N.to_nat i < N.to_nat (dm_rows a)) by (rewrite Rl, Re in Hi; lia).
    etransitivity; [|etransitivity; [apply (sum_delta_l R HR _ (N.to_nat i) (fun m => dm_at R a (N.of_nat m) j) Hi')|]].
    + apply Hsum; [reflexivity|]. intros m Hmm. apply MC; [|reflexivity].
      rewrite Ve by lia. unfold delta. destruct (N.eqb_spec i (N.of_nat m)), (Nat.eqb_spec (N.to_nat i) m); try lia; reflexivity.
    + rewrite N2Nat.id. reflexivity.
Qed.

(** ** C32 *)
Theorem C32_transpose :
  forall a a' : dmatrix T, dm_wf md a -> dm_wf md a' -> dm_rows a = dm_rows a' -> dm_cols a = dm_cols a' ->
  returns (dm_t md a) (fun p => dm_rows p = dm_cols a /\ dm_cols p = dm_rows a
     /\ forall r c, (r < dm_cols a)%N -> (c < dm_rows a)%N -> dm_at R p r c = dm_at R a c r)
  /\ (x <- dm_t md a ;; dm_t md x) = Ok a
  /\ agree sm (x <- a [+] a' ;; dm_t md x) (y <- dm_t md a ;; y' <- dm_t md a' ;; y [+] y')
  /\ agree sm (x <- a [-] a' ;; dm_t md x) (y <- dm_t md a ;; y' <- dm_t md a' ;; y [-] y').
Proof.
  intros a a' Wa Wa' Er Ec.
  destruct (t_tab a Wa) as (t & E1 & R1 & C1 & W1 & V1). destruct (t_tab a' Wa') as (t' & E2 & R2 & C2 & W2 & V2).
  rewrite E1, E2. cbn [bind]. split; [exists t; auto|]. split; [|split].
  - unfold dm_t. rewrite (dm_t_total R md t W1). f_equal. rewrite (dm_tab_self R a Wa) at 1.
    rewrite R1, C1. apply dm_tab_ext. intros r c Hr Hc. apply V1; assumption.
  - destruct (op_tab add (sadd R) a a' Ha Wa Wa' Er Ec) as (s & Es & Rs & Cs & Ws & Vs).
    destruct (op_tab add (sadd R) t t' Ha W1 W2 ltac:(congruence) ltac:(congruence)) as (u & Eu & Ru & Cu & Wu & Vu).
    destruct (t_tab s Ws) as (v & Ev & Rv & Cv & _ & Vv). rewrite Es. cbn [bind].
    exists v, u. split; [exact Ev|]. split; [exact Eu|]. split; [congruence|]. split; [congruence|].
    intros r c Hr Hc. rewrite Vv, Vu by congruence. rewrite Vs by congruence. rewrite V1, V2 by congruence. reflexivity.
  - destruct (op_tab sub (ssub R) a a' Hs Wa Wa' Er Ec) as (s & Es & Rs & Cs & Ws & Vs).
    destruct (op_tab sub (ssub R) t t' Hs W1 W2 ltac:(congruence) ltac:(congruence)) as (u & Eu & Ru & Cu & Wu & Vu).
    destruct (t_tab s Ws) as (v & Ev & Rv & Cv & _ & Vv). rewrite Es. cbn [bind].
    exists v, u. split; [exact Ev|]. split; [exact Eu|]. split; [congruence|]. split; [congruence|].
    intros r c Hr Hc. rewrite Vv, Vu by congruence. rewrite Vs by congruence. rewrite V1, V2 by congruence. reflexivity.
Qed.

Theorem C32_transpose_of_product :
  commutative R ->
  forall a b : dmatrix T, dm_wf md a -> dm_wf md b -> dm_cols a = dm_rows b -> (1 <= dm_cols a)%N ->
  fits md (dm_rows a) (dm_cols b) ->
  agree sm (p <- a [*] b ;; dm_t md p) (b' <- dm_t md b ;; a' <- dm_t md a ;; b' [*] a').
Proof.
  intros HC a b Wa Wb Eab Pa Fab.
  destruct (mul_tab a b Wa Wb Eab Pa) as (ab & -> & R1 & C1 & W1 & V1). specialize (W1 Fab). cbn [bind].
  destruct (t_tab ab W1) as (l & El & Rl & Cl & _ & Vl).
  destruct (t_tab b Wb) as (b' & -> & Rb & Cb & Wb' & Vb). destruct (t_tab a Wa) as (a' & -> & Ra & Ca & Wa' & Va). cbn [bind].
  destruct (mul_tab b' a' Wb' Wa' ltac:(congruence) ltac:(lia)) as (r & Er' & Rr & Cr & _ & Vr).
  exists l, r. split; [exact El|]. split; [exact Er'|]. split; [congruence|]. split; [congruence|].
  intros i j Hi Hj. rewrite Vl by congruence. rewrite Vr, V1 by congruence. unfold row_times_col.
  rewrite Cb, <- Eab. apply (sum_ext R HR). intros m Hmm.
  rewrite Va, Vb by (congruence || lia). apply HC.
Qed.

Section Herm.
Context (conj : T -> outcome T) (c : T -> T) (Hc : forall x, conj x = Ok (c x)).

Lemma h_tab a : dm_wf md a -> exists p, dm_h md conj a = Ok p /\ dm_rows p = dm_cols a /\ dm_cols p = dm_rows a /\ dm_wf md p
    /\ forall i j, (i < dm_cols a)%N -> (j < dm_rows a)%N -> dm_at R p i j = c (dm_at R a j i).
Proof.
  intros Wa. eexists. split; [apply (dm_h_total R md conj c a Hc Wa)|].
  split; [reflexivity|]. split; [reflexivity|]. split.
  - apply dm_tab_wf. unfold fits. rewrite N.mul_comm. exact (proj2 Wa).
  - intros i j Hi Hj. rewrite dm_at_tab by assumption; reflexivity.
Qed.

(** [h] is [t] followed by the entrywise conjugate. *)
Theorem C32_hermitian_transpose :
  forall a : dmatrix T, dm_wf md a ->
  returns (dm_h md conj a) (fun p => dm_rows p = dm_cols a /\ dm_cols p = dm_rows a
     /\ forall i j, (i < dm_cols a)%N -> (j < dm_rows a)%N -> dm_at R p i j = c (dm_at R a j i))
  /\ dm_h md conj a = (x <- dm_t md a ;; m_eval (mexpr_map (mexpr_wrap (dmatrix_expr md x)) conj))
  /\ ((forall x, same R (c (c x)) x) -> agree sm (x <- dm_h md conj a ;; dm_h md conj x) (Ok a)).
Proof.
  intros a Wa. destruct (h_tab a Wa) as (h & E1 & R1 & C1 & W1 & V1). rewrite E1. cbn [bind].
  split; [exists h; auto|]. split.
  - unfold dm_t. rewrite (dm_t_total R md a Wa). cbn [bind]. rewrite mexpr_eta.
    set (x := dm_tab (dm_cols a) (dm_rows a) (fun r c0 => dm_at R a c0 r)).
    assert (Wx : dm_wf md x) by (apply dm_tab_wf; unfold fits; rewrite N.mul_comm; exact (proj2 Wa)).
    rewrite (mspec_eval_total _ _ _ _ (fun r c0 => c (dm_at R x r c0)) (mspec_map _ _ _ conj (mspec_dm md x Wx))).
    + f_equal. rewrite (dm_tab_self R h W1), R1, C1. apply dm_tab_ext. intros r c0 Hr Hc0.
      rewrite V1 by assumption. unfold x. rewrite dm_at_tab by assumption. reflexivity.
    + intros r c0 Hr Hc0. rewrite (row_major_dm_at (md:=md) R x) by assumption. apply Hc.
  - intros Hi. destruct (h_tab h W1) as (g & E2 & R2 & C2 & W2 & V2).
    exists g, a. split; [exact E2|]. split; [reflexivity|]. split; [congruence|]. split; [congruence|].
    intros r c0 Hr Hc0. rewrite V2 by congruence. rewrite V1 by congruence. apply Hi.
Qed.

Context (Hp : forall x y, same R x y -> same R (c x) (c y))
        (Hca : forall x y, same R (c (sadd R x y)) (sadd R (c x) (c y))).

Lemma c_sum n f : same R (c (sum_n R n f)) (sum_n R n (fun k => c (f k))).
Proof.
  assert (C0 : same R (c (sz R)) (sz R)).
  { assert (E : same R (sadd R (c (sz R)) (c (sz R))) (c (sz R))).
    { etransitivity; [symmetry; apply Hca|]. apply Hp. apply (law_add_0 R HR). }
    pose proof (sadd_proper R HR) as P1. pose proof (sneg_proper R HR) as P2.
    transitivity (sadd R (sadd R (c (sz R)) (c (sz R))) (sneg R (c (sz R)))).
    - nc_ring HR.
    - rewrite E. nc_ring HR. }
  revert f; induction n as [|n IH]; intros f; simpl; [exact C0|].
  etransitivity; [apply Hca|]. apply (law_add_cong R HR); [apply IH|reflexivity].
Qed.

Theorem C32_hermitian_additive :
  forall a a' : dmatrix T, dm_wf md a -> dm_wf md a' -> dm_rows a = dm_rows a' -> dm_cols a = dm_cols a' ->
  agree sm (x <- a [+] a' ;; dm_h md conj x)
           (y <- dm_h md conj a ;; y' <- dm_h md conj a' ;; y [+] y')
  /\ ((forall x y, same R (c (ssub R x y)) (ssub R (c x) (c y))) ->
      agree sm (x <- a [-] a' ;; dm_h md conj x)
               (y <- dm_h md conj a ;; y' <- dm_h md conj a' ;; y [-] y')).
Proof.
  intros a a' Wa Wa' Er Ec.
  destruct (h_tab a Wa) as (t & E1 & R1 & C1 & W1 & V1). destruct (h_tab a' Wa') as (t' & E2 & R2 & C2 & W2 & V2).
  rewrite E1, E2. cbn [bind]. split; [|intros Hcs].
  - destruct (op_tab add (sadd R) a a' Ha Wa Wa' Er Ec) as (s & Es & Rs & Cs & Ws & Vs).
    destruct (op_tab add (sadd R) t t' Ha W1 W2 ltac:(congruence) ltac:(congruence)) as (u & Eu & Ru & Cu & Wu & Vu).
    destruct (h_tab s Ws) as (v & Ev & Rv & Cv & _ & Vv). rewrite Es. cbn [bind].
    exists v, u. split; [exact Ev|]. split; [exact Eu|]. split; [congruence|]. split; [congruence|].
    intros r c0 Hr Hc0. rewrite Vv, Vu by congruence. rewrite Vs by congruence. rewrite V1, V2 by congruence. apply Hca.
  - destruct (op_tab sub (ssub R) a a' Hs Wa Wa' Er Ec) as (s & Es & Rs & Cs & Ws & Vs).
    destruct (op_tab sub (ssub R) t t' Hs W1 W2 ltac:(congruence) ltac:(congruence)) as (u & Eu & Ru & Cu & Wu & Vu).
    destruct (h_tab s Ws) as (v & Ev & Rv & Cv & _ & Vv). rewrite Es. cbn [bind].
    exists v, u. split; [exact Ev|]. split; [exact Eu|]. split; [congruence|]. split; [congruence|].
    intros r c0 Hr Hc0. rewrite Vv, Vu by congruence. rewrite Vs by congruence. rewrite V1, V2 by congruence. apply Hcs.
Qed.

(** For an anti-multiplicative conjugation (over a commutative ring: a multiplicative one). *)
Theorem C32_hermitian_of_product :
  (forall x y, same R (c (smul R x y)) (smul R (c y) (c x))) ->
  forall a b : dmatrix T, dm_wf md a -> dm_wf md b -> dm_cols a = dm_rows b -> (1 <= dm_cols a)%N ->
  fits md (dm_rows a) (dm_cols b) ->
  agree sm (p <- a [*] b ;; dm_h md conj p) (b' <- dm_h md conj b ;; a' <- dm_h md conj a ;; b' [*] a').
Proof.
  intros Hcm a b Wa Wb Eab Pa Fab.
  destruct (mul_tab a b Wa Wb Eab Pa) as (ab & -> & R1 & C1 & W1 & V1). specialize (W1 Fab). cbn [bind].
  destruct (h_tab ab W1) as (l & El & Rl & Cl & _ & Vl).
  destruct (h_tab b Wb) as (b' & -> & Rb & Cb & Wb' & Vb). destruct (h_tab a Wa) as (a' & -> & Ra & Ca & Wa' & Va). cbn [bind].
  destruct (mul_tab b' a' Wb' Wa' ltac:(congruence) ltac:(lia)) as (r & Er' & Rr & Cr & _ & Vr).
  exists l, r. split; [exact El|]. split; [exact Er'|]. split; [congruence|]. split; [congruence|].
  intros i j Hi Hj. rewrite Vl by congruence. rewrite Vr by congruence.
  etransitivity; [apply Hp, V1; congruence|]. unfold row_times_col.
  rewrite Cb, <- Eab. etransitivity; [apply c_sum|]. apply (sum_ext R HR). intros m Hmm.
  rewrite Va, Vb by (congruence || lia). apply Hcm.
Qed.
End Herm.
End Laws.

(** A DMatrix product coincides with the SMatrix product of the same entries. *)
Definition dm_of_smatrix {T} {m n : nat} (a : smatrix T m n) : dmatrix T :=
  MkDM (concat (map entries (entries a))) (N.of_nat m) (N.of_nat n).

Lemma dm_of_smatrix_at {T} (R : ring_sig T) {m n} (a : smatrix T m n) i j : i < m -> j < n ->
  dm_at R (dm_of_smatrix a) (N.of_nat i) (N.of_nat j) = mat_at R a i j.
Proof.
  intros Hi Hj. unfold dm_at, dm_of_smatrix, mat_at. cbn [dm_cols dm_data].
  assert (W : array2_wf (N.of_nat n) (map entries (entries a))).
  { apply Forall_forall. intros l Hl. apply in_map_iff in Hl as (x & <- & _). unfold ulen. rewrite entries_length. reflexivity. }
  pose proof (concat_nth (N.of_nat n) (map entries (entries a)) (N.of_nat i) (N.of_nat j) W) as E.
  rewrite !Nat2N.id in E. rewrite <- (nth_default_eq (N.to_nat _)), <- (nth_default_eq j). unfold nth_default.
  rewrite E; [reflexivity| |lia]. unfold ulen. rewrite map_length, entries_length. lia.
Qed.

Lemma dm_of_smatrix_wf {md T} {m n} (a : smatrix T m n) : fits md (N.of_nat m) (N.of_nat n) -> dm_wf md (dm_of_smatrix a).
Proof.
  intros H. split; [|exact H]. cbn [dm_data dm_rows dm_cols dm_of_smatrix].
  assert (W : array2_wf (N.of_nat n) (map entries (entries a))).
  { apply Forall_forall. intros l Hl. apply in_map_iff in Hl as (x & <- & _). unfold ulen. rewrite entries_length. reflexivity. }
  rewrite (array2_wf_length _ _ W). unfold ulen at 1. rewrite map_length, entries_length. reflexivity.
Qed.

Theorem C33_agrees_with_smatrix_product :
  forall (T : Type) (O : RingOps T) (R : ring_sig T), implements O R -> ring_laws R ->
  forall (md : target) (L M N : nat) (a : smatrix T L M) (b : smatrix T M N),
  1 <= M -> fits md (N.of_nat L) (N.of_nat M) -> fits md (N.of_nat M) (N.of_nat N) ->
  agree (same_dmat R) (dm_mul md (r_add O) (r_mul O) (dm_of_smatrix a) (dm_of_smatrix b))
                      (p <- smatrix_mul O a b ;; Ok (dm_of_smatrix p)).
Proof.
  intros T O R HI HR md L M N a b HM F1 F2.
  destruct (C33_product_entries T R HR md _ _ (impl_add O R HI) (impl_mul O R HI) (dm_of_smatrix a) (dm_of_smatrix b)
     (dm_of_smatrix_wf a F1) (dm_of_smatrix_wf b F2) eq_refl) as (p & E & Rp & Cp & _ & _ & V).
  { simpl. lia. }
  unfold smatrix_mul. rewrite (smatrix_mul_total O R HI). cbn [bind].
  do 2 eexists. split; [exact E|]. split; [reflexivity|]. split; [exact Rp|]. split; [exact Cp|].
  intros r c Hr Hc. rewrite Rp in Hr. rewrite Cp in Hc. pose proof (same_equiv R HR) as HE.
  rewrite V by assumption. simpl in Hr, Hc.
  rewrite <- (N2Nat.id r), <- (N2Nat.id c). rewrite dm_of_smatrix_at by lia. rewrite mat_at_tab by lia.
  unfold row_times_col. cbn [dm_cols dm_of_smatrix]. rewrite Nat2N.id. apply (sum_ext R HR). intros m Hmm.
  rewrite !dm_of_smatrix_at by lia. reflexivity.
Qed.

(** ** C34: an empty inner dimension. *)
Theorem C34_inner_dimension_zero :
  forall (T : Type) (md : target) (add mul : T -> T -> outcome T) (a b : dmatrix T),
  dm_wf md a -> dm_wf md b -> dm_cols a = 0%N -> dm_rows b = 0%N ->
  ((1 <= dm_rows a)%N -> (1 <= dm_cols b)%N -> dm_mul md add mul a b = Panic IndexOOB)
  /\ (dm_rows a = 0%N \/ dm_cols b = 0%N -> dm_mul md add mul a b = Ok (MkDM [] (dm_rows a) (dm_cols b))).
Proof.
  intros T md add mul a b [La _] [Lb _] Ea Eb. unfold dm_mul, dmatrix_mul.
  rewrite assert_eq_true by (apply N.eqb_eq; congruence). cbn [bind m_eval]. unfold mexpr_default_eval.
  split.
  - intros H1 H2.
    assert (D : dm_data a = []).
    { rewrite Ea, N.mul_0_r in La. unfold ulen in La. destruct (dm_data a); [reflexivity|simpl in La; lia]. }
    assert (E : exists l, index_pairs (dm_rows a) (dm_cols b) = (0%N, 0%N) :: l).
    { pose proof (index_pairs_nth (dm_rows a) (dm_cols b) 0 0 ltac:(lia) ltac:(lia)) as E. simpl in E.
      destruct (index_pairs (dm_rows a) (dm_cols b)) as [|p l]; [discriminate|]. injection E as ->. eauto. }
    destruct E as (l & ->). simpl. unfold mul_dmatrix_entry, dmatrix_entry. rewrite Ea.
    rewrite dm_offset_ok by (apply usize_bound_pos). cbn [bind]. rewrite D. reflexivity.
  - intros H.
    assert (E : index_pairs (dm_rows a) (dm_cols b) = []).
    { apply length_zero_iff_nil. rewrite index_pairs_length. destruct H as [->| ->]; lia. }
    rewrite E. reflexivity.
Qed.

(** The product of a 1x0 and a 0x1 matrix is the 1x1 zero matrix for SMatrix; DMatrix panics. *)
Theorem C34_agrees_with_smatrix_refuted :
  exists (a : smatrix Z 1 0) (b : smatrix Z 0 1),
    smatrix_mul z_ops a b = Ok (acons (acons 0%Z anil) anil)
    /\ forall md, dm_wf md (dm_of_smatrix a) /\ dm_wf md (dm_of_smatrix b)
    /\ dm_mul md (r_add z_ops) (r_mul z_ops) (dm_of_smatrix a) (dm_of_smatrix b) = Panic IndexOOB.
Proof.
  exists (acons anil anil), anil. split; [reflexivity|]. intros md. pose proof (usize_bound_pos md) as H.
  assert (W1 : dm_wf md (dm_of_smatrix (acons anil anil : smatrix Z 1 0))) by (split; [reflexivity|exact H]).
  assert (W2 : dm_wf md (dm_of_smatrix (anil : smatrix Z 0 1))) by (split; [reflexivity|exact H]).
  split; [exact W1|]. split; [exact W2|].
  apply (C34_inner_dimension_zero Z md (r_add z_ops) (r_mul z_ops) _ _ W1 W2 eq_refl eq_refl); discriminate.
Qed.

Example C32_case :
  dm_t Debug (MkDM [1; 2; 3; 4; 5; 6]%Z 2 3) = Ok (MkDM [1; 4; 2; 5; 3; 6]%Z 3 2)
  /\ dm_h Debug (complex_conj (r_neg z_ops)) (MkDM [Cx 0 1; Cx 2 3]%Z 1 2) = Ok (MkDM [Cx 0 (-1); Cx 2 (-3)]%Z 2 1).
Proof. split; reflexivity. Qed.
Example C33_case :
  dm_mul Debug (r_add z_ops) (r_mul z_ops) (MkDM [-1; 0; 1; 2; 3; 4]%Z 2 3) (MkDM [0; 1; 2; 3; 4; 5]%Z 3 2)
  = Ok (MkDM [4; 4; 22; 31]%Z 2 2).
Proof. reflexivity. Qed.
(** Complex conjugation over the integers is an anti-multiplicative, additive involution. *)
Example C32_conjugation_case :
  let R := complex_sig z_sig in let c := fun z : complex Z => Cx (re z) (- im z)%Z in
  (forall x y, same R (c (smul R x y)) (smul R (c y) (c x)))
  /\ (forall x y, same R (c (sadd R x y)) (sadd R (c x) (c y))) /\ (forall x, same R (c (c x)) x).
Proof. repeat split; simpl; ring. Qed.

Print Assumptions C32_transpose.
Print Assumptions C32_transpose_of_product.
Print Assumptions C32_hermitian_transpose.
Print Assumptions C32_hermitian_additive.
Print Assumptions C32_hermitian_of_product.
Print Assumptions C33_product_entries.
Print Assumptions C33_product_laws.
Print Assumptions C33_agrees_with_smatrix_product.
Print Assumptions C34_inner_dimension_zero.
Print Assumptions C34_agrees_with_smatrix_refuted.
