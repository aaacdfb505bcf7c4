(** The statically and the dynamically sized containers perform the same element operations
    in the same order: no laws of the element type are used, and its operations may panic. *)
From Coq Require Import List Arith NArith Lia Bool.
From Coq Require Vector.
From Verif Require Import Base.Outcome Base.Usize Base.Array Model.Traits Model.SVector Model.SMatrix
  Model.DVector Model.DMatrix Spec.DExpr Spec.DMatrix Proofs.DExprProofs.
Import ListNotations.

Lemma bind_fuse {A B C} (m : outcome A) (f : A -> B) (k : B -> outcome C) :
  (v <- (x <- m ;; Ok (f x)) ;; k v) = (x <- m ;; k (f x)).
Proof. destruct m; reflexivity. Qed.

Lemma mapM_pointwise {A B C} (f : A -> outcome C) (g : B -> outcome C) l1 l2 :
  length l1 = length l2 ->
  (forall k x y, nth_error l1 k = Some x -> nth_error l2 k = Some y -> f x = g y) ->
  mapM f l1 = mapM g l2.
Proof.
  revert l2; induction l1 as [|x l1 IH]; intros [|y l2] L H; try discriminate L; [reflexivity|].
  cbn [mapM]. rewrite (H 0 x y eq_refl eq_refl). apply bind_ext. intros z.
  rewrite (IH l2); [reflexivity|simpl in L; lia|]. intros k. apply (H (S k)).
Qed.

Lemma mapM_app {A B} (f : A -> outcome B) l1 l2 :
  mapM f (l1 ++ l2) = (x <- mapM f l1 ;; y <- mapM f l2 ;; Ok (x ++ y)).
Proof.
  induction l1 as [|a l1 IH]; cbn [mapM app bind]; [rewrite bind_ret; reflexivity|].
  rewrite !bind_assoc. apply bind_ext. intros b. rewrite IH, !bind_assoc. apply bind_ext. intros c.
  cbn [bind]. rewrite bind_assoc. reflexivity.
Qed.

Lemma mapM_flat_map {A B C} (f : B -> outcome C) (g : A -> list B) l :
  mapM f (flat_map g l) = (rows <- mapM (fun a => mapM f (g a)) l ;; Ok (concat rows)).
Proof.
  induction l as [|a l IH]; cbn [mapM flat_map bind]; [reflexivity|].
  rewrite mapM_app, bind_assoc. apply bind_ext. intros r. rewrite IH, !bind_assoc.
  apply bind_ext. intros rs. reflexivity.
Qed.

Lemma mapM_map {A B C} (f : B -> outcome C) (g : A -> B) l : mapM f (map g l) = mapM (fun a => f (g a)) l.
Proof. induction l as [|a l IH]; [reflexivity|]. cbn [mapM map]. rewrite IH. reflexivity. Qed.

(** Arrays generated by a counter. *)
Lemma array_gen_mapM {T} n (body : nat -> outcome (T * nat)) g k :
  (forall i, k <= i < k + n -> body i = (x <- g i ;; Ok (x, i + 1))) ->
  (v <- array_gen n body k ;; Ok (entries v)) = mapM g (seq k n).
Proof.
  revert k; induction n as [|n IH]; intros k H; [reflexivity|].
  cbn [array_gen seq mapM]. rewrite H by lia. rewrite !bind_assoc. apply bind_ext. intros x. cbn [bind].
  rewrite Nat.add_1_r, !bind_assoc. rewrite <- (IH (Datatypes.S k)) by (intros; apply H; lia).
  rewrite !bind_assoc. apply bind_ext. intros v. reflexivity.
Qed.

Lemma array_map_mapM {A B n} (f : A -> outcome B) (v : array A n) :
  (w <- array_map f v ;; Ok (entries w)) = mapM f (entries v).
Proof.
  induction v as [|x n v IH]; [reflexivity|]. cbn [array_map entries mapM]. rewrite !bind_assoc.
  apply bind_ext. intros y. rewrite !bind_assoc, <- IH, bind_assoc. apply bind_ext. intros w. reflexivity.
Qed.

Lemma array_zip_mapM {A B n} (f : A -> B -> outcome A) (u : array A n) (v : array B n) :
  (w <- array_zip_mut f u v ;; Ok (entries w)) = mapM (fun '(x, y) => f x y) (combine (entries u) (entries v)).
Proof.
  revert v; induction u as [|x n u IH]; intros v; [reflexivity|].
  rewrite (array_S v). cbn [array_zip_mut]. change (entries (acons (ahd v) (atl v))) with (ahd v :: entries (atl v)).
  cbn [entries combine mapM]. change (ahd (acons (ahd v) (atl v))) with (ahd v). change (atl (acons (ahd v) (atl v))) with (atl v).
  rewrite !bind_assoc. apply bind_ext. intros y. rewrite !bind_assoc, <- IH, bind_assoc. apply bind_ext. intros w. reflexivity.
Qed.

Lemma entries_inj {A n} (u v : array A n) : entries u = entries v -> u = v.
Proof.
  revert v; induction u as [|x n u IH]; intros v H; [symmetry; apply array_0|].
  rewrite (array_S v) in H |- *. change (x :: entries u = ahd v :: entries (atl v)) in H. injection H as -> H.
  unfold acons. f_equal. apply IH, H.
Qed.

Lemma outcome_entries_inj {A n} (m1 m2 : outcome (array A n)) :
  (v <- m1 ;; Ok (entries v)) = (v <- m2 ;; Ok (entries v)) -> m1 = m2.
Proof.
  destruct m1 as [u|p|], m2 as [v|q|]; cbn [bind]; intros H; try discriminate H; try (injection H as H); try congruence.
  f_equal. apply entries_inj, H.
Qed.

Lemma array_gen_map {S A B} n (b1 : S -> outcome (A * S)) (b2 : S -> outcome (B * S)) (f : B -> A) s :
  (forall s, b1 s = (' (x, s') <- b2 s ;; Ok (f x, s'))) ->
  array_gen n b1 s = (v <- array_gen n b2 s ;; Ok (Vector.map f v)).
Proof.
  intros H. revert s; induction n as [|n IH]; intros s; [reflexivity|].
  cbn [array_gen]. rewrite H, !bind_assoc. apply bind_ext. intros [x s']. cbn [bind].
  rewrite IH, !bind_assoc. apply bind_ext. intros v. reflexivity.
Qed.

Lemma for_range_combine {A B S} (l : list A) (r : list B) (body : A -> B -> S -> outcome S) s :
  length l = length r ->
  for_range 0 (length l) (fun m s => x <- vget l m ;; y <- vget r m ;; body x y s) s
  = for_each (fun '(x, y) s => body x y s) (combine l r) s.
Proof.
  intros L. unfold for_range. rewrite Nat.sub_0_r.
  assert (G : forall l r pl pr s, length l = length r -> length pl = length pr ->
    for_each (fun m s => x <- vget (pl ++ l) m ;; y <- vget (pr ++ r) m ;; body x y s) (seq (length pl) (length l)) s
    = for_each (fun '(x, y) s => body x y s) (combine l r) s).
  { clear. induction l as [|x l IH]; intros [|y r] pl pr s L P; try discriminate L; [reflexivity|].
    cbn [length seq for_each combine]. unfold vget at 1 2.
    rewrite !nth_error_app2 by lia. rewrite <- P, Nat.sub_diag. cbn [nth_error bind].
    apply bind_ext. intros s'. simpl in L.
    specialize (IH r (pl ++ [x]) (pr ++ [y]) s'). rewrite <- !app_assoc, !app_length, Nat.add_1_r in IH.
    apply IH; simpl; lia. }
  apply (G l r [] [] s); auto.
Qed.

(** ** Rows and nested lists *)
Definition rows_of {A m n} (a : array (array A n) m) : list (list A) := map entries (entries a).

Lemma rows_length {A m n} (a : array (array A n) m) : length (rows_of a) = m.
Proof. unfold rows_of. rewrite map_length. apply entries_length. Qed.

Lemma rows_row {A m n} (a : array (array A n) m) r l : nth_error (rows_of a) r = Some l -> length l = n.
Proof.
  unfold rows_of. intros H. apply nth_error_In, in_map_iff in H as (v & <- & _). apply entries_length.
Qed.

Lemma concat_rows_nth {A m n} (a : array (array A n) m) r c : r < m -> c < n ->
  exists row, nth_error (entries a) r = Some row /\ nth_error (concat (rows_of a)) (r * n + c) = nth_error (entries row) c.
Proof.
  induction a as [|row m a IH] in r |- *; [intros Hr; exfalso; lia|]. intros Hr Hc. unfold rows_of in *. cbn [entries map concat].
  destruct r as [|r].
  - exists row. split; [reflexivity|]. cbn [Nat.mul Nat.add]. apply nth_error_app1. rewrite entries_length. exact Hc.
  - destruct (IH r ltac:(lia) Hc) as (row' & E1 & E2). exists row'. split; [exact E1|].
    rewrite nth_error_app2 by (rewrite entries_length; cbn; lia). rewrite entries_length, <- E2. f_equal. cbn. lia.
Qed.

Lemma concat_rows_length {A m n} (a : array (array A n) m) : length (concat (rows_of a)) = m * n.
Proof.
  induction a as [|row m a IH]; [reflexivity|]. unfold rows_of in *. cbn [entries map concat]. rewrite app_length, IH, entries_length. reflexivity.
Qed.

Lemma combine_concat {A B} n (la : list (list A)) (lb : list (list B)) : length la = length lb ->
  (forall l, In l la -> length l = n) -> (forall l, In l lb -> length l = n) ->
  combine (concat la) (concat lb) = flat_map (fun '(u, v) => combine u v) (combine la lb).
Proof.
  revert lb; induction la as [|u la IH]; intros [|v lb] L Ha Hb; try discriminate L; [reflexivity|].
  cbn [concat combine flat_map]. rewrite <- (IH lb).
  - assert (E : length u = length v) by (rewrite (Ha u), (Hb v); [reflexivity|left; reflexivity|left; reflexivity]).
    clear - E. revert v E; induction u as [|x u IHu]; intros [|y v] E; try discriminate E; [reflexivity|].
    cbn [app combine]. f_equal. apply IHu. simpl in E. lia.
  - simpl in L; lia.
  - intros l H. apply Ha. right; exact H.
  - intros l H. apply Hb. right; exact H.
Qed.

Lemma combine_map {A B C D} (f : A -> C) (g : B -> D) l r :
  combine (map f l) (map g r) = map (fun '(x, y) => (f x, g y)) (combine l r).
Proof. revert r; induction l as [|x l IH]; intros [|y r]; cbn; [reflexivity..|]. f_equal. apply IH. Qed.

(** Entrywise matrix operations, row by row. *)
Lemma smatrix_zip_data {A B m n} (f : A -> B -> outcome A) (a : array (array A n) m) (b : array (array B n) m) :
  (p <- array_zip_mut (fun lo ro => array_zip_mut f lo ro) a b ;; Ok (concat (rows_of p)))
  = mapM (fun '(x, y) => f x y) (combine (concat (rows_of a)) (concat (rows_of b))).
Proof.
  rewrite (combine_concat n).
  - rewrite mapM_flat_map. unfold rows_of. rewrite combine_map, mapM_map.
    rewrite <- (bind_fuse (array_zip_mut _ a b) entries (fun l => Ok (concat (map entries l)))).
    rewrite array_zip_mapM.
    rewrite (mapM_ext (fun a0 => mapM (fun '(x, y) => f x y) (let '(u, v) := let '(x, y) := a0 in (entries x, entries y) in combine u v))
               (fun '(u, v) => w <- array_zip_mut f u v ;; Ok (entries w))).
    2: { intros [u v] _. symmetry. apply array_zip_mapM. }
    assert (G : forall l : list (array A n * array B n),
      (w <- mapM (fun '(lo, ro) => array_zip_mut f lo ro) l ;; Ok (map entries w))
      = mapM (fun '(u, v) => w <- array_zip_mut f u v ;; Ok (entries w)) l).
    { clear. induction l as [|[u v] l IH]; [reflexivity|]. cbn [mapM]. rewrite !bind_assoc. apply bind_ext. intros w.
      cbn [bind]. rewrite bind_assoc, <- IH, bind_assoc. apply bind_ext. reflexivity. }
    rewrite <- G, bind_assoc. reflexivity.
  - rewrite !rows_length. reflexivity.
  - intros l H. apply In_nth_error in H as (k & H). apply (rows_row a k l H).
  - intros l H. apply In_nth_error in H as (k & H). apply (rows_row b k l H).
Qed.

(** ** Products *)
Section Mul.
Context {T : Type} (O : RingOps T).

(** zero + x_0*y_0 + x_1*y_1 + ..., left to right. *)
Definition acc_products (l r : list T) (s : T) : outcome T :=
  for_each (fun '(x, y) s => p <- r_mul O x y ;; r_add O s p) (combine l r) s.

Definition col_entries {m n} (b : smatrix T m n) (j : nat) : outcome (list T) :=
  mapM (fun row => vget (entries row) j) (entries b).

Lemma vget_S {A} (x : A) l k : vget (x :: l) (S k) = vget l k. Proof. reflexivity. Qed.

Lemma smatrix_entry_acc {L M N} (a : smatrix T L M) (b : smatrix T M N) l n row : n < N ->
  nth_error (entries a) l = Some row ->
  for_range 0 M (fun m sum =>
               srow <- array_get a l ;; x <- array_get srow m ;;
               orow <- array_get b m ;; y <- array_get orow n ;;
               prod <- r_mul O x y ;; r_add O sum prod) (r_zero O)
  = (c <- col_entries b n ;; acc_products (entries row) c (r_zero O)).
Proof.
  intros Hn Hrow.
  assert (C : exists c, col_entries b n = Ok c /\ length c = M
      /\ forall m, m < M -> (orow <- array_get b m ;; array_get orow n) = vget c m).
  { clear a row Hrow. unfold col_entries, array_get. induction b as [|r M b IH].
    - exists []. split; [reflexivity|]. split; [reflexivity|]. intros m Hm; lia.
    - destruct IH as (c & E & Lc & H). cbn [entries mapM].
      assert (X : exists x, vget (entries r) n = Ok x).
      { unfold vget. destruct (nth_error (entries r) n) eqn:Q; [eauto|]. apply nth_error_None in Q. rewrite entries_length in Q. lia. }
      destruct X as (x & X). rewrite X. cbn [bind]. rewrite E. cbn [bind]. exists (x :: c). split; [reflexivity|].
      split; [simpl; lia|]. intros [|m] Hm; [exact X|]. rewrite !vget_S. apply H. lia. }
  destruct C as (c & E & Lc & H). rewrite E. cbn [bind]. unfold acc_products.
  rewrite <- (for_range_combine (entries row) c (fun x y s => p <- r_mul O x y ;; r_add O s p)) by (rewrite entries_length; lia).
  rewrite entries_length. unfold for_range. apply for_each_ext. intros m s Hm. apply in_seq in Hm.
  unfold array_get at 1. unfold vget at 1. rewrite Hrow. cbn [bind]. unfold array_get at 1. apply bind_ext. intros x.
  rewrite <- H by lia. rewrite bind_assoc. reflexivity.
Qed.

Lemma smatrix_mul_rows {L M N} (a : smatrix T L M) (b : smatrix T M N) :
  (p <- smatrix_mul O a b ;; Ok (rows_of p))
  = mapM (fun row => mapM (fun n => c <- col_entries b n ;; acc_products (entries row) c (r_zero O)) (seq 0 N)) (entries a).
Proof.
  unfold smatrix_mul, rows_of.
  etransitivity; [symmetry; apply (bind_fuse (smatrix_mul_refs O a b) entries (fun l => Ok (map entries l)))|].
  unfold smatrix_mul_refs. rewrite (array_gen_mapM L _ (fun l => row <- array_get a l ;;
      array_gen N (fun n => s <- (c <- col_entries b n ;; acc_products (entries row) c (r_zero O)) ;; Ok (s, n + 1)) 0) 0).
  - assert (G : forall l, (w <- mapM (fun row : array T M =>
        array_gen N (fun n => s <- (c <- col_entries b n ;; acc_products (entries row) c (r_zero O)) ;; Ok (s, n + 1)) 0) l ;;
        Ok (map entries w))
      = mapM (fun row : array T M => mapM (fun n => c <- col_entries b n ;; acc_products (entries row) c (r_zero O)) (seq 0 N)) l).
    { induction l as [|row l IH]; [reflexivity|]. cbn [mapM]. rewrite <- IH.
      rewrite <- (array_gen_mapM N (fun n => s <- (c <- col_entries b n ;; acc_products (entries row) c (r_zero O)) ;; Ok (s, n + 1))
          (fun n => c <- col_entries b n ;; acc_products (entries row) c (r_zero O)) 0) by reflexivity.
      rewrite !bind_assoc. apply bind_ext. intros w. cbn [bind]. rewrite !bind_assoc. apply bind_ext. reflexivity. }
    rewrite <- G. apply (f_equal (fun m => bind m (fun w => Ok (map entries w)))).
    rewrite <- (mapM_pointwise (fun row : array T M => array_gen N (fun n => s <- (c <- col_entries b n ;; acc_products (entries row) c (r_zero O)) ;; Ok (s, n + 1)) 0)
       (fun l => row <- array_get a l ;; array_gen N (fun n => s <- (c <- col_entries b n ;; acc_products (entries row) c (r_zero O)) ;; Ok (s, n + 1)) 0)
       (entries a) (seq 0 L)); [reflexivity|rewrite entries_length, seq_length; reflexivity|].
    intros k row l Hr Hl.
    assert (Hk : k < L) by (rewrite <- (seq_length L 0); apply nth_error_Some; congruence).
    rewrite (nth_error_nth' _ 0) in Hl by (rewrite seq_length; exact Hk). rewrite seq_nth in Hl by exact Hk. injection Hl as <-.
    cbn [Nat.add]. unfold array_get, vget. rewrite Hr. reflexivity.
  - intros l Hl. cbn [Nat.add] in Hl.
    destruct (nth_error (entries a) l) as [row|] eqn:Hr; [|apply nth_error_None in Hr; rewrite entries_length in Hr; lia].
    unfold array_get at 5, vget. rewrite Hr. cbn [bind].
    apply (f_equal (fun m => bind m (fun r : array T N => Ok (r, l + 1)))).
    assert (X : forall k n b1 b2, (forall i, k <= i < k + n -> b1 i = b2 i) -> 
        (forall i y, k <= i < k + n -> b1 i = Ok y -> snd y = i + 1) ->
        @array_gen nat T n b1 k = array_gen n b2 k).
    { intros k n; revert k; induction n as [|n IH]; intros k b1 b2 H1 H2; [reflexivity|]. cbn [array_gen].
      rewrite <- H1 by lia. destruct (b1 k) as [[x s']| |] eqn:E; [|reflexivity|reflexivity]. cbn [bind].
      pose proof (H2 k _ ltac:(lia) E) as Y. cbn [snd] in Y. subst s'. rewrite Nat.add_1_r.
      rewrite (IH (Datatypes.S k) b1 b2); [reflexivity| |]; intros; [apply H1; lia|apply (H2 i); [lia|assumption]]. }
    apply X.
    + intros n Hn. cbn [Nat.add] in Hn. rewrite (smatrix_entry_acc a b l n row) by (assumption || lia). reflexivity.
    + intros n y Hn E. apply bind_Ok_inv in E as (s & _ & E). injection E as <-. reflexivity.
Qed.
End Mul.
