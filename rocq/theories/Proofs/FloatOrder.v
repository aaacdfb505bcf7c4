(** [<] on floats other than NaN is a strict weak order. *)
From Coq Require Import ZArith Reals Bool Lia Lra.
From Flocq Require Import Core.Core IEEE754.BinarySingleNaN.
From Verif Require Import Base.Outcome Spec.DiffEvo.

Section Order.
Context (prec emax : Z).
Notation fl := (binary_float prec emax).

(** A float that is not NaN, as a number: the infinities get their own level. *)
Definition level (x : fl) : Z :=
  match x with B754_infinity true => -1 | B754_infinity false => 1 | _ => 0 end%Z.
Definition value (x : fl) : R := B2R x.

Lemma ltb_level (x y : fl) : is_nan x = false -> is_nan y = false ->
  Bltb x y = true <-> (level x < level y)%Z \/ (level x = level y /\ (value x < value y)%R).
Proof.
  intros Hx Hy.
  destruct (is_finite x) eqn:Fx, (is_finite y) eqn:Fy.
  - rewrite (Bltb_correct _ _ x y Fx Fy). unfold value.
    assert (Lx : level x = 0%Z) by (destruct x; try discriminate; reflexivity).
    assert (Ly : level y = 0%Z) by (destruct y; try discriminate; reflexivity).
    rewrite Lx, Ly. destruct (Rlt_bool_spec (B2R x) (B2R y)) as [H|H]; split; intros G; try tauto.
    + discriminate.
    + destruct G as [G|[_ G]]; [lia|lra].
  - destruct y as [s|s| |s m e B]; try discriminate. destruct x as [s'|s'| |s' m' e' B']; try discriminate;
      destruct s; unfold Bltb, value; simpl; split; intros G; try discriminate; try reflexivity;
      try (left; lia); destruct G as [G|[G _]]; lia.
  - destruct x as [s|s| |s m e B]; try discriminate. destruct y as [s'|s'| |s' m' e' B']; try discriminate;
      destruct s; unfold Bltb, value; simpl; split; intros G; try discriminate; try reflexivity;
      try (left; lia); destruct G as [G|[G _]]; lia.
  - destruct x as [s|s| |s m e B]; try discriminate. destruct y as [s'|s'| |s' m' e' B']; try discriminate.
    destruct s, s'; unfold Bltb, value; simpl; split; intros G; try discriminate; try reflexivity;
      try (left; lia); destruct G as [G|[_ G]]; try lia; lra.
Qed.

Lemma float_swo {A} (f : A -> fl) : (forall x, is_nan (f x) = false) ->
  strict_weak_order (fun x y => Bltb (f x) (f y)).
Proof.
  intros Hn. constructor.
  - intros x. destruct (Bltb (f x) (f x)) eqn:E; [|reflexivity].
    apply ltb_level in E; auto. destruct E as [E|[_ E]]; [lia|lra].
  - intros x y z H1 H2. apply ltb_level in H1; auto. apply ltb_level in H2; auto.
    apply ltb_level; auto. destruct H1 as [H1|[H1 H1']], H2 as [H2|[H2 H2']];
      try (left; lia). right. split; [lia|lra].
  - intros x y z H. apply ltb_level in H; auto.
    destruct (Z.lt_trichotomy (level (f x)) (level (f y))) as [L|[L|L]].
    + left. apply ltb_level; auto.
    + destruct (Rlt_le_dec (value (f x)) (value (f y))) as [V|V].
      * left. apply ltb_level; auto.
      * right. apply ltb_level; auto. destruct H as [H|[H H']]; [left; lia|right; split; [lia|lra]].
    + right. apply ltb_level; auto. destruct H as [H|[H H']]; left; lia.
Qed.

Lemma ltb_nan_r (x y : fl) : is_nan y = true -> Bltb x y = false.
Proof. destruct y; try discriminate. intros _. destruct x as [[]|[]| |[] ]; reflexivity. Qed.
End Order.
