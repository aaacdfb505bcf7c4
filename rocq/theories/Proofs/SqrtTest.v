(** Squaring a computed complex square root: real-number error analysis. *)
From Coq Require Import Reals Lra Psatz.
From Flocq Require Import Core.Raux.
Local Open Scope R_scope.

Section Core.
Context (u : R) (U0 : 0 < u) (U1 : u <= 1 / 16000000).
Context (X Y Z A : R) (Zp : 0 < Z) (EZ : Z * Z = X * X + Y * Y) (Y0 : 0 <= Y) (A0 : 0 <= A)
  (HA : Rabs (A * A - Z * Z) <= 4001 / 1000 * u * (Z * Z)).

Lemma A_near : Z - 2001 / 1000 * u * Z <= A <= Z + 2001 / 1000 * u * Z.
Proof.
  apply Rabs_le_inv in HA. split; apply Rnot_lt_le; intros C.
  - assert (A * A < (Z - 2001 / 1000 * u * Z) * (Z - 2001 / 1000 * u * Z)) by nra. 
    assert (u * (u * (Z * Z)) <= 1 / 16000000 * (u * (Z * Z))) by (apply Rmult_le_compat_r; [apply Rmult_le_pos; nra|lra]). nra.
  - assert ((Z + 2001 / 1000 * u * Z) * (Z + 2001 / 1000 * u * Z) < A * A) by (assert (0 <= Z + 2001/1000*u*Z) by nra; nra).
    assert (0 <= u * (Z * Z)) by (apply Rmult_le_pos; nra). nra.
Qed.

Lemma abs_sq x : x * x = Rabs x * Rabs x.
Proof. rewrite <- Rabs_mult. symmetry. apply Rabs_pos_eq. nra. Qed.

(** the products and the difference, from bounds on r*r and i*i *)
Lemma re_part (r2 i2 rr ii R e B : R) : 0 <= r2 -> 0 <= i2 -> Rabs (r2 - i2 - X) <= e -> r2 + i2 <= B ->
  Rabs (rr - r2) <= u * r2 -> Rabs (ii - i2) <= u * i2 -> Rabs (R - (rr - ii)) <= u * Rabs (rr - ii) ->
  Rabs (R - X) <= (e + u * B) * (1 + u) + u * Rabs X.
Proof.
  intros R0 I0 H1 HB H2 H3 H4.
  assert (D : Rabs (rr - ii - X) <= e + u * B).
  { replace (rr - ii - X) with ((r2 - i2 - X) + ((rr - r2) - (ii - i2))) by ring.
    eapply Rle_trans; [apply Rabs_triang|]. apply Rplus_le_compat; [exact H1|].
    unfold Rminus at 1. eapply Rle_trans; [apply Rabs_triang|]. rewrite Rabs_Ropp. nra. }
  assert (D2 : Rabs (rr - ii) <= Rabs X + (e + u * B)).
  { replace (rr - ii) with (X + (rr - ii - X)) by ring. eapply Rle_trans; [apply Rabs_triang|]. lra. }
  replace (R - X) with ((R - (rr - ii)) + (rr - ii - X)) by ring. eapply Rle_trans; [apply Rabs_triang|].
  assert (u * Rabs (rr - ii) <= u * (Rabs X + (e + u * B))) by (apply Rmult_le_compat_l; lra). lra.
Qed.

(** |X| <= 2Y *)
Lemma branch1_core (r i rr ii ri R : R) : Rabs X <= 2 * Y -> 0 <= r -> 0 <= i ->
  Rabs (r * r - (A + X) / 2) <= 3001 / 1000 * u * ((A + X) / 2) ->
  Rabs (i * i - (A - X) / 2) <= 3001 / 1000 * u * ((A - X) / 2) ->
  Rabs (rr - r * r) <= u * (r * r) -> Rabs (ii - i * i) <= u * (i * i) -> Rabs (ri - r * i) <= u * (r * i) ->
  Rabs (R - (rr - ii)) <= u * Rabs (rr - ii) ->
  Rabs (R - X) <= 4897 / 1000 * u * Z /\ Rabs (2 * ri - Y) <= 6266 / 1000 * u * Z.
Proof.
  intros HX r0 i0 Hr Hi Hrr Hii Hri HR. pose proof A_near as NA.
  assert (NA' : 999 / 1000 * Z <= A <= Z + 1 / 1000000 * Z) by nra.
  pose proof (abs_sq X) as EX. pose proof (Rabs_pos X) as X0.
  assert (TX : Rabs X <= 8945 / 10000 * Z).
  { apply Rnot_lt_le. intros C. assert (Rabs X * Rabs X <= 2 * Y * (2 * Y)) by (apply Rmult_le_compat; lra). nra. }
  assert (YL : 4472 / 10000 * Z <= Y).
  { apply Rnot_lt_le. intros C. assert (Rabs X * Rabs X <= 2 * Y * (2 * Y)) by (apply Rmult_le_compat; lra). nra. }
  assert (YU : Y <= Z) by nra.
  assert (AX : - Rabs X <= X <= Rabs X) by (apply Rabs_le_inv; lra).
  split.
  - assert (D : Rabs (r * r - i * i - X) <= 3001 / 1000 * u * A).
    { replace (r * r - i * i - X) with ((r * r - (A + X) / 2) - (i * i - (A - X) / 2)) by lra.
      unfold Rminus at 1. eapply Rle_trans; [apply Rabs_triang|]. rewrite Rabs_Ropp. lra. }
    assert (B : r * r + i * i <= 1001 / 1000 * Z).
    { apply Rabs_le_inv in Hr, Hi. nra. }
    pose proof (re_part (r * r) (i * i) rr ii R _ _ ltac:(nra) ltac:(nra) D B Hrr Hii HR) as H.
    eapply Rle_trans; [exact H|].
    assert (E1 : 3001 / 1000 * u * A <= 300101 / 100000 * u * Z) by nra.
    assert (E2 : 0 <= 300101 / 100000 * u * Z) by nra. nra.
  - set (P := 3001 / 1000 * u) in *. set (M := 2 * (r * i)).
    assert (M0 : 0 <= M) by (unfold M; nra).
    assert (EM : M * M = 4 * (r * r) * (i * i)) by (unfold M; ring).
    set (a := (A + X) / 2) in *. set (b := (A - X) / 2) in *.
    assert (a0 : 0 <= a) by (unfold a; lra). assert (b0 : 0 <= b) by (unfold b; lra).
    assert (Eab : 4 * a * b = Y * Y + (A * A - Z * Z)) by (unfold a, b; lra).
    apply Rabs_le_inv in Hr, Hi, HA.
    assert (Pu : 0 <= P <= 1 / 1000000) by (unfold P; lra).
    assert (PP : P * P <= 1 / 100000 * u) by (unfold P; nra).
    assert (MU : M * M <= 4 * a * b * (1 + (6003 / 1000 * u))).
    { rewrite EM. assert (r * r * (i * i) <= (a + P * a) * (b + P * b)) by (apply Rmult_le_compat; nra).
      assert ((a + P * a) * (b + P * b) = a * b * (1 + (2 * P + P * P))) by ring.
      assert (0 <= a * b) by nra. assert (2 * P + P * P <= 6003 / 1000 * u) by (unfold P in *; lra). nra. }
    assert (ML : 4 * a * b * (1 - (6003 / 1000 * u)) <= M * M).
    { rewrite EM. assert ((a - P * a) * (b - P * b) <= r * r * (i * i)) by (apply Rmult_le_compat; nra).
      assert ((a - P * a) * (b - P * b) = a * b * (1 - (2 * P - P * P))) by ring.
      assert (0 <= a * b) by nra. assert (2 * P - P * P <= 6003 / 1000 * u) by (unfold P in *; nra). nra. }
    assert (ZY : Z * Z <= 51 / 10 * (Y * Y)) by nra.
    assert (YY : 0 <= Y * Y) by nra. assert (ZZ : 0 <= Z * Z) by nra.
    set (T := A * A - Z * Z) in *.
    assert (uZ : 0 <= u * (Z * Z)) by nra. assert (uuZ : u * (u * (Z * Z)) <= 1 / 16000000 * (u * (Z * Z))) by (apply Rmult_le_compat_r; lra).
    assert (uY : 0 <= u * (Y * Y)) by nra. assert (YZ : u * (Y * Y) <= u * (Z * Z)) by nra.
    assert (W : Rabs (M * M - Y * Y) <= u * (40011 / 10000 * (Z * Z) + 6003 / 1000 * (Y * Y))).
    { rewrite Eab in MU, ML. assert (Rabs (u * T) <= u * (4001 / 1000 * u * (Z * Z))).
      { rewrite Rabs_mult, (Rabs_pos_eq u) by lra. apply Rmult_le_compat_l; [lra|]. apply Rabs_le; lra. }
      apply Rabs_le_inv in H. apply Rabs_le. split; nra. }
    assert (Mlo : 999 / 1000 * Y <= M).
    { apply Rnot_lt_le. intros C. apply Rabs_le_inv in W.
      assert (M * M < 999 / 1000 * Y * (999 / 1000 * Y)) by nra. nra. }
    assert (Mlo2 : Y - 1 / 1000000 * Y <= M).
    { apply Rnot_lt_le. intros C. apply Rabs_le_inv in W.
      assert (M * M < (Y - 1 / 1000000 * Y) * (Y - 1 / 1000000 * Y)) by nra. nra. }
    assert (D : Rabs (M - Y) * (2 * Y) <= u * (40012 / 10000 * (Z * Z) + 6004 / 1000 * (Y * Y))).
    { assert (Rabs (M - Y) * (M + Y) = Rabs (M * M - Y * Y)).
      { rewrite <- (Rabs_pos_eq (M + Y)) at 1 by lra. rewrite <- Rabs_mult. f_equal. ring. }
      pose proof (Rabs_pos (M - Y)). assert (Rabs (M - Y) * (2 * Y * (9999995 / 10000000)) <= Rabs (M * M - Y * Y)) by (rewrite <- H; apply Rmult_le_compat_l; lra).
      nra. }
    assert (F : Rabs (2 * ri - Y) <= Rabs (M - Y) * (1 + u) + u * Y).
    { replace (2 * ri - Y) with (2 * (ri - r * i) + (M - Y)) by (unfold M; ring).
      eapply Rle_trans; [apply Rabs_triang|]. rewrite Rabs_mult, (Rabs_pos_eq 2) by lra.
      assert (M <= Y + Rabs (M - Y)) by (replace M with (Y + (M - Y)) at 1 by ring; pose proof (Rle_abs (M - Y)); lra).
      unfold M in *. nra. }
    eapply Rle_trans; [exact F|].
    assert (D' : Rabs (M - Y) <= 6 * u * Z).
    { apply Rmult_le_reg_r with (2 * Y); [nra|]. eapply Rle_trans; [exact D|].
      assert (0 <= (Y - 4472 / 10000 * Z) * (Z - Y)) by nra. nra. }
    apply Rmult_le_reg_r with (2 * Y); [nra|].
    assert (0 <= (Y - 4472 / 10000 * Z) * (Z - Y)) by nra.
    assert (u * Rabs (M - Y) * (2 * Y) <= 1 / 1000 * (u * (Z * Z))).
    { assert (Rabs (M - Y) * (2 * Y) <= 6 * u * Z * (2 * Z)) by (apply Rmult_le_compat; [apply Rabs_pos|lra|lra|lra]). nra. }
    assert (u * (40013 / 10000 * (Z * Z) + 8005 / 1000 * (Y * Y)) <= u * (6266 / 1000 * Z * (2 * Y))) by (apply Rmult_le_compat_l; nra).
    nra.
Qed.

(** 2Y < |X|: be and al are the larger and the smaller part; R the computed difference of the
    squares in that order *)
Lemma branch2_core (be al bb aa ab R : R) : 2 * Y < Rabs X -> 0 <= be -> 0 <= al ->
  Rabs (be * be - (A + Rabs X) / 2) <= 3001 / 1000 * u * ((A + Rabs X) / 2) ->
  Rabs (al * al - Y * Y / (2 * (A + Rabs X))) <= 5001 / 1000 * u * (Y * Y / (2 * (A + Rabs X))) ->
  Rabs (2 * (al * be) - Y) <= 3001 / 1000 * u * Y ->
  Rabs (bb - be * be) <= u * (be * be) -> Rabs (aa - al * al) <= u * (al * al) -> Rabs (ab - al * be) <= u * (al * be) ->
  Rabs (R - (bb - aa)) <= u * Rabs (bb - aa) ->
  Rabs (R - Rabs X) <= 65 / 10 * u * Z /\ Rabs (2 * ab - Y) <= 18 / 10 * u * Z.
Proof.
  intros HX be0 al0 Hbe Hal Hab Hbb Haa Hab' HR. pose proof A_near as NA.
  assert (NA' : 999 / 1000 * Z <= A <= Z + 1 / 1000000 * Z) by nra.
  pose proof (abs_sq X) as EX. pose proof (Rabs_pos X) as X0. set (V := Rabs X) in *.
  assert (TX : 8944 / 10000 * Z <= V) by nra.
  assert (VU : V <= Z) by nra.
  assert (YU : Y <= 4473 / 10000 * Z) by nra.
  set (W := A + V) in *. assert (WL : 189 / 100 * Z <= W) by (unfold W; lra). assert (WU : W <= 2001 / 1000 * Z) by (unfold W; lra).
  assert (iW : 0 < / (2 * W)) by (apply Rinv_0_lt_compat; lra).
  assert (iW2 : / (2 * W) * Z <= 265 / 1000).
  { apply Rmult_le_reg_r with (2 * W); [lra|]. replace (/ (2 * W) * Z * (2 * W)) with Z by (field; lra). lra. }
  set (t := Y * Y / (2 * W)) in *.
  assert (Ht : 0 <= t <= 54 / 1000 * Z).
  { unfold t, Rdiv. split; [apply Rmult_le_pos; nra|].
    assert (Y * Y <= 2001 / 10000 * (Z * Z)) by nra.
    apply Rle_trans with (2001 / 10000 * (Z * Z) * / (2 * W)); [apply Rmult_le_compat_r; lra|].
    replace (2001 / 10000 * (Z * Z) * / (2 * W)) with (2001 / 10000 * Z * (/ (2 * W) * Z)) by ring.
    apply Rle_trans with (2001 / 10000 * Z * (265 / 1000)); [apply Rmult_le_compat_l; lra|lra]. }
  split.
  - assert (D : Rabs (be * be - al * al - V) <= 436 / 100 * u * Z).
    { replace (be * be - al * al - V) with ((be * be - W / 2) - (al * al - t) + (A * A - Z * Z) * / (2 * W)).
      2:{ unfold t. replace (A * A - Z * Z) with (A * A - (V * V + Y * Y)) by lra. unfold W. field. unfold W in WL. lra. }
      eapply Rle_trans; [apply Rabs_triang|].
      assert (E1 : Rabs ((A * A - Z * Z) * / (2 * W)) <= 1061 / 1000 * u * Z).
      { rewrite Rabs_mult, (Rabs_pos_eq (/ (2 * W))) by lra.
        apply Rle_trans with (4001 / 1000 * u * (Z * Z) * / (2 * W)); [apply Rmult_le_compat_r; lra|].
        replace (4001 / 1000 * u * (Z * Z) * / (2 * W)) with (4001 / 1000 * u * Z * (/ (2 * W) * Z)) by ring.
        apply Rle_trans with (4001 / 1000 * u * Z * (265 / 1000)); [apply Rmult_le_compat_l; nra|nra]. }
      assert (E2 : Rabs ((be * be - W / 2) - (al * al - t)) <= 3001 / 1000 * u * (W / 2) + 5001 / 1000 * u * t).
      { unfold Rminus at 1. eapply Rle_trans; [apply Rabs_triang|]. rewrite Rabs_Ropp. lra. }
      assert (u * t <= u * (54 / 1000 * Z)) by (apply Rmult_le_compat_l; lra).
      assert (u * W <= u * (2001 / 1000 * Z)) by (apply Rmult_le_compat_l; lra). nra. }
    assert (B : be * be + al * al <= 106 / 100 * Z).
    { apply Rabs_le_inv in Hbe, Hal. assert (u * t <= 1 / 1000 * Z) by nra. assert (u * W <= 1 / 100000 * Z) by nra. nra. }
    assert (G : Rabs (be * be - al * al - V) <= 436 / 100 * u * Z -> Rabs (R - V) <= (436 / 100 * u * Z + u * (106 / 100 * Z)) * (1 + u) + u * Rabs V).
    { intros D'. clear - U0 U1 B Hbb Haa HR D'.
      assert (DD : Rabs (bb - aa - V) <= 436 / 100 * u * Z + u * (106 / 100 * Z)).
      { replace (bb - aa - V) with ((be * be - al * al - V) + ((bb - be * be) - (aa - al * al))) by ring.
        eapply Rle_trans; [apply Rabs_triang|]. apply Rplus_le_compat; [exact D'|].
        unfold Rminus at 1. eapply Rle_trans; [apply Rabs_triang|]. rewrite Rabs_Ropp. nra. }
      set (E := 436 / 100 * u * Z + u * (106 / 100 * Z)) in *.
      assert (D2 : Rabs (bb - aa) <= Rabs V + E).
      { replace (bb - aa) with (V + (bb - aa - V)) by ring. eapply Rle_trans; [apply Rabs_triang|]. lra. }
      replace (R - V) with ((R - (bb - aa)) + (bb - aa - V)) by ring. eapply Rle_trans; [apply Rabs_triang|].
      assert (u * Rabs (bb - aa) <= u * (Rabs V + E)) by (apply Rmult_le_compat_l; lra). lra. }
    eapply Rle_trans; [exact (G D)|]. rewrite (Rabs_pos_eq V) by exact X0.
    assert (0 <= u * Z) by nra. assert (u * V <= u * Z) by nra. nra.
  - assert (M : 2 * (al * be) <= Y * (1001 / 1000)).
    { apply Rabs_le_inv in Hab. nra. }
    replace (2 * ab - Y) with (2 * (ab - al * be) + (2 * (al * be) - Y)) by ring.
    eapply Rle_trans; [apply Rabs_triang|]. rewrite Rabs_mult, (Rabs_pos_eq 2) by lra.
    assert (u * Y <= u * (4473 / 10000 * Z)) by (apply Rmult_le_compat_l; lra).
    assert (u * (2 * (al * be)) <= u * (Y * (1001 / 1000))) by (apply Rmult_le_compat_l; lra). lra.
Qed.

End Core.
